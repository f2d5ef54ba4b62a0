(** The two functions that lose temporaries. *)
Require Import List ZArith Bool String Lia Ascii.
From Verif Require Import RootModel ExtraModel Dyadic ArbModel ElemModel NfArith StrModel TempModel TempSpec Temp DyBall.
Import ListNotations.
Open Scope string_scope.
Open Scope list_scope.

(** Executions without loops, from the list of branches taken. *)
Fixpoint play (c : cmd) (bs : list bool) : option (list event * ends * list bool) :=
  match c with
  | Init k x => Some ([EInit k x], Through, bs)
  | Use x => Some ([EUse x], Through, bs)
  | Clear k x => Some ([EClear k x], Through, bs)
  | Skip => Some ([], Through, bs)
  | Seq c d =>
      match play c bs with
      | Some (t, Through, bs') => match play d bs' with Some (u, e, bs'') => Some (t ++ u, e, bs'') | None => None end
      | Some (t, e, bs') => Some (t, e, bs')
      | None => None
      end
  | Either c d => match bs with b :: bs' => if b then play c bs' else play d bs' | [] => None end
  | Loop _ | Forever _ => None
  | Break => Some ([], Broke, bs)
  | Continue => Some ([], Continued, bs)
  | Leave => Some ([], Left, bs)
  | Halt => Some ([], Halted, bs)
  end.

Lemma play_exec c : forall bs t e bs', play c bs = Some (t, e, bs') -> exec c t e.
Proof.
  induction c as [k x | x | k x | | c IHc d IHd | c IHc d IHd | c _ | c _ | | | | ]; intros bs t e bs' P; simpl in P;
    try discriminate; try (injection P as <- <- <-; constructor).
  - destruct (play c bs) as [((t1, e1), bs1)|] eqn:C; [|discriminate].
    destruct e1; try (injection P as <- <- <-; apply ex_seq_stop; [exact (IHc _ _ _ _ C) | discriminate]).
    destruct (play d bs1) as [((u, e2), bs2)|] eqn:D; [|discriminate]. injection P as <- <- <-.
    apply ex_seq; [exact (IHc _ _ _ _ C) | exact (IHd _ _ _ _ D)].
  - destruct bs as [|b bs1]; [discriminate|]. destruct b; [apply ex_left; exact (IHc _ _ _ _ P) | apply ex_right; exact (IHd _ _ _ _ P)].
Qed.

(** ** check_unique_real_root.c *)
Section Unique.
Variable o : arbops.

Lemma unique_events_answer fuel pol a prec :
  check_unique o fuel pol a prec = bind (check_unique_events o fuel pol a prec) (fun r => Val (fst r)).
Proof.
  destruct pol as [|c0 [|c1 [|c2 pol]]]; try reflexivity.
  unfold check_unique, check_unique_events. destruct (prec <? 2)%Z; [reflexivity|].
  destruct (interval a prec) as [(l, r)|]; [|reflexivity].
  destruct (_ =? -1)%Z; [|reflexivity]. destruct (negb _); [reflexivity|].
  destruct (num_real_roots_0_1 _ _); reflexivity.
Qed.

Definition cheap (pol : list Z) (a : ball) (prec : Z) : bool :=
  negb (contains_zero (eval_arb o (zderiv pol) a prec)).

Lemma unique_events_cases fuel pol a prec b t :
  check_unique_events o fuel pol a prec = Val (b, t) ->
  exec t_check_unique t Left /\ usable t /\
  (forall x, x <> "b" -> x <> "l" -> x <> "r" -> lives (filter (about x) t)) /\
  (List.length pol <= 2 \/ (b = true /\ cheap pol a prec = true) <-> disciplined t)%nat.
Proof.
  assert (Clean : forall t bs bs', play t_check_unique bs = Some (t, Left, bs') -> steps [] t = Some [] ->
    exec t_check_unique t Left /\ usable t /\ (forall x, x <> "b" -> x <> "l" -> x <> "r" -> lives (filter (about x) t)) /\ disciplined t).
  { intros t' bs bs' P S. split; [exact (play_exec _ _ _ _ _ P)|]. split; [exact (steps_usable _ _ S)|].
    assert (D := steps_disciplined _ S). split; [intros x _ _ _; exact (D x) | exact D]. }
  assert (Lost : forall t bs bs' u x, play t_check_unique bs = Some (t, Left, bs') ->
    (forall y, y <> "b" -> y <> "l" -> y <> "r" -> filter (about y) (t ++ u) = filter (about y) t) ->
    steps [] (t ++ u) = Some [] -> steps [] t <> None -> ~ lives (filter (about x) t) ->
    exec t_check_unique t Left /\ usable t /\ (forall x, x <> "b" -> x <> "l" -> x <> "r" -> lives (filter (about x) t)) /\ ~ disciplined t).
  { intros t' bs bs' u x P F S S' N. split; [exact (play_exec _ _ _ _ _ P)|].
    split; [destruct (steps [] t') eqn:Q; [exact (steps_usable _ _ Q) | contradiction]|].
    assert (D := steps_disciplined _ S). split; [|intros H; exact (N (H x))].
    intros y Y1 Y2 Y3. rewrite <- (F y Y1 Y2 Y3). exact (D y). }
  assert (Stuck : ~ lives [EInit "arf" "l"; EUse "l"; EUse "l"]).
  { intros L. inversion L as [|k x us l U L' E]. destruct us as [|u1 [|u2 [|u3 us]]]; simpl in *; try discriminate. }
  assert (Stuck2 : ~ lives [EInit "arf" "l"; EUse "l"; EUse "l"; EUse "l"]).
  { intros L. inversion L as [|k x us l U L' E]. destruct us as [|u1 [|u2 [|u3 [|u4 us]]]]; simpl in *; try discriminate. }
  assert (Other : forall u t (y : string), Forall (fun e => match e with EInit _ z | EUse z | EClear _ z => z = "b" \/ z = "l" \/ z = "r" end) u ->
    y <> "b" -> y <> "l" -> y <> "r" -> filter (about y) (t ++ u) = filter (about y) t).
  { intros u t' y U Y1 Y2 Y3. rewrite filter_app. replace (filter (about y) u) with (@nil event); [apply app_nil_r|].
    induction U as [|e u E _ IH]; [reflexivity|]. simpl.
    replace (about y e) with false; [exact IH|]. symmetry.
    destruct e as [k z | z | k z]; simpl in *; apply String.eqb_neq; intros ->; destruct E as [E | [E | E]]; contradiction. }
  intros E. destruct pol as [|c0 [|c1 [|c2 pol]]].
  - injection E as <- <-. destruct (Clean [] [true] [] eq_refl eq_refl) as (A & B & C & D). repeat (split; [assumption|]). simpl; tauto || (split; [intros _; exact D | intros _; left; lia]).
  - injection E as <- <-. destruct (Clean [] [true] [] eq_refl eq_refl) as (A & B & C & D). repeat (split; [assumption|]). split; [intros _; exact D | intros _; left; simpl; lia].
  - injection E as <- <-. destruct (Clean _ [false; true] [] eq_refl eq_refl) as (A & B & C & D). repeat (split; [assumption|]). split; [intros _; exact D | intros _; left; simpl; lia].
  - remember (c0 :: c1 :: c2 :: pol) as p eqn:Ep.
    assert (Len : ~ (List.length p <= 2)%nat) by (subst p; simpl; lia).
    assert (E' : check_unique_events o fuel p a prec = Val (b, t)) by exact E. clear E.
    unfold check_unique_events in E'. subst p. destruct (prec <? 2)%Z; [discriminate|].
    set (p := c0 :: c1 :: c2 :: pol) in *.
    assert (Fail : forall t', t' =
      [EInit "arb" "b"; EInit "arb" "c"; EInit "arf" "l"; EInit "arf" "r"; EUse "l"; EUse "r";
       EUse "b"; EUse "l"; EUse "c"; EUse "b"; EUse "c"; EUse "b"; EUse "r"; EUse "c"; EUse "b"; EUse "c"; EClear "arb" "c"] ->
      exec t_check_unique t' Left /\ usable t' /\ (forall x, x <> "b" -> x <> "l" -> x <> "r" -> lives (filter (about x) t')) /\ ~ disciplined t').
    { intros t' ->. apply (Lost _ [false; false; false] [] [EClear "arb" "b"; EClear "arf" "l"; EClear "arf" "r"] "l").
      - reflexivity.
      - intros y. apply Other. repeat (apply Forall_cons || apply Forall_nil); auto.
      - reflexivity.
      - discriminate.
      - exact Stuck. }
    destruct (interval a prec) as [(l, r)|].
    2:{ injection E' as <- <-. destruct (Fail _ eq_refl) as (A & B & C & D). repeat (split; [assumption|]).
        split; [intros [H | [H _]]; [contradiction | discriminate] | intros H; contradiction]. }
    destruct (_ =? -1)%Z.
    2:{ injection E' as <- <-. destruct (Fail _ eq_refl) as (A & B & C & D). repeat (split; [assumption|]).
        split; [intros [H | [H _]]; [contradiction | discriminate] | intros H; contradiction]. }
    fold (cheap p a prec) in E'. destruct (cheap p a prec) eqn:Ch.
    + injection E' as <- <-. destruct (Clean _ [false; false; true; true] [] eq_refl eq_refl) as (A & B & C & D).
      repeat (split; [assumption|]). split; [intros _; exact D | intros _; right; split; reflexivity].
    + destruct (num_real_roots_0_1 _ _) as [n|]; [|discriminate]. injection E' as <- <-.
      match goal with |- exec _ ?t _ /\ _ =>
        destruct (Lost t [false; false; true; false] [] [EClear "arf" "l"; EClear "arf" "r"] "l") as (A & B & C & D) end.
      * reflexivity.
      * intros y. apply Other. repeat (apply Forall_cons || apply Forall_nil); auto.
      * reflexivity.
      * discriminate.
      * exact Stuck2.
      * repeat (split; [assumption|]). split; [intros [H | [_ H]]; [contradiction | discriminate] | intros H; contradiction].
Qed.
End Unique.

(** A ball around the cube root of 2 that is accepted although its derivative
    has a zero there: [-1, 3]. *)
Lemma unique_lost :
  exists t, check_unique_events dyops 10 [-2; 0; 0; 1]%Z (Fin (1, 0) (2, 0))%Z 64 = Val (true, t) /\ ~ disciplined t.
Proof.
  eexists. split; [vm_compute; reflexivity|].
  intros H. specialize (H "l"). simpl in H. inversion H as [|k x us l U L' E].
  destruct us as [|u1 [|u2 [|u3 [|u4 us]]]]; simpl in *; try discriminate.
Qed.

(** ** renf_elem_class.cpp:401-437 *)
Lemma of_string_events_answer zd n var s :
  of_string zd n var s = bind (of_string_events zd n var s) (fun r => Val (fst r)).
Proof.
  unfold of_string, of_string_events. destruct (set_str zd var (cut_tilde s)) as [[p|]| | |]; reflexivity.
Qed.
Lemma of_string_events_cases zd n var s r t :
  of_string_events zd n var s = Val (r, t) ->
  (exists e, exec t_of_string t e /\ (e = Through \/ e = Left)) /\ usable t /\ (r <> None <-> disciplined t).
Proof.
  unfold of_string_events. destruct (set_str zd var (cut_tilde s)) as [[p|]| | |]; simpl; try discriminate; intros E; injection E as <- <-.
  - split; [exists Through; split; [apply (play_exec _ [false] _ _ []); reflexivity | left; reflexivity]|].
    split; [apply (steps_usable _ []); reflexivity|]. split; [intros _; apply steps_disciplined; reflexivity | discriminate].
  - split; [exists Left; split; [apply (play_exec _ [true] _ _ []); reflexivity | right; reflexivity]|].
    split; [apply (steps_usable _ [("t", "malloc")]); reflexivity|]. split; [intros H; exfalso; apply H; reflexivity|].
    intros H. specialize (H "t"). simpl in H. inversion H as [|k x us l U L' E].
    destruct us as [|u1 [|u2 [|u3 us]]]; simpl in *; try discriminate.
Qed.
