(** Programs with the C++ classes return, with the right answers. *)
Require Import Reals List ZArith Bool Lia Lra Arith.
From Verif Require Import PolyR RootSpec RootModel ExtraModel Dyadic DyadicProofs ArbModel ArbSpec ArbProofs RefineProofs
  ElemModel ElemSpec ElemProofs ElemLoops ElemHist ElemMore ElemExact RateSpec EndsSpec EndsProofs RefineEnds DefSpec DefProofs DefMain
  LinearUse CxxModel CxxSpec CxxProofs CxxSound CxxMake CxxUseSpec.
Import ListNotations.
Open Scope R_scope.

(** * Nothing but enclosures changes in the fields *)
Section Kept.
Variables (o : arbops) (ops : list Z -> nfops) (debug : bool) (fuel : nat).

Definition wkept (w w' : world) : Prop := forall f, kept (w_fields w f) (w_fields w' f).
Lemma wk_refl : forall w, wkept w w. Proof. intros w f. apply kept_refl. Qed.
Lemma wk_trans : forall a b c, wkept a b -> wkept b c -> wkept a c.
Proof. intros a b c H1 H2 f. apply (kept_trans _ (w_fields b f)); auto. Qed.
Lemma wk_obj : forall w v i y, wkept w v -> wkept w (set_obj v i y). Proof. intros w v i y H f. apply H. Qed.
Lemma wk_ball : forall w v i b, wkept w v -> wkept w (set_ball v i b). Proof. intros w v i b H f. apply H. Qed.
Lemma wk_field : forall w f nf, kept (w_fields w f) nf -> wkept w (set_field w f nf).
Proof. intros w f nf H g. cbn [set_field w_fields]. destruct (Nat.eqb_spec g f) as [->|]; [exact H|apply kept_refl]. Qed.
Lemma wk_from : forall w v i y, wkept (set_obj w i y) v -> wkept w v. Proof. intros w v i y H f. apply H. Qed.

Lemma call_wk : forall w i j k w', call_on o ops debug fuel w i j k = Val w' -> wkept w w'.
Proof.
  intros w i j k w' H. unfold call_on in H. cbv zeta in H. open H. destruct res as [nf' m']. injection H as <-.
  apply run_kept in T. apply wk_obj, wk_field, T.
Qed.
Lemma cmp_objs_wk : forall w i j w' s, cmp_objs o ops debug fuel w i j = Val (w', s) -> wkept w w'.
Proof. intros w i j w' s H. unfold cmp_objs in H. cbv zeta in H. open H. destruct res as [[[nf' b] c] s']. injection H as <- <-. apply cmp_kept in T. apply wk_ball, wk_ball, wk_field, T. Qed.
Lemma cmp_num_wk : forall w i p q w' s, cmp_num o ops debug fuel w i p q = Val (w', s) -> wkept w w'.
Proof. intros w i p q w' s H. unfold cmp_num in H. cbv zeta in H. open H. destruct res as [[nf' b] s']. injection H as <- <-. apply cmp_q_kept in T. apply wk_ball, wk_field, T. Qed.
Lemma relop_wk : forall w i p q c w' b, relop_mpq o ops debug fuel w i p q c = Val (Ret (w', b)) -> wkept w w'.
Proof. intros w i p q c w' b H. unfold relop_mpq in H. open H. destruct res as [v s]. injection H as <- <-. apply (cmp_num_wk _ _ _ _ _ _ T). Qed.
Lemma eq_objs_wk : forall w i j w' b, eq_objs debug w i j = Val (Ret (w', b)) -> wkept w w'.
Proof.
  intros w i j w' b H. assert (w' = w); [|subst; apply wk_refl]. unfold eq_objs in H.
  repeat match type of H with (if ?t then _ else _) = _ => destruct t end; try discriminate; try (injection H as <- <-; reflexivity).
  open H. destruct res. open H. destruct res. injection H as <- <-. reflexivity.
Qed.
Lemma lt_objs_wk : forall w i j w' b, lt_objs o ops debug fuel w i j = Val (Ret (w', b)) -> wkept w w'.
Proof.
  intros w i j w' b H. unfold lt_objs in H. destruct (Nat.eqb _ _).
  { open H. destruct res. injection H as <- <-. apply (cmp_objs_wk _ _ _ _ _ T). }
  destruct (is_rational (num_of w i)); [open H; destruct res; apply (relop_wk _ _ _ _ _ _ _ H)|].
  destruct (is_rational (num_of w j)); [open H; destruct res; apply (relop_wk _ _ _ _ _ _ _ H)|discriminate].
Qed.
Lemma flip_wk : forall w w' b (t : out (exc (world * bool))), (forall v c, t = Val (Ret (v, c)) -> wkept w v) -> flip t = Val (Ret (w', b)) -> wkept w w'.
Proof. intros w w' b t H F. unfold flip in F. opene F. destruct res as [v c]. injection F as <- <-. apply (H _ _ eq_refl). Qed.
Lemma rel_objs_wk : forall r w i j w' b, rel_objs o ops debug fuel r w i j = Val (Ret (w', b)) -> wkept w w'.
Proof.
  intros r w i j w' b H. destruct r; cbn [rel_objs] in H;
    first [apply (eq_objs_wk _ _ _ _ _ H) | apply (lt_objs_wk _ _ _ _ _ H)
      | eapply flip_wk; [|exact H]; intros; first [eapply eq_objs_wk; eassumption | eapply lt_objs_wk; eassumption]].
Qed.
Lemma lt_int_wk : forall w i t z w' b, lt_int o ops debug fuel w i t z = Val (Ret (w', b)) -> wkept w w'.
Proof.
  intros w i t z w' b H. destruct t; cbn [lt_int] in H; try apply (relop_wk _ _ _ _ _ _ _ H);
    open H; destruct res; injection H as <- <-; apply (cmp_num_wk _ _ _ _ _ _ T).
Qed.
Lemma gt_int_wk : forall w i t z w' b, gt_int o ops debug fuel w i t z = Val (Ret (w', b)) -> wkept w w'.
Proof.
  intros w i t z w' b H. destruct t; cbn [gt_int] in H; try apply (relop_wk _ _ _ _ _ _ _ H);
    open H; destruct res; injection H as <- <-; apply (cmp_num_wk _ _ _ _ _ _ T).
Qed.
Lemma rel_int_wk : forall r w i t z w' b, rel_int o ops debug fuel r w i t z = Val (Ret (w', b)) -> wkept w w'.
Proof.
  assert (Q : forall w i t z w' b, eq_int w i t z = Val (Ret (w', b)) -> wkept w w').
  { intros w i t z w' b H. unfold eq_int in H. cbv zeta in H. injection H as <- <-. apply wk_refl. }
  intros r w i t z w' b H. destruct r; cbn [rel_int] in H;
    first [apply (Q _ _ _ _ _ _ H) | apply (lt_int_wk _ _ _ _ _ _ H) | apply (gt_int_wk _ _ _ _ _ _ H)
      | eapply flip_wk; [|exact H]; intros; first [eapply Q; eassumption | eapply lt_int_wk; eassumption | eapply gt_int_wk; eassumption]].
Qed.
Lemma rel_mpq_wk : forall r w i p q w' b, rel_mpq o ops debug fuel r w i p q = Val (Ret (w', b)) -> wkept w w'.
Proof.
  assert (Q : forall w i p q w' b, eq_mpq w i p q = Val (Ret (w', b)) -> wkept w w').
  { intros w i p q w' b H. unfold eq_mpq in H. injection H as <- <-. apply wk_refl. }
  intros r w i p q w' b H. destruct r; cbn [rel_mpq] in H;
    first [apply (Q _ _ _ _ _ _ H) | apply (relop_wk _ _ _ _ _ _ _ H)
      | eapply flip_wk; [|exact H]; intros; first [eapply Q; eassumption | eapply relop_wk; eassumption]].
Qed.
Lemma rel_mpz_wk : forall r w i z w' b, rel_mpz o ops debug fuel r w i z = Val (Ret (w', b)) -> wkept w w'.
Proof.
  assert (Q : forall w i z w' b, eq_mpz w i z = Val (Ret (w', b)) -> wkept w w').
  { intros w i z w' b H. unfold eq_mpz in H. injection H as <- <-. apply wk_refl. }
  intros r w i z w' b H. destruct r; cbn [rel_mpz] in H;
    first [apply (Q _ _ _ _ _ H) | apply (rel_mpq_wk _ _ _ _ _ _ _ H)
      | eapply flip_wk; [|exact H]; intros; eapply Q; eassumption].
Qed.
Lemma convert_wk : forall w i f j w', convert o ops debug fuel w i f j = Val (Ret w') -> wkept w w'.
Proof.
  intros w i f j w' H. unfold convert in H. destruct (Nat.eqb _ _); [injection H as <-; apply wk_obj, wk_refl|].
  destruct (is_rational _); [|discriminate]. open H. destruct res as [p q]. open H. injection H as <-. apply call_wk in T0. apply (wk_from _ _ _ _ T0).
Qed.
Lemma coerce_wk : forall w i f w', coerce o ops debug fuel w i f = Val (Ret w') -> wkept w w'.
Proof.
  intros w i f w' H. unfold coerce in H. destruct (Nat.eqb _ _); [injection H as <-; apply wk_refl|].
  destruct (is_zero _); [injection H as <-; apply wk_obj, wk_refl|]. destruct (is_integer _).
  { cbv zeta in H. open H. injection H as <-. apply call_wk in T. apply (wk_from _ _ _ _ T). }
  destruct (is_rational _); [|discriminate]. apply (convert_wk _ _ _ _ _ H).
Qed.
Lemma binop_wk : forall strict p w i j w', binop o ops debug fuel strict p w i j = Val (Ret w') -> wkept w w'.
Proof.
  intros strict p w i j w' H. unfold binop, ret in H. destruct (Nat.eqb _ _).
  { open H. injection H as <-. apply (call_wk _ _ _ _ _ T). }
  destruct (_ && _ && _); [discriminate|]. destruct (is_integer _).
  { open H. injection H as <-. apply (call_wk _ _ _ _ _ T). }
  destruct (is_rational _).
  { open H. destruct res as [a d]. open H. injection H as <-. apply (call_wk _ _ _ _ _ T0). }
  opene H. open H. injection H as <-. apply (wk_trans _ res); [apply (coerce_wk _ _ _ _ T)|apply (call_wk _ _ _ _ _ T0)].
Qed.
Lemma fdiv_objs_wk : forall w i j w' z, fdiv_objs o ops debug fuel w i j = Val (Ret (w', z)) -> wkept w w'.
Proof.
  intros w i j w' z H. unfold fdiv_objs in H. cbv zeta in H. destruct (negb _); [discriminate|]. open H. destruct res as [[[nf' b] c] s]. injection H as <- <-.
  apply fdiv_kept in T. apply wk_ball, wk_ball, wk_field, T.
Qed.
Lemma floordiv_wk : forall strict w i j w' z, floordiv o ops debug fuel strict w i j = Val (Ret (w', z)) -> wkept w w'.
Proof.
  intros strict w i j w' z H. unfold floordiv in H. destruct (Nat.eqb _ _); [apply (fdiv_objs_wk _ _ _ _ _ H)|].
  destruct (is_rational (num_of w j)).
  { opene H. cbv zeta in H. open H. destruct res0 as [[nf' b] z']. injection H as <- <-. apply binop_wk in T. apply round_int_kept in T0.
    apply (wk_trans _ res); [exact T|]. intros f. apply (wk_field res _ _ T0 f). }
  destruct (is_rational (num_of w i)); [|apply (fdiv_objs_wk _ _ _ _ _ H)].
  open H. destruct res as [p q]. open H. unfold make_mpq in T0. apply call_wk in T0. apply wk_from in T0.
  opene H. destruct res0 as [v' z']. injection H as <- <-. apply fdiv_objs_wk in T1. apply wk_obj. apply (wk_trans _ res); assumption.
Qed.
Lemma floor_obj_wk : forall rd w i w' z, floor_obj o debug fuel rd w i = Val (w', z) -> wkept w w'.
Proof. intros rd w i w' z T. unfold floor_obj in T. cbv zeta in T. open T. destruct res as [[nf' b'] z']. injection T as <- <-. apply round_int_kept in T0. apply wk_ball, wk_field, T0. Qed.
Lemma sgn_obj_wk : forall w i w' z, sgn_obj o debug fuel w i = Val (w', z) -> wkept w w'.
Proof. intros w i w' z T. unfold sgn_obj in T. cbv zeta in T. open T. destruct res as [[nf' b'] z']. injection T as <- <-. apply sgn_kept in T0. apply wk_ball, wk_field, T0. Qed.

Lemma xrun_wk : forall strict w c w', xrun o ops debug fuel strict w c = Val (Ret w') -> wkept w w'.
Proof.
  intros strict w c w' H. destruct c; cbn [xrun] in H; unfold ret, done in H.
  - apply (binop_wk _ _ _ _ _ _ H).
  - open H. injection H as <-. apply (call_wk _ _ _ _ _ T).
  - open H. injection H as <-. apply (call_wk _ _ _ _ _ T).
  - open H. injection H as <-. apply (call_wk _ _ _ _ _ T).
  - open H. injection H as <-. unfold negate in T. apply call_wk in T. apply (wk_from _ _ _ _ T).
  - open H. injection H as <-. unfold pow in T. cbv zeta in T. destruct (e <? 0)%Z.
    + open T. apply call_wk in T0. apply wk_from in T0. destruct (e =? low Int)%Z; [discriminate|]. apply call_wk in T. apply (wk_trans _ _ _ T0 T).
    + apply call_wk in T. apply (wk_from _ _ _ _ T).
  - injection H as <-. apply wk_obj, wk_refl.
  - apply (convert_wk _ _ _ _ _ H).
  - injection H as <-. apply wk_obj, wk_refl.
  - open H. injection H as <-. apply call_wk in T. apply (wk_from _ _ _ _ T).
  - open H. injection H as <-. apply call_wk in T. apply (wk_from _ _ _ _ T).
  - open H. injection H as <-. apply call_wk in T. apply (wk_from _ _ _ _ T).
  - open H. injection H as <-. apply call_wk in T. apply (wk_from _ _ _ _ T).
  - open H. injection H as <-. apply call_wk in T. apply (wk_from _ _ _ _ T).
  - open H. injection H as <-. unfold make_vector in T. destruct (_ && _); [discriminate|]. apply call_wk in T. apply (wk_from _ _ _ _ T).
  - opene H. destruct res as [v b]. injection H as <-. apply (rel_objs_wk _ _ _ _ _ _ T).
  - opene H. destruct res as [v b]. injection H as <-. apply (rel_int_wk _ _ _ _ _ _ _ T).
  - opene H. destruct res as [v b]. injection H as <-. apply (rel_mpz_wk _ _ _ _ _ _ T).
  - opene H. destruct res as [v b]. injection H as <-. apply (rel_mpq_wk _ _ _ _ _ _ _ T).
  - opene H. destruct res as [v b]. injection H as <-. apply (floordiv_wk _ _ _ _ _ _ T).
  - open H. destruct res as [v b]. injection H as <-. apply (floor_obj_wk _ _ _ _ _ T).
  - open H. destruct res as [v b]. injection H as <-. apply (floor_obj_wk _ _ _ _ _ T).
  - open H. destruct res as [v b]. injection H as <-. apply (sgn_obj_wk _ _ _ _ T).
  - open H. injection H as <-. apply refine_kept in T. apply wk_field, T.
Qed.

(** Answers are those of [xrun]. *)
Lemma xstep_run : forall strict w c w' a, xstep o ops debug fuel strict w c = Val (w', a) ->
  xrun o ops debug fuel strict w c = Val (Ret w') /\ a <> XThrow \/ xrun o ops debug fuel strict w c = Val Throw /\ w' = w /\ a = XThrow.
Proof.
  assert (A : forall A (t : A -> xans) (r : out (exc (world * A))) w w' a, (forall y, t y <> XThrow) -> told t w r = Val (w', a) ->
    done r = Val (Ret w') /\ a <> XThrow \/ done r = Val Throw /\ w' = w /\ a = XThrow).
  { intros A t r w w' a Ht H. unfold told in H. open H. unfold done, ebind. cbn [bind]. destruct res as [[v y]|]; injection H as <- <-; [left|right]; repeat split; apply Ht. }
  assert (B : forall (r : out (exc world)) w w' a, bind r (fun e => Val (match e with Ret v => (v, XNone) | Throw => (w, XThrow) end)) = Val (w', a) ->
    r = Val (Ret w') /\ a <> XThrow \/ r = Val Throw /\ w' = w /\ a = XThrow).
  { intros r w w' a H. open H. destruct res as [v|]; injection H as <- <-; [left; split; [reflexivity|discriminate]|right; repeat split]. }
  assert (C : forall (r : out (world * Z)) w' a, bind r (fun '(v, z) => Val (v, XInt z)) = Val (w', a) -> bind r (fun r => ret (fst r)) = Val (Ret w') /\ a <> XThrow).
  { intros r w' a H. open H. destruct res as [v y]. injection H as <- <-. split; [reflexivity|discriminate]. }
  intros strict w c w' a H. destruct c; cbn [xstep] in H; try (apply B in H; exact H);
    try (apply A in H; [exact H|intros y; discriminate]); left; apply C in H; exact H.
Qed.
Lemma xsteps_run : forall strict l w w' r, xsteps o ops debug fuel strict w l = Val (w', r) -> xruns o ops debug fuel strict w l = Val w'.
Proof.
  intros strict. induction l as [|c l IH]; intros w w' r H; cbn [xsteps xruns] in *; [injection H as <- <-; reflexivity|].
  open H. destruct res as [v a]. open H. destruct res as [v' r']. injection H as <- <-. apply IH in T0.
  apply xstep_run in T. destruct T as [[E _]|(E & -> & _)]; rewrite E; exact T0.
Qed.
End Kept.

(** * Results without fuel *)
Lemma bind_ext : forall A B (r : out A) (F G : A -> out B), (forall v, F v = G v) -> bind r F = bind r G.
Proof. intros A B [v| | |] F G H; cbn [bind]; try reflexivity. apply H. Qed.
Section Const.
Variables (o : arbops) (ops : list Z -> nfops) (debug : bool) (f : nat).

Lemma call_const : forall w i j k, arith k \/ k = KGen i -> call_on o ops debug f w i j k = call_on o ops debug 0 w i j k.
Proof. intros w i j k [H| ->]; [|reflexivity]. destruct k; cbn in H; try tauto; reflexivity. Qed.
Lemma op_elem_const : forall p w i j, call_on o ops debug f w i j (op_elem p i i j) = call_on o ops debug 0 w i j (op_elem p i i j).
Proof. intros p w i j. apply call_const. left. destruct p; exact (fun h => h). Qed.
Lemma op_z_const : forall p w i j z, call_on o ops debug f w i j (op_z p i i z) = call_on o ops debug 0 w i j (op_z p i i z).
Proof. intros p w i j z. apply call_const. left. destruct p; exact (fun h => h). Qed.
Lemma op_q_const : forall p w i j a d, call_on o ops debug f w i j (op_q p i i a d) = call_on o ops debug 0 w i j (op_q p i i a d).
Proof. intros p w i j a d. apply call_const. left. destruct p; exact (fun h => h). Qed.
Lemma convert_const : forall w i g j, convert o ops debug f w i g j = convert o ops debug 0 w i g j.
Proof. intros. unfold convert. destruct (Nat.eqb _ _); [reflexivity|]. destruct (is_rational _); reflexivity. Qed.
Lemma coerce_const : forall w i g, coerce o ops debug f w i g = coerce o ops debug 0 w i g.
Proof.
  intros. unfold coerce. destruct (Nat.eqb _ _); [reflexivity|]. destruct (is_zero _); [reflexivity|]. destruct (is_integer _); [reflexivity|].
  destruct (is_rational _); [apply convert_const|reflexivity].
Qed.
Lemma binop_const : forall strict p w i j, binop o ops debug f strict p w i j = binop o ops debug 0 strict p w i j.
Proof.
  intros. unfold binop. destruct (Nat.eqb _ _); [rewrite op_elem_const; reflexivity|]. destruct (_ && _ && _); [reflexivity|].
  destruct (is_integer _); [rewrite op_z_const; reflexivity|]. destruct (is_rational _).
  - apply bind_ext. intros [a d]. rewrite op_q_const. reflexivity.
  - rewrite coerce_const. unfold ebind. apply bind_ext. intros [v|]; [rewrite op_elem_const|]; reflexivity.
Qed.

(** The calls that decide nothing about real numbers. *)
Definition plain (c : xcall) : Prop :=
  match c with
  | XRel _ _ _ | XRelInt _ _ _ _ | XRelMpz _ _ _ | XRelMpq _ _ _ _ | XFloordiv _ _ | XFloor _ | XCeil _ | XSgn _ | XRefine _ _ => False
  | _ => True
  end.
Lemma xrun_const : forall strict w c, plain c -> xrun o ops debug f strict w c = xrun o ops debug 0 strict w c.
Proof.
  intros strict w c H. destruct c; cbn [xrun plain] in *; try contradiction; try reflexivity.
  all: first [apply binop_const|apply convert_const|
    unfold binop_int, binop_mpz, binop_mpq, pow; cbv zeta; rewrite ?op_z_const, ?op_q_const; reflexivity].
Qed.
End Const.

(** In degree one. *)
Section One.
Variables (o : arbops) (n : nfops) (debug : bool) (pol : list Z) (x : R).
Hypothesis Ho : arb_ok o.
Hypothesis Hm : minimal pol x.
Hypothesis Hn : nf_ok pol x n.
Hypothesis Hlen : length pol = 2%nat.
Notation good := (good pol x (on_ball (fun _ => True))).

Lemma one_round : forall rd fuel nf y, canon pol (r_elem y) -> round_int o debug rd fuel nf y = round_int o debug rd 0 nf y.
Proof. intros rd fuel nf y Hy. unfold round_int. cbv zeta. rewrite (lin_rational pol Hlen _ Hy). reflexivity. Qed.
Lemma one_sgn : forall fuel nf y, canon pol (r_elem y) -> sgn o debug fuel nf y = sgn o debug 0 nf y.
Proof.
  intros fuel nf y Hy. pose proof (lin_rational pol Hlen _ Hy) as W. unfold sgn, is_rational in *. cbv zeta.
  destruct (e_num (r_elem y)) as [|? [|]]; try discriminate W; reflexivity.
Qed.
Lemma one_cmp : forall fuel nf y z, canon pol (r_elem y) -> canon pol (r_elem z) -> cmp o n debug fuel nf y z = cmp o n debug 0 nf y z.
Proof.
  intros fuel nf y z Hy Hz. unfold cmp. cbv zeta. destruct (elem_eqb _ _); [reflexivity|].
  destruct (blt (r_emb y) (r_emb z)); [reflexivity|]. destruct (blt (r_emb z) (r_emb y)); [reflexivity|].
  rewrite (lin_rational pol Hlen _ Hy), (lin_rational pol Hlen _ Hz). cbn [andb].
  destruct (is_zero (r_elem y)); [rewrite (one_sgn fuel nf z Hz); reflexivity|].
  destruct (is_zero (r_elem z)); [rewrite (one_sgn fuel nf y Hy); reflexivity|]. reflexivity.
Qed.
Lemma one_cmp_q : forall fuel nf y p q, canon pol (r_elem y) -> cmp_q o n debug fuel nf y p q = cmp_q o n debug 0 nf y p q.
Proof.
  intros fuel nf y p q Hy. unfold cmp_q. cbv zeta. destruct (p =? 0)%Z; [rewrite (one_sgn fuel nf y Hy); reflexivity|].
  destruct (is_zero (r_elem y)); [reflexivity|]. rewrite (lin_rational pol Hlen _ Hy). reflexivity.
Qed.
Lemma one_fdiv : forall same fuel nf y z, canon pol (r_elem y) -> canon pol (r_elem z) -> ev x (r_elem z) <> 0 ->
  fdiv o n debug same fuel nf y z = fdiv o n debug same 0 nf y z.
Proof.
  intros same fuel nf y z Hy Hz Nz. unfold fdiv. cbv zeta. rewrite (lin_rational pol Hlen _ Hz).
  destruct (is_zero (r_elem z)) eqn:Z0; [reflexivity|]. unfold floor. rewrite one_round; [reflexivity|].
  apply (nk_div _ _ _ Hn _ _ Hy Hz Nz).
Qed.
End One.
