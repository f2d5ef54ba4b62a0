(** Arithmetic and comparison of elements in SageMath (C72). *)
Require Import Reals List ZArith Bool Lia Lra Arith.
From Verif Require Import PolyR RootSpec Dyadic ArbModel ArbSpec ElemModel ElemSpec ElemProofs ElemHist ElemMore CxxModel CxxSpec CxxProofs CxxSound CxxNum CxxOpModel CxxOp
  PyModel PySpec PyElem SageModel SageSpec.
Import ListNotations.
Open Scope R_scope.

Section Sage.
Variable o : arbops.
Variable ops : list Z -> nfops.
Variable debug : bool.
Variable fuel : nat.
Variable pol : nat -> list Z.
Variable x : nat -> R.
Hypothesis Hm : forall f, minimal (pol f) (x f).
Notation exact := (exact_world pol).
Notation value := (value x).

Lemma to_nf_ok : forall w a, exact w -> belongs pol x w (s_parent a) (s_obj a) ->
  exists v, to_number_field w a = Ret v /\ stands_for (x (s_parent a)) (length (pol (s_parent a)) - 1) v (value w (s_obj a)).
Proof.
  intros w [P i] E B. cbn [s_parent s_obj] in *. unfold to_number_field. cbn [s_parent s_obj]. rewrite !(ew_fields _ _ E).
  pose proof (ew_objs _ _ E i) as C. destruct (num_den_ok (pol (fld w i)) (x (fld w i)) (num_of w i) C) as (L & D & V & _).
  set (v := map (fun c => reduced c (den (num_of w i))) (num_vector (pol (fld w i)) (num_of w i))).
  assert (Lv : length v = (length (pol (fld w i)) - 1)%nat) by (unfold v; rewrite map_length; exact L).
  assert (Le : (length v <= length (pol P) - 1)%nat) by (rewrite Lv; destruct B as [->|[_ B]]; lia).
  assert (Lt : length (v ++ repeat (0, 1)%Z (length (pol P) - 1 - length v)) = (length (pol P) - 1)%nat) by (rewrite app_length, repeat_length; lia).
  rewrite Lt, Nat.eqb_refl. eexists. split; [reflexivity|]. split; [exact Lt|]. split.
  - apply Forall_app. split.
    + apply Forall_forall. intros q Hq. apply in_map_iff in Hq. destruct Hq as (c & <- & _). destruct (reduced_ok c (den (num_of w i)) D) as (A & A' & _). split; assumption.
    + apply Forall_forall. intros q Hq. apply repeat_spec in Hq. subst q. split; reflexivity.
  - rewrite rational_poly_app0. unfold v. rewrite rational_poly_map by exact D. unfold CxxSpec.value. destruct B as [<-|[B _]]; [symmetry; exact V|].
    apply (rational_iff pol x Hm w i E) in B.
    transitivity (ev (x P) (num_of w i)); [unfold num_vector, ev; rewrite zeval_pad; reflexivity|].
    rewrite !(rational_val _ _ B). reflexivity.
Qed.

(** The field of a result. *)
Lemma call_fld : forall w i j k w', call_on o ops debug fuel w i j k = Val w' -> forall h, fld w' h = fld w h.
Proof.
  intros w i j k w' H h. unfold call_on in H. cbv zeta in H. destruct (run _ _ _ _ _ _ _) as [[nf' m']| | |]; try discriminate H. cbn [bind] in H. injection H as <-.
  unfold fld, set_val, set_obj, set_field. cbn [w_objs]. repeat (match goal with |- context [Nat.eqb ?a ?b] => destruct (Nat.eqb_spec a b); subst end; cbn [ob_field]; try reflexivity).
Qed.

Hypothesis Hn : forall f, nf_ok (pol f) (x f) (ops (pol f)).

Lemma binop_field : forall w i j p w', exact w -> binop o ops debug fuel false p w i j = Val (Ret w') ->
  fld w' i = fld w i /\ rational (value w j) \/ fld w' i = fld w j /\ (fld w i = fld w j \/ ~ rational (value w j)).
Proof.
  intros w i j p w' E H. unfold binop in H. cbn [andb] in H. destruct (Nat.eqb_spec (fld w i) (fld w j)) as [F|F].
  { destruct (call_on _ _ _ _ _ _ _ _) as [w1| | |] eqn:C; try discriminate H. injection H as <-. right. rewrite (call_fld _ _ _ _ _ C). split; [exact F|left; exact F]. }
  destruct (is_integer (num_of w j)) eqn:I.
  { destruct (call_on _ _ _ _ _ _ _ _) as [w1| | |] eqn:C; try discriminate H. injection H as <-. left. rewrite (call_fld _ _ _ _ _ C). split; [reflexivity|].
    apply (rational_iff pol x Hm w j E). apply integer_rational. exact I. }
  destruct (is_rational (num_of w j)) eqn:Q.
  { destruct (get_fmpq _ _) as [[qn qd]| | |]; try discriminate H. cbn [bind] in H.
    destruct (call_on _ _ _ _ _ _ _ _) as [w1| | |] eqn:C; try discriminate H. injection H as <-. left. rewrite (call_fld _ _ _ _ _ C). split; [reflexivity|].
    apply (rational_iff pol x Hm w j E). exact Q. }
  destruct (coerce o ops debug fuel w i (fld w j)) as [[w1|]| | |] eqn:K; try discriminate H. cbn [ebind bind] in H.
  destruct (call_on _ _ _ _ _ _ _ _) as [w2| | |] eqn:C; try discriminate H. injection H as <-. right. rewrite (call_fld _ _ _ _ _ C). split; [|right; exact (not_rational pol x Hm w j E Q)].
  unfold coerce in K. destruct (Nat.eqb_spec (fld w j) (fld w i)); [injection K as <-; congruence|].
  destruct (is_zero (num_of w i)); [injection K as <-; apply fld_get|].
  destruct (is_integer (num_of w i)).
  { destruct (call_on _ _ _ _ _ _ _ _) as [w3| | |] eqn:C3; try discriminate K. injection K as <-. rewrite (call_fld _ _ _ _ _ C3). apply fld_get. }
  destruct (is_rational (num_of w i)); [|discriminate K].
  apply (convert_keeps o ops debug fuel pol x Hm Hn) in K; [apply K|exact E].
Qed.

Lemma rational_op : forall p a b, rational a -> rational b -> (p = Div -> b <> 0) -> rational (real_op p a b).
Proof.
  intros p a b (p1 & q1 & H1 & ->) (p2 & q2 & H2 & ->) D. pose proof (IZR_lt _ _ H1) as R1. pose proof (IZR_lt _ _ H2) as R2.
  destruct p; cbn [real_op].
  - exists (p1 * q2 + p2 * q1)%Z, (q1 * q2)%Z. split; [lia|]. rewrite plus_IZR, !mult_IZR. field. lra.
  - exists (p1 * q2 - p2 * q1)%Z, (q1 * q2)%Z. split; [lia|]. rewrite minus_IZR, !mult_IZR. field. lra.
  - exists (p1 * p2)%Z, (q1 * q2)%Z. split; [lia|]. rewrite !mult_IZR. field. lra.
  - assert (N : p2 <> 0%Z) by (intros ->; apply (D eq_refl); unfold Rdiv; ring). pose proof (not_0_IZR _ N) as RN.
    destruct (Z.lt_total p2 0) as [S|[S|S]]; [|lia|].
    + exists (- (p1 * q2))%Z, (- (q1 * p2))%Z. split; [nia|]. rewrite !opp_IZR, !mult_IZR. field. lra.
    + exists (p1 * q2)%Z, (q1 * p2)%Z. split; [nia|]. rewrite !mult_IZR. field. lra.
Qed.

Lemma s_op_ok : forall p w k a b, exact w -> s_parent b = s_parent a -> belongs pol x w (s_parent a) (s_obj a) -> belongs pol x w (s_parent a) (s_obj b) ->
  k <> s_obj a -> k <> s_obj b -> (p = Div -> value w (s_obj b) <> 0) ->
  exists w' c, s_op o ops debug fuel false p w k a b = Val (Ret (w', c)) /\ exact w' /\ s_parent c = s_parent a /\ s_obj c = k /\
    belongs pol x w' (s_parent a) k /\ gave x w w' k (real_op p (value w (s_obj a)) (value w (s_obj b))).
Proof.
  intros p w k [P i] [P' j] E Pb Bi Bj Ni Nj D. cbn [s_parent s_obj] in *. subst P'.
  assert (F : fld w i = fld w j \/ rational (value w i) \/ rational (value w j)) by (unfold belongs in *; destruct Bi as [->|[? _]], Bj as [->|[? _]]; tauto).
  destruct (op_objs_ok o ops debug fuel pol x Hm Hn false p w k i j E Ni Nj F D) as (w' & H & E' & G & _).
  unfold s_op. cbn [s_parent s_obj]. rewrite H. cbn [ebind bind]. exists w', (wrap P k). split; [reflexivity|]. split; [exact E'|]. split; [reflexivity|]. split; [reflexivity|].
  split; [|exact G].
  assert (H' : binop o ops debug fuel false p (copy_obj w k i) k j = Val (Ret w')) by (unfold op_objs in H; destruct p; exact H).
  destruct (copy_self x w k i) as [V1 F1]. destruct (copy_rest x w k i j ltac:(congruence)) as [V2 F2].
  apply binop_field in H'; [|apply copy_exact; exact E]. rewrite F1, V2, F2 in H'. destruct G as [G _].
  unfold belongs in *.
  destruct H' as [[Fk R]|[Fk [Fe|Nj']]].
  - destruct Bi as [Bi|[Ri Li]]; [left; congruence|]. right. rewrite G, Fk. split; [apply rational_op; assumption|exact Li].
  - destruct Bj as [Bj|[Rj Lj]]; [left; congruence|]. destruct Bi as [Bi|[Ri Li]]; [left; congruence|].
    right. rewrite G, Fk. split; [apply rational_op; assumption|exact Lj].
  - destruct Bj as [Bj|[Rj Lj]]; [left; congruence|contradiction].
Qed.

Lemma s_neg_ok : forall w k a, exact w -> belongs pol x w (s_parent a) (s_obj a) -> k <> s_obj a ->
  exists w' c, s_neg o ops debug fuel w k a = Val (Ret (w', c)) /\ exact w' /\ s_parent c = s_parent a /\ s_obj c = k /\
    belongs pol x w' (s_parent a) k /\ gave x w w' k (- value w (s_obj a)).
Proof.
  intros w k [P i] E B N. cbn [s_parent s_obj] in *. destruct (negate_ok o ops debug fuel pol x Hm Hn w k i E) as (w' & H & E' & G & F).
  unfold s_neg. cbn [s_parent s_obj]. rewrite H. cbn [bind]. exists w', (wrap P k). repeat (split; [first [reflexivity|exact E']|]). split; [|exact G].
  destruct G as [G _]. unfold belongs in *. destruct B as [B|[(p & q & Hq & V) L]]; [left; congruence|]. right. rewrite F, G. split; [|exact L].
  exists (- p)%Z, q. split; [exact Hq|]. rewrite V, opp_IZR. apply IZR_lt in Hq. field. lra.
Qed.

(** Division by zero ends the process. *)
Lemma s_div_zero : forall w k a b, exact w -> s_parent b = s_parent a -> belongs pol x w (s_parent a) (s_obj a) -> belongs pol x w (s_parent a) (s_obj b) ->
  k <> s_obj a -> k <> s_obj b -> value w (s_obj b) = 0 -> s_op o ops debug fuel false Div w k a b = Abort.
Proof.
  intros w k [P i] [P' j] E Pb Bi Bj Ni Nj Z. cbn [s_parent s_obj] in *. apply (zero_iff pol x Hm w j E) in Z.
  unfold s_op, op_objs. cbn [s_parent s_obj]. set (w1 := copy_obj w k i).
  assert (Nw : num_of w1 j = num_of w j) by (unfold w1, copy_obj, num_of, val, set_obj; cbn [w_objs]; destruct (Nat.eqb_spec j k); [congruence|reflexivity]).
  unfold binop. cbn [andb]. rewrite Nw.
  assert (A : call_on o ops debug fuel w1 k j (op_elem Div k k j) = Abort).
  { unfold call_on. cbv zeta. cbn [op_elem run]. assert (Q : Nat.eqb j k = false) by (apply Nat.eqb_neq; congruence). rewrite Q. fold (num_of w1 j). rewrite Nw, Z. reflexivity. }
  destruct (Nat.eqb (fld w1 k) (fld w1 j)); [rewrite A; reflexivity|].
  assert (En : e_num (num_of w j) = []) by (unfold is_zero in Z; destruct (e_num (num_of w j)); [reflexivity|discriminate Z]).
  assert (Ed : e_den (num_of w j) = 1%Z).
  { pose proof (ew_objs _ _ E j) as C. apply (can_gcd _ _ C); [apply (can_den _ _ C)|apply Z.divide_refl|]. rewrite En. intros c []. }
  assert (I : is_integer (num_of w j) = true) by (unfold is_integer, is_rational; rewrite En, Ed; reflexivity).
  rewrite I. unfold get_fmpz. rewrite En. reflexivity.
Qed.
End Sage.

Lemma rich_ok : forall r a b c, (c = (-1) /\ a < b) \/ (c = 0 /\ a = b) \/ (c = 1 /\ a > b) -> forall z, c = IZR z -> rich r z = true <-> real_rel r a b.
Proof.
  intros r a b c H z Hz. assert (Z : z = (-1)%Z /\ a < b \/ z = 0%Z /\ a = b \/ z = 1%Z /\ a > b) by (destruct H as [[-> H]|[[-> H]|[-> H]]]; [left|right; left|right; right]; split; try exact H; symmetry; apply eq_IZR; exact Hz).
  destruct Z as [[-> Z]|[[-> Z]|[-> Z]]]; destruct r; cbn; split; intros Q; try discriminate Q; try reflexivity; try exact Z; try lra.
Qed.

Lemma s_cmp_ok : forall o ops debug fuel pol x N, (forall f, setting o (ops (pol f)) (pol f) (x f) (N f)) ->
  forall r w a b w' t, sound_world pol x N w -> s_cmp o ops debug fuel r w a b = Val (Ret (w', t)) ->
  decides pol x N w w' t (real_rel r (value x w (s_obj a)) (value x w (s_obj b))).
Proof.
  intros o ops debug fuel pol x N HS r w a b w' t G H. unfold s_cmp in H.
  destruct (rel_objs o ops debug fuel RLt w (s_obj a) (s_obj b)) as [[[w1 lt]|]| | |] eqn:L; try discriminate H. cbn [ebind bind] in H.
  apply (rel_objs_ok o ops debug fuel pol x N HS) in L; [|exact G]. destruct L as (G1 & S1 & D1). cbn [real_rel] in D1.
  destruct lt.
  - injection H as <- <-. split; [exact G1|]. split; [exact S1|].
    apply (rich_ok r _ _ (-1)); [left; split; [reflexivity|apply D1; reflexivity]|reflexivity].
  - destruct (rel_objs o ops debug fuel REq w1 (s_obj a) (s_obj b)) as [[[w2 eq]|]| | |] eqn:Q; try discriminate H. cbn [ebind bind] in H.
    apply (rel_objs_ok o ops debug fuel pol x N HS) in Q; [|exact G1]. destruct Q as (G2 & S2 & D2). cbn [real_rel] in D2. injection H as <- <-.
    split; [exact G2|]. split; [intros i; destruct (S1 i), (S2 i); split; congruence|].
    assert (V : forall i, value x w1 i = value x w i) by (intros i; unfold value; destruct (S1 i) as [-> ->]; reflexivity). rewrite !V in D2.
    assert (NL : ~ value x w (s_obj a) < value x w (s_obj b)) by (intros C; apply D1 in C; discriminate C).
    destruct eq.
    + apply (rich_ok r _ _ 0); [right; left; split; [reflexivity|apply D2; reflexivity]|reflexivity].
    + assert (NE : value x w (s_obj a) <> value x w (s_obj b)) by (intros C; apply D2 in C; discriminate C).
      apply (rich_ok r _ _ 1); [right; right; split; [reflexivity|lra]|reflexivity].
Qed.
