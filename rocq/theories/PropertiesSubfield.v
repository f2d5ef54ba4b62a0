(** The subfield of the real numbers that a field stands for: C76. *)
Require Import Reals List ZArith Bool Lia Lra.
From Verif Require Import PolyR RootSpec Dyadic ArbModel ArbSpec ArbProofs ArbRefute DyadicProofs RefineProofs ElemProofs DyBall ElemModel ElemSpec ElemRefute NfArith NfArithProofs PyModel PySpec CxxRefute
  SubfieldModel SubfieldSpec SubfieldProofs.
Import ListNotations.
Open Scope R_scope.

(** Every number of the subfield has exactly one vector of rational coefficients of
    the length that renf_degree returns, and no other number has one. *)
Theorem C76_degree : forall nf x, minimal (f_pol nf) x ->
  (forall y, generated x y -> exists! v, Forall lowest v /\ Z.of_nat (length v) = renf_degree nf /\ rational_poly v x = y) /\
  forall v, Forall lowest v -> generated x (rational_poly v x).
Proof. intros nf x M. split; [exact (coordinates nf x M)|exact (coordinates_back x)]. Qed.
Print Assumptions C76_degree.

(** Every number of the subfield can be made as an element, and elements have no
    other values. *)
Theorem C76_every : forall o n debug fuel pol x nf m i, minimal pol x -> nf_ok pol x n -> f_pol nf = pol -> forall y, generated x y ->
  exists p d m', (0 < d)%Z /\ run o n debug fuel nf m (KSetPoly i p d) = Val (nf, m') /\ ev x (r_elem (m' i)) = y.
Proof. exact reachable_elements. Qed.
Print Assumptions C76_every.
Theorem C76_only : forall pol x m i, mem_ok pol x m -> generated x (ev x (r_elem (m i))).
Proof. exact (fun pol x m i H => generated_ev pol x (r_elem (m i)) (proj1 (H i))). Qed.
Print Assumptions C76_only.

(** renf_equal tells whether the subfields are the same: false, as sqrt 2 and - sqrt 2
    generate the same one. *)
Theorem C76_equal_refuted : exists pol a1 a2 nf1 nf2 x1 x2,
  renf_init dyops true 100 pol 1 a1 64 = Val nf1 /\ renf_init dyops true 100 pol 1 a2 64 = Val nf2 /\
  minimal pol x1 /\ minimal pol x2 /\
  (inb x1 a1 /\ forall z, inb z a1 -> zeval pol z = 0 -> z = x1) /\ (inb x2 a2 /\ forall z, inb z a2 -> zeval pol z = 0 -> z = x2) /\
  same_subfield x1 x2 /\ renf_equal nf1 nf2 = false.
Proof. exact subfield_refuted. Qed.
Print Assumptions C76_equal_refuted.

(** Fields that compare equal are the same if no other root is as close as the
    enclosures are wide. *)
Theorem C76_equal_partial : forall nf1 nf2 x1 x2, renf_equal nf1 nf2 = true -> is_finite (f_emb nf1) = true -> is_finite (f_emb nf2) = true ->
  inb x1 (f_emb nf1) -> inb x2 (f_emb nf2) -> zeval (f_pol nf1) x1 = 0 -> zeval (f_pol nf2) x2 = 0 ->
  (forall z, zeval (f_pol nf1) z = 0 -> Rabs (x1 - z) <= 2 * (ball_rad (f_emb nf1) + ball_rad (f_emb nf2)) -> z = x1) -> same_subfield x1 x2.
Proof. exact equal_subfield. Qed.
Print Assumptions C76_equal_partial.

Definition half : renf := {| f_pol := [-2; 0; 1]%Z; f_den := 1; f_emb := Fin (3, -1)%Z (1, -2)%Z; f_prec := 64; f_imm := 0 |}.
Example C76_case : minimal (f_pol half) (sqrt 2) /\ renf_degree half = 2%Z /\ generated (sqrt 2) (/ (1 + sqrt 2)) /\
  Forall lowest [(-1, 1); (1, 1)]%Z /\ rational_poly [(-1, 1); (1, 1)]%Z (sqrt 2) = / (1 + sqrt 2) /\
  renf_equal half half = true /\ inb (sqrt 2) (f_emb half) /\
  forall z, zeval (f_pol half) z = 0 -> Rabs (sqrt 2 - z) <= 2 * (ball_rad (f_emb half) + ball_rad (f_emb half)) -> z = sqrt 2.
Proof.
  destruct sqrt_2 as [P E]. assert (B : 5 / 4 < sqrt 2 < 3 / 2) by (split; nra). split; [apply (sminimal 1)|]. split; [reflexivity|]. split.
  { intros F H X. replace (/ (1 + sqrt 2)) with (1 / (1 + sqrt 2)) by (field; lra).
    apply (sub_div _ H); [apply (sub_one _ H)|apply sub_plus; [exact H|apply (sub_one _ H)|exact X]|lra]. }
  split; [repeat constructor|]. split; [cbn; field_simplify_eq; nra|]. split; [reflexivity|].
  assert (R : dyv (1, -2)%Z = / 4) by (change (-2)%Z with (- (2))%Z; rewrite (dyv_neg_exp _ 2) by lia; change (2 ^ 2)%Z with 4%Z; lra).
  split; [apply inb_bounds; rewrite R; replace (dyv (3, -1)%Z) with (3 / 2) by (change (-1)%Z with (- (1))%Z; rewrite (dyv_neg_exp _ 1) by lia; change (2 ^ 1)%Z with 2%Z; lra); lra|].
  intros z Z. cbn [f_pol half] in Z. rewrite !zeval_cons, zeval_nil in Z. cbn [ball_rad f_emb half]. rewrite R. intros A. pose proof (Rle_abs (sqrt 2 - z)) as A2.
  apply (sq_unique 2); lra.
Qed.
