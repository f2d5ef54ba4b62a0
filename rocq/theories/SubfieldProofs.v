(** The elements of a field are the subfield generated by its root. *)
Require Import Reals List ZArith Bool Lia Lra.
From Verif Require Import PolyR RootSpec RootModel ExtraModel Dyadic ArbModel ArbSpec RefineProofs DyBall ElemModel ElemSpec ElemProofs ElemRefute NfArith NfArithProofs
  PyModel PySpec PyElem CxxRefute VcaProofs SubfieldModel SubfieldSpec.
Import ListNotations.
Open Scope R_scope.

Section Sub.
Variable F : R -> Prop.
Hypothesis H : subfield F.
Lemma sub_zero : F 0.
Proof. replace 0 with (1 - 1) by ring. apply (sub_minus _ H); apply (sub_one _ H). Qed.
Lemma sub_opp : forall a, F a -> F (- a).
Proof. intros a A. replace (- a) with (0 - a) by ring. apply (sub_minus _ H); [exact sub_zero|exact A]. Qed.
Lemma sub_plus : forall a b, F a -> F b -> F (a + b).
Proof. intros a b A B. replace (a + b) with (a - - b) by ring. apply (sub_minus _ H); [exact A|apply sub_opp, B]. Qed.
Lemma sub_Z : forall z, F (IZR z).
Proof.
  assert (N : forall n, F (INR n)).
  { induction n as [|n IH]; [exact sub_zero|]. rewrite S_INR. apply sub_plus; [exact IH|apply (sub_one _ H)]. }
  intros z. destruct (Z.le_ge_cases 0 z) as [L|L].
  - rewrite <- (Z2Nat.id z L), <- INR_IZR_INZ. apply N.
  - replace z with (- Z.of_nat (Z.to_nat (- z)))%Z by lia. rewrite opp_IZR, <- INR_IZR_INZ. apply sub_opp, N.
Qed.
Lemma sub_zeval : forall p x, F x -> F (zeval p x).
Proof.
  intros p x X. induction p as [|c p IH]; [rewrite zeval_nil; exact sub_zero|]. rewrite zeval_cons.
  apply sub_plus; [apply sub_Z|apply (sub_mult _ H); assumption].
Qed.
End Sub.

Lemma generated_ev : forall pol x e, canon pol e -> generated x (ev x e).
Proof.
  intros pol x e C F H X. unfold ev. apply (sub_div _ H); [apply sub_zeval; assumption|apply sub_Z, H|].
  pose proof (can_den _ _ C) as D. apply IZR_lt in D. lra.
Qed.

Lemma elements_subfield : forall pol x, minimal pol x -> subfield (fun y => exists e, canon pol e /\ ev x e = y).
Proof.
  intros pol x M. pose proof (nfc_ok pol x M) as N. constructor.
  - destruct (nk_set_q _ _ _ N 1 1 ltac:(lia)) as [C V]. exists (n_set_q (nfc pol) 1 1). split; [exact C|]. rewrite V. lra.
  - intros a b (e & C & <-) (f & D & <-). exists (n_sub (nfc pol) e f). exact (nk_sub _ _ _ N e f C D).
  - intros a b (e & C & <-) (f & D & <-). exists (n_mul (nfc pol) e f). exact (nk_mul _ _ _ N e f C D).
  - intros a b (e & C & <-) (f & D & <-) B. exists (n_div (nfc pol) e f). exact (nk_div _ _ _ N e f C D B).
Qed.

Lemma generated_iff : forall pol x, minimal pol x -> forall y, generated x y <-> exists e, canon pol e /\ ev x e = y.
Proof.
  intros pol x M y. split.
  - intros G. apply (G _ (elements_subfield pol x M)).
    destruct (nk_set_poly _ _ _ (nfc_ok pol x M) [0; 1]%Z 1 ltac:(lia)) as [C V]. eexists. split; [exact C|]. rewrite V.
    rewrite !zeval_cons, zeval_nil. lra.
  - intros (e & C & <-). apply (generated_ev pol). exact C.
Qed.

Lemma coordinates : forall nf x, minimal (f_pol nf) x -> forall y, generated x y ->
  exists! v, Forall lowest v /\ Z.of_nat (length v) = renf_degree nf /\ rational_poly v x = y.
Proof.
  intros nf x M y G. pose proof (min_len _ _ M) as L2. unfold renf_degree.
  destruct (proj1 (generated_iff (f_pol nf) x M y) G) as (e & C & <-). destruct (to_sage_ok (f_pol nf) x e C) as (L & Fl & V).
  exists (to_sage (f_pol nf) e). split; [repeat split; [exact Fl|lia|exact V]|].
  intros v (Fv & Lv & Vv). apply (vector_unique (f_pol nf) x M); [exact Fl|exact Fv|lia|lia|congruence].
Qed.
Lemma coordinates_back : forall x v, Forall lowest v -> generated x (rational_poly v x).
Proof.
  intros x v L F H X. induction L as [|q v [Q _] _ IH]; cbn [rational_poly]; [apply sub_zero, H|].
  apply sub_plus; [exact H| |apply (sub_mult _ H); assumption].
  apply (sub_div _ H); [apply sub_Z, H|apply sub_Z, H|]. apply IZR_lt in Q. lra.
Qed.

Lemma reachable_elements : forall o n debug fuel pol x nf m i, minimal pol x -> nf_ok pol x n -> f_pol nf = pol -> forall y, generated x y ->
  exists p d m', (0 < d)%Z /\ run o n debug fuel nf m (KSetPoly i p d) = Val (nf, m') /\ ev x (r_elem (m' i)) = y.
Proof.
  intros o n debug fuel pol x nf m i M N P y G. destruct (proj1 (generated_iff pol x M y) G) as (e & C & <-).
  pose proof (can_den _ _ C) as D. exists (e_num e), (e_den e). eexists. split; [exact D|]. split; [reflexivity|].
  unfold upd_emb, upd_elem, upd. rewrite !Nat.eqb_refl. cbn [r_elem]. exact (proj2 (nk_set_poly _ _ _ N (e_num e) (e_den e) D)).
Qed.

(** sqrt 2 and - sqrt 2. *)
Definition minus_ball : ball := Fin (-3, -1)%Z (1, -1)%Z.
Lemma opposite_same : forall x, same_subfield x (- x).
Proof.
  intros x y. split; intros G F H X; apply G; try exact H.
  - replace x with (- - x) by ring. apply (sub_opp _ H). exact X.
  - apply (sub_opp _ H). exact X.
Qed.

Lemma minus_init : exists nf, renf_init dyops true 100 [-2; 0; 1]%Z 1 minus_ball 64 = Val nf.
Proof. eexists. vm_compute. reflexivity. Qed.
Lemma minus_unique : inb (- sqrt 2) minus_ball /\ forall z, inb z minus_ball -> zeval [-2; 0; 1]%Z z = 0 -> z = - sqrt 2.
Proof.
  destruct sqrt_2 as [P E]. unfold minus_ball. split; [apply in_half; nra|]. intros z Hz Z. apply in_half in Hz.
  rewrite !zeval_cons, zeval_nil in Z. assert (K : - z = sqrt 2); [|lra]. apply (sq_unique 2); [exact P|lra|exact E|lra].
Qed.

Lemma subfield_refuted : exists pol a1 a2 nf1 nf2 x1 x2,
  renf_init dyops true 100 pol 1 a1 64 = Val nf1 /\ renf_init dyops true 100 pol 1 a2 64 = Val nf2 /\
  minimal pol x1 /\ minimal pol x2 /\
  (inb x1 a1 /\ forall z, inb z a1 -> zeval pol z = 0 -> z = x1) /\ (inb x2 a2 /\ forall z, inb z a2 -> zeval pol z = 0 -> z = x2) /\
  same_subfield x1 x2 /\ renf_equal nf1 nf2 = false.
Proof.
  destruct minus_init as (nf & I). exists (spol 1), (sball 1), minus_ball, (sfield 1), nf, (sx 1), (- sx 1).
  split; [apply sfield_init|]. split; [exact I|]. split; [apply (sminimal 1)|]. split.
  { apply (sq_minimal 1); [reflexivity|]. cbn [sx]. destruct sqrt_2 as [_ E]. change (2 * 1)%Z with 2%Z. nra. }
  split; [apply (sfields 1)|]. split; [exact minus_unique|]. split; [apply opposite_same|].
  pose proof (sfield_init 1) as I1. revert I1 I. cbn [spol sball]. generalize (sfield 1). intros nf1. unfold minus_ball. vm_compute. intros [= <-] [= <-]. reflexivity.
Qed.

Lemma equal_subfield : forall nf1 nf2 x1 x2, renf_equal nf1 nf2 = true -> is_finite (f_emb nf1) = true -> is_finite (f_emb nf2) = true ->
  inb x1 (f_emb nf1) -> inb x2 (f_emb nf2) -> zeval (f_pol nf1) x1 = 0 -> zeval (f_pol nf2) x2 = 0 ->
  (forall z, zeval (f_pol nf1) z = 0 -> Rabs (x1 - z) <= 2 * (ball_rad (f_emb nf1) + ball_rad (f_emb nf2)) -> z = x1) -> same_subfield x1 x2.
Proof.
  intros nf1 nf2 x1 x2 E F1 F2 I1 I2 Z1 Z2 S. destruct (renf_equal_close nf1 nf2 x1 x2 E F1 F2 I1 I2) as (P & _ & C).
  rewrite (S x2); [intros y; reflexivity|rewrite P; exact Z2|exact C].
Qed.
