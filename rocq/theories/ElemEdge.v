(** More histories on which element functions go wrong: a tiny generator, the
    generator in degree one, and the quotient of a rational by an element. *)
Require Import Reals List ZArith Bool Lia Lra Psatz Znumtheory.
From Verif Require Import PolyR RootSpec RootModel ExtraModel VcaProofs Dyadic DyadicProofs ArbModel ArbSpec ArbProofs
  FieldProofs RefineProofs DyBall DyBallProofs ArbRefute ElemModel ElemSpec ElemProofs ElemLoops ElemHist NfArith NfArithProofs ElemMore ElemRefute.
Import ListNotations.
Open Scope R_scope.

(** * A tiny generator: 2^599 x^3 = 1 *)
Definition tpol : list Z := Eval vm_compute in [-1; 0; 0; 2 ^ 599]%Z.
Definition tball : ball := Fin (5, -202)%Z (1, -202)%Z.

Lemma tval : forall x, zeval tpol x = 0 -> (x * IZR (2 ^ 200)) * (x * IZR (2 ^ 200)) * (x * IZR (2 ^ 200)) = 2.
Proof.
  intros x H. unfold zeval, tpol in H. simpl in H.
  match type of H with context [IZR (Zpos ?p)] => replace (Zpos p) with (2 ^ 599)%Z in H by (vm_compute; reflexivity) end.
  assert (E : IZR (2 ^ 600) = 2 * IZR (2 ^ 599)) by (rewrite <- mult_IZR; apply f_equal; reflexivity).
  assert (F : IZR (2 ^ 600) = IZR (2 ^ 200) * IZR (2 ^ 200) * IZR (2 ^ 200)) by (rewrite <- !mult_IZR; apply f_equal; reflexivity).
  replace (x * IZR (2 ^ 200) * (x * IZR (2 ^ 200)) * (x * IZR (2 ^ 200))) with (x * x * x * IZR (2 ^ 600)) by (rewrite F; ring).
  rewrite E. set (k := IZR (2 ^ 599)) in *. lra.
Qed.

Lemma tminimal : forall x, zeval tpol x = 0 -> minimal tpol x.
Proof.
  intros x Hx. constructor; [exact Hx|cbn; lia|cbn; lia|]. intros p L E. apply tval in Hx.
  destruct (short3 p L) as (a & b & c & _ & V & F). rewrite V in E. set (k := IZR (2 ^ 200)) in *.
  assert (Pk : 0 < k) by (apply IZR_lt; reflexivity).
  assert (E' : IZR (a * 2 ^ 200 * 2 ^ 200) + IZR (b * 2 ^ 200) * (x * k) + IZR c * ((x * k) * (x * k)) = 0).
  { rewrite !mult_IZR. fold k. replace (IZR a * k * k + IZR b * k * (x * k) + IZR c * (x * k * (x * k))) with
      (k * k * (IZR a + IZR b * x + IZR c * (x * x))) by ring. rewrite E. ring. }
  destruct (cube_indep _ _ _ _ Hx E') as (A & B & C). apply F; lia.
Qed.

Lemma tin : forall x, inb x tball <-> 1 <= x * IZR (2 ^ 200) <= 1.5.
Proof.
  intros x. unfold tball. rewrite inb_bounds. change (-202)%Z with (- (202))%Z. rewrite !dyv_neg_exp by lia.
  assert (E : IZR (2 ^ 202) = 4 * IZR (2 ^ 200)) by (rewrite <- mult_IZR; apply f_equal; reflexivity). rewrite E.
  assert (P : 0 < IZR (2 ^ 200)) by (apply IZR_lt; reflexivity). set (k := IZR (2 ^ 200)) in *.
  assert (K : forall c, c / (4 * k) * k = c / 4) by (intros c; field; lra).
  split; intros [A B]; split.
  - apply (Rmult_le_compat_r k) in A; [|lra]. rewrite Rmult_minus_distr_r, !K in A. lra.
  - apply (Rmult_le_compat_r k) in B; [|lra]. rewrite Rmult_plus_distr_r, !K in B. lra.
  - apply (Rmult_le_reg_r k); [exact P|]. rewrite Rmult_minus_distr_r, !K. lra.
  - apply (Rmult_le_reg_r k); [exact P|]. rewrite Rmult_plus_distr_r, !K. lra.
Qed.

Lemma troot : exists x, inb x tball /\ zeval tpol x = 0.
Proof.
  destruct cube_root as (z & Hz & E). assert (P : 0 < IZR (2 ^ 200)) by (apply IZR_lt; reflexivity).
  exists (z / IZR (2 ^ 200)). split.
  - apply tin. replace (z / IZR (2 ^ 200) * IZR (2 ^ 200)) with z by (field; lra). assert (z < 1.5) by nra. lra.
  - unfold zeval, tpol. simpl.
    match goal with |- context [IZR (Zpos ?p)] => replace (Zpos p) with (2 ^ 599)%Z by (vm_compute; reflexivity) end.
    assert (F : 2 * IZR (2 ^ 599) = IZR (2 ^ 200) * IZR (2 ^ 200) * IZR (2 ^ 200)) by (rewrite <- !mult_IZR; apply f_equal; reflexivity).
    set (k := IZR (2 ^ 200)) in *. set (h := IZR (2 ^ 599)) in *. replace h with (k * k * k / 2) by lra.
    assert (W : z / k * (z / k * (z / k * (k * k * k / 2))) = z * z * z / 2) by (field; lra). rewrite E in W.
    change (IZR (Z.pow_pos 2 200)) with k. lra.
Qed.

Lemma tunique : forall x, zeval tpol x = 0 -> forall z, zeval tpol z = 0 -> z = x.
Proof.
  intros x Hx z Hz. apply tval in Hx. apply tval in Hz. assert (P : 0 < IZR (2 ^ 200)) by (apply IZR_lt; reflexivity).
  set (k := IZR (2 ^ 200)) in *. set (u := x * k) in *. set (v := z * k) in *.
  assert (E : (v - u) * (v * v + v * u + u * u) = 0) by lra. apply Rmult_integral in E.
  assert (u <> 0) by (intros W; rewrite W in Hx; lra). destruct E as [E|E]; [|exfalso; assert (0 < u * u) by nra; nra].
  apply (Rmult_eq_reg_r k); [|lra]. unfold u, v in E. lra.
Qed.

Definition tstate (l : list call) : out (renf * mem) :=
  bind (renf_init dyops true 100 tpol 1 tball 64) (fun nf => runs dyops (nfc tpol) true 100 nf mem0 l).

Lemma treached : forall l nf m, tstate l = Val (nf, m) -> exists x, reached tpol tball x l nf m.
Proof.
  intros l nf m E. destruct troot as (x & Hx & Zx). exists x. split; [apply tminimal; exact Zx|]. split; [exact Hx|].
  split; [intros z _; apply tunique; exact Zx|]. unfold tstate in E.
  destruct (renf_init dyops true 100 tpol 1 tball 64) as [nf0| | |]; try discriminate. exists nf0. split; [reflexivity|exact E].
Qed.

(** Undefined answers, observed without unfolding. *)
Definition undef {A} (r : out A) : bool := match r with Undef => true | _ => false end.
Lemma undef_spec : forall A (r : out A), undef r = true -> r = Undef.
Proof. intros A [?| | |] H; try discriminate. reflexivity. Qed.
Definition sure {A} (r : out A) (h : A -> bool) : bool := match r with Val a => h a | _ => false end.
Lemma sure_spec : forall A (r : out A) h, sure r h = true -> exists a, r = Val a /\ h a = true.
Proof. intros A [a| | |] h H; try discriminate. exists a. split; [reflexivity|exact H]. Qed.

(** One addition and one subtraction later the ball contains 0 and every function
    reading the generator asks for an evaluation at a precision below 2. *)
Lemma tiny_undefined : exists pol a x l nf m, reached pol a x l nf m /\ ev x (r_elem (m 0%nat)) = x /\ 0 < x < 1 /\
  sgn dyops true 100 nf (m 0%nat) = Undef /\
  cmp dyops (nfc pol) true 100 nf (m 0%nat) (m 2%nat) = Undef /\
  cmp_q dyops (nfc pol) true 100 nf (m 0%nat) 1 (2 ^ 200) = Undef /\
  floor dyops true 100 nf (m 0%nat) = Undef /\
  ceil dyops true 100 nf (m 0%nat) = Undef /\
  fdiv dyops (nfc pol) true false 100 nf (m 1%nat) (m 0%nat) = Undef /\
  cfrac dyops (nfc pol) true 100 nf (m 0%nat) 1 = Undef /\
  get_arb dyops true 100 nf (m 0%nat) 64 = Undef.
Proof.
  pose (l := [KGen 0; KAddZ 0 0 1; KSubZ 0 0 1; KOne 1]%Z).
  assert (E : sure (tstate l) (fun '(nf, m) =>
    elem_eqb (r_elem (m 0%nat)) jg && (undef (sgn dyops true 100 nf (m 0%nat)) && (undef (cmp dyops (nfc tpol) true 100 nf (m 0%nat) (m 2%nat)) &&
     (undef (cmp_q dyops (nfc tpol) true 100 nf (m 0%nat) 1 (2 ^ 200)) && (undef (floor dyops true 100 nf (m 0%nat)) &&
     (undef (ceil dyops true 100 nf (m 0%nat)) && (undef (fdiv dyops (nfc tpol) true false 100 nf (m 1%nat) (m 0%nat)) &&
     (undef (cfrac dyops (nfc tpol) true 100 nf (m 0%nat) 1) && undef (get_arb dyops true 100 nf (m 0%nat) 64))))))))) = true) by calc.
  apply sure_spec in E. destruct E as ([nf m] & Es & E). destruct (treached l nf m Es) as (x & Hr).
  do 8 (apply andb_true_iff in E; destruct E as [?E E]).
  exists tpol, tball, x, l, nf, m. split; [exact Hr|]. split; [|split; [|auto 10 using undef_spec]].
  - assert (r_elem (m 0%nat) = jg) as ->; [|apply jg_val]. apply elem_eqb_eq. assumption.
  - destruct Hr as (_ & Hx & _). apply tin in Hx. assert (P : 2 < IZR (2 ^ 200)) by (apply IZR_lt; reflexivity).
    split; nra.
Qed.

(** The answer depends on the history: the sign of the fresh generator is found. *)
Lemma history_refuted : exists pol a x l1 nf1 m1 l2 nf2 m2,
  reached pol a x l1 nf1 m1 /\ reached pol a x l2 nf2 m2 /\ r_elem (m1 0%nat) = r_elem (m2 0%nat) /\
  (exists nf b, sgn dyops true 100 nf1 (m1 0%nat) = Val (nf, b, 1%Z)) /\ sgn dyops true 100 nf2 (m2 0%nat) = Undef.
Proof.
  pose (l1 := [KGen 0]). pose (l2 := [KGen 0; KAddZ 0 0 1; KSubZ 0 0 1]%Z).
  assert (E1 : sure (tstate l1) (fun '(nf, m) => elem_eqb (r_elem (m 0%nat)) jg && sure (sgn dyops true 100 nf (m 0%nat)) (fun r => Z.eqb (snd r) 1)) = true) by calc.
  assert (E2 : sure (tstate l2) (fun '(nf, m) => elem_eqb (r_elem (m 0%nat)) jg && undef (sgn dyops true 100 nf (m 0%nat))) = true) by calc.
  apply sure_spec in E1. destruct E1 as ([nf1 m1] & R1 & E1). apply sure_spec in E2. destruct E2 as ([nf2 m2] & R2 & E2).
  apply andb_true_iff in E1. destruct E1 as [Q1 E1]. apply andb_true_iff in E2. destruct E2 as [Q2 E2].
  apply sure_spec in E1. destruct E1 as ([[nf b] s] & E1 & E1'). apply Z.eqb_eq in E1'. cbn [snd] in E1'. subst s.
  destruct (treached l1 nf1 m1 R1) as (x & H1). destruct (treached l2 nf2 m2 R2) as (x' & H2).
  assert (x' = x) by (apply tunique; [apply H1|apply H2]). subst x'.
  exists tpol, tball, x, l1, nf1, m1, l2, nf2, m2. split; [exact H1|]. split; [exact H2|]. apply elem_eqb_eq in Q1, Q2.
  split; [congruence|]. split; [exists nf, b; exact E1|apply undef_spec; exact E2].
Qed.

(** * The generator in degree one, and the quotient of a rational by an element *)
Lemma gen_refuted : exists pol a x l nf m, reached pol a x l nf m /\ l = [KGen 0] /\ ev x (r_elem (m 0%nat)) <> x.
Proof.
  pose (p := [-3; 2]%Z). pose (b := Fin (3, -1)%Z (1, -2)%Z).
  assert (E : sure (bind (renf_init dyops true 100 p 1 b 64) (fun nf => runs dyops (nfc p) true 100 nf mem0 [KGen 0]))
     (fun '(nf, m) => elem_eqb (r_elem (m 0%nat)) {| e_num := [2%Z]; e_den := 3 |}) = true) by calc.
  apply sure_spec in E. destruct E as ([nf m] & R & E). apply elem_eqb_eq in E.
  exists p, b, (3 / 2), [KGen 0], nf, m. split; [|split; [reflexivity|]].
  - split; [|split; [|split]].
    + constructor; [unfold p; rewrite !zeval_cons, zeval_nil; lra|cbn; lia|cbn; lia|]. intros [|c [|? ?]] L Z; [constructor| |cbn in L; lia].
      rewrite zeval_cons, zeval_nil in Z. constructor; [apply eq_IZR; lra|constructor].
    + unfold b. apply inb_bounds. change (-1)%Z with (- (1))%Z. change (-2)%Z with (- (2))%Z. rewrite !dyv_neg_exp by lia.
      change (2 ^ 1)%Z with 2%Z. change (2 ^ 2)%Z with 4%Z. lra.
    + intros z _ Z. unfold p in Z. rewrite !zeval_cons, zeval_nil in Z. lra.
    + destruct (renf_init dyops true 100 p 1 b 64) as [nf0| | |]; try discriminate. exists nf0. split; [reflexivity|exact R].
  - rewrite E. unfold ev. cbn [e_num e_den]. rewrite zeval_cons, zeval_nil. lra.
Qed.

Lemma gen_zero_undefined : forall o n nf c, f_pol nf = [0; c]%Z -> gen o n nf = Undef.
Proof. intros o n nf c E. unfold gen. rewrite E. reflexivity. Qed.

Lemma q_div_refuted : exists pol a x l nf m nf' m', reached pol a x l nf m /\
  run dyops (nfc pol) true 100 nf m (KQDiv 1 1 1 0) = Val (nf', m') /\ ev x (r_elem (m 0%nat)) <> 0 /\
  ev x (r_elem (m' 1%nat)) <> (IZR 1 / IZR 1) / ev x (r_elem (m 0%nat)).
Proof.
  destruct cube_root as (z & Hz & Ez). pose (b := Fin (5, -2)%Z (1, -2)%Z).
  assert (E : sure (bind (renf_init dyops true 100 cube_pol 1 b 64) (fun nf => runs dyops (nfc cube_pol) true 100 nf mem0 [KSetZ 0 2%Z]))
     (fun '(nf, m) => elem_eqb (r_elem (m 0%nat)) {| e_num := [2%Z]; e_den := 1 |} &&
        sure (run dyops (nfc cube_pol) true 100 nf m (KQDiv 1 1 1 0)) (fun r => elem_eqb (r_elem (snd r 1%nat)) {| e_num := [2%Z]; e_den := 1 |})) = true) by calc.
  apply sure_spec in E. destruct E as ([nf m] & R & E). apply andb_true_iff in E. destruct E as [E0 E1]. apply elem_eqb_eq in E0.
  apply sure_spec in E1. destruct E1 as ([nf' m'] & Er & E1). apply elem_eqb_eq in E1. cbn [snd] in E1.
  exists cube_pol, b, z, [KSetZ 0 2%Z], nf, m, nf', m'. split; [|split; [exact Er|]].
  - split; [apply cube_minimal; exact Ez|]. pose proof (cube_field_ok z Hz Ez) as (_ & B & _). split; [exact B|]. split.
    + intros y _ Hy. apply (minimal_cube_unique z y Ez). exact Hy.
    + destruct (renf_init dyops true 100 cube_pol 1 b 64) as [nf0| | |]; try discriminate. exists nf0. split; [reflexivity|exact R].
  - rewrite E0, E1. unfold ev. cbn [e_num e_den]. rewrite zeval_cons, zeval_nil.
    replace ((2 + z * 0) / 1) with 2 by field. split; lra.
Qed.
