(** Elements that convert to the wrong double, and examples. *)
Require Import Reals Lra Lia List ZArith Bool.
From Verif Require Import PolyR RootSpec VcaProofs Dyadic DyadicProofs ArbModel ArbSpec ArbProofs FieldProofs RefineProofs DyBall DyBallProofs
  ElemModel ElemSpec ElemProofs ElemLoops ElemHist NfArith NfArithProofs ElemMore ElemRefute ElemEdge GetdModel GetdSpec GetdProofs GetdMore.
Import ListNotations.
Open Scope R_scope.

Definition cball : ball := Fin (5, -2)%Z (1, -2)%Z.
Definition cstate (l : list call) : out (renf * mem) :=
  bind (renf_init dyops true 100 cube_pol 1 cball 64) (fun nf => runs dyops (nfc cube_pol) true 100 nf mem0 l).

Lemma cin : forall z, 1 < z < 2 -> z * z * z = 2 -> inb z cball.
Proof. intros z Hz E. apply (cube_field_ok z Hz E). Qed.

Lemma creached : forall z, 1 < z < 2 -> z * z * z = 2 -> forall l nf m, cstate l = Val (nf, m) -> reached cube_pol cball z l nf m.
Proof.
  intros z Hz Ez l nf m E. split; [apply cube_minimal; exact Ez|]. split; [apply cin; assumption|].
  split; [intros y _; apply minimal_cube_unique; exact Ez|]. unfold cstate in E.
  destruct (renf_init dyops true 100 cube_pol 1 cball 64) as [nf0| | |]; try discriminate. exists nf0. split; [reflexivity|exact E].
Qed.

Definition getd (nf : renf) (y : relem) (md : rnd) := get_d dyops (nfc cube_pol) true 100 nf y md.
Definition is_dbl (d : dbl) (r : renf * relem * dbl) : bool :=
  match snd r, d with DF (a, b), DF (c, e) => Z.eqb a c && Z.eqb b e | DInf s, DInf t => Bool.eqb s t | _, _ => false end.
Lemma is_dbl_spec : forall d r, is_dbl d r = true -> snd r = d.
Proof.
  intros d [p d']. unfold is_dbl. cbn [snd]. destruct d' as [[a b]|s], d as [[c e]|t]; try discriminate; intros H.
  - apply andb_true_iff in H. destruct H as [H1 H2]. apply Z.eqb_eq in H1, H2. congruence.
  - apply eqb_prop in H. congruence.
Qed.

(** (3*2^60 - 1)/2^1135 is nearest to 2^-1074, but rounding to 53 bits gives 1.5*2^-1074 first. *)
Definition sub_n : Z := Eval vm_compute in (3 * 2 ^ 60 - 1)%Z.
Definition sub_d : Z := Eval vm_compute in (2 ^ 1135)%Z.

Lemma getd_sub_refuted : exists pol a x l nf m nf' y d, reached pol a x l nf m /\
  get_d dyops (nfc pol) true 100 nf (m 0%nat) RNear = Val (nf', y, DF d) /\
  is_double (pw2 (-1074)) /\ Rabs (ev x (r_elem (m 0%nat)) - pw2 (-1074)) < Rabs (ev x (r_elem (m 0%nat)) - dyv d).
Proof.
  pose (l := [KSetQ 0 sub_n sub_d]).
  assert (E : sure (cstate l) (fun '(nf, m) => elem_eqb (r_elem (m 0%nat)) {| e_num := [sub_n]; e_den := sub_d |} &&
    sure (getd nf (m 0%nat) RNear) (is_dbl (DF (2, -1074)%Z))) = true) by calc.
  apply sure_spec in E. destruct E as ([nf m] & R1 & E). apply andb_true_iff in E. destruct E as [Q E]. apply elem_eqb_eq in Q.
  apply sure_spec in E. destruct E as ([[nf' y] d] & G & D). apply is_dbl_spec in D. cbn [snd] in D. subst d.
  destruct cube_root as (z & Hz & Ez). exists cube_pol, cball, z, l, nf, m, nf', y, (2, -1074)%Z.
  split; [apply creached; assumption|]. split; [exact G|]. split.
  { exists 1%Z, (-1074)%Z. repeat split; try lia. ring. }
  rewrite Q. rewrite (rational_val z) by reflexivity. cbn [e_num e_den nth].
  assert (V : IZR sub_n / IZR sub_d = (3 / 2 - / IZR (2 ^ 61)) * pw2 (-1074)).
  { change sub_d with (2 ^ 1135)%Z. rewrite (pw2_IZR 1135) by lia. replace 1135%Z with (61 + 1074)%Z by lia. rewrite pw2_add, <- (pw2_IZR 61) by lia.
    pose proof (pw2_inv 1074) as P. change (- (1074))%Z with (-1074)%Z in P. pose proof (pw2_pos 1074).
    change sub_n with (3 * 2 ^ 60 - 1)%Z. rewrite minus_IZR, mult_IZR.
    replace (IZR (2 ^ 61)) with (2 * IZR (2 ^ 60)) by (rewrite <- mult_IZR; apply f_equal; reflexivity).
    assert (0 < IZR (2 ^ 60)) by (apply IZR_lt; reflexivity). set (k := IZR (2 ^ 60)) in *. set (h := pw2 1074) in *. set (g := pw2 (-1074)) in *.
    replace g with (/ h); [field; lra|]. apply Rmult_eq_reg_r with h; [|lra]. rewrite Rinv_l, P by lra. reflexivity. }
  rewrite V. unfold dyv. cbn [fst snd]. pose proof (pw2_pos (-1074)) as P. set (g := pw2 (-1074)) in *.
  assert (K : 0 < / IZR (2 ^ 61) < 1 / 4).
  { assert (4 < IZR (2 ^ 61)) by (apply IZR_lt; reflexivity). split; [apply Rinv_0_lt_compat; lra|].
    apply Rmult_lt_reg_r with (IZR (2 ^ 61)); [lra|]. rewrite Rinv_l by lra. lra. }
  set (q := / IZR (2 ^ 61)) in *. rewrite Rabs_pos_eq by nra. rewrite Rabs_left by nra. nra.
Qed.

(** An irrational number less than 1 beyond DBL_MAX becomes infinite in every
    direction. *)
Definition over_n : list Z := [dbl_max_z - 1; 1]%Z.

Lemma over_val : forall z, 1 < z < 2 -> MAX < ev z {| e_num := over_n; e_den := 1 |} < MAX + 1.
Proof.
  intros z Hz. unfold ev, over_n. cbn [e_num e_den]. rewrite !zeval_cons, zeval_nil, minus_IZR.
  assert (M : IZR dbl_max_z = MAX) by (rewrite <- max_z; field). rewrite M. split; apply Rmult_lt_reg_r with 1; try lra;
    unfold Rdiv; rewrite Rmult_assoc, Rinv_l by lra; lra.
Qed.

Lemma getd_over_refuted : exists pol a x l nf m nf0 y0 nf1 y1, reached pol a x l nf m /\
  MAX < ev x (r_elem (m 0%nat)) < MAX + 1 /\
  get_d dyops (nfc pol) true 100 nf (m 0%nat) RFloor = Val (nf0, y0, DInf false) /\
  get_d dyops (nfc pol) true 100 nf (m 0%nat) RNear = Val (nf1, y1, DInf false) /\
  ~ is_round RFloor (ev x (r_elem (m 0%nat))) (DInf false) /\ ~ is_round RNear (ev x (r_elem (m 0%nat))) (DInf false).
Proof.
  pose (l := [KSetPoly 0 over_n 1]%Z).
  assert (E : sure (cstate l) (fun '(nf, m) => elem_eqb (r_elem (m 0%nat)) {| e_num := over_n; e_den := 1 |} &&
    (sure (getd nf (m 0%nat) RFloor) (is_dbl (DInf false)) && sure (getd nf (m 0%nat) RNear) (is_dbl (DInf false)))) = true) by calc.
  apply sure_spec in E. destruct E as ([nf m] & R1 & E). apply andb_true_iff in E. destruct E as [Q E]. apply elem_eqb_eq in Q.
  apply andb_true_iff in E. destruct E as [E F]. apply sure_spec in E, F.
  destruct E as ([[nf0 y0] d0] & G0 & D0). apply is_dbl_spec in D0. cbn [snd] in D0. subst d0.
  destruct F as ([[nf1 y1] d1] & G1 & D1). apply is_dbl_spec in D1. cbn [snd] in D1. subst d1.
  destruct cube_root as (z & Hz & Ez). exists cube_pol, cball, z, l, nf, m, nf0, y0, nf1, y1.
  split; [apply creached; assumption|]. rewrite Q. pose proof (over_val z Hz) as V. split; [exact V|]. split; [exact G0|]. split; [exact G1|].
  split; cbn [is_round round_floor round_near].
  - intros [W _]. discriminate.
  - assert (L : MAX + 1 <= LIM); [|lra]. rewrite LIM_eq. unfold MAX. rewrite (pw2_int 971 970) by lia.
    assert (P : 1 <= pw2 970) by (rewrite <- pw2_0; apply pw2_le; lia). change (2 ^ (971 - 970))%Z with 2%Z.
    change (2 ^ 53 - 1)%Z with 9007199254740991%Z. change (2 ^ 54 - 1)%Z with 18014398509481983%Z. lra.
Qed.

(** A larger number converts to a smaller double. *)
Lemma getd_mono_refuted : exists pol a x l nf m nf0 y0 nf1 y1 d, reached pol a x l nf m /\
  ev x (r_elem (m 0%nat)) < ev x (r_elem (m 1%nat)) /\
  get_d dyops (nfc pol) true 100 nf (m 0%nat) RNear = Val (nf0, y0, DInf false) /\
  get_d dyops (nfc pol) true 100 nf (m 1%nat) RNear = Val (nf1, y1, DF d).
Proof.
  pose (l := [KSetPoly 0 over_n 1; KSetZ 1 (dbl_max_z + 1)]%Z).
  assert (E : sure (cstate l) (fun '(nf, m) => elem_eqb (r_elem (m 0%nat)) {| e_num := over_n; e_den := 1 |} &&
    (elem_eqb (r_elem (m 1%nat)) {| e_num := [(dbl_max_z + 1)%Z]; e_den := 1 |} &&
    (sure (getd nf (m 0%nat) RNear) (is_dbl (DInf false)) && sure (getd nf (m 1%nat) RNear) (is_dbl (DF dbl_max))))) = true) by calc.
  apply sure_spec in E. destruct E as ([nf m] & R1 & E). apply andb_true_iff in E. destruct E as [Q E]. apply elem_eqb_eq in Q.
  apply andb_true_iff in E. destruct E as [Q1 E]. apply elem_eqb_eq in Q1.
  apply andb_true_iff in E. destruct E as [E F]. apply sure_spec in E, F.
  destruct E as ([[nf0 y0] d0] & G0 & D0). apply is_dbl_spec in D0. cbn [snd] in D0. subst d0.
  destruct F as ([[nf1 y1] d1] & G1 & D1). apply is_dbl_spec in D1. cbn [snd] in D1. subst d1.
  destruct cube_root as (z & Hz & Ez). exists cube_pol, cball, z, l, nf, m, nf0, y0, nf1, y1, dbl_max.
  split; [apply creached; assumption|]. rewrite Q, Q1. pose proof (over_val z Hz) as V. split; [|split; [exact G0|exact G1]].
  apply Rlt_le_trans with (1 := proj2 V). rewrite (rational_val z {| e_num := [(dbl_max_z + 1)%Z]; e_den := 1 |}) by reflexivity.
  cbn [e_num e_den nth]. rewrite plus_IZR. assert (M : IZR dbl_max_z = MAX) by (rewrite <- max_z; field). rewrite M.
  apply Req_le. field.
Qed.

(** The hash of a tiny generator is found when the element is fresh and undefined
    after adding and subtracting 1. *)
Lemma hash_refuted : exists pol a x l1 nf1 m1 l2 nf2 m2,
  reached pol a x l1 nf1 m1 /\ reached pol a x l2 nf2 m2 /\ r_elem (m1 0%nat) = r_elem (m2 0%nat) /\
  (exists nf y d, hash_key dyops (nfc pol) true 100 nf1 (m1 0%nat) = Val (nf, y, d)) /\
  hash_key dyops (nfc pol) true 100 nf2 (m2 0%nat) = Undef.
Proof.
  pose (l1 := [KGen 0]). pose (l2 := [KGen 0; KAddZ 0 0 1; KSubZ 0 0 1]%Z).
  assert (E1 : sure (tstate l1) (fun '(nf, m) => elem_eqb (r_elem (m 0%nat)) jg && sure (hash_key dyops (nfc tpol) true 100 nf (m 0%nat)) (fun r => true)) = true) by calc.
  assert (E2 : sure (tstate l2) (fun '(nf, m) => elem_eqb (r_elem (m 0%nat)) jg && undef (hash_key dyops (nfc tpol) true 100 nf (m 0%nat))) = true) by calc.
  apply sure_spec in E1. destruct E1 as ([nf1 m1] & R1 & E1). apply sure_spec in E2. destruct E2 as ([nf2 m2] & R2 & E2).
  apply andb_true_iff in E1. destruct E1 as [Q1 E1]. apply andb_true_iff in E2. destruct E2 as [Q2 E2].
  apply sure_spec in E1. destruct E1 as ([[nf y] d] & E1 & _).
  destruct (treached l1 nf1 m1 R1) as (x & H1). destruct (treached l2 nf2 m2 R2) as (x' & H2).
  assert (x' = x) by (apply tunique; [apply H1|apply H2]). subst x'.
  exists tpol, tball, x, l1, nf1, m1, l2, nf2, m2. split; [exact H1|]. split; [exact H2|]. apply elem_eqb_eq in Q1, Q2.
  split; [congruence|]. split; [exists nf, y, d; exact E1|apply undef_spec; exact E2].
Qed.
