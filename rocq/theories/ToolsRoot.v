(** The concrete n-th root encloses and converges. *)
Require Import Reals List ZArith Lia Lra.
From Verif Require Import PolyR RootSpec Dyadic VcaProofs VcaTerm DyadicProofs ArbModel ArbSpec ArbProofs ElemModel ElemSpec ToolsModel ToolsSpec.
Import ListNotations.
Open Scope Z_scope.

Lemma iroot_bits_spec : forall n z, 0 <= z -> forall k r, 0 <= r -> r ^ Z.of_nat n <= z -> z < (r + 2 ^ Z.of_nat k) ^ Z.of_nat n ->
  let t := iroot_bits n z k r in 0 <= t /\ t ^ Z.of_nat n <= z < (t + 1) ^ Z.of_nat n.
Proof.
  intros n z Hz k. induction k as [|k IH]; intros r Hr H1 H2; cbn [iroot_bits].
  - cbn in H2. auto.
  - assert (P : 0 < 2 ^ Z.of_nat k) by (apply Z.pow_pos_nonneg; lia).
    destruct (Z.leb_spec ((r + 2 ^ Z.of_nat k) ^ Z.of_nat n) z) as [L|L].
    + apply IH; [lia|exact L|]. replace (r + 2 ^ Z.of_nat k + 2 ^ Z.of_nat k) with (r + 2 ^ Z.of_nat (S k)); [exact H2|].
      rewrite Nat2Z.inj_succ, Z.pow_succ_r by lia. ring.
    + apply IH; assumption.
Qed.

Lemma iroot_spec : forall n z, (1 <= n)%nat -> 0 <= z -> 0 <= iroot n z /\ iroot n z ^ Z.of_nat n <= z < (iroot n z + 1) ^ Z.of_nat n.
Proof.
  intros n z Hn Hz. apply iroot_bits_spec; [exact Hz|lia|rewrite Z.pow_0_l by lia; exact Hz|].
  rewrite Z.add_0_l, <- Z.pow_mul_r by lia. destruct (Z.eq_dec z 0) as [->|Z0]; [apply Z.pow_pos_nonneg; lia|].
  apply Z.lt_le_trans with (2 ^ Z.succ (Z.log2 z)); [apply Z.log2_spec; lia|]. apply Z.pow_le_mono_r; [lia|].
  set (l := Z.to_nat (Z.log2 z)). pose proof (Z.log2_nonneg z). replace (Z.log2 z) with (Z.of_nat l) by (unfold l; lia).
  pose proof (Nat.div_mod l n ltac:(lia)). pose proof (Nat.mod_upper_bound l n ltac:(lia)). nia.
Qed.

Open Scope R_scope.
Lemma pow_lt_inv : forall a b n, 0 <= b -> a ^ n < b ^ n -> 0 <= a -> a < b.
Proof.
  intros a b n Hb H Ha. apply Rnot_le_lt. intros L. apply (Rlt_irrefl (a ^ n)). apply Rlt_le_trans with (b ^ n); [exact H|].
  apply pow_incr. lra.
Qed.
Lemma pow_le_inv : forall a b n, (1 <= n)%nat -> 0 <= b -> a ^ n <= b ^ n -> 0 <= a -> a <= b.
Proof.
  intros a b n Hn Hb H Ha. apply Rnot_lt_le. intros L. apply (Rlt_irrefl (b ^ n)). apply Rlt_le_trans with (a ^ n); [|exact H].
  clear H. induction n as [|n IH]; [lia|]. destruct n as [|n]; [cbn; lra|]. specialize (IH ltac:(lia)).
  change (b * b ^ S n < a * a ^ S n). apply Rmult_le_0_lt_compat; [exact Hb|apply pow_le; exact Hb|exact L|exact IH].
Qed.
Lemma IZR_pow_nat : forall z n, IZR (z ^ Z.of_nat n) = IZR z ^ n.
Proof. intros z n. symmetry. apply pow_IZR. Qed.

(** The root of a scaled number between two bounds. *)
Lemma pw2_pow : forall p n, pw2 p ^ n = pw2 (Z.of_nat n * p).
Proof.
  intros p n. induction n as [|n IH]; [reflexivity|]. cbn [pow]. rewrite IH, <- pw2_add. f_equal. lia.
Qed.
Lemma iroot_scaled : forall n p d, (1 <= n)%nat -> 
  let t := iroot n (Z.max 0 (dfloor (d2exp d (Z.of_nat n * p)))) in
  (0 <= t)%Z /\ (forall y, 0 <= y -> dyv d <= y ^ n -> IZR t <= y * pw2 p) /\ (forall y, 0 <= y -> y ^ n <= dyv d -> y * pw2 p < IZR t + 1).
Proof.
  intros n p d Hn t. set (f := dfloor (d2exp d (Z.of_nat n * p))) in *. pose proof (dfloor_spec (d2exp d (Z.of_nat n * p))) as [F1 F2]. fold f in F1, F2.
  rewrite dyv_2exp in F1, F2. destruct (iroot_spec n (Z.max 0 f) Hn ltac:(lia)) as (T0 & T1 & T2). fold t in T0, T1, T2.
  pose proof (pw2_pos p) as P. pose proof (pw2_pos (Z.of_nat n * p)) as Pn. split; [exact T0|]. split; intros y Hy H.
  - apply (pow_le_inv _ _ n Hn); [nra| |apply (IZR_le 0); exact T0]. rewrite <- IZR_pow_nat, Rpow_mult_distr, pw2_pow.
    apply Rle_trans with (IZR (Z.max 0 f)); [apply IZR_le; exact T1|].
    destruct (Z.max_spec 0 f) as [[_ ->]|[_ ->]]; [nra|]. apply Rmult_le_pos; [apply pow_le; exact Hy|lra].
  - apply (pow_lt_inv _ _ n); [assert (0 <= IZR t) by (apply (IZR_le 0); exact T0); lra| |nra].
    rewrite <- (plus_IZR t 1), <- IZR_pow_nat, Rpow_mult_distr, pw2_pow.
    apply Rle_lt_trans with (dyv d * pw2 (Z.of_nat n * p)); [nra|]. apply Rlt_le_trans with (IZR f + 1); [exact F2|].
    rewrite <- (plus_IZR f 1). apply IZR_le. lia.
Qed.

Lemma dyroot_ok : root_ok dyroot.
Proof.
  intros [m r|] n p y Hn Hp Hy H; [|exact I]. apply inb_bounds in H. cbn [dyroot].
  destruct (iroot_scaled n p (dsub m r) Hn) as (L0 & L1 & _). destruct (iroot_scaled n p (dadd m r) Hn) as (U0 & _ & U2).
  set (lo := iroot n _) in *. set (hi := iroot n (Z.max 0 (dfloor (d2exp (dadd m r) (Z.of_nat n * p))))) in *.
  apply inb_bounds. unfold dyv; cbn [fst snd]. rewrite plus_IZR, minus_IZR, plus_IZR.
  rewrite dyv_sub in L1. rewrite dyv_add in U2. specialize (L1 y Hy ltac:(lra)). specialize (U2 y Hy ltac:(lra)).
  assert (E : pw2 (- p - 1) * pw2 p = / 2) by (rewrite <- pw2_add; replace (- p - 1 + p)%Z with (-1)%Z by lia; unfold pw2; simpl; lra).
  pose proof (pw2_pos p) as P. pose proof (pw2_pos (- p - 1)) as P'. set (q := pw2 (- p - 1)) in *.
  split; apply (Rmult_le_reg_r (pw2 p)); try exact P.
  - replace (((IZR lo + (IZR hi + 1)) * q - (IZR hi + 1 - IZR lo) * q) * pw2 p) with (2 * IZR lo * (q * pw2 p)) by ring. rewrite E. lra.
  - replace (((IZR lo + (IZR hi + 1)) * q + (IZR hi + 1 - IZR lo) * q) * pw2 p) with (2 * (IZR hi + 1) * (q * pw2 p)) by ring. rewrite E. lra.
Qed.

Lemma dyroot_conv : root_conv dyroot.
Proof.
  intros n y Hn Hy e He. set (e1 := Rmin (e / 2) (y / 2)).
  assert (E1 : 0 < e1) by (apply Rmin_glb_lt; lra). assert (E2 : e1 <= e / 2) by apply Rmin_l. assert (E3 : e1 <= y / 2) by apply Rmin_r.
  assert (mono : forall a b, 0 <= a < b -> a ^ n < b ^ n).
  { intros a b Hab. apply Rnot_le_lt. intros W. apply pow_le_inv in W; [lra|exact Hn|lra|lra]. }
  pose proof (mono (y - e1) y ltac:(lra)) as M1. pose proof (mono y (y + e1) ltac:(lra)) as M2.
  set (d := Rmin ((y ^ n - (y - e1) ^ n) / 2) (((y + e1) ^ n - y ^ n) / 2)).
  assert (D0 : 0 < d) by (apply Rmin_glb_lt; lra). pose proof (Rmin_l ((y ^ n - (y - e1) ^ n) / 2) (((y + e1) ^ n - y ^ n) / 2)) as D1.
  pose proof (Rmin_r ((y ^ n - (y - e1) ^ n) / 2) (((y + e1) ^ n - y ^ n) / 2)) as D2. fold d in D1, D2.
  destruct (pw2_small (e / 2) ltac:(lra)) as (P & _ & HP). exists d, P. split; [exact D0|].
  intros [m r|] p Hp H R; [|contradiction]. apply inb_bounds in H. unfold rad_le in R. cbn [dyroot].
  destruct (iroot_scaled n p (dsub m r) Hn) as (L0 & _ & L2). destruct (iroot_scaled n p (dadd m r) Hn) as (U0 & U1 & _).
  set (lo := iroot n _) in *. set (hi := iroot n (Z.max 0 (dfloor (d2exp (dadd m r) (Z.of_nat n * p))))) in *.
  unfold rad_le, dyv; cbn [fst snd]. rewrite minus_IZR, plus_IZR. rewrite dyv_sub in L2. rewrite dyv_add in U1.
  specialize (L2 (y - e1) ltac:(lra) ltac:(lra)). specialize (U1 (y + e1) ltac:(lra) ltac:(lra)).
  assert (E : pw2 (- p - 1) * pw2 p = / 2) by (rewrite <- pw2_add; replace (- p - 1 + p)%Z with (-1)%Z by lia; unfold pw2; simpl; lra).
  pose proof (pw2_pos p) as Pp. pose proof (pw2_pos (- p - 1)) as P'.
  assert (Hq : 1 <= e / 2 * pw2 p).
  { specialize (HP p Hp). assert (pw2 (- p) * pw2 p = 1) by (rewrite <- pw2_add; replace (- p + p)%Z with 0%Z by lia; reflexivity). nra. }
  apply (Rmult_le_reg_r (pw2 p)); [exact Pp|]. rewrite Rmult_assoc, E. nra.
Qed.
