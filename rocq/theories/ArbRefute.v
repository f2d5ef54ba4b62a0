(** Inputs on which the ball routines violate their intended meaning, and
    examples.  All are run with the concrete operations of DyBall.v. *)
Require Import Reals List ZArith Bool Lia Lra Psatz.
From Verif Require Import PolyR RootSpec RootModel ExtraModel VcaProofs VcaTerm Dyadic DyadicProofs ArbModel ArbSpec ArbProofs
  FieldProofs RefineProofs DyBall DyBallProofs.
Import ListNotations.
Open Scope R_scope.

Lemma pw2_neg_IZR : forall k, (0 <= k)%Z -> pw2 (- k) = / IZR (2 ^ k).
Proof.
  intros k Hk. rewrite pw2_IZR by exact Hk. pose proof (pw2_inv k) as E. pose proof (pw2_neq k) as N.
  apply (Rmult_eq_reg_r (pw2 k)); [|exact N]. rewrite Rinv_l by exact N. exact E.
Qed.

Lemma dyv_neg_exp : forall m k, (0 <= k)%Z -> dyv (m, (- k)%Z) = IZR m / IZR (2 ^ k).
Proof. intros m k Hk. unfold dyv. cbn [fst snd]. rewrite pw2_neg_IZR by exact Hk. reflexivity. Qed.

Lemma dyv_int : forall m, dyv (m, 0%Z) = IZR m.
Proof. intros m. unfold dyv. cbn [fst snd]. rewrite pw2_0. ring. Qed.

Lemma zeval2 : forall a b c x, zeval [a; b; c] x = IZR a + x * (IZR b + x * IZR c).
Proof. intros. unfold zeval. simpl. ring. Qed.

Lemma root_between : forall a b c l r, l < r -> zeval [a; b; c] l * zeval [a; b; c] r < 0 ->
  exists x, l < x < r /\ zeval [a; b; c] x = 0.
Proof.
  intros a b c l r Hlr H. destruct (peval_ivt (map IZR [a; b; c]) l r Hlr H) as (x & Hx & Hz). exists x. split; assumption.
Qed.

(** ** 41 x^2 - 16 x + 1, with roots 0.078150... and 0.312093... *)
Definition jump_pol : list Z := [1; -16; 41]%Z.
Definition jump_ball : ball := Fin (102407, -19)%Z (61433, -19)%Z.

Lemma jump_root : exists x, 0.312093 < x < 0.3125 /\ zeval jump_pol x = 0.
Proof. apply root_between; [lra|]. rewrite !zeval2. lra. Qed.

Lemma jump_in : forall x, inb x jump_ball <-> 20487 / 262144 <= x <= 0.3125.
Proof.
  intros x. unfold jump_ball. rewrite inb_bounds.
  change (-19)%Z with (- (19))%Z. rewrite !(dyv_neg_exp _ 19) by lia.
  change (IZR (2 ^ 19)) with 524288. split; intros; lra.
Qed.

Lemma jump_unique : forall x, 0.312093 < x -> zeval jump_pol x = 0 ->
  forall y, inb y jump_ball -> zeval jump_pol y = 0 -> y = x.
Proof.
  intros x Hx Zx y Hy Zy. apply jump_in in Hy. unfold jump_pol in *. rewrite zeval2 in Zx, Zy.
  assert (E : (x - y) * (41 * (x + y) - 16) = 0) by lra.
  apply Rmult_integral in E. destruct E as [E|E]; lra.
Qed.

Lemma jump_simple : forall x, 0.312093 < x -> zeval jump_pol x = 0 -> simple_root jump_pol x.
Proof. intros x Hx Zx. split; [exact Zx|]. unfold jump_pol. simpl. lra. Qed.

Lemma jump_unique_root : unique_root jump_pol jump_ball.
Proof.
  destruct jump_root as (x & Hx & Zx). exists x. split.
  - split; [|exact Zx]. apply jump_in. lra.
  - intros y [Hy Zy]. symmetry. apply (jump_unique x); try assumption; lra.
Qed.

Lemma bisection_refuted : exists pol a x prec t, unique_root pol a /\ simple_root pol x /\ inb x a /\
  bisection_step dyops pol a prec = Val (true, Some t) /\ ~ inb x t.
Proof.
  destruct jump_root as (x & Hx & Zx).
  exists jump_pol, jump_ball, x, 12%Z, (Fin (2240, -14) (61440, -20))%Z.
  split; [exact jump_unique_root|]. split; [apply jump_simple; [lra|exact Zx]|].
  split; [apply jump_in; lra|]. split; [vm_compute; reflexivity|].
  rewrite inb_bounds. change (-14)%Z with (- (14))%Z. change (-20)%Z with (- (20))%Z.
  rewrite (dyv_neg_exp _ 14), (dyv_neg_exp _ 20) by lia.
  change (IZR (2 ^ 14)) with 16384. change (IZR (2 ^ 20)) with 1048576. lra.
Qed.

(** The field made for the root 0.312... holds the root 0.078... *)
Lemma init_refuted : exists pol a x nf, unique_root pol a /\ simple_root pol x /\ inb x a /\
  check_unique dyops 100 pol a 64 = Val true /\
  renf_init dyops true 100 pol 1 a 64 = Val nf /\ ~ inb x (f_emb nf) /\
  exists y, zeval pol y = 0 /\ inb y (f_emb nf).
Proof.
  destruct jump_root as (x & Hx & Zx).
  exists jump_pol, jump_ball, x,
    {| f_pol := jump_pol; f_den := 1; f_emb := Fin (831038135107168925372678401699439685, -123) (613828078, -151);
       f_prec := 64; f_imm := 0 |}%Z.
  split; [exact jump_unique_root|]. split; [apply jump_simple; [lra|exact Zx]|].
  split; [apply jump_in; lra|]. split; [vm_compute; reflexivity|].
  split; [vm_compute; reflexivity|]. cbn [f_emb].
  change (-123)%Z with (- (123))%Z. change (-151)%Z with (- (151))%Z.
  split.
  - rewrite inb_bounds. rewrite (dyv_neg_exp _ 123), (dyv_neg_exp _ 151) by lia.
    change (2 ^ 123)%Z with 10633823966279326983230456482242756608%Z.
    change (2 ^ 151)%Z with 2854495385411919762116571938898990272765493248%Z. lra.
  - set (m := (831038135107168925372678401699439685, - (123))%Z). set (r := (613828078, - (151))%Z).
    destruct (root_between 1 (-16) 41 (dyv m - dyv r) (dyv m + dyv r)) as (y & Hy & Zy).
    + unfold m, r. rewrite (dyv_neg_exp _ 123), (dyv_neg_exp _ 151) by lia.
      change (2 ^ 151)%Z with 2854495385411919762116571938898990272765493248%Z. lra.
    + rewrite !zeval2. unfold m, r. rewrite (dyv_neg_exp _ 123), (dyv_neg_exp _ 151) by lia.
      change (2 ^ 123)%Z with 10633823966279326983230456482242756608%Z.
      change (2 ^ 151)%Z with 2854495385411919762116571938898990272765493248%Z. lra.
    + exists y. split; [exact Zy|]. apply inb_bounds. lra.
Qed.

(** ** A ball of radius 2^-70 next to the square root of 2 *)
Definition near_ball : ball := Fin (1709679290002018430153467, -80)%Z (1, -70)%Z.

Lemma check_refuted : exists pol a nf, check_unique dyops 100 pol a 64 = Val true /\
  renf_init dyops true 100 pol 1 a 64 = Val nf /\ f_emb nf = a /\
  forall x, inb x a -> zeval pol x <> 0.
Proof.
  exists [-2; 0; 1]%Z, near_ball, {| f_pol := [-2; 0; 1]; f_den := 1; f_emb := near_ball; f_prec := 64; f_imm := 0 |}%Z.
  split; [vm_compute; reflexivity|]. split; [vm_compute; reflexivity|]. split; [reflexivity|].
  intros x Hx Zx. unfold near_ball in Hx. rewrite inb_bounds in Hx. rewrite zeval2 in Zx.
  change (-80)%Z with (- (80))%Z in Hx. change (-70)%Z with (- (70))%Z in Hx.
  rewrite (dyv_neg_exp _ 80), (dyv_neg_exp _ 70) in Hx by lia.
  change (2 ^ 80)%Z with 1208925819614629174706176%Z in Hx. change (2 ^ 70)%Z with 1180591620717411303424%Z in Hx.
  set (l := 1709679290002018430153467 / 1208925819614629174706176 - 1 / 1180591620717411303424) in Hx.
  assert (Hl : 0 < l /\ 2 < l * l) by (unfold l; split; lra).
  nra.
Qed.

(** ** Two fields with touching balls *)
Definition big : Z := (2 ^ 66)%Z.
Definition touch_pol : list Z := [big * big - 2; -2 * big; 1]%Z.
Definition touch_field (m : Z) : renf :=
  {| f_pol := touch_pol; f_den := 1; f_emb := Fin (m, 0) (1, 0); f_prec := 64; f_imm := 0 |}%Z.

Lemma touch_eval : forall x, zeval touch_pol x = (x - IZR big) * (x - IZR big) - 2.
Proof.
  intros x. unfold touch_pol. rewrite zeval2, minus_IZR, !mult_IZR. ring.
Qed.

Lemma equal_refuted : exists pol a1 a2 nf1 nf2 x y,
  renf_init dyops true 300 pol 1 a1 64 = Val nf1 /\ renf_init dyops true 300 pol 1 a2 64 = Val nf2 /\
  inb x (f_emb nf1) /\ zeval pol x = 0 /\ (forall z, inb z (f_emb nf1) -> zeval pol z = 0 -> z = x) /\
  inb y (f_emb nf2) /\ zeval pol y = 0 /\ (forall z, inb z (f_emb nf2) -> zeval pol z = 0 -> z = y) /\
  renf_equal nf1 nf2 = true /\ x <> y.
Proof.
  exists touch_pol, (Fin (big - 1, 0) (1, 0))%Z, (Fin (big + 1, 0) (1, 0))%Z, (touch_field (big - 1)), (touch_field (big + 1)).
  assert (S1 : 1 < sqrt 2) by (rewrite <- sqrt_1 at 1; apply sqrt_lt_1; lra).
  assert (S2 : sqrt 2 * sqrt 2 = 2) by (apply sqrt_sqrt; lra).
  assert (S3 : sqrt 2 < 2) by nra.
  exists (IZR big - sqrt 2), (IZR big + sqrt 2).
  split; [vm_compute; reflexivity|]. split; [vm_compute; reflexivity|].
  cbn [touch_field f_emb].
  assert (R : forall z, zeval touch_pol z = 0 -> z = IZR big - sqrt 2 \/ z = IZR big + sqrt 2).
  { intros z Hz. rewrite touch_eval in Hz.
    assert (E : (z - IZR big - sqrt 2) * (z - IZR big + sqrt 2) = 0) by nra.
    apply Rmult_integral in E. destruct E; lra. }
  rewrite !inb_bounds, !dyv_int, minus_IZR, plus_IZR.
  split; [lra|]. split; [rewrite touch_eval; nra|].
  split. { intros z Hz Zz. rewrite inb_bounds, !dyv_int, minus_IZR in Hz. destruct (R z Zz); lra. }
  split; [lra|]. split; [rewrite touch_eval; nra|].
  split. { intros z Hz Zz. rewrite inb_bounds, !dyv_int, plus_IZR in Hz. destruct (R z Zz); lra. }
  split; [vm_compute; reflexivity|]. lra.
Qed.

(** ** A ball centred at zero: x^2 + 4 x - 1 *)
Lemma init_overflow : exists pol a, unique_root pol a /\ check_unique dyops 100 pol a 64 = Val true /\
  forall o debug fuel, check_unique o fuel pol a 64 = Val true -> renf_init o debug fuel pol 1 a 64 = Undef.
Proof.
  exists [-1; 4; 1]%Z, (Fin (0, 0) (1, -1))%Z.
  assert (I : forall x, inb x (Fin (0, 0) (1, -1))%Z <-> - 0.5 <= x <= 0.5).
  { intros x. rewrite inb_bounds, dyv_int. change (-1)%Z with (- (1))%Z. rewrite (dyv_neg_exp _ 1) by lia.
    change (2 ^ 1)%Z with 2%Z. split; intros; lra. }
  split; [|split; [vm_compute; reflexivity|]].
  - destruct (root_between (-1) 4 1 0 0.5) as (x & Hx & Zx); [lra|rewrite !zeval2; lra|].
    exists x. split; [split; [apply I; lra|exact Zx]|]. intros y [Hy Zy]. apply I in Hy. rewrite zeval2 in Zx, Zy.
    assert (E : (x - y) * (4 + x + y) = 0) by lra. apply Rmult_integral in E. destruct E; lra.
  - intros o debug fuel E. unfold renf_init. rewrite E. destruct debug; reflexivity.
Qed.
