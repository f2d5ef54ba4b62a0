(** The refutations of C16 to C19 for every ball arithmetic that works like
    FLINT's. *)
Require Import Reals List ZArith Bool Lia Lra Psatz.
From Verif Require Import PolyR RootSpec RootModel ExtraModel Dyadic DyadicProofs VcaProofs ArbModel ArbSpec ArbProofs FieldProofs
  DyBall DyRate ArbRefute FlSpec FlProofs.
Import ListNotations.
Open Scope R_scope.

Lemma dyv19 : forall m, dyv (m, -19)%Z = IZR m / 524288.
Proof. intros m. change (-19)%Z with (- (19))%Z. rewrite dyv_neg_exp by lia. reflexivity. Qed.
Lemma dyv15 : forall m, dyv (m, -15)%Z = IZR m / 32768.
Proof. intros m. change (-15)%Z with (- (15))%Z. rewrite dyv_neg_exp by lia. reflexivity. Qed.
Lemma dyv14 : forall m, dyv (m, -14)%Z = IZR m / 16384.
Proof. intros m. change (-14)%Z with (- (14))%Z. rewrite dyv_neg_exp by lia. reflexivity. Qed.
Lemma pw2_m12 : pw2 (- (12)) = / 4096.
Proof. rewrite pw2_neg_IZR by lia. reflexivity. Qed.

Section Fl.
Variable o : arbops.
Hypothesis Ho : arb_ok o.
Hypothesis Hf : arb_fl o.

(** ** Bisection *)

(** The interval kept by the bisection, from 5/64 to 25/128. *)
Lemma jump_bisection : exists m r, bisection_step o jump_pol jump_ball 12 = Val (true, Some (Fin m r)) /\
  0.0777 <= dyv m - dyv r /\ dyv m + dyv r <= 0.1962 /\ 0.05 <= dyv r /\ dyv m - dyv r <= 0.0782 /\ 0.1951 <= dyv m + dyv r /\
  (forall z, 0.0782 <= z <= 0.1953 -> inb z (Fin m r)).
Proof.
  unfold bisection_step. change (12 <? 2)%Z with false. change (interval jump_ball 12) with (Some ((2560, -15), (2560, -13)))%Z. cbv iota zeta.
  destruct (eval_sign o Hf jump_pol (2560, -15)%Z 12 1 ltac:(lia) ltac:(vm_compute; reflexivity) ltac:(vm_compute; reflexivity)) as [-> ->].
  destruct (eval_sign o Hf jump_pol (2560, -13)%Z 12 1 ltac:(lia) ltac:(vm_compute; reflexivity) ltac:(vm_compute; reflexivity)) as [-> _].
  assert (B : bisection_arf o (2560, -15)%Z (2560, -13)%Z jump_pol 1 12 = ((2560, -15), (3200, -14))%Z).
  { unfold bisection_arf. change (d2exp (dround RNear 12 (dadd (2560, -15)%Z (2560, -13)%Z)) (-1)) with (3200, -14)%Z. cbv zeta.
    change (dleb (3200, -14) (2560, -15) || dleb (2560, -13) (3200, -14))%Z%bool with false. cbv iota.
    destruct (eval_sign o Hf jump_pol (3200, -14)%Z 12 (-1) ltac:(lia) ltac:(vm_compute; reflexivity) ltac:(vm_compute; reflexivity)) as [-> ->]. reflexivity. }
  rewrite B. set (l := (2560, -15)%Z). set (h := (3200, -14)%Z).
  assert (Vl : dyv l = 5 / 64) by (unfold l; rewrite dyv15; lra). assert (Vh : dyv h = 25 / 128) by (unfold h; rewrite dyv14; lra).
  destruct (fl_interval o Hf l h 12 ltac:(lia) ltac:(lra)) as (m & r & E & Em & R0 & _ & R1).
  change (dround RDown 12 (d2exp (dadd l h) (-1))) with (2240, -14)%Z in Em. rewrite dyv14 in Em.
  rewrite half, dyv_add, Vl, Vh in R1. specialize (R1 ltac:(lra)).
  unfold slack in R1.
  assert (I1 : forall z, 5 / 64 <= z <= 25 / 128 -> inb z (o_set_interval o l h 12)) by (intros z Hz; apply (ok_set_interval o Ho); [lia|lra]).
  rewrite E in *. unfold jump_ball.
  assert (G : forall z, 5 / 64 <= z <= 25 / 128 -> dyv m - dyv r <= z <= dyv m + dyv r) by (intros z Hz; specialize (I1 z Hz); apply inb_bounds in I1; exact I1).
  pose proof (G (5 / 64) ltac:(lra)) as G1. pose proof (G (25 / 128) ltac:(lra)) as G2. clear G.
  set (lo := Rmax (dyv m - dyv r) (dyv (102407, -19)%Z - dyv (61433, -19)%Z)).
  set (hi := Rmin (dyv m + dyv r) (dyv (102407, -19)%Z + dyv (61433, -19)%Z)).
  assert (Lo : lo = 20487 / 262144).
  { unfold lo. rewrite Rmax_right; rewrite !dyv19; lra. }
  assert (Hi : 25 / 128 <= hi <= 0.19532).
  { unfold hi. rewrite Rmin_left by (rewrite !dyv19; lra). lra. }
  destruct (fl_inter o Hf m r (102407, -19)%Z (61433, -19)%Z 12 lo hi ltac:(lia) R0 ltac:(rewrite dyv19; lra) eq_refl eq_refl ltac:(lra)) as (m' & r' & E' & P0 & P1 & P2).
  exists m', r'. rewrite E'. split; [reflexivity|]. rewrite pw2_m12, (Rabs_pos_eq lo), (Rabs_pos_eq hi), (Rmax_right lo hi) in * by lra.
  assert (I2 : forall z, 0.0782 <= z <= 0.1953 -> inb z (Fin m' r')).
  { intros z Hz. rewrite <- E'. apply (ok_inter o Ho); [lia|apply I1; lra|]. apply jump_in. lra. }
  pose proof (I2 0.0782 ltac:(lra)) as Q1. pose proof (I2 0.1953 ltac:(lra)) as Q2. apply inb_bounds in Q1. apply inb_bounds in Q2.
  repeat split; try lra. exact I2.
Qed.

Lemma bisection_fl : exists x t, simple_root jump_pol x /\ inb x jump_ball /\
  bisection_step o jump_pol jump_ball 12 = Val (true, Some t) /\ ~ inb x t.
Proof.
  destruct jump_root as (x & Hx & Zx). destruct jump_bisection as (m & r & E & _ & U & _).
  exists x, (Fin m r). split; [apply jump_simple; [lra|exact Zx]|]. split; [apply jump_in; lra|]. split; [exact E|].
  rewrite inb_bounds. lra.
Qed.

(** ** Refinement *)
Definition jump_field : renf := {| f_pol := jump_pol; f_den := 1; f_emb := jump_ball; f_prec := 64; f_imm := 0 |}.

Lemma accuracy_one : forall m r, 0.05 <= dyv r -> 0.0777 <= dyv m - dyv r -> dyv m + dyv r <= 0.1962 -> 0.1951 <= dyv m + dyv r -> dyv m - dyv r <= 0.0782 ->
  rel_accuracy (Fin m r) = 1%Z.
Proof.
  intros m r R0 L U U' L'. unfold rel_accuracy, rel_error.
  destruct (Z.eqb_spec (fst r) 0) as [E|Nr]; [apply dyv_eq0 in E; lra|]. destruct (Z.eqb_spec (fst m) 0) as [E|Nm]; [apply dyv_eq0 in E; lra|].
  destruct (dexp_spec r Nr) as [A B]. destruct (dexp_spec m Nm) as [C D]. rewrite Rabs_pos_eq in A, B, C, D by lra.
  assert (P2 : pw2 (-2) = 1 / 4) by exact pw2_m2. assert (P3 : pw2 (-3) = 1 / 8) by exact pw2_m3.
  assert (P4 : pw2 (-4) = 1 / 16) by (change (-4)%Z with (-2 + -2)%Z; rewrite pw2_add, P2; lra).
  assert (P5 : pw2 (-5) = 1 / 32) by (change (-5)%Z with (-2 + -3)%Z; rewrite pw2_add, P2, P3; lra).
  assert (Er : dexp r = (-4)%Z).
  { destruct (Z_lt_le_dec (dexp r) (-4)) as [K|K]; [pose proof (pw2_le (dexp r) (-5) ltac:(lia)); lra|].
    destruct (Z_lt_le_dec (-4) (dexp r)) as [K'|K']; [pose proof (pw2_le (-4) (dexp r - 1) ltac:(lia)); lra|lia]. }
  assert (Emm : dexp m = (-2)%Z).
  { destruct (Z_lt_le_dec (dexp m) (-2)) as [K|K]; [pose proof (pw2_le (dexp m) (-3) ltac:(lia)); lra|].
    destruct (Z_lt_le_dec (-2) (dexp m)) as [K'|K']; [pose proof (pw2_le (-2) (dexp m - 1) ltac:(lia)); lra|lia]. }
  rewrite Er, Emm. reflexivity.
Qed.

Lemma refine_fl : exists x, simple_root jump_pol x /\ inb x jump_ball /\
  forall debug fuel, exists nf, refine o debug (S (S fuel)) jump_field 1 = Val nf /\ ~ inb x (f_emb nf).
Proof.
  destruct jump_root as (x & Hx & Zx). exists x. split; [apply jump_simple; [lra|exact Zx]|]. split; [apply jump_in; lra|]. intros debug fuel.
  destruct jump_bisection as (m & r & E & L & U & R0 & L' & U' & _).
  pose proof (accuracy_one m r R0 L U U' L') as A.
  assert (Newton : newton_step o jump_pol (zderiv jump_pol) jump_ball 12 = Val (false, None)).
  { unfold newton_step. change (12 <=? 0)%Z with false. change (12 <? 2)%Z with false. cbv iota zeta.
    rewrite (contains_zero_true (eval_arb o (zderiv jump_pol) jump_ball 12)); [reflexivity|].
    replace 0 with (zeval (zderiv jump_pol) (8 / 41)).
    - apply (eval_arb_ok o Ho); [lia|]. apply jump_in. lra.
    - change (zderiv jump_pol) with [-16; 82]%Z. unfold zeval. cbn. lra. }
  assert (Loop : forall i, exists j, refine_loop o (S (S fuel)) (with_imm jump_field i) 1 12 = Val {| f_pol := jump_pol; f_den := 1; f_emb := Fin m r; f_prec := 64; f_imm := j |} /\ j = i).
  { intros i. exists i. split; [|reflexivity]. cbn [refine_loop with_imm jump_field f_pol f_emb f_den f_prec f_imm].
    change (rel_accuracy jump_ball <? 1)%Z with true. cbv iota. rewrite Newton. cbn [bind]. rewrite E. cbn [bind].
    unfold comp_prec, with_emb. cbn [f_emb f_pol f_den f_prec f_imm]. rewrite A. change (WORD_MAX <? 2 * Z.abs 1)%Z with false. cbv iota. cbn [bind].
    change (1 <? 1)%Z with false. reflexivity. }
  assert (Start : forall i, comp_prec (with_imm jump_field i) 64 = Val 12%Z) by (intros i; vm_compute; reflexivity).
  unfold refine. change (Z.max (f_prec jump_field) 64) with 64%Z. destruct debug.
  - cbn [set_immutable f_imm jump_field]. change (0 =? 0)%Z with true. cbv iota.
    change (Z.max (f_prec (with_imm jump_field 1)) 64) with 64%Z. change {| f_pol := jump_pol; f_den := 1; f_emb := jump_ball; f_prec := 64; f_imm := 0 |} with jump_field.
    change (Z.max (f_prec (with_imm jump_field 1)) 64) with 64%Z. rewrite Start. cbn [bind]. destruct (Loop 1%Z) as (j & -> & ->). cbn [bind]. unfold set_immutable. cbn [f_imm].
    change (1 =? 0)%Z with false. cbv iota. eexists. split; [reflexivity|]. cbn [with_imm f_emb]. rewrite inb_bounds. lra.
  - change jump_field with (with_imm jump_field 0). rewrite Start. cbn [bind]. destruct (Loop 0%Z) as (j & -> & ->).
    eexists. split; [reflexivity|]. cbn [f_emb]. rewrite inb_bounds. lra.
Qed.

(** ** Validation *)
Lemma sgn2_fl : forall p d prec s, (2 <= prec)%Z -> contains_zero (h_eval p (bexact d) prec) = false -> msgn (h_eval p (bexact d) prec) = s ->
  sgn2 (eval_arb o p (bexact d) prec) = s.
Proof. intros p d prec s Hp Z M. destruct (eval_sign o Hf p d prec s Hp Z M) as [A B]. unfold sgn2. rewrite A. exact B. Qed.

Definition near_field : renf := {| f_pol := [-2; 0; 1]%Z; f_den := 1; f_emb := near_ball; f_prec := 64; f_imm := 0 |}.

Lemma near_accepted : forall fuel, check_unique o fuel [-2; 0; 1]%Z near_ball 64 = Val true.
Proof.
  intros fuel. unfold check_unique. change (64 <? 2)%Z with false.
  change (interval near_ball 64) with (Some ((13043817825332782212, -63), (13043817825332782213, -63)))%Z. cbv iota zeta. change (2 * 64)%Z with 128%Z.
  rewrite (sgn2_fl [-2; 0; 1]%Z (13043817825332782212, -63)%Z 128 (-1) ltac:(lia) ltac:(vm_compute; reflexivity) ltac:(vm_compute; reflexivity)).
  rewrite (sgn2_fl [-2; 0; 1]%Z (13043817825332782213, -63)%Z 128 1 ltac:(lia) ltac:(vm_compute; reflexivity) ltac:(vm_compute; reflexivity)).
  change (-1 * 1 =? -1)%Z with true. cbv iota.
  assert (B : below near_ball near_ball).
  { unfold near_ball, below. split; [reflexivity|]. split; [|lra]. apply dyv_nonneg. cbn [fst]. lia. }
  destruct (below_sign _ _ (eval_below o Hf (zderiv [-2; 0; 1]%Z) _ _ 64 ltac:(lia) B) ltac:(vm_compute; reflexivity)) as [-> _]. reflexivity.
Qed.

(** A field whose enclosure is sharp enough is returned as it is. *)
Lemma init_sharp : forall debug fuel pol a c, check_unique o (S fuel) pol a 64 = Val true -> Nat.eqb (length pol) 2 = false ->
  (64 <= rel_accuracy a)%Z -> (forall i, comp_prec {| f_pol := pol; f_den := 1; f_emb := a; f_prec := 64; f_imm := i |} 64 = Val c) ->
  renf_init o debug (S fuel) pol 1 a 64 = Val {| f_pol := pol; f_den := 1; f_emb := a; f_prec := 64; f_imm := 0 |}.
Proof.
  intros debug fuel pol a c C L A K. unfold renf_init. rewrite C. cbn [bind]. rewrite L. unfold refine.
  destruct debug; cbn [set_immutable with_imm f_imm f_pol f_den f_emb f_prec]; change (Z.max 64 64) with 64%Z; change (0 =? 0)%Z with true; cbv iota;
    unfold with_imm; cbn [f_imm f_pol f_den f_emb f_prec]; change (Z.max 64 64) with 64%Z; rewrite K; cbn [bind refine_loop f_emb];
    destruct (Z.ltb_spec (rel_accuracy a) 64) as [|_]; try lia; reflexivity.
Qed.

Lemma check_fl : forall debug fuel, renf_init o debug (S fuel) [-2; 0; 1]%Z 1 near_ball 64 = Val near_field.
Proof.
  intros debug fuel. apply init_sharp with (c := 147%Z).
  - apply near_accepted.
  - reflexivity.
  - vm_compute. discriminate.
  - intros i. vm_compute. reflexivity.
Qed.

(** ** Equality *)
Lemma touch_left : check_unique o 300 touch_pol (Fin (big - 1, 0) (1, 0))%Z 64 = Val true.
Proof.
  unfold check_unique, touch_pol. change (64 <? 2)%Z with false.
  change (interval (Fin (big - 1, 0) (1, 0))%Z 64) with (Some ((18446744073709551615, 2), (9223372036854775808, 3)))%Z. cbv iota zeta. change (2 * 64)%Z with 128%Z.
  fold touch_pol. rewrite (sgn2_fl touch_pol (18446744073709551615, 2)%Z 128 1 ltac:(lia) ltac:(vm_compute; reflexivity) ltac:(vm_compute; reflexivity)).
  rewrite (sgn2_fl touch_pol (9223372036854775808, 3)%Z 128 (-1) ltac:(lia) ltac:(vm_compute; reflexivity) ltac:(vm_compute; reflexivity)).
  change (1 * -1 =? -1)%Z with true. cbv iota. destruct (negb _); [reflexivity|].
  replace (num_real_roots_0_1 300 (scale_0_1 touch_pol (dy_fmpq (18446744073709551615, 2)%Z) (dy_fmpq (9223372036854775808, 3)%Z))) with (Some 1%nat) by (vm_compute; reflexivity).
  reflexivity.
Qed.

Lemma touch_right : check_unique o 300 touch_pol (Fin (big + 1, 0) (1, 0))%Z 64 = Val true.
Proof.
  unfold check_unique, touch_pol. change (64 <? 2)%Z with false.
  change (interval (Fin (big + 1, 0) (1, 0))%Z 64) with (Some ((9223372036854775808, 3), (9223372036854775809, 3)))%Z. cbv iota zeta. change (2 * 64)%Z with 128%Z.
  fold touch_pol. rewrite (sgn2_fl touch_pol (9223372036854775808, 3)%Z 128 (-1) ltac:(lia) ltac:(vm_compute; reflexivity) ltac:(vm_compute; reflexivity)).
  rewrite (sgn2_fl touch_pol (9223372036854775809, 3)%Z 128 1 ltac:(lia) ltac:(vm_compute; reflexivity) ltac:(vm_compute; reflexivity)).
  change (-1 * 1 =? -1)%Z with true. cbv iota. destruct (negb _); [reflexivity|].
  replace (num_real_roots_0_1 300 (scale_0_1 touch_pol (dy_fmpq (9223372036854775808, 3)%Z) (dy_fmpq (9223372036854775809, 3)%Z))) with (Some 1%nat) by (vm_compute; reflexivity).
  reflexivity.
Qed.

Lemma touch_fields : forall debug, renf_init o debug 300 touch_pol 1 (Fin (big - 1, 0) (1, 0))%Z 64 = Val (touch_field (big - 1)) /\
  renf_init o debug 300 touch_pol 1 (Fin (big + 1, 0) (1, 0))%Z 64 = Val (touch_field (big + 1)).
Proof.
  intros debug. split.
  - apply init_sharp with (c := 533%Z); [exact touch_left|reflexivity|vm_compute; discriminate|intros i; vm_compute; reflexivity].
  - apply init_sharp with (c := 535%Z); [exact touch_right|reflexivity|vm_compute; discriminate|intros i; vm_compute; reflexivity].
Qed.
End Fl.

Lemma near_no_root : forall x, inb x near_ball -> zeval [-2; 0; 1]%Z x <> 0.
Proof.
  intros x Hx Zx. unfold near_ball in Hx. rewrite inb_bounds in Hx. rewrite zeval2 in Zx.
  change (-80)%Z with (- (80))%Z in Hx. change (-70)%Z with (- (70))%Z in Hx.
  rewrite (dyv_neg_exp _ 80), (dyv_neg_exp _ 70) in Hx by lia.
  change (2 ^ 80)%Z with 1208925819614629174706176%Z in Hx. change (2 ^ 70)%Z with 1180591620717411303424%Z in Hx.
  set (l := 1709679290002018430153467 / 1208925819614629174706176 - 1 / 1180591620717411303424) in Hx.
  assert (Hl : 0 < l /\ 2 < l * l) by (unfold l; split; lra). nra.
Qed.

Lemma check_every : exists pol a, (forall x, inb x a -> zeval pol x <> 0) /\ forall o, arb_fl o -> forall debug fuel,
  exists nf, renf_init o debug (S fuel) pol 1 a 64 = Val nf /\ f_emb nf = a.
Proof.
  exists [-2; 0; 1]%Z, near_ball. split; [exact near_no_root|]. intros o Hf debug fuel. exists near_field. split; [apply check_fl, Hf|reflexivity].
Qed.

Lemma bisection_every : exists pol a x prec, unique_root pol a /\ simple_root pol x /\ inb x a /\ forall o, arb_ok o -> arb_fl o ->
  exists t, bisection_step o pol a prec = Val (true, Some t) /\ ~ inb x t.
Proof.
  destruct jump_root as (x & Hx & Zx). exists jump_pol, jump_ball, x, 12%Z. split; [exact jump_unique_root|]. split; [apply jump_simple; [lra|exact Zx]|].
  split; [apply jump_in; lra|]. intros o Ho Hf. destruct (jump_bisection o Ho Hf) as (m & r & E & _ & U & _).
  exists (Fin m r). split; [exact E|]. rewrite inb_bounds. lra.
Qed.

Lemma refine_every : exists nf x prec, unique_root (f_pol nf) (f_emb nf) /\ simple_root (f_pol nf) x /\ inb x (f_emb nf) /\ f_imm nf = 0%Z /\
  forall o, arb_ok o -> arb_fl o -> forall debug fuel, exists nf', refine o debug (S (S fuel)) nf prec = Val nf' /\ ~ inb x (f_emb nf').
Proof.
  destruct jump_root as (x & Hx & Zx). exists jump_field, x, 1%Z. split; [exact jump_unique_root|]. split; [apply jump_simple; [lra|exact Zx]|].
  split; [apply jump_in; lra|]. split; [reflexivity|]. intros o Ho Hf debug fuel. destruct (refine_fl o Ho Hf) as (x' & Sx & Ix & H).
  assert (x' = x) by (apply (jump_unique x); [lra|exact Zx|exact Ix|apply Sx]). subst x'. exact (H debug fuel).
Qed.

Lemma equal_every : exists pol a1 a2 x y, x <> y /\ inb x a1 /\ zeval pol x = 0 /\ (forall z, inb z a1 -> zeval pol z = 0 -> z = x) /\
  inb y a2 /\ zeval pol y = 0 /\ (forall z, inb z a2 -> zeval pol z = 0 -> z = y) /\
  forall o, arb_fl o -> forall debug, exists nf1 nf2, renf_init o debug 300 pol 1 a1 64 = Val nf1 /\ renf_init o debug 300 pol 1 a2 64 = Val nf2 /\
    f_emb nf1 = a1 /\ f_emb nf2 = a2 /\ renf_equal nf1 nf2 = true.
Proof.
  exists touch_pol, (Fin (big - 1, 0) (1, 0))%Z, (Fin (big + 1, 0) (1, 0))%Z.
  assert (S1 : 1 < sqrt 2) by (rewrite <- sqrt_1 at 1; apply sqrt_lt_1; lra).
  assert (S2 : sqrt 2 * sqrt 2 = 2) by (apply sqrt_sqrt; lra).
  assert (S3 : sqrt 2 < 2) by nra.
  exists (IZR big - sqrt 2), (IZR big + sqrt 2).
  assert (R : forall z, zeval touch_pol z = 0 -> z = IZR big - sqrt 2 \/ z = IZR big + sqrt 2).
  { intros z Hz. rewrite touch_eval in Hz.
    assert (E : (z - IZR big - sqrt 2) * (z - IZR big + sqrt 2) = 0) by nra.
    apply Rmult_integral in E. destruct E; lra. }
  rewrite !inb_bounds, !dyv_int, minus_IZR, plus_IZR.
  split; [lra|]. split; [lra|]. split; [rewrite touch_eval; nra|].
  split. { intros z Hz Zz. rewrite inb_bounds, !dyv_int, minus_IZR in Hz. destruct (R z Zz); lra. }
  split; [lra|]. split; [rewrite touch_eval; nra|].
  split. { intros z Hz Zz. rewrite inb_bounds, !dyv_int, plus_IZR in Hz. destruct (R z Zz); lra. }
  intros o Hf debug. destruct (touch_fields o Hf debug) as [-> ->]. eexists _, _. repeat split.
Qed.
