(** The field without a root of C08, for every ball arithmetic that works like
    FLINT's. *)
Require Import Reals List ZArith Bool Lia Lra.
From Verif Require Import PolyR RootSpec RootModel ExtraModel Dyadic DyadicProofs VcaProofs ArbModel ArbSpec ArbProofs FieldProofs DyRate
  ArbRefute EmbModel EmbWrong FlSpec FlProofs FlRefute.
Import ListNotations.
Open Scope R_scope.

(** The first isolating interval is from 1 to 1 + 2^-63; the ball has lost its upper half. *)
Definition wball : ball := Fin (9223372036854775808, -63)%Z (1, -64)%Z.
Definition wfield (b : ball) (i : Z) : renf := {| f_pol := wrong_pol; f_den := 1; f_emb := b; f_prec := 64; f_imm := i |}.

Lemma wval : forall m, dyv (m, -64)%Z = IZR m / 18446744073709551616.
Proof. intros m. change (-64)%Z with (- (64))%Z. rewrite (dyv_neg_exp m 64) by lia. reflexivity. Qed.
Lemma wval3 : forall m, dyv (m, -63)%Z = IZR m / 9223372036854775808.
Proof. intros m. change (-63)%Z with (- (63))%Z. rewrite (dyv_neg_exp m 63) by lia. reflexivity. Qed.
Lemma w_in : forall x, 1 - 1 / 18446744073709551616 <= x <= 1 + 1 / 18446744073709551616 <-> inb x wball.
Proof. intros x. unfold wball. rewrite inb_bounds, wval, wval3. split; intros; lra. Qed.

Section Fl.
Variable o : arbops.
Hypothesis Ho : arb_ok o.
Hypothesis Hf : arb_fl o.

Lemma w_accepted : check_unique o 500 wrong_pol wball 64 = Val true.
Proof.
  unfold check_unique, wrong_pol. change (64 <? 2)%Z with false.
  change (interval wball 64) with (Some ((18446744073709551615, -64), (9223372036854775809, -63)))%Z. cbv iota zeta. change (2 * 64)%Z with 128%Z.
  fold wrong_pol. rewrite (sgn2_fl o Hf wrong_pol (18446744073709551615, -64)%Z 128 1 ltac:(lia) ltac:(vm_compute; reflexivity) ltac:(vm_compute; reflexivity)).
  rewrite (sgn2_fl o Hf wrong_pol (9223372036854775809, -63)%Z 128 (-1) ltac:(lia) ltac:(vm_compute; reflexivity) ltac:(vm_compute; reflexivity)).
  change (1 * -1 =? -1)%Z with true. cbv iota. destruct (negb _); [reflexivity|].
  replace (num_real_roots_0_1 500 (scale_0_1 wrong_pol (dy_fmpq (18446744073709551615, -64)%Z) (dy_fmpq (9223372036854775809, -63)%Z))) with (Some 1%nat) by (vm_compute; reflexivity).
  reflexivity.
Qed.

(** Newton's step leaves the ball. *)
Lemma w_newton : exists t, newton_step o wrong_pol (zderiv wrong_pol) wball 537 = Val (false, t).
Proof.
  unfold newton_step. change (537 <=? 0)%Z with false. change (537 <? 2)%Z with false. cbv iota zeta.
  destruct (contains_zero (eval_arb o (zderiv wrong_pol) wball 537)) eqn:Z; [eexists; reflexivity|].
  set (res := bneg _). destruct (bcontains wball res) eqn:C; [exfalso|eexists; reflexivity].
  set (v := 1 + 1 / 18446744073709551616).
  assert (Dv : inb (zeval (zderiv wrong_pol) v) (eval_arb o (zderiv wrong_pol) wball 537)).
  { apply (eval_arb_ok o Ho); [lia|]. apply w_in. unfold v. lra. }
  assert (Ev : zeval (zderiv wrong_pol) v = -16 * 147573952589676412928).
  { change (zderiv wrong_pol) with [- (2 * (2 ^ 67 + 16) * 2 ^ 67); 2 * (2 ^ 67 * 2 ^ 67)]%Z. unfold zeval. cbn [map peval].
    rewrite opp_IZR, !mult_IZR, plus_IZR. change (2 ^ 67)%Z with 147573952589676412928%Z. unfold v. lra. }
  assert (Y : inb (zeval wrong_pol 1) (eval_arb o wrong_pol (bmid wball) 537)).
  { apply (eval_arb_ok o Ho); [lia|]. unfold wball, bmid. unfold bexact. rewrite inb_bounds, wval3, dyv_dz. lra. }
  assert (Ey : zeval wrong_pol 1 = 254) by (rewrite wrong_eval; lra).
  assert (R : inb (- (zeval wrong_pol 1 / zeval (zderiv wrong_pol) v - 1)) res).
  { apply inb_neg. apply (ok_sub o Ho); [lia| |].
    - apply (ok_div o Ho); [lia|exact Y|exact Dv|]. rewrite Ev. lra.
    - unfold wball, bmid, bexact. rewrite inb_bounds, wval3, dyv_dz. lra. }
  apply (bcontains_subset _ _ C) in R. apply w_in in R. rewrite Ev, Ey in R. lra.
Qed.

(** The bisection keeps the upper half of the ball, from 1 to 1 + 2^-64. *)
Lemma w_bisection : exists m r, bisection_step o wrong_pol wball 537 = Val (true, Some (Fin m r)) /\ 0 <= dyv r /\
  1 - 1 / 302231454903657293676544 <= dyv m - dyv r <= 1 /\
  1 + 1 / 18446744073709551616 <= dyv m + dyv r <= 1 + 1 / 18446744073709551616 + 1 / 302231454903657293676544.
Proof.
  unfold bisection_step. change (537 <? 2)%Z with false. change (interval wball 537) with (Some ((18446744073709551615, -64), (18446744073709551617, -64)))%Z. cbv iota zeta.
  destruct (eval_sign o Hf wrong_pol (18446744073709551615, -64)%Z 537 1 ltac:(lia) ltac:(vm_compute; reflexivity) ltac:(vm_compute; reflexivity)) as [-> ->].
  destruct (eval_sign o Hf wrong_pol (18446744073709551617, -64)%Z 537 1 ltac:(lia) ltac:(vm_compute; reflexivity) ltac:(vm_compute; reflexivity)) as [-> _].
  set (c := d2exp (dround RNear 537 (dadd (18446744073709551615, -64)%Z (18446744073709551617, -64)%Z)) (-1)).
  assert (B : bisection_arf o (18446744073709551615, -64)%Z (18446744073709551617, -64)%Z wrong_pol 1 537 = (c, (18446744073709551617, -64)%Z)).
  { unfold bisection_arf. fold c. cbv zeta.
    change (dleb c (18446744073709551615, -64) || dleb (18446744073709551617, -64) c)%Z%bool with false. cbv iota.
    destruct (eval_sign o Hf wrong_pol c 537 1 ltac:(lia) ltac:(vm_compute; reflexivity) ltac:(vm_compute; reflexivity)) as [-> ->]. reflexivity. }
  rewrite B. set (h := (18446744073709551617, -64)%Z).
  assert (Vc : dyv c = 1) by (change c with (36893488147419103232, -65)%Z; change (-65)%Z with (- (65))%Z; rewrite (dyv_neg_exp _ 65) by lia; change (2 ^ 65)%Z with 36893488147419103232%Z; lra).
  assert (Vh : dyv h = 1 + 1 / 18446744073709551616) by (unfold h; rewrite wval; lra).
  destruct (fl_interval o Hf c h 537 ltac:(lia) ltac:(lra)) as (m & r & E & Em & R0 & _ & R1).
  assert (Em' : dyv m = 1 + 1 / 36893488147419103232).
  { rewrite Em.
    match goal with |- dyv ?t = _ => let t' := eval vm_compute in t in change t with t' end.
    match goal with |- dyv (?a, ?e)%Z = _ => change e with (- (Z.opp e))%Z; rewrite (dyv_neg_exp a (Z.opp e)) by (vm_compute; congruence) end.
    match goal with |- _ / IZR ?z = _ => let z' := eval vm_compute in z in change z with z' end. lra. }
  rewrite half, dyv_add, Vc, Vh in R1. specialize (R1 ltac:(lra)). unfold slack in R1.
  assert (I1 : forall z, 1 <= z <= 1 + 1 / 18446744073709551616 -> inb z (o_set_interval o c h 537)) by (intros z Hz; apply (ok_set_interval o Ho); [lia|lra]).
  rewrite E in *.
  assert (G : forall z, 1 <= z <= 1 + 1 / 18446744073709551616 -> dyv m - dyv r <= z <= dyv m + dyv r) by (intros z Hz; specialize (I1 z Hz); apply inb_bounds in I1; exact I1).
  pose proof (G 1 ltac:(lra)) as G1. pose proof (G (1 + 1 / 18446744073709551616) ltac:(lra)) as G2. clear G.
  unfold wball.
  set (lo := Rmax (dyv m - dyv r) (dyv (9223372036854775808, -63)%Z - dyv (1, -64)%Z)).
  set (hi := Rmin (dyv m + dyv r) (dyv (9223372036854775808, -63)%Z + dyv (1, -64)%Z)).
  assert (Lo : lo = dyv m - dyv r) by (unfold lo; rewrite Rmax_left; [reflexivity|rewrite wval, wval3; lra]).
  assert (Hi : hi = 1 + 1 / 18446744073709551616) by (unfold hi; rewrite Rmin_right; rewrite wval, wval3; lra).
  destruct (fl_inter o Hf m r (9223372036854775808, -63)%Z (1, -64)%Z 537 lo hi ltac:(lia) R0 ltac:(rewrite wval; lra) eq_refl eq_refl ltac:(lra)) as (m' & r' & E' & P0 & P1 & P2).
  exists m', r'. rewrite E'. split; [reflexivity|]. split; [exact P0|].
  assert (I2 : forall z, 1 <= z <= 1 + 1 / 18446744073709551616 -> inb z (Fin m' r')).
  { intros z Hz. rewrite <- E'. apply (ok_inter o Ho); [lia|apply I1; lra|]. apply w_in. lra. }
  pose proof (I2 1 ltac:(lra)) as Q1. pose proof (I2 (1 + 1 / 18446744073709551616) ltac:(lra)) as Q2. apply inb_bounds in Q1. apply inb_bounds in Q2.
  assert (Pb : pw2 (- (537)) <= 1 / 1267650600228229401496703205376).
  { eapply Rle_trans; [apply (pw2_le _ (- (100))); lia|]. rewrite <- (Rmult_1_l (pw2 _)). change (1 * pw2 (- (100))) with (dyv (1, - (100))%Z).
    rewrite (dyv_neg_exp 1 100) by lia. change (2 ^ 100)%Z with 1267650600228229401496703205376%Z. lra. }
  pose proof (pw2_pos (- (537))) as Pp.
  rewrite (Rabs_pos_eq lo), (Rabs_pos_eq hi), (Rmax_right lo hi) in * by lra. rewrite Hi, Lo in P1, P2. split; split; lra.
Qed.

Lemma w_accuracy : forall m r, 1 - 1 / 302231454903657293676544 <= dyv m - dyv r <= 1 ->
  1 + 1 / 18446744073709551616 <= dyv m + dyv r <= 1 + 1 / 18446744073709551616 + 1 / 302231454903657293676544 -> rel_accuracy (Fin m r) = 64%Z.
Proof.
  intros m r L U. unfold rel_accuracy, rel_error.
  destruct (Z.eqb_spec (fst r) 0) as [E|Nr]; [apply dyv_eq0 in E; lra|]. destruct (Z.eqb_spec (fst m) 0) as [E|Nm]; [apply dyv_eq0 in E; lra|].
  destruct (dexp_spec r Nr) as [A B]. destruct (dexp_spec m Nm) as [C D]. rewrite Rabs_pos_eq in A, B, C, D by lra.
  assert (P : forall k, (0 <= k)%Z -> pw2 (- k) = 1 / IZR (2 ^ k)).
  { intros k Hk. rewrite <- (dyv_neg_exp 1 k) by exact Hk. unfold dyv. cbn [fst snd]. ring. }
  pose proof (P 64%Z ltac:(lia)) as P64. pose proof (P 65%Z ltac:(lia)) as P65. change (- (64))%Z with (-64)%Z in P64. change (- (65))%Z with (-65)%Z in P65.
  change (2 ^ 64)%Z with 18446744073709551616%Z in P64. change (2 ^ 65)%Z with 36893488147419103232%Z in P65.
  assert (P0 : pw2 0 = 1) by (rewrite <- (pw2_IZR 0) by lia; reflexivity). assert (P1 : pw2 1 = 2) by (rewrite <- (pw2_IZR 1) by lia; reflexivity).
  assert (Er : dexp r = (-64)%Z).
  { destruct (Z_lt_le_dec (dexp r) (-64)) as [K|K]; [pose proof (pw2_le (dexp r) (-65) ltac:(lia)); lra|].
    destruct (Z_lt_le_dec (-64) (dexp r)) as [K'|K']; [pose proof (pw2_le (-64) (dexp r - 1) ltac:(lia)); lra|lia]. }
  assert (Emm : dexp m = 1%Z).
  { destruct (Z_lt_le_dec (dexp m) 1) as [K|K]; [pose proof (pw2_le (dexp m) 0 ltac:(lia)); lra|].
    destruct (Z_lt_le_dec 1 (dexp m)) as [K'|K']; [pose proof (pw2_le 1 (dexp m - 1) ltac:(lia)); lra|lia]. }
  rewrite Er, Emm. reflexivity.
Qed.

Lemma w_made_at : forall debug, exists m r, renf_init o debug 500 wrong_pol 1 wball 64 = Val (wfield (Fin m r) 0) /\ 0 <= dyv r /\
  1 - 1 / 302231454903657293676544 <= dyv m - dyv r <= 1 /\
  1 + 1 / 18446744073709551616 <= dyv m + dyv r <= 1 + 1 / 18446744073709551616 + 1 / 302231454903657293676544 /\ rel_accuracy (Fin m r) = 64%Z.
Proof.
  intros debug. destruct w_bisection as (m & r & E & R0 & L & U). pose proof (w_accuracy m r L U) as A. exists m, r. split; [|split; [exact R0|split; [exact L|split; [exact U|exact A]]]].
  - destruct w_newton as (t & Nw).
    assert (Loops : forall i f, refine_loop o (S (S f)) (wfield wball i) 64 537 = Val (wfield (Fin m r) i)).
    { intros i f. remember (S f) as k eqn:Ek. cbn [refine_loop wfield f_pol f_emb f_den f_prec f_imm].
      change (rel_accuracy wball <? 64)%Z with true. cbv iota. rewrite Nw. cbn [bind]. rewrite E. cbn [bind].
      unfold comp_prec, with_emb. cbn [f_emb f_pol f_den f_prec f_imm wfield]. rewrite A. change (WORD_MAX <? 2 * Z.abs 64)%Z with false. cbv iota. cbn [bind].
      subst k. cbn [refine_loop f_emb]. rewrite A. change (64 <? 64)%Z with false. reflexivity. }
    pose proof (fun i => Loops i 498%nat) as Loop. change (S (S 498)) with 500%nat in Loop.
    assert (Start : forall i, comp_prec (wfield wball i) 64 = Val 537%Z) by (intros i; vm_compute; reflexivity).
    unfold renf_init. rewrite w_accepted. cbn [bind]. change (Nat.eqb (length wrong_pol) 2) with false. cbv iota.
    change {| f_pol := wrong_pol; f_den := 1; f_emb := wball; f_prec := 64; f_imm := 0 |} with (wfield wball 0). unfold refine.
    destruct debug.
    + unfold set_immutable. change (f_imm (wfield wball 0) =? 0)%Z with true. cbv iota. change (with_imm (wfield wball 0) 1) with (wfield wball 1).
      change (Z.max (f_prec (wfield wball 1)) 64) with 64%Z. rewrite Start. cbn [bind]. rewrite Loop. cbn [bind]. reflexivity.
    + change (Z.max (f_prec (wfield wball 0)) 64) with 64%Z. rewrite Start. cbn [bind]. apply Loop.
Qed.

Lemma w_made : forall debug, exists b, renf_init o debug 500 wrong_pol 1 wball 64 = Val (wfield b 0) /\ forall x, inb x b -> zeval wrong_pol x <> 0.
Proof.
  intros debug. destruct (w_made_at debug) as (m & r & E & R0 & L & U & _). exists (Fin m r). split; [exact E|].
  intros x Hx Zx. apply inb_bounds in Hx. rewrite wrong_eval in Zx. change (2 ^ 67)%Z with 147573952589676412928%Z in Zx.
  set (y := 147573952589676412928 * x - 147573952589676412928 - 16) in Zx.
  assert (-17 <= y <= -7) by (unfold y; lra). nra.
Qed.

Lemma w_embedded : forall debug b, renf_init o debug 500 wrong_pol 1 wball 64 = Val (wfield b 0) -> set_embeddings o debug 0 500 wrong_pol 1 64 = Val ([wfield b 0], 2%Z).
Proof.
  intros debug b E. unfold set_embeddings.
  replace (num_real_roots_upper_bound 0 wrong_pol) with (CVal 2) by (vm_compute; reflexivity).
  replace (isolate 0 500 wrong_pol) with (VDone [] [(9223372036854775808, -63); (9223372036854775809, -63)]%Z) by (vm_compute; reflexivity).
  cbv iota zeta. change (firstn (Z.to_nat 1) [(9223372036854775808, -63); (9223372036854775809, -63)]%Z) with [(9223372036854775808, -63)]%Z.
  cbn [embed_all]. change (embed_ball 64 (9223372036854775808, -63)%Z) with wball. rewrite E. reflexivity.
Qed.

Lemma w_embedding : forall debug, exists nf, set_embeddings o debug 0 500 wrong_pol 1 64 = Val ([nf], 2%Z) /\ forall x, inb x (f_emb nf) -> zeval wrong_pol x <> 0.
Proof. intros debug. destruct (w_made debug) as (b & E & H). exists (wfield b 0). split; [apply w_embedded, E|exact H]. Qed.
End Fl.

Lemma root_every : exists p fuel, (forall n d, (0 < d)%Z -> zeval p (IZR n / IZR d) <> 0) /\ length p = 3%nat /\
  (exists ints, isolate 0 fuel p = VDone [] ints /\ length ints = 2%nat) /\
  forall o, arb_ok o -> arb_fl o -> forall debug, exists nf, set_embeddings o debug 0 fuel p 1 64 = Val ([nf], 2%Z) /\ forall x, inb x (f_emb nf) -> zeval p x <> 0.
Proof.
  exists wrong_pol, 500%nat. split; [exact wrong_irrational|]. split; [reflexivity|].
  split; [eexists; split; vm_compute; reflexivity|]. intros o Ho Hf. exact (w_embedding o Ho Hf).
Qed.
