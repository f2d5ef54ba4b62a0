(** An explicit radius below which balls are safe and their refinement ends. *)
Require Import Reals List ZArith Bool Lia Lra Psatz.
From Verif Require Import PolyR RootSpec RootModel ExtraModel SquarefreeProofs ExtraProofs VcaProofs Dyadic DyadicProofs ArbModel ArbSpec ArbProofs FieldProofs RefineProofs
  ElemModel ElemSpec ElemProofs CondTight DyRate EndsSpec EndsProofs RefineEnds FlSpec FineSpec MarginEval.
Import ListNotations.
Open Scope R_scope.

Lemma abs_sum_euler : forall p X, 0 <= X -> X * abs_sum (zderiv p) X <= INR (length p) * abs_sum p X.
Proof.
  intros p X HX. induction p as [|c p IH].
  - unfold abs_sum. cbn [zderiv zderiv_go tl map length]. rewrite zeval_nil. simpl. lra.
  - rewrite abs_sum_deriv, abs_sum_cons, (Rabs_pos_eq X HX). cbn [length]. rewrite S_INR. pose proof (Rabs_pos (IZR c)) as C. pose proof (pos_INR (length p)) as N.
    set (k := INR (length p)) in *. set (S := abs_sum p X) in *. set (A := abs_sum (zderiv p) X) in *.
    assert (X * (X * A) <= X * (k * S)) by (apply Rmult_le_compat_l; lra). assert (0 <= (k + 1) * Rabs (IZR c)) by (apply Rmult_le_pos; lra). lra.
Qed.

Section Margin.
Variables (o : arbops) (pol : list Z) (x X r0 : R).
Hypothesis Ho : arb_ok o.
Hypothesis Hf : arb_fl o.
Hypothesis Hg : arb_fine o.
Hypothesis Hm : minimal pol x.
Hypothesis Hdeg : (3 <= length pol)%nat.
Hypothesis Hmg : margin pol x X r0.

Let Dx := Rabs (D pol x).
Let N := INR (length pol).
Let L := growth pol.
Let S0 := abs_sum pol X.
Let A1 := abs_sum (zderiv pol) X.
Let A2 := abs_sum (zderiv (zderiv pol)) X.

Lemma mg_facts : 0 < Dx /\ 3 <= N /\ 1 <= L /\ 0 < S0 /\ 0 < A1 /\ 0 <= A2 /\ 0 < r0 /\ Rabs x + 4 * r0 <= X /\ 0 < Rabs x.
Proof.
  pose proof (Rabs_pos_lt _ (D_nonzero pol x Hm)) as HD. fold Dx in HD.
  pose proof (Rabs_pos_lt _ (x_nonzero pol x Hm Hdeg)) as Hx. pose proof (mg_pos _ _ _ _ Hmg) as R0. pose proof (mg_bound _ _ _ _ Hmg) as B.
  assert (HN : 3 <= N) by (unfold N; replace 3 with (INR 3) by (simpl; lra); apply le_INR; exact Hdeg).
  assert (DA : Dx <= A1).
  { unfold Dx, A1, D. apply Rle_trans with (abs_sum (zderiv pol) x); [|apply abs_sum_mono; lra].
    apply EvalProofs.zeval_abs_sum. }
  assert (HS : 0 < S0).
  { pose proof (abs_sum_euler pol X ltac:(lra)) as E. fold A1 S0 N in E. assert (0 < X * A1) by (apply Rmult_lt_0_compat; lra).
    destruct (Rlt_le_dec 0 S0) as [|S]; [assumption|]. exfalso. assert (N * S0 <= N * 0) by (apply Rmult_le_compat_l; lra). lra. }
  split; [exact HD|]. split; [exact HN|]. split; [apply slack_pow1|]. split; [exact HS|]. split; [lra|]. split; [apply abs_sum_nonneg|]. split; [exact R0|]. split; [exact B|exact Hx].
Qed.

Lemma slope_le : Dx <= A1.
Proof.
  destruct mg_facts as (_ & _ & _ & _ & _ & _ & R0 & B & Hx). unfold Dx, A1, D. apply Rle_trans with (abs_sum (zderiv pol) x); [|apply abs_sum_mono; lra].
  apply EvalProofs.zeval_abs_sum.
Qed.

Lemma round_bound : 65536 * (X * r0) <= x * x.
Proof.
  destruct mg_facts as (HD & HN & HL & HS & HA1 & HA2 & R0 & B & Hx). pose proof (mg_round _ _ _ _ Hmg) as E. change (Rabs (zeval (zderiv pol) x)) with Dx in E. fold L N S0 in E.
  pose proof (abs_sum_euler pol X ltac:(lra)) as Eu. fold A1 S0 N in Eu. pose proof slope_le as DA.
  assert (Xx : 0 < x * x) by (assert (x <> 0) by (intros Z; rewrite Z, Rabs_R0 in Hx; lra); nra).
  assert (NS : 0 < N * S0) by (apply Rmult_lt_0_compat; lra).
  apply Rmult_le_reg_l with (N * S0); [exact NS|].
  assert (P1 : 0 <= 65536 * N * S0 * r0 * X) by (repeat apply Rmult_le_pos; lra).
  assert (P2 : 1 * (65536 * N * S0 * r0 * X) <= L * (65536 * N * S0 * r0 * X)) by (apply Rmult_le_compat_r; lra).
  assert (P3 : 65536 * L * N * S0 * r0 * X <= Dx * (x * x) * X) by (apply Rmult_le_compat_r; lra).
  assert (P4 : Dx * (x * x) * X <= X * A1 * (x * x)).
  { replace (Dx * (x * x) * X) with (X * (x * x) * Dx) by ring. replace (X * A1 * (x * x)) with (X * (x * x) * A1) by ring.
    apply Rmult_le_compat_l; [apply Rmult_le_pos; lra|exact DA]. }
  assert (P5 : X * A1 * (x * x) <= N * S0 * (x * x)) by (apply Rmult_le_compat_r; lra).
  lra.
Qed.

Lemma root_bound : 65536 * r0 <= Rabs x.
Proof.
  destruct mg_facts as (HD & HN & HL & HS & HA1 & HA2 & R0 & B & Hx). pose proof round_bound as E.
  assert (Q : x * x = Rabs x * Rabs x) by (unfold Rabs; destruct (Rcase_abs x); ring). rewrite Q in E.
  apply Rmult_le_reg_l with (Rabs x); [exact Hx|]. assert (Rabs x * r0 <= X * r0) by (apply Rmult_le_compat_r; lra). lra.
Qed.

(** * The slope near the root *)
Lemma slope_near : forall y, Rabs (y - x) <= 4 * r0 -> Rabs (zeval (zderiv pol) y - D pol x) <= Dx / 128.
Proof.
  intros y Hy. destruct mg_facts as (HD & HN & HL & HS & HA1 & HA2 & R0 & B & Hx).
  destruct (mvt_zeval (zderiv pol) x y) as (c & Hc & E). fold (D pol x) in E. rewrite E, Rabs_mult.
  assert (Hcx : Rabs (c - x) <= 4 * r0).
  { eapply Rle_trans; [|exact Hy]. unfold Rmin, Rmax in Hc. destruct (Rle_dec x y) in Hc; unfold Rabs; destruct (Rcase_abs (c - x)), (Rcase_abs (y - x)); lra. }
  assert (Bc : Rabs c <= X) by (pose proof (Rabs_triang_inv c x); lra).
  assert (Q : Rabs (zeval (zderiv (zderiv pol)) c) <= A2) by (eapply Rle_trans; [apply EvalProofs.zeval_abs_sum|apply abs_sum_mono; exact Bc]).
  pose proof (mg_slope _ _ _ _ Hmg) as M. fold L A2 in M. change (Rabs (zeval (zderiv pol) x)) with Dx in M.
  assert (P : Rabs (zeval (zderiv (zderiv pol)) c) * Rabs (y - x) <= A2 * (4 * r0)) by (apply Rmult_le_compat; try apply Rabs_pos; assumption).
  assert (0 <= 1024 * A2 * r0) by (repeat apply Rmult_le_pos; lra).
  assert (1 * (1024 * A2 * r0) <= L * (1024 * A2 * r0)) by (apply Rmult_le_compat_r; lra). lra.
Qed.

Lemma slope_two : forall y, Rabs (y - x) <= 4 * r0 -> Rabs (D pol x) / 2 <= Rabs (zeval (zderiv pol) y) <= 2 * Rabs (D pol x).
Proof.
  intros y Hy. pose proof (slope_near y Hy) as Hc. destruct mg_facts as (HD & _). fold Dx.
  pose proof (Rabs_triang (zeval (zderiv pol) y - D pol x) (D pol x)) as T1. replace (zeval (zderiv pol) y - D pol x + D pol x) with (zeval (zderiv pol) y) in T1 by ring.
  pose proof (Rabs_triang_inv (D pol x) (D pol x - zeval (zderiv pol) y)) as T2. replace (D pol x - (D pol x - zeval (zderiv pol) y)) with (zeval (zderiv pol) y) in T2 by ring.
  rewrite (Rabs_minus_sym (D pol x) (zeval _ _)) in T2. fold Dx in T1, T2. lra.
Qed.

Lemma value_near : forall y, Rabs (y - x) <= 4 * r0 -> Dx / 2 * Rabs (y - x) <= Rabs (zeval pol y) <= 2 * Dx * Rabs (y - x).
Proof. exact (pol_near pol x Hm (4 * r0) slope_two). Qed.

Lemma apart : forall y, Rabs (y - x) <= 4 * r0 -> zeval pol y = 0 -> y = x.
Proof.
  intros y Hy Zy. destruct mg_facts as (HD & _). destruct (value_near y Hy) as [A _]. rewrite Zy, Rabs_R0 in A.
  destruct (Req_dec y x) as [|Ny]; [assumption|exfalso]. assert (0 < Rabs (y - x)) by (apply Rabs_pos_lt; lra).
  assert (0 < Dx / 2 * Rabs (y - x)) by (apply Rmult_lt_0_compat; lra). lra.
Qed.

(** * Rounding errors *)
Section Step.
Variables (m r : dy) (p : Z).
Hypothesis Hx : inb x (Fin m r).
Hypothesis Hr : dyv r <= r0.
Hypothesis Ht : tried pol (Fin m r) p.
Let e := dyv r.
Let t := pw2 (1 - p).

Lemma e_pos : 0 < e. Proof. exact (proj1 (rad_pos pol x Hm Hdeg m r Hx)). Qed.
Lemma t_pos : 0 < t. Proof. apply pw2_pos. Qed.
Lemma t_square : t * (x * x) <= 128 * (e * e).
Proof.
  destruct mg_facts as (HD & HN & HL & HS & HA1 & HA2 & R0 & B & Hxp). pose proof root_bound as RB.
  pose proof (tried_small pol x Hm Hdeg m r p Hx ltac:(lra) Ht) as T. fold e in T. unfold K in T.
  assert (Xx : 0 < x * x) by (assert (x <> 0) by (intros Z; rewrite Z, Rabs_R0 in Hxp; lra); nra).
  unfold t. replace (1 - p)%Z with (1 + - p)%Z by lia. rewrite pw2_add. change (pw2 1) with (2 ^ 1). rewrite pow_1.
  assert (pw2 (- p) * (x * x) <= 64 / (x * x) * (e * e) * (x * x)) by (apply Rmult_le_compat_r; lra).
  replace (64 / (x * x) * (e * e) * (x * x)) with (64 * (e * e)) in H by (field; intros Z; rewrite Z in Xx; lra). lra.
Qed.

Lemma xx_pos : 0 < x * x.
Proof. destruct mg_facts as (_ & _ & _ & _ & _ & _ & _ & _ & Hxp). assert (x <> 0) by (intros Z; rewrite Z, Rabs_R0 in Hxp; lra). nra. Qed.

Lemma t_round : L * N * S0 * t <= Dx * e / 512.
Proof.
  destruct mg_facts as (HD & HN & HL & HS & HA1 & HA2 & R0 & B & Hxp). pose proof xx_pos as Xx. pose proof e_pos as E0. pose proof t_square as T.
  pose proof (mg_round _ _ _ _ Hmg) as M. change (Rabs (zeval (zderiv pol) x)) with Dx in M. fold L N S0 in M.
  apply Rmult_le_reg_r with (x * x); [exact Xx|].
  assert (LNS : 0 <= L * N * S0) by (repeat apply Rmult_le_pos; lra).
  assert (P1 : L * N * S0 * (t * (x * x)) <= L * N * S0 * (128 * (e * e))) by (apply Rmult_le_compat_l; lra).
  assert (P2 : L * N * S0 * e <= L * N * S0 * r0) by (apply Rmult_le_compat_l; [lra|exact Hr]).
  assert (P3 : 65536 * (L * N * S0 * e) * e <= Dx * (x * x) * e) by (apply Rmult_le_compat_r; lra). lra.
Qed.

Lemma t_bound : X * t <= e / 512.
Proof.
  destruct mg_facts as (HD & HN & HL & HS & HA1 & HA2 & R0 & B & Hxp). pose proof xx_pos as Xx. pose proof e_pos as E0. pose proof t_square as T. pose proof round_bound as RB.
  apply Rmult_le_reg_r with (x * x); [exact Xx|].
  assert (P1 : X * (t * (x * x)) <= X * (128 * (e * e))) by (apply Rmult_le_compat_l; lra).
  assert (P2 : X * e <= X * r0) by (apply Rmult_le_compat_l; [lra|exact Hr]).
  assert (P3 : 65536 * (X * e) * e <= x * x * e) by (apply Rmult_le_compat_r; lra). lra.
Qed.

Lemma t_tiny : t <= / 65536.
Proof.
  destruct mg_facts as (HD & HN & HL & HS & HA1 & HA2 & R0 & B & Hxp). pose proof t_bound as T. pose proof root_bound as RB. pose proof t_pos as T0.
  apply Rmult_le_reg_l with (Rabs x); [exact Hxp|]. assert (Rabs x * t <= X * t) by (apply Rmult_le_compat_r; lra). unfold e in T. lra.
Qed.

Lemma two_bits : (2 <= p)%Z.
Proof.
  pose proof t_tiny as T. destruct (Z.le_gt_cases 2 p) as [|Lp]; [assumption|exfalso]. assert (pw2 0 <= t) by (apply pw2_le; lia). rewrite pw2_0 in H. lra.
Qed.

Lemma t_slope : L * N * A1 * t <= Dx / 512.
Proof.
  destruct mg_facts as (HD & HN & HL & HS & HA1 & HA2 & R0 & B & Hxp). pose proof t_round as T. pose proof t_pos as T0. pose proof e_pos as E0.
  pose proof (abs_sum_euler pol X ltac:(lra)) as Eu. fold A1 S0 N in Eu. pose proof (mg_terms _ _ _ _ Hmg) as MT. fold N in MT.
  apply Rmult_le_reg_r with X; [lra|].
  assert (LNt : 0 <= L * N * t) by (repeat apply Rmult_le_pos; lra).
  assert (P1 : L * N * t * (X * A1) <= L * N * t * (N * S0)) by (apply Rmult_le_compat_l; lra).
  assert (P2 : N * (L * N * S0 * t) <= N * (Dx * e / 512)) by (apply Rmult_le_compat_l; lra).
  assert (P3 : N * e <= N * r0) by (apply Rmult_le_compat_l; [lra|exact Hr]).
  assert (P4 : Dx * (N * e) <= Dx * X) by (apply Rmult_le_compat_l; lra). lra.
Qed.

Lemma mid_near : Rabs (dyv m - x) <= e /\ Rabs (dyv m) + e <= X.
Proof.
  destruct mg_facts as (HD & HN & HL & HS & HA1 & HA2 & R0 & B & Hxp).
  assert (A : Rabs (dyv m - x) <= e) by (rewrite Rabs_minus_sym; exact Hx). split; [exact A|]. pose proof (Rabs_triang_inv (dyv m) x). unfold e in *. lra.
Qed.

(** The value at a point. *)
Lemma value_fine : forall v, Rabs (dyv v) <= X -> exists n s, eval_arb o pol (bexact v) p = Fin n s /\ 0 <= dyv s <= Dx * e / 256 /\ Rabs (dyv n - zeval pol (dyv v)) <= dyv s.
Proof.
  intros v Bv. pose proof two_bits as Hp. destruct mg_facts as (HD & HN & HL & HS & HA1 & HA2 & R0 & B & Hxp).
  destruct (eval_fine o Hf pol v (dz 0) X p Hp) as (n & s & E & Nn & P & Q); [rewrite dyv_dz; simpl; lra|rewrite dyv_dz; simpl; lra|].
  exists n, s. split; [exact E|]. split.
  - split; [exact P|]. eapply Rle_trans; [exact Q|]. rewrite dyv_dz. fold t N S0. change (slack ^ (2 * length pol)) with L. pose proof t_round as T.
    replace (L * (abs_sum (zderiv pol) X * 0 + 2 * N * S0 * t)) with (2 * (L * N * S0 * t)) by ring. lra.
  - pose proof (eval_arb_ok o Ho pol (bexact v) (dyv v) p Hp ltac:(apply inb_exact; reflexivity)) as V. unfold bexact in V. rewrite E in V.
    rewrite Rabs_minus_sym. exact V.
Qed.

(** The slope over the ball. *)
Lemma slope_fine : exists n s, eval_arb o (zderiv pol) (Fin m r) p = Fin n s /\ 0 <= dyv s <= Dx * 5 / 1024 /\ Rabs (dyv n - D pol x) <= dyv s.
Proof.
  pose proof two_bits as Hp. destruct mg_facts as (HD & HN & HL & HS & HA1 & HA2 & R0 & B & Hxp). pose proof e_pos as E0. pose proof t_pos as T0.
  destruct (eval_fine o Hf (zderiv pol) m r X p Hp ltac:(fold e; lra) (proj2 mid_near)) as (n & s & E & Nn & P & Q).
  exists n, s. split; [exact E|]. split.
  - split; [exact P|]. eapply Rle_trans; [exact Q|]. fold e t A1 A2.
    assert (Ln : (length (zderiv pol) <= length pol)%nat).
    { unfold zderiv. clear. assert (G : forall q k, length (zderiv_go k q) = length q) by (induction q; intros; cbn [zderiv_go length]; [reflexivity|rewrite IHq; reflexivity]). rewrite G. destruct pol; cbn; lia. }
    assert (L1 : slack ^ (2 * length (zderiv pol)) <= L) by (apply Rle_pow; [unfold slack; lra|lia]).
    assert (N1 : INR (length (zderiv pol)) <= N) by (apply le_INR; exact Ln). pose proof (pos_INR (length (zderiv pol))) as N0.
    set (n1 := INR (length (zderiv pol))) in *. pose proof (slack_pow1 (2 * length (zderiv pol))) as L0. set (l1 := slack ^ (2 * length (zderiv pol))) in *.
    assert (P1 : A2 * e + 2 * n1 * A1 * t <= A2 * r0 + 2 * N * A1 * t).
    { apply Rplus_le_compat; [apply Rmult_le_compat_l; [lra|exact Hr]|]. apply Rmult_le_compat_r; [lra|]. apply Rmult_le_compat_r; lra. }
    assert (P0 : 0 <= A2 * e + 2 * n1 * A1 * t) by (apply Rplus_le_le_0_compat; [apply Rmult_le_pos; lra|apply Rmult_le_pos; [apply Rmult_le_pos; [apply Rmult_le_pos; lra|lra]|lra]]).
    apply Rle_trans with (L * (A2 * r0 + 2 * N * A1 * t)); [apply Rmult_le_compat; lra|].
    pose proof (mg_slope _ _ _ _ Hmg) as M. change (Rabs (zeval (zderiv pol) x)) with Dx in M. fold L A2 in M. pose proof t_slope as TS. lra.
  - pose proof (eval_arb_ok o Ho (zderiv pol) (Fin m r) x p Hp Hx) as V. rewrite E in V. fold (D pol x) in V. rewrite Rabs_minus_sym. exact V.
Qed.

Lemma newton_fine : exists n s, newton_step o pol (zderiv pol) (Fin m r) p = Val (bcontains (Fin m r) (Fin n s) && negb (bequal (Fin m r) (Fin n s)), Some (Fin n s)) /\
  inb x (Fin n s) /\ dyv s <= e / 8.
Proof.
  pose proof two_bits as Hp. destruct mg_facts as (HD & HN & HL & HS & HA1 & HA2 & R0 & B & Hxp). pose proof e_pos as E0. pose proof t_pos as T0. pose proof t_tiny as T1.
  destruct mid_near as [Mx MX]. destruct slope_fine as (g & u & Eg & [U0 U1] & Ug).
  destruct (value_fine m ltac:(lra)) as (y & w & Ey & [W0 W1] & Wy).
  destruct (value_near (dyv m) ltac:(unfold e in *; lra)) as [_ Vm].
  assert (Gd : Dx * 1019 / 1024 <= Rabs (dyv g)).
  { pose proof (Rabs_triang_inv (D pol x) (D pol x - dyv g)) as Q. replace (D pol x - (D pol x - dyv g)) with (dyv g) in Q by ring. rewrite Rabs_minus_sym in Ug. fold Dx in Q. lra. }
  assert (Zd : contains_zero (eval_arb o (zderiv pol) (Fin m r) p) = false).
  { rewrite Eg. apply (small_nonzero _ (D pol x) (D_nonzero pol x Hm)); [rewrite <- Eg; apply (eval_arb_ok o Ho); assumption|]. cbn [rad_le]. fold Dx. lra. }
  destruct (fi_div o Hg y w g u p Hp W0 ltac:(lra)) as (q & s & Eq & Q0 & Q1).
  assert (By : Rabs (dyv y) <= Dx * e * 513 / 256).
  { replace (dyv y) with ((dyv y - zeval pol (dyv m)) + zeval pol (dyv m)) by ring. eapply Rle_trans; [apply Rabs_triang|].
    assert (2 * Dx * Rabs (dyv m - x) <= 2 * Dx * e) by (apply Rmult_le_compat_l; lra). lra. }
  set (G := Rabs (dyv g)) in *. set (Y := Rabs (dyv y)) in *. assert (Y0 : 0 <= Y) by apply Rabs_pos.
  assert (DE : 0 < Dx * e) by (apply Rmult_lt_0_compat; lra).
  assert (GH : 0 < (G - dyv u) * G) by (apply Rmult_lt_0_compat; lra).
  assert (F1 : (dyv w * G + Y * dyv u) / ((G - dyv u) * G) <= e / 32).
  { apply Rmult_le_reg_r with ((G - dyv u) * G); [exact GH|]. replace ((dyv w * G + Y * dyv u) / ((G - dyv u) * G) * ((G - dyv u) * G)) with (dyv w * G + Y * dyv u) by (field; split; lra).
    assert (K1 : dyv w * G <= Dx * e / 256 * G) by (apply Rmult_le_compat_r; lra).
    assert (K2 : Y * dyv u <= Dx * e * 513 / 256 * (Dx * 5 / 1024)) by (apply Rmult_le_compat; lra).
    assert (K3 : Dx * 3 / 4 * G <= (G - dyv u) * G) by (apply Rmult_le_compat_r; lra).
    assert (K4 : e / 32 * (Dx * 3 / 4 * G) <= e / 32 * ((G - dyv u) * G)) by (apply Rmult_le_compat_l; lra).
    assert (K5 : Dx * e * (Dx * 1019 / 1024) <= Dx * e * G) by (apply Rmult_le_compat_l; lra).
    assert (0 <= Dx * e * Dx) by (apply Rmult_le_pos; lra). lra. }
  assert (F2 : Rabs (dyv y / dyv g) <= 3 * e).
  { unfold Rdiv. rewrite Rabs_mult, Rabs_inv. fold G Y. apply Rmult_le_reg_r with G; [lra|]. replace (Y * / G * G) with Y by (field; lra).
    assert (3 * e * (Dx * 1019 / 1024) <= 3 * e * G) by (apply Rmult_le_compat_l; lra). lra. }
  assert (Gn : fst g <> 0%Z) by (intros Z; apply dyv_eq0 in Z; unfold G in Gd; rewrite Z, Rabs_R0 in Gd; lra).
  assert (T3 : pw2 (3 - p) = 4 * t).
  { unfold t. replace (3 - p)%Z with (2 + (1 - p))%Z by lia. rewrite pw2_add. replace (pw2 2) with 4 by (unfold pw2; cbn [powerRZ]; change (Pos.to_nat 2) with 2%nat; cbn [pow]; lra). reflexivity. }
  rewrite T3 in Q1.
  assert (F3 : Rabs (dyv y / dyv g) * (4 * t) <= 3 * e * (4 / 65536)) by (apply Rmult_le_compat; try lra; apply Rabs_pos).
  assert (F4 : dyv s <= e / 15) by lra.
  assert (Vq : inb (zeval pol (dyv m) / D pol x) (Fin q s)).
  { rewrite <- Eq. apply (ok_div o Ho); [exact Hp| | |apply (D_nonzero pol x Hm)].
    - rewrite <- Ey. apply (eval_arb_ok o Ho); [exact Hp|apply inb_exact; reflexivity].
    - rewrite <- Eg. apply (eval_arb_ok o Ho); assumption. }
  assert (Bq : Rabs (dyv q) <= 3 * e).
  { cbn in Vq. assert (Rabs (zeval pol (dyv m) / D pol x) <= 2 * e).
    { unfold Rdiv. rewrite Rabs_mult, Rabs_inv. fold Dx. apply Rmult_le_reg_r with Dx; [lra|]. replace (Rabs (zeval pol (dyv m)) * / Dx * Dx) with (Rabs (zeval pol (dyv m))) by (field; lra).
      assert (2 * Dx * Rabs (dyv m - x) <= 2 * Dx * e) by (apply Rmult_le_compat_l; lra). lra. }
    pose proof (Rabs_triang_inv (dyv q) (zeval pol (dyv m) / D pol x)) as Q. rewrite Rabs_minus_sym in Q. lra. }
  destruct (made_bound _ _ _ _ Hp (fi_sub o Hg q s m (dz 0) p Hp Q0 ltac:(rewrite dyv_dz; simpl; lra))) as (a & b & Ea & _ & A0 & A3). fold t in A3. rewrite dyv_sub, dyv_dz in A3.
  assert (Bm : Rabs (dyv q - dyv m) <= 4 * X) by (eapply Rle_trans; [apply Rabs_triang|]; rewrite Rabs_Ropp; unfold e in *; lra).
  assert (F5 : Rabs (dyv q - dyv m) * t <= 4 * X * t) by (apply Rmult_le_compat_r; lra). pose proof t_bound as TB.
  assert (F6 : dyv b <= e / 8) by (eapply Rle_trans; [exact A3|]; unfold slack; lra).
  assert (En : newton_step o pol (zderiv pol) (Fin m r) p = Val (bcontains (Fin m r) (bneg (Fin a b)) && negb (bequal (Fin m r) (bneg (Fin a b))), Some (bneg (Fin a b)))).
  { unfold newton_step. destruct (Z.leb_spec p 0); [lia|]. destruct (Z.ltb_spec p 2); [lia|]. rewrite Zd. cbn [bmid]. fold (bexact m) in Ey. rewrite Ey, Eg, Eq. unfold bexact. rewrite Ea. reflexivity. }
  exists (dneg a), b. split; [exact En|]. split; [|exact F6].
  apply (newton_encloses o Ho pol (Fin m r) x p _ (Fin (dneg a) b) En Hx). apply (min_root _ _ Hm).
Qed.

Lemma round_fine : forall md v, Rabs (dyv v) <= 2 * X -> Rabs (dyv v - dyv (dround md p v)) <= e / 256.
Proof.
  intros md v Hv. pose proof two_bits as Hp. destruct (dround_spec md p v ltac:(lia)) as (_ & E & _). fold t in E. pose proof t_bound as TB. pose proof t_pos as T0.
  eapply Rle_trans; [exact E|]. apply Rle_trans with (2 * X * t); [apply Rmult_le_compat_r; lra|]. lra.
Qed.

Lemma ends_fine : exists l u, interval (Fin m r) p = Some (l, u) /\ dyv m - e - e / 256 <= dyv l <= dyv m - e /\ dyv m + e <= dyv u <= dyv m + e + e / 256.
Proof.
  pose proof two_bits as Hp. destruct mid_near as [_ MX]. pose proof e_pos as E0.
  exists (dround RFloor p (dsub m r)), (dround RCeil p (dadd m r)). split; [reflexivity|].
  pose proof (round_fine RFloor (dsub m r)) as A. pose proof (round_fine RCeil (dadd m r)) as B.
  pose proof (dround_floor_le p (dsub m r) ltac:(lia)) as L3. pose proof (dround_ceil_ge p (dadd m r) ltac:(lia)) as L4.
  rewrite dyv_sub in A, L3. rewrite dyv_add in B, L4. fold e in A, B, L3, L4.
  assert (Rabs (dyv m - e) <= 2 * X) by (eapply Rle_trans; [apply Rabs_triang|]; rewrite Rabs_Ropp, (Rabs_pos_eq e) by lra; pose proof (Rabs_pos (dyv m)); lra).
  assert (Rabs (dyv m + e) <= 2 * X) by (eapply Rle_trans; [apply Rabs_triang|]; rewrite (Rabs_pos_eq e) by lra; pose proof (Rabs_pos (dyv m)); lra).
  specialize (A H). specialize (B H0). apply Rabs_le_inv2 in A. apply Rabs_le_inv2 in B. lra.
Qed.

Lemma step_fits : (2 <= p)%Z /\
  (exists l u, interval (Fin m r) p = Some (l, u) /\ only_root pol (dyv l) (dyv u) x) /\
  ((exists t, newton_step o pol (zderiv pol) (Fin m r) p = Val (true, Some t) /\ inb x t /\ rad_le t (3 / 4 * dyv r)) \/
   (exists t, newton_step o pol (zderiv pol) (Fin m r) p = Val (false, Some t)) /\
   exists b t, bisection_step o pol (Fin m r) p = Val (b, t) /\ (b = false \/ exists t', t = Some t' /\ inb x t' /\ rad_le t' (3 / 4 * dyv r))).
Proof.
  pose proof two_bits as Hp. destruct mg_facts as (HD & HN & HL & HS & HA1 & HA2 & R0 & B & Hxp). pose proof e_pos as E0. pose proof t_pos as T0. pose proof t_tiny as T1. pose proof t_bound as TB.
  destruct mid_near as [Mx MX]. destruct ends_fine as (l & u & Ei & Hl & Hu). pose proof (Rabs_le_inv2 _ _ Mx) as Mx'. pose proof (Rabs_le_inv2 _ _ (Rle_refl (Rabs x))) as Bx.
  assert (E1 : e <= r0) by exact Hr.
  assert (Hnear : forall y, dyv l <= y <= dyv u -> Rabs (y - x) <= 4 * r0) by (intros y Hy; apply Rabs_le; lra).
  assert (Hon : only_root pol (dyv l) (dyv u) x) by (split; [apply (min_root _ _ Hm)|]; intros y Hy Zy; apply apart; [apply Hnear; exact Hy|exact Zy]).
  split; [exact Hp|]. split; [exists l, u; split; assumption|].
  destruct newton_fine as (n & s & En & Ir & Rr).
  pose proof Ir as Ir'. cbn in Ir'. apply Rabs_le_inv2 in Ir'.
  assert (Eq : bequal (Fin m r) (Fin n s) = false).
  { apply not_true_is_false. intros Q. unfold bequal in Q. apply andb_true_iff in Q. destruct Q as [_ Q]. apply deqb_spec in Q. fold e in Q. lra. }
  rewrite Eq, andb_true_r in En. fold e.
  destruct (bcontains (Fin m r) (Fin n s)) eqn:Ec.
  { left. exists (Fin n s). split; [exact En|]. split; [exact Ir|cbn; lra]. }
  right. split; [exists (Fin n s); exact En|].
  assert (Hfar : 3 / 4 * e < Rabs (dyv m - x)).
  { cbn [bcontains] in Ec. apply dleb_false in Ec. rewrite dyv_add, dyv_abs, dyv_sub in Ec. fold e in Ec.
    unfold Rabs in Ec |- *. destruct (Rcase_abs (dyv m - dyv n)), (Rcase_abs (dyv m - x)); lra. }
  unfold bisection_step. destruct (Z.ltb_spec p 2); [lia|]. rewrite Ei.
  destruct (contains_zero (eval_arb o pol (bexact l) p)) eqn:Zl; [exists false, None; split; [reflexivity|left; reflexivity]|].
  destruct (contains_zero (eval_arb o pol (bexact u) p)) eqn:Zu; [exists false, None; split; [reflexivity|left; reflexivity]|].
  destruct (bisection_arf o l u pol (msgn (eval_arb o pol (bexact l) p)) p) as [l' u'] eqn:Eb.
  exists true, (Some (o_inter o (o_set_interval o l' u' p) (Fin m r) p)). split; [reflexivity|]. right. eexists. split; [reflexivity|].
  assert (Hxlu : dyv l' <= x <= dyv u').
  { apply (bisection_arf_keeps o Ho pol x p l u); try assumption; [apply minimal_simple; exact Hm|lra]. }
  (* the middle *)
  set (c := d2exp (dround RNear p (dadd l u)) (-1)).
  assert (Hc : dyv m - e / 64 <= dyv c <= dyv m + e / 64).
  { unfold c. rewrite dyv_2exp, pw2_m1. pose proof (round_fine RNear (dadd l u)) as Q. rewrite dyv_add in Q.
    assert (Q' : Rabs (dyv l + dyv u) <= 2 * X) by (apply Rabs_le; lra).
    specialize (Q Q'). apply Rabs_le_inv2 in Q. lra. }
  assert (Hcx : e / 2 <= Rabs (dyv c - x)) by (unfold Rabs in Hfar |- *; destruct (Rcase_abs (dyv m - x)), (Rcase_abs (dyv c - x)); lra).
  destruct (value_near (dyv c) ltac:(apply Hnear; lra)) as [Hfc _].
  assert (Hfc' : Dx * e / 4 <= Rabs (zeval pol (dyv c))).
  { eapply Rle_trans; [|exact Hfc]. assert (Dx / 2 * (e / 2) <= Dx / 2 * Rabs (dyv c - x)) by (apply Rmult_le_compat_l; lra). lra. }
  assert (HDe : 0 < Dx * e) by (apply Rmult_lt_0_compat; lra).
  assert (Zc : contains_zero (eval_arb o pol (bexact c) p) = false).
  { destruct (value_fine c ltac:(apply Rabs_le; lra)) as (yc & wc & Eyc & Wc & _).
    apply (small_nonzero _ (zeval pol (dyv c))).
    - intros Q. rewrite Q, Rabs_R0 in Hfc'. lra.
    - apply (eval_arb_ok o Ho); [exact Hp|apply inb_exact; reflexivity].
    - rewrite Eyc. cbn [rad_le]. lra. }
  assert (Hw : dyv u' - dyv l' <= e * (33 / 32) /\ - X <= dyv l' /\ dyv l' <= dyv u' /\ dyv u' <= X).
  { unfold bisection_arf in Eb. fold c in Eb. rewrite Zc in Eb.
    assert (dleb c l = false) as Q1 by (apply dleb_false; lra). assert (dleb u c = false) as Q2 by (apply dleb_false; lra).
    rewrite Q1, Q2 in Eb. cbn [orb] in Eb.
    destruct (_ =? _)%Z in Eb; injection Eb as <- <-; lra. }
  destruct Hw as (Hw & Hw1 & Hw2 & Hw3).
  pose proof (ok_set_interval o Ho l' u' x p Hp Hxlu) as Iset.
  split; [apply (ok_inter o Ho); assumption|].
  destruct (made_bound _ _ _ _ Hp (fl_interval o Hf l' u' p Hp Hw2)) as (a & b & Ea & Am & B0 & B1). fold t in B1. rewrite Ea in *.
  assert (V : dyv (d2exp (dadd l' u') (-1)) = (dyv l' + dyv u') / 2) by (rewrite dyv_2exp, dyv_add, pw2_m1; lra). rewrite V in Am, B1.
  assert (Bmid : Rabs ((dyv l' + dyv u') / 2) <= X) by (apply Rabs_le; lra).
  assert (B2 : dyv b <= e * 0.53).
  { eapply Rle_trans; [exact B1|]. assert (Rabs ((dyv l' + dyv u') / 2) * t <= X * t) by (apply Rmult_le_compat_r; lra). unfold slack. lra. }
  assert (Am' : Rabs (dyv a) <= X) by lra. apply Rabs_le_inv2 in Am'.
  pose proof Iset as Iset'. cbn in Iset'. apply Rabs_le_inv2 in Iset'.
  set (lo := Rmax (dyv a - dyv b) (dyv m - e)). set (hi := Rmin (dyv a + dyv b) (dyv m + e)).
  assert (Lo : dyv a - dyv b <= lo /\ dyv m - e <= lo /\ lo <= x) by (unfold lo; split; [apply Rmax_l|split; [apply Rmax_r|apply Rmax_lub; lra]]).
  assert (Hi : hi <= dyv a + dyv b /\ hi <= dyv m + e /\ x <= hi) by (unfold hi; split; [apply Rmin_l|split; [apply Rmin_r|apply Rmin_glb; lra]]).
  destruct (fl_inter o Hf a b m r p lo hi Hp B0 ltac:(fold e; lra) eq_refl eq_refl ltac:(lra)) as (m' & r' & Em & R1 & R2 & R3). rewrite Em. cbn [rad_le].
  assert (Mab : Rmax (Rabs lo) (Rabs hi) <= X) by (apply Rmax_lub; apply Rabs_le; lra).
  assert (Tp : pw2 (- p) = t / 2) by (unfold t; replace (1 - p)%Z with (1 + - p)%Z by lia; rewrite pw2_add; change (pw2 1) with (2 ^ 1); rewrite pow_1; lra).
  rewrite Tp in R2, R3. assert (Q : 8 * Rmax (Rabs lo) (Rabs hi) * (t / 2) <= 4 * X * t).
  { replace (8 * Rmax (Rabs lo) (Rabs hi) * (t / 2)) with (4 * Rmax (Rabs lo) (Rabs hi) * t) by field. apply Rmult_le_compat_r; lra. }
  lra.
Qed.
End Step.

Lemma margin_fits : radius_fits o pol x r0.
Proof. intros m r p Hx Hr Ht. exact (step_fits m r p Hx Hr Ht). Qed.

(** With enough bits the bisection takes place. *)
Lemma margin_bisects : forall m r, inb x (Fin m r) -> dyv r <= r0 -> exists P, forall p, (P <= p)%Z -> (2 <= p)%Z ->
  exists t, bisection_step o pol (Fin m r) p = Val (true, Some t).
Proof.
  intros m r Hx Hr. destruct mg_facts as (HD & HN & HL & HS & HA1 & HA2 & R0 & B & Hxp). destruct (rad_pos pol x Hm Hdeg m r Hx) as [E0 _].
  assert (Mx : Rabs (dyv m - x) <= dyv r) by (rewrite Rabs_minus_sym; exact Hx). pose proof (Rabs_le_inv2 _ _ Mx) as Mx'. pose proof (Rabs_le_inv2 _ _ (Rle_refl (Rabs x))) as Bx.
  assert (HX : 0 < X) by lra.
  assert (Hend : forall v, dyv v <> x -> Rabs (dyv v - x) <= 2 * dyv r -> exists P, forall p md, (P <= p)%Z -> (2 <= p)%Z ->
    Rabs (dyv v - x) <= Rabs (dyv (dround md p v) - x) -> contains_zero (eval_arb o pol (bexact (dround md p v)) p) = false).
  { intros v Nv Hv. set (g := Rabs (dyv v - x)) in *. assert (G0 : 0 < g) by (apply Rabs_pos_lt; lra).
    assert (LNS : 0 < L * N * S0) by (repeat apply Rmult_lt_0_compat; lra).
    assert (Dg : 0 < Dx * g) by (apply Rmult_lt_0_compat; lra).
    set (eps := Rmin (Dx * g / (64 * (L * N * S0))) (dyv r / (2 * X))).
    assert (Heps : 0 < eps) by (unfold eps; apply Rmin_glb_lt; apply Rdiv_lt_0_compat; lra).
    destruct (pw2_neg_small eps Heps) as (P & HP). exists P. intros p md Hp H2 Hd. specialize (HP p Hp).
    set (t := pw2 (1 - p)). assert (Tp : t = 2 * pw2 (- p)) by (unfold t; replace (1 - p)%Z with (1 + - p)%Z by lia; rewrite pw2_add; change (pw2 1) with (2 ^ 1); rewrite pow_1; lra).
    assert (T0 : 0 < t) by apply pw2_pos.
    assert (T1 : t <= 2 * (Dx * g / (64 * (L * N * S0)))) by (pose proof (Rmin_l (Dx * g / (64 * (L * N * S0))) (dyv r / (2 * X))) as Q; fold eps in Q; lra).
    assert (T2 : t <= 2 * (dyv r / (2 * X))) by (pose proof (Rmin_r (Dx * g / (64 * (L * N * S0))) (dyv r / (2 * X))) as Q; fold eps in Q; lra).
    set (w := dround md p v) in *. destruct (dround_spec md p v ltac:(lia)) as (_ & Ew & _). fold w t in Ew.
    pose proof (Rabs_le_inv2 _ _ Hv) as Hv'.
    assert (Bv : Rabs (dyv v) <= X) by (apply Rabs_le; lra).
    assert (Dw : Rabs (dyv v - dyv w) <= dyv r).
    { eapply Rle_trans; [exact Ew|]. apply Rle_trans with (X * (2 * (dyv r / (2 * X)))); [apply Rmult_le_compat; try lra; apply Rabs_pos|]. right. field. lra. }
    pose proof (Rabs_le_inv2 _ _ Dw) as Dw'.
    assert (Hwx : Rabs (dyv w - x) <= 4 * r0) by (apply Rabs_le; lra).
    destruct (value_near (dyv w) Hwx) as [Hv1 _].
    assert (Hv2 : Dx / 2 * g <= Rabs (zeval pol (dyv w))) by (eapply Rle_trans; [|exact Hv1]; apply Rmult_le_compat_l; lra).
    destruct (eval_fine o Hf pol w (dz 0) X p H2) as (n & s & E & _ & S1 & S2); [rewrite dyv_dz; simpl; lra|rewrite dyv_dz; simpl; rewrite Rplus_0_r; apply Rabs_le; lra|].
    apply (small_nonzero _ (zeval pol (dyv w))).
    - intros Q. rewrite Q, Rabs_R0 in Hv2. lra.
    - apply (eval_arb_ok o Ho); [exact H2|apply inb_exact; reflexivity].
    - unfold bexact. rewrite E. cbn [rad_le]. eapply Rle_trans; [exact S2|]. rewrite dyv_dz. fold t N S0. change (slack ^ (2 * length pol)) with L.
      replace (L * (abs_sum (zderiv pol) X * 0 + 2 * N * S0 * t)) with (2 * (L * N * S0) * t) by ring.
      apply Rle_trans with (2 * (L * N * S0) * (2 * (Dx * g / (64 * (L * N * S0))))); [apply Rmult_le_compat_l; lra|].
      replace (2 * (L * N * S0) * (2 * (Dx * g / (64 * (L * N * S0))))) with (Dx * g / 16) by (field; lra). lra. }
  assert (Ll : dyv (dsub m r) <> x) by (intros Q; apply (x_not_dyadic pol x Hm Hdeg _ (eq_sym Q))).
  assert (Lu : dyv (dadd m r) <> x) by (intros Q; apply (x_not_dyadic pol x Hm Hdeg _ (eq_sym Q))).
  destruct (Hend (dsub m r) Ll) as (P1 & H1); [rewrite dyv_sub; apply Rabs_le; lra|].
  destruct (Hend (dadd m r) Lu) as (P2 & H2); [rewrite dyv_add; apply Rabs_le; lra|].
  exists (Z.max P1 P2). intros p Hp Hp2. unfold bisection_step. destruct (Z.ltb_spec p 2); [lia|]. cbn [interval].
  pose proof (dround_floor_le p (dsub m r) ltac:(lia)) as L3. pose proof (dround_ceil_ge p (dadd m r) ltac:(lia)) as L4.
  rewrite H1, H2; [|lia|lia| |lia|lia|].
  - destruct (bisection_arf _ _ _ _ _ _) as [l' u']. eexists. reflexivity.
  - rewrite dyv_add in *. unfold Rabs. destruct (Rcase_abs (dyv m + dyv r - x)), (Rcase_abs (dyv (dround RCeil p (dadd m r)) - x)); lra.
  - rewrite dyv_sub in *. unfold Rabs. destruct (Rcase_abs (dyv m - dyv r - x)), (Rcase_abs (dyv (dround RFloor p (dsub m r)) - x)); lra.
Qed.

Lemma margin_apart : forall y, Rabs (y - x) <= 2 * r0 -> zeval pol y = 0 -> y = x.
Proof. intros y Hy. apply apart. destruct mg_facts as (_ & _ & _ & _ & _ & _ & R0 & _). lra. Qed.

Theorem margin_safe : safe_balls o pol x (small r0) /\ (forall debug, refines_end o debug pol x (small r0)) /\
  forall debug fuel nf prec, f_pol nf = pol -> inb x (f_emb nf) -> small r0 (f_emb nf) -> f_imm nf = 0%Z ->
  refine o debug fuel nf prec <> Abort /\ (refine o debug fuel nf prec = Undef -> word_overflow o pol (f_emb nf)).
Proof.
  split; [apply small_safe; [exact margin_fits|exact margin_apart]|].
  split; [intros debug; apply refine_small_ends; [exact Hm|exact Hdeg|exact margin_fits|exact margin_bisects]|].
  intros debug fuel nf prec. apply refine_defined; [exact Ho|exact Hm|exact Hdeg|exact margin_fits|exact margin_apart].
Qed.
End Margin.
