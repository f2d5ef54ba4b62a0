(** Small balls are safe, and their refinement ends. *)
Require Import Reals List ZArith Bool Lia Lra Psatz.
From Verif Require Import PolyR RootSpec RootModel ExtraModel SquarefreeProofs ExtraProofs VcaProofs Dyadic DyadicProofs ArbModel ArbSpec ArbProofs FieldProofs RefineProofs
  ElemModel ElemSpec ElemProofs RateSpec DyRate EndsSpec EndsProofs.
Import ListNotations.
Open Scope R_scope.

Lemma below2 : forall a b, 0 < a -> 0 < b -> exists d, 0 < d /\ d <= a /\ d <= b.
Proof. intros a b Ha Hb. exists (Rmin a b). split; [apply Rmin_glb_lt; assumption|]. split; [apply Rmin_l|apply Rmin_r]. Qed.

Lemma zeval_bounded : forall p K, 0 <= K -> exists B, 0 <= B /\ forall y, Rabs y <= K -> Rabs (zeval p y) <= B.
Proof.
  intros p K HK. induction p as [|c p (B & HB & H)].
  - exists 0. split; [lra|]. intros y _. rewrite zeval_nil, Rabs_R0. lra.
  - exists (Rabs (IZR c) + K * B). pose proof (Rabs_pos (IZR c)). split; [apply Rplus_le_le_0_compat; [lra|apply Rmult_le_pos; lra]|].
    intros y Hy. rewrite zeval_cons. eapply Rle_trans; [apply Rabs_triang|]. apply Rplus_le_compat_l. rewrite Rabs_mult.
    apply Rmult_le_compat; try apply Rabs_pos; [exact Hy|apply H; exact Hy].
Qed.

Lemma Rabs_le_inv2 : forall a b, Rabs a <= b -> - b <= a <= b.
Proof. intros a b. unfold Rabs. destruct (Rcase_abs a); lra. Qed.

Section Small.
Variables (o : arbops) (pol : list Z) (x : R).
Hypothesis Ho : arb_ok o.
Hypothesis Hrt : arb_rate o.
Hypothesis Hm : minimal pol x.
Hypothesis Hdeg : (3 <= length pol)%nat.

(** * The root *)
Lemma x_not_dyadic : forall d, x <> dyv d.
Proof.
  intros d E. destruct (dy_fmpq_spec d) as [Hq Vq]. rewrite <- Vq in E. destruct (dy_fmpq d) as [a q]. cbn [fst snd] in *. unfold qval in E. cbn [fst snd] in E.
  assert (Hq' : IZR q <> 0) by (apply not_0_IZR; lia).
  assert (Z : zeval [(- a)%Z; q] x = 0).
  { rewrite !zeval_cons, zeval_nil, E, opp_IZR. field. exact Hq'. }
  apply (min_short _ _ Hm) in Z; [|cbn [length]; lia]. inversion Z as [|? ? _ Z1]. inversion Z1. lia.
Qed.
Lemma x_nonzero : x <> 0.
Proof. intros E. apply (x_not_dyadic (dz 0)). rewrite dyv_dz. exact E. Qed.
Lemma c0_nonzero : nth 0 pol 0%Z <> 0%Z.
Proof.
  intros E. pose proof x_nonzero as Nz. pose proof (min_root _ _ Hm) as Z. pose proof (min_lead _ _ Hm) as L. pose proof (min_short _ _ Hm) as S.
  destruct pol as [|c0 p]; [cbn in Hdeg; lia|]. cbn [nth] in E. subst c0. rewrite zeval_cons in Z.
  assert (Z' : zeval p x = 0).
  { apply Rmult_eq_reg_l with x; [|exact Nz]. lra. }
  apply S in Z'; [|cbn [length]; lia]. apply L. destruct p as [|c1 p]; [reflexivity|].
  change (last (0%Z :: c1 :: p) 0%Z) with (last (c1 :: p) 0%Z). clear - Z'.
  revert c1 Z'. induction p as [|d p IH]; intros c1 D; inversion D; subst; [reflexivity|].
  change (last (0%Z :: d :: p) 0%Z) with (last (d :: p) 0%Z). apply IH. assumption.
Qed.

Definition D := zeval (zderiv pol) x.
Lemma D_nonzero : D <> 0.
Proof. unfold D. rewrite zeval_zderiv. apply (minimal_simple pol x Hm). Qed.

Lemma der_near : exists rho, 0 < rho /\ rho <= 1 /\ forall y, Rabs (y - x) <= rho -> Rabs D / 2 <= Rabs (zeval (zderiv pol) y) <= 2 * Rabs D.
Proof.
  pose proof (Rabs_pos_lt D D_nonzero) as HD.
  destruct (peval_continuity (map IZR (zderiv pol)) x (Rabs D / 2) ltac:(lra)) as (al & Hal & H).
  exists (Rmin 1 (al / 2)). split; [apply Rmin_glb_lt; lra|]. split; [apply Rmin_l|].
  intros y Hy. destruct (Req_dec y x) as [->|N]; [fold D; lra|].
  pose proof (Rmin_r 1 (al / 2)).
  assert (Hc : Rabs (zeval (zderiv pol) y - D) < Rabs D / 2).
  { apply (H y). split; [split; [exact I|congruence]|]. cbn. unfold R_dist. lra. }
  pose proof (Rabs_triang (zeval (zderiv pol) y - D) D) as T1. replace (zeval (zderiv pol) y - D + D) with (zeval (zderiv pol) y) in T1 by ring.
  pose proof (Rabs_triang_inv D (D - zeval (zderiv pol) y)) as T2. replace (D - (D - zeval (zderiv pol) y)) with (zeval (zderiv pol) y) in T2 by ring.
  rewrite (Rabs_minus_sym D) in T2. lra.
Qed.

Lemma pol_near : forall rho, (forall y, Rabs (y - x) <= rho -> Rabs D / 2 <= Rabs (zeval (zderiv pol) y) <= 2 * Rabs D) ->
  forall y, Rabs (y - x) <= rho -> Rabs D / 2 * Rabs (y - x) <= Rabs (zeval pol y) <= 2 * Rabs D * Rabs (y - x).
Proof.
  intros rho H y Hy. destruct (mvt_zeval pol x y) as (c & Hc & E). rewrite (min_root _ _ Hm), Rminus_0_r in E. rewrite E, Rabs_mult.
  assert (Hc' : Rabs (c - x) <= rho).
  { eapply Rle_trans; [|exact Hy]. unfold Rmin, Rmax in Hc. destruct (Rle_dec x y) in Hc; unfold Rabs; destruct (Rcase_abs (c - x)), (Rcase_abs (y - x)); lra. }
  specialize (H c Hc'). pose proof (Rabs_pos (y - x)). split; apply Rmult_le_compat_r; lra.
Qed.

(** * Evaluation *)
Lemma eval_rate : forall p K, 0 <= K -> exists C d, 0 < C /\ 0 < d /\ forall a y e q, (2 <= q)%Z -> pw2 (- q) <= d -> inb y a -> Rabs y <= K ->
  rad_le a e -> e <= d -> rad_le (eval_arb o p a q) (C * (e + pw2 (- q))).
Proof.
  intros p K HK. induction p as [|c p (C1 & d1 & HC1 & Hd1 & IH)].
  - exists 1, 1. split; [lra|]. split; [lra|]. intros [m r|] y e q Hq Ht Hy _ Ra He; [|contradiction].
    cbn [eval_arb]. pose proof (inb_rad _ _ _ Hy). pose proof (pw2_pos (- q)). cbn in Ra |- *. change (dz 0) with (dz 0). rewrite dyv_dz. simpl. lra.
  - destruct (zeval_bounded p K HK) as (B & HB & Hbd).
    set (M := 1 + B + K + B * K + Rabs (IZR c)). pose proof (Rabs_pos (IZR c)) as Hc0.
    assert (HBK : 0 <= B * K) by (apply Rmult_le_pos; lra).
    assert (HM : 1 <= M) by (unfold M; lra).
    destruct (rt_mul o Hrt M HM) as (C2 & HC2 & H2). destruct (rt_add_z o Hrt M HM) as (C3 & HC3 & H3).
    assert (H12 : 0 < C2 * (C1 + 1)) by (apply Rmult_lt_0_compat; lra).
    destruct (below2 d1 1 Hd1 ltac:(lra)) as (da & Da0 & Da1 & Da2).
    destruct (below2 da (/ (2 * C1)) Da0) as (db & Db0 & Db1 & Db2); [apply Rinv_0_lt_compat; lra|].
    destruct (below2 db (/ (2 * (C2 * (C1 + 1)))) Db0) as (d & D0 & D1 & D2); [apply Rinv_0_lt_compat; lra|].
    exists (C3 * (C2 * (C1 + 1) + 1)), d. split; [apply Rmult_lt_0_compat; lra|]. split; [exact D0|].
    intros a y e q Hq Ht Hy By Ra He. set (t := pw2 (- q)) in *. assert (T0 : 0 < t) by apply pw2_pos.
    assert (E0 : 0 <= e).
    { destruct a as [m r|]; [|contradiction]. pose proof (inb_rad _ _ _ Hy). cbn in Ra. lra. }
    assert (L1 : C1 * (e + t) <= 1).
    { apply Rle_trans with (C1 * (/ (2 * C1) + / (2 * C1))); [apply Rmult_le_compat_l; lra|]. right. field. lra. }
    assert (L2 : C2 * (C1 + 1) * (e + t) <= 1).
    { apply Rle_trans with (C2 * (C1 + 1) * (/ (2 * (C2 * (C1 + 1))) + / (2 * (C2 * (C1 + 1))))); [apply Rmult_le_compat_l; lra|]. right. field. lra. }
    pose proof (eval_arb_ok o Ho p a y q Hq Hy) as Hv. specialize (Hbd y By).
    pose proof (IH a y e q Hq ltac:(fold t; lra) Hy By Ra ltac:(lra)) as R1. fold t in R1.
    pose proof (H2 _ a _ y _ e q Hq Hv Hy ltac:(unfold M; lra) ltac:(unfold M; lra) R1 Ra L1 ltac:(lra)) as R2. fold t in R2.
    replace (C2 * (C1 * (e + t) + e + t)) with (C2 * (C1 + 1) * (e + t)) in R2 by ring.
    pose proof (ok_mul o Ho _ _ _ _ q Hq Hv Hy) as Hvm.
    cbn [eval_arb].
    apply (rad_le_mono _ (C3 * (C2 * (C1 + 1) * (e + t) + t))).
    + rewrite (Rmult_assoc C3 (C2 * (C1 + 1) + 1)). apply Rmult_le_compat_l; lra.
    + apply (H3 _ _ c _ q Hq Hvm); try assumption; [|unfold M; lra]. rewrite Rabs_mult.
      apply Rle_trans with (B * K); [|unfold M; lra]. apply Rmult_le_compat; try apply Rabs_pos; assumption.
Qed.

(** * One Newton step *)
Lemma newton_rate : exists C d, 0 < C /\ 0 < d /\ forall m r p, inb x (Fin m r) -> dyv r <= d -> (2 <= p)%Z -> pw2 (- p) <= d ->
  exists t, newton_step o pol (zderiv pol) (Fin m r) p = Val (bcontains (Fin m r) t && negb (bequal (Fin m r) t), Some t) /\
    inb x t /\ rad_le t (C * (dyv r * dyv r + pw2 (- p))).
Proof.
  destruct der_near as (rho & Hrho & Hrho1 & Hder). pose proof (pol_near rho Hder) as Hpn.
  pose proof (Rabs_pos_lt D D_nonzero) as HD. pose proof (Rabs_pos x) as Hx0.
  set (K := Rabs x + 1).
  destruct (eval_rate (zderiv pol) K ltac:(unfold K; lra)) as (C1 & d1 & HC1 & Hd1 & E1).
  destruct (eval_rate pol K ltac:(unfold K; lra)) as (C2 & d2 & HC2 & Hd2 & E2).
  set (M := 2 + 2 * Rabs D + / Rabs D + Rabs x).
  assert (HiD : 0 < / Rabs D) by (apply Rinv_0_lt_compat; exact HD).
  assert (HM : 1 <= M) by (unfold M; lra).
  destruct (rt_div o Hrt M HM) as (C3 & HC3 & E3). destruct (rt_sub o Hrt M HM) as (C4 & HC4 & E4).
  set (C5 := C3 * (C2 + 2 * Rabs D * C1 + 1)).
  assert (H5 : 0 < C5) by (unfold C5; apply Rmult_lt_0_compat; [lra|]; assert (0 <= 2 * Rabs D * C1) by (apply Rmult_le_pos; lra); lra).
  set (w := 1 / (4 * M)). assert (Hw : 0 < w) by (unfold w; apply Rdiv_lt_0_compat; lra).
  destruct (below2 d1 d2 Hd1 Hd2) as (da & Da0 & Da1 & Da2).
  destruct (below2 da rho Da0 Hrho) as (db & Db0 & Db1 & Db2).
  destruct (below2 db (Rabs D / 4 / (2 * C1)) Db0) as (dc & Dc0 & Dc1 & Dc2); [apply Rdiv_lt_0_compat; lra|].
  destruct (below2 dc (w / (2 * C1)) Dc0) as (dd & Dd0 & Dd1 & Dd2); [apply Rdiv_lt_0_compat; lra|].
  destruct (below2 dd (/ (2 * C5)) Dd0) as (de & De0 & De1 & De2); [apply Rinv_0_lt_compat; lra|].
  destruct (below2 de (/ C2) De0) as (d & D0 & D1 & D2); [apply Rinv_0_lt_compat; lra|].
  exists (C4 * (C5 + 1)), d. split; [apply Rmult_lt_0_compat; lra|]. split; [exact D0|].
  intros m r p Hx Hr Hp Ht. set (t := pw2 (- p)) in *. assert (T0 : 0 < t) by apply pw2_pos.
  pose proof (inb_rad _ _ _ Hx) as R0. set (e := dyv r) in *.
  assert (Hmx : Rabs (dyv m - x) <= e) by (rewrite Rabs_minus_sym; exact Hx).
  destruct (Hpn (dyv m) ltac:(lra)) as [_ Hfm].
  (* the derivative *)
  pose proof (eval_arb_ok o Ho (zderiv pol) (Fin m r) x p Hp Hx) as Vd. fold D in Vd.
  pose proof (E1 (Fin m r) x e p Hp ltac:(fold t; lra) Hx ltac:(unfold K; lra) (Rle_refl _) ltac:(lra)) as Rd. fold t in Rd.
  set (dd' := eval_arb o (zderiv pol) (Fin m r) p) in *.
  assert (L1 : C1 * (e + t) <= Rabs D / 4).
  { apply Rle_trans with (C1 * (Rabs D / 4 / (2 * C1) + Rabs D / 4 / (2 * C1))); [apply Rmult_le_compat_l; lra|]. right. field. lra. }
  assert (L2 : C1 * (e + t) <= w).
  { apply Rle_trans with (C1 * (w / (2 * C1) + w / (2 * C1))); [apply Rmult_le_compat_l; lra|]. right. field. lra. }
  assert (Zd : contains_zero dd' = false).
  { apply (small_nonzero dd' D D_nonzero Vd). apply (rad_le_mono _ _ _ L1 Rd). }
  (* the value at the centre *)
  assert (Im : inb (dyv m) (bexact m)) by (apply inb_exact; reflexivity).
  assert (Bm : Rabs (dyv m) <= K) by (destruct (Rabs_triang_inv (dyv m) x); unfold K; pose proof (Rabs_triang_inv (dyv m) x); lra).
  pose proof (eval_arb_ok o Ho pol (bexact m) (dyv m) p Hp Im) as Vy.
  assert (Re0 : rad_le (bexact m) 0) by (cbn; rewrite dyv_dz; simpl; lra).
  pose proof (E2 (bexact m) (dyv m) 0 p Hp ltac:(fold t; lra) Im Bm Re0 ltac:(lra)) as Ry. fold t in Ry. rewrite Rplus_0_l in Ry.
  set (y := eval_arb o pol (bexact m) p) in *.
  assert (L3 : C2 * t <= 1).
  { apply Rle_trans with (C2 * / C2); [apply Rmult_le_compat_l; lra|]. right. field. lra. }
  (* the quotient *)
  assert (Hfm2 : Rabs (zeval pol (dyv m)) <= 2 * Rabs D * e) by (eapply Rle_trans; [exact Hfm|apply Rmult_le_compat_l; lra]).
  assert (Hfm3 : 2 * Rabs D * e <= 2 * Rabs D * 1) by (apply Rmult_le_compat_l; lra).
  assert (BD : 1 / M <= Rabs D <= M).
  { split; [|unfold M; lra]. apply Rmult_le_reg_r with M; [lra|]. replace (1 / M * M) with 1 by (field; lra).
    assert (Rabs D * / Rabs D = 1) by (field; lra). assert (Rabs D * / Rabs D <= Rabs D * M) by (apply Rmult_le_compat_l; unfold M; lra). lra. }
  pose proof (E3 y dd' _ D _ _ p Hp Vy Vd ltac:(unfold M; lra) BD Ry Rd L3 L2) as Rq. fold t in Rq.
  assert (Rq2 : rad_le (o_div o y dd' p) (C5 * (e * e + t))).
  { apply (rad_le_mono _ (C3 * (C2 * t + Rabs (zeval pol (dyv m)) * (C1 * (e + t)) + t))); [|exact Rq].
    unfold C5. rewrite (Rmult_assoc C3 (C2 + _ + 1)). apply Rmult_le_compat_l; [lra|].
    assert (Rabs (zeval pol (dyv m)) * (C1 * (e + t)) <= 2 * Rabs D * e * (C1 * (e + t))).
    { apply Rmult_le_compat_r; [apply Rmult_le_pos; lra|lra]. }
    assert (2 * Rabs D * C1 * (e * t) <= 2 * Rabs D * C1 * (1 * t)).
    { apply Rmult_le_compat_l; [apply Rmult_le_pos; lra|]. apply Rmult_le_compat_r; lra. }
    assert (0 <= e * e) by (apply Rmult_le_pos; lra). assert (0 <= C2 * (e * e)) by (apply Rmult_le_pos; lra). nra. }
  assert (L4 : C5 * (e * e + t) <= 1).
  { assert (e * e <= e * 1) by (apply Rmult_le_compat_l; lra).
    apply Rle_trans with (C5 * (/ (2 * C5) + / (2 * C5))); [apply Rmult_le_compat_l; lra|]. right. field. lra. }
  pose proof (ok_div o Ho _ _ _ _ p Hp Vy Vd D_nonzero) as Vq.
  assert (Bq : Rabs (zeval pol (dyv m) / D) <= M).
  { unfold Rdiv. rewrite Rabs_mult, Rabs_inv. apply Rle_trans with (2 * Rabs D * / Rabs D); [apply Rmult_le_compat_r; lra|].
    replace (2 * Rabs D * / Rabs D) with 2 by (field; lra). unfold M. lra. }
  pose proof (E4 _ (bexact m) _ (dyv m) _ 0 p Hp Vq Im Bq ltac:(unfold M; unfold K in Bm; lra) Rq2 Re0 L4 ltac:(lra)) as Rs. fold t in Rs.
  set (res := bneg (o_sub o (o_div o y dd' p) (bexact m) p)).
  assert (En : newton_step o pol (zderiv pol) (Fin m r) p = Val (bcontains (Fin m r) res && negb (bequal (Fin m r) res), Some res)).
  { unfold newton_step. destruct (Z.leb_spec p 0); [lia|]. destruct (Z.ltb_spec p 2); [lia|]. fold dd'. rewrite Zd. reflexivity. }
  exists res. split; [exact En|]. split.
  - apply (newton_encloses o Ho pol (Fin m r) x p _ res En Hx). apply (min_root _ _ Hm).
  - assert (rad_le res (C4 * (C5 * (e * e + t) + 0 + t))).
    { unfold res. destruct (o_sub o (o_div o y dd' p) (bexact m) p); exact Rs. }
    apply (rad_le_mono _ _ _) with (2 := H). rewrite (Rmult_assoc C4 (C5 + 1)). apply Rmult_le_compat_l; [lra|].
    assert (0 <= e * e) by (apply Rmult_le_pos; lra). lra.
Qed.

(** * Precisions *)
Definition K := 64 / (x * x).
Lemma K_pos : 0 < K.
Proof. unfold K. apply Rdiv_lt_0_compat; [lra|]. pose proof x_nonzero. nra. Qed.

Lemma cond_nonneg : forall a c, (2 <= c)%Z -> is_finite a = true -> inb x a -> (0 <= cond_2exp pol a c)%Z.
Proof.
  intros a c Hc Hf Hx. pose proof (cond_2exp_weak pol a c x Hc) as W. pose proof c0_nonzero as N0.
  destruct pol as [|c0 q] eqn:Ep; [contradiction N0; reflexivity|]. specialize (W ltac:(discriminate) Hf Hx). cbn [nth] in N0.
  rewrite abs_sum_cons in W. pose proof (abs_sum_nonneg q x). pose proof (Rabs_pos x).
  assert (1 <= Rabs (IZR c0)) by (rewrite <- abs_IZR; apply IZR_le; lia).
  assert (0 <= Rabs x * abs_sum q x) by (apply Rmult_le_pos; lra).
  destruct (Z.le_gt_cases 0 (cond_2exp (c0 :: q) a c)) as [|L]; [assumption|exfalso].
  assert (pw2 (cond_2exp (c0 :: q) a c + 1) <= pw2 0) by (apply pw2_le; lia). rewrite pw2_0 in *. lra.
Qed.

Lemma rad_pos : forall m r, inb x (Fin m r) -> 0 < dyv r /\ fst r <> 0%Z.
Proof.
  intros m r H. pose proof (inb_rad _ _ _ H) as R0.
  assert (dyv r <> 0).
  { intros E. cbn in H. rewrite E in H. apply (x_not_dyadic m). pose proof (Rabs_pos (x - dyv m)).
    destruct (Req_dec (x - dyv m) 0) as [W|W]; [lra|]. apply Rabs_pos_lt in W. lra. }
  split; [lra|]. intros E. apply dyv_eq0 in E. contradiction.
Qed.

Lemma tried_small : forall m r p, inb x (Fin m r) -> dyv r <= Rabs x / 2 -> tried pol (Fin m r) p -> pw2 (- p) <= K * (dyv r * dyv r).
Proof.
  intros m r p Hx Hr (c & k & Hc & Hk & ->). destruct (rad_pos m r Hx) as [R0 Rn].
  pose proof (Rabs_pos_lt x x_nonzero) as X0.
  assert (Hmx : Rabs x / 2 <= Rabs (dyv m)) by (cbn in Hx; pose proof (Rabs_triang_inv x (dyv m)); lra).
  assert (Mn : fst m <> 0%Z) by (intros E; apply dyv_eq0 in E; rewrite E, Rabs_R0 in Hmx; lra).
  pose proof (cond_nonneg (Fin m r) c Hc eq_refl Hx) as C0.
  set (acc := rel_accuracy (Fin m r)) in *.
  assert (Ea : acc = (dexp m - dexp r - 1)%Z).
  { unfold acc, rel_accuracy, rel_error. destruct (Z.eqb_spec (fst r) 0); [contradiction|]. destruct (Z.eqb_spec (fst m) 0); [contradiction|]. lia. }
  assert (Hp : (acc + acc <= 2 ^ k * (2 * Z.abs acc + cond_2exp pol (Fin m r) c * Z.of_nat (length pol)))%Z).
  { assert (0 < 2 ^ k)%Z by (apply Z.pow_pos_nonneg; lia).
    assert (0 <= cond_2exp pol (Fin m r) c * Z.of_nat (length pol))%Z by (apply Z.mul_nonneg_nonneg; lia). nia. }
  apply Rle_trans with (pw2 (- acc + - acc)); [apply pw2_le; lia|]. rewrite pw2_add.
  assert (Hq : 0 <= pw2 (- acc) <= 8 * dyv r / Rabs x).
  { split; [left; apply pw2_pos|]. rewrite Ea. replace (- (dexp m - dexp r - 1))%Z with ((dexp r - 1) + (2 + - dexp m))%Z by lia.
    rewrite !pw2_add. destruct (dexp_spec r Rn) as [A _]. destruct (dexp_spec m Mn) as [_ B]. rewrite (Rabs_pos_eq (dyv r)) in A by lra.
    replace (pw2 2) with 4 by (unfold pw2; cbn [powerRZ]; change (Pos.to_nat 2) with 2%nat; cbn [pow]; lra).
    pose proof (pw2_inv (dexp m)) as I. pose proof (pw2_pos (dexp m)). pose proof (pw2_pos (- dexp m)). pose proof (pw2_pos (dexp r + -1)).
    apply Rmult_le_reg_r with (Rabs x); [exact X0|].
    replace (8 * dyv r / Rabs x * Rabs x) with (8 * dyv r) by (field; lra).
    assert (Rabs x * pw2 (- dexp m) <= 2).
    { apply Rle_trans with (2 * pw2 (dexp m) * pw2 (- dexp m)); [apply Rmult_le_compat_r; lra|]. rewrite Rmult_assoc, (Rmult_comm (pw2 (dexp m))), I. lra. }
    change (dexp r + -1)%Z with (dexp r - 1)%Z in *.
    apply Rle_trans with (dyv r * (4 * (Rabs x * pw2 (- dexp m)))); [|apply Rle_trans with (dyv r * (4 * 2)); [apply Rmult_le_compat_l; lra|lra]].
    replace (pw2 (dexp r - 1) * (4 * pw2 (- dexp m)) * Rabs x) with (pw2 (dexp r - 1) * (4 * (Rabs x * pw2 (- dexp m)))) by ring.
    apply Rmult_le_compat_r; [|exact A]. apply Rmult_le_pos; [lra|]. apply Rlt_le, Rmult_lt_0_compat; assumption. }
  apply Rle_trans with (8 * dyv r / Rabs x * (8 * dyv r / Rabs x)); [apply Rmult_le_compat; lra|].
  right. unfold K. assert (E : x * x = Rabs x * Rabs x) by (unfold Rabs; destruct (Rcase_abs x); ring). rewrite E. field. lra.
Qed.

(** * One step of the refinement of a small ball *)
Definition far (m r : dy) : Prop := 3 / 4 * dyv r <= Rabs (dyv m - x).

Lemma interval_near : forall T, 0 < T -> exists d, 0 < d /\ forall m r p, inb x (Fin m r) -> dyv r <= d -> (2 <= p)%Z ->
  pw2 (- p) <= K * (dyv r * dyv r) ->
  exists l u, interval (Fin m r) p = Some (l, u) /\ dyv m - dyv r - dyv r * T <= dyv l <= dyv m - dyv r /\ dyv m + dyv r <= dyv u <= dyv m + dyv r + dyv r * T /\
    forall md v, Rabs (dyv v) <= 2 * (Rabs x + 2) -> Rabs (dyv v - dyv (dround md p v)) <= dyv r * T.
Proof.
  intros T HT. pose proof K_pos as HK. pose proof (Rabs_pos x) as X0.
  assert (HG : 0 < K * (4 * (Rabs x + 2))) by (apply Rmult_lt_0_compat; lra).
  destruct (below2 1 (T / (K * (4 * (Rabs x + 2)))) ltac:(lra)) as (d & D0 & D1 & D2); [apply Rdiv_lt_0_compat; lra|].
  exists d. split; [exact D0|]. intros m r p Hx Hr Hp Ht. pose proof (inb_rad _ _ _ Hx) as R0.
  assert (Hrnd : forall md v, Rabs (dyv v) <= 2 * (Rabs x + 2) -> Rabs (dyv v - dyv (dround md p v)) <= dyv r * T).
  { intros md v Hv. destruct (dround_spec md p v ltac:(lia)) as (_ & E & _).
    replace (1 - p)%Z with (1 + - p)%Z in E by lia. rewrite pw2_add in E. change (pw2 1) with (2 ^ 1) in E. rewrite pow_1 in E.
    eapply Rle_trans; [exact E|]. pose proof (pw2_pos (- p)).
    apply Rle_trans with (2 * (Rabs x + 2) * (2 * (K * (dyv r * dyv r)))); [apply Rmult_le_compat; try lra; apply Rabs_pos|].
    replace (2 * (Rabs x + 2) * (2 * (K * (dyv r * dyv r)))) with (dyv r * (K * (4 * (Rabs x + 2)) * dyv r)) by ring.
    apply Rmult_le_compat_l; [exact R0|].
    apply Rle_trans with (K * (4 * (Rabs x + 2)) * (T / (K * (4 * (Rabs x + 2))))); [apply Rmult_le_compat_l; lra|]. right. field. lra. }
  exists (dround RFloor p (dsub m r)), (dround RCeil p (dadd m r)). split; [reflexivity|].
  cbn in Hx. apply Rabs_le_inv2 in Hx.
  pose proof (Hrnd RFloor (dsub m r) ltac:(rewrite dyv_sub; unfold Rabs; destruct (Rcase_abs (dyv m - dyv r)), (Rcase_abs x); lra)) as A.
  pose proof (Hrnd RCeil (dadd m r) ltac:(rewrite dyv_add; unfold Rabs; destruct (Rcase_abs (dyv m + dyv r)), (Rcase_abs x); lra)) as B.
  pose proof (dround_floor_le p (dsub m r) ltac:(lia)) as L3. pose proof (dround_ceil_ge p (dadd m r) ltac:(lia)) as L4.
  apply Rabs_le_inv2 in A. apply Rabs_le_inv2 in B.
  rewrite dyv_sub in A, L3. rewrite dyv_add in B, L4. split; [lra|]. split; [lra|exact Hrnd].
Qed.

Definition radius_fits (r0 : R) : Prop := forall m r p, inb x (Fin m r) -> dyv r <= r0 -> tried pol (Fin m r) p ->
  (2 <= p)%Z /\
  (exists l u, interval (Fin m r) p = Some (l, u) /\ only_root pol (dyv l) (dyv u) x) /\
  ((exists t, newton_step o pol (zderiv pol) (Fin m r) p = Val (true, Some t) /\ inb x t /\ rad_le t (3 / 4 * dyv r)) \/
   (exists t, newton_step o pol (zderiv pol) (Fin m r) p = Val (false, Some t)) /\
   exists b t, bisection_step o pol (Fin m r) p = Val (b, t) /\ (b = false \/ exists t', t = Some t' /\ inb x t' /\ rad_le t' (3 / 4 * dyv r))).

Lemma steps : forall m0, 0 < m0 -> exists r0, 0 < r0 /\ r0 <= m0 /\ radius_fits r0.
Proof.
  intros m0 M0. destruct der_near as (rho & Hrho & Hrho1 & Hder). pose proof (pol_near rho Hder) as Hpn.
  destruct newton_rate as (Cn & dn & HCn & Hdn & Hnewton).
  destruct (interval_near (/ 64) ltac:(lra)) as (di & Hdi & Hint).
  pose proof (Rabs_pos_lt D D_nonzero) as HD. pose proof (Rabs_pos x) as X0. pose proof (Rabs_pos_lt x x_nonzero) as Xp. pose proof K_pos as HK.
  set (M := Rabs x + 3).
  destruct (eval_rate pol M ltac:(unfold M; lra)) as (Ce & de & HCe & Hde & Heval).
  assert (HM : 1 <= M) by (unfold M; lra).
  destruct (rt_interval o Hrt M HM) as (Cs & HCs & Hset). destruct (rt_inter o Hrt M HM) as (Ci & HCi & Hinter).
  set (W := Cn * (1 + K)). assert (HW : 0 < W) by (unfold W; apply Rmult_lt_0_compat; lra).
  set (V := (9 / 8 * Cs + Ci) * K). assert (HV : 0 < V) by (unfold V; apply Rmult_lt_0_compat; lra).
  set (E := Ce * K). assert (HE : 0 < E) by (unfold E; apply Rmult_lt_0_compat; lra).
  set (G := 1 + / dn + / di + / de + / rho * 4 + / (Rabs x) * 2 + 4 * K + K / dn + K / de + 8 * W + 20 * V + 16 * E / Rabs D + / m0 + Cs * K * 4).
  assert (G1 : 1 <= G /\ / dn <= G /\ / di <= G /\ / de <= G /\ / rho * 4 <= G /\ / (Rabs x) * 2 <= G /\ 4 * K <= G /\ K / dn <= G /\ K / de <= G /\ 8 * W <= G /\ 20 * V <= G /\ 16 * E / Rabs D <= G /\ / m0 <= G /\ Cs * K * 4 <= G).
  { unfold G. assert (0 < / dn) by (apply Rinv_0_lt_compat; lra). assert (0 < / di) by (apply Rinv_0_lt_compat; lra). assert (0 < / de) by (apply Rinv_0_lt_compat; lra).
    assert (0 < / rho) by (apply Rinv_0_lt_compat; lra). assert (0 < / Rabs x) by (apply Rinv_0_lt_compat; lra). assert (0 < / m0) by (apply Rinv_0_lt_compat; lra).
    assert (0 < K / dn) by (apply Rdiv_lt_0_compat; lra). assert (0 < K / de) by (apply Rdiv_lt_0_compat; lra). assert (0 < 16 * E / Rabs D) by (apply Rdiv_lt_0_compat; lra).
    assert (0 < Cs * K) by (apply Rmult_lt_0_compat; lra). repeat split; lra. }
  destruct G1 as (G0 & Gdn & Gdi & Gde & Grho & Gx & GK & GKn & GKe & GW & GV & GE & Gm & Gs).
  assert (Hsc : forall a, 0 <= a -> a <= G -> a * / G <= 1).
  { intros a A0 A1. apply Rmult_le_reg_r with G; [lra|]. rewrite Rmult_assoc, Rinv_l by lra. lra. }
  assert (HiG : 0 < / G) by (apply Rinv_0_lt_compat; lra).
  assert (Hinv : forall a b, 0 < a -> 0 < b -> / a * b <= G -> b * / G <= a).
  { intros a b A0 B0 L. assert (0 < / a) by (apply Rinv_0_lt_compat; exact A0). assert (Q : / a * b * / G <= 1) by (apply Hsc; [apply Rmult_le_pos; lra|exact L]).
    apply Rmult_le_reg_l with (/ a); [assumption|]. rewrite Rinv_l by lra. rewrite <- Rmult_assoc. exact Q. }
  exists (/ G). split; [exact HiG|]. split; [rewrite <- (Rmult_1_l (/ G)); apply Hinv; lra|].
  intros m r p Hx Hr Ht. destruct (rad_pos m r Hx) as [R0 Rn]. set (e := dyv r) in *.
  assert (B1 : e <= 1) by (apply Rle_trans with (1 := Hr); rewrite <- (Rmult_1_l (/ G)); apply Hsc; lra).
  assert (Bdn : e <= dn) by (apply Rle_trans with (1 := Hr); rewrite <- (Rmult_1_l (/ G)); apply Hinv; lra).
  assert (Bdi : e <= di) by (apply Rle_trans with (1 := Hr); rewrite <- (Rmult_1_l (/ G)); apply Hinv; lra).
  assert (Bde : e <= de) by (apply Rle_trans with (1 := Hr); rewrite <- (Rmult_1_l (/ G)); apply Hinv; lra).
  assert (Brho : e <= rho / 4) by (assert (4 * / G <= rho) by (apply Hinv; lra); lra).
  assert (Bx : e <= Rabs x / 2) by (assert (2 * / G <= Rabs x) by (apply Hinv; lra); lra).
  assert (Hlin : forall c, 0 <= c -> c <= G -> c * (e * e) <= e).
  { intros c C0 C1. replace (c * (e * e)) with (c * e * e) by ring. rewrite <- (Rmult_1_l e) at 3. apply Rmult_le_compat_r; [lra|].
    apply Rle_trans with (c * / G); [apply Rmult_le_compat_l; lra|apply Hsc; assumption]. }
  pose proof (tried_small m r p Hx Bx Ht) as T. fold e in T. set (t := pw2 (- p)) in *. assert (T0 : 0 < t) by apply pw2_pos.
  pose proof (Hlin (4 * K) ltac:(lra) GK) as TK.
  assert (Tn : t <= dn).
  { assert (0 < K / dn) by (apply Rdiv_lt_0_compat; lra). pose proof (Hlin (K / dn) ltac:(lra) GKn) as Q.
    assert (K * (e * e) = K / dn * (e * e) * dn) by (field; lra). assert (K / dn * (e * e) * dn <= e * dn) by (apply Rmult_le_compat_r; lra).
    assert (e * dn <= 1 * dn) by (apply Rmult_le_compat_r; lra). lra. }
  assert (Te : t <= de).
  { assert (0 < K / de) by (apply Rdiv_lt_0_compat; lra). pose proof (Hlin (K / de) ltac:(lra) GKe) as Q.
    assert (K * (e * e) = K / de * (e * e) * de) by (field; lra). assert (K / de * (e * e) * de <= e * de) by (apply Rmult_le_compat_r; lra).
    assert (e * de <= 1 * de) by (apply Rmult_le_compat_r; lra). lra. }
  assert (Hp : (2 <= p)%Z).
  { assert (t <= pw2 (-2)) by (rewrite pw2_m2; lra). destruct (Z.le_gt_cases 2 p) as [|L]; [assumption|exfalso].
    assert (pw2 (-1) <= t) by (apply pw2_le; lia). rewrite pw2_m1, pw2_m2 in *. lra. }
  split; [exact Hp|].
  destruct (Hint m r p Hx Bdi Hp T) as (l & u & Ei & Hl & Hu & Hrnd). fold e in Hl, Hu, Hrnd.
  assert (Hmx : Rabs (x - dyv m) <= e) by exact Hx. apply Rabs_le_inv2 in Hmx.
  assert (Hnear : forall y, dyv l <= y <= dyv u -> Rabs (y - x) <= rho).
  { intros y Hy. apply Rabs_le. lra. }
  assert (Hon : only_root pol (dyv l) (dyv u) x).
  { split; [apply (min_root _ _ Hm)|]. intros y Hy Zy. destruct (Hpn y (Hnear y Hy)) as [A _]. rewrite Zy, Rabs_R0 in A.
    pose proof (Rabs_pos (y - x)). destruct (Req_dec y x) as [|Ny]; [assumption|exfalso].
    assert (0 < Rabs (y - x)) by (apply Rabs_pos_lt; lra). assert (0 < Rabs D / 2 * Rabs (y - x)) by (apply Rmult_lt_0_compat; lra). lra. }
  split; [exists l, u; split; assumption|].
  destruct (Hnewton m r p Hx Bdn Hp Tn) as (res & En & Ir & Rr). fold e t in Rr.
  assert (Rr8 : rad_le res (e / 8)).
  { apply (rad_le_mono _ _ _) with (2 := Rr). assert (Cn * (e * e + t) <= Cn * (e * e + K * (e * e))) by (apply Rmult_le_compat_l; lra).
    replace (Cn * (e * e + K * (e * e))) with (W * (e * e)) in H by (unfold W; ring). pose proof (Hlin (8 * W) ltac:(lra) GW). lra. }
  destruct res as [n s|]; [|contradiction]. cbn [rad_le] in Rr8. cbn in Ir. apply Rabs_le_inv2 in Ir.
  assert (Eq : bequal (Fin m r) (Fin n s) = false).
  { apply not_true_is_false. intros Q. unfold bequal in Q. apply andb_true_iff in Q. destruct Q as [_ Q]. apply deqb_spec in Q. fold e in Q. lra. }
  rewrite Eq, andb_true_r in En.
  destruct (bcontains (Fin m r) (Fin n s)) eqn:Ec.
  { left. exists (Fin n s). split; [exact En|]. split; [cbn; apply Rabs_le; lra|cbn; lra]. }
  right. split; [exists (Fin n s); exact En|].
  assert (Hfar : 3 / 4 * e < Rabs (dyv m - x)).
  { cbn [bcontains] in Ec. apply dleb_false in Ec. rewrite dyv_add, dyv_abs, dyv_sub in Ec. fold e in Ec.
    unfold Rabs in Ec |- *. destruct (Rcase_abs (dyv m - dyv n)), (Rcase_abs (dyv m - x)); lra. }
  unfold bisection_step. destruct (Z.ltb_spec p 2); [lia|]. rewrite Ei.
  destruct (contains_zero (eval_arb o pol (bexact l) p)) eqn:Zl; [exists false, None; split; [reflexivity|left; reflexivity]|].
  destruct (contains_zero (eval_arb o pol (bexact u) p)) eqn:Zu; [exists false, None; split; [reflexivity|left; reflexivity]|].
  destruct (bisection_arf o l u pol (msgn (eval_arb o pol (bexact l) p)) p) as [l' u'] eqn:Eb.
  exists true, (Some (o_inter o (o_set_interval o l' u' p) (Fin m r) p)). split; [reflexivity|]. right. eexists. split; [reflexivity|].
  assert (Hxlu : dyv l' <= x <= dyv u').
  { apply (bisection_arf_keeps o Ho pol x p l u); try assumption; [apply minimal_simple; exact Hm|lra]. }
  (* the middle *)
  set (c := d2exp (dround RNear p (dadd l u)) (-1)).
  assert (Hc : dyv m - e / 64 <= dyv c <= dyv m + e / 64).
  { unfold c. rewrite dyv_2exp, pw2_m1. pose proof (Hrnd RNear (dadd l u)) as Q. rewrite dyv_add in Q.
    assert (Q' : Rabs (dyv l + dyv u) <= 2 * (Rabs x + 2)) by (unfold Rabs; destruct (Rcase_abs (dyv l + dyv u)), (Rcase_abs x); lra).
    specialize (Q Q'). apply Rabs_le_inv2 in Q. lra. }
  assert (Hcx : e / 2 <= Rabs (dyv c - x)) by (unfold Rabs in Hfar |- *; destruct (Rcase_abs (dyv m - x)), (Rcase_abs (dyv c - x)); lra).
  destruct (Hpn (dyv c) ltac:(apply Hnear; lra)) as [Hfc _].
  assert (Hfc' : Rabs D * e / 4 <= Rabs (zeval pol (dyv c))).
  { eapply Rle_trans; [|exact Hfc]. assert (Rabs D / 2 * (e / 2) <= Rabs D / 2 * Rabs (dyv c - x)) by (apply Rmult_le_compat_l; lra). lra. }
  assert (HDe : 0 < Rabs D * e) by (apply Rmult_lt_0_compat; lra).
  assert (Ic : inb (dyv c) (bexact c)) by (apply inb_exact; reflexivity).
  assert (Zc : contains_zero (eval_arb o pol (bexact c) p) = false).
  { apply (small_nonzero _ (zeval pol (dyv c))).
    - intros Q. rewrite Q, Rabs_R0 in Hfc'. lra.
    - apply (eval_arb_ok o Ho); assumption.
    - apply (rad_le_mono _ (Ce * (0 + t))).
      + rewrite Rplus_0_l. assert (Q0 : 0 < 16 * E / Rabs D) by (apply Rdiv_lt_0_compat; lra). pose proof (Hlin (16 * E / Rabs D) ltac:(lra) GE) as Q.
        assert (Ce * t <= E * (e * e)) by (unfold E; rewrite Rmult_assoc; apply Rmult_le_compat_l; lra).
        assert (16 * E / Rabs D * (e * e) * Rabs D <= e * Rabs D) by (apply Rmult_le_compat_r; lra).
        replace (16 * E / Rabs D * (e * e) * Rabs D) with (16 * (E * (e * e))) in H1 by (field; lra). lra.
      + apply (Heval (bexact c) (dyv c) 0 p Hp Te Ic).
        * unfold M. unfold Rabs. destruct (Rcase_abs (dyv c)), (Rcase_abs x); lra.
        * cbn. rewrite dyv_dz. simpl. lra.
        * lra. }
  assert (Hw : dyv u' - dyv l' <= e * (33 / 32) /\ - M <= dyv l' /\ dyv l' <= dyv u' /\ dyv u' <= M).
  { unfold bisection_arf in Eb. fold c in Eb. rewrite Zc in Eb.
    assert (dleb c l = false) as Q1 by (apply dleb_false; lra). assert (dleb u c = false) as Q2 by (apply dleb_false; lra).
    rewrite Q1, Q2 in Eb. cbn [orb] in Eb. unfold M. unfold Rabs.
    destruct (_ =? _)%Z in Eb; injection Eb as <- <-; destruct (Rcase_abs x); lra. }
  destruct Hw as (Hw & Hw1 & Hw2 & Hw3).
  pose proof (Hset l' u' p Hp Hw1 Hw2 Hw3) as Rset. fold t in Rset.
  pose proof (ok_set_interval o Ho l' u' x p Hp Hxlu) as Iset.
  split; [apply (ok_inter o Ho); assumption|].
  assert (Ts : Cs * t <= e / 4).
  { assert (Cs * t <= Cs * (K * (e * e))) by (apply Rmult_le_compat_l; lra). pose proof (Hlin (Cs * K * 4) ltac:(assert (0 < Cs * K) by (apply Rmult_lt_0_compat; lra); lra) Gs). lra. }
  pose proof (Hinter _ (Fin m r) x _ p Hp Iset Hx ltac:(unfold M; lra) Rset ltac:(lra)) as Rint. fold t in Rint.
  apply (rad_le_mono _ _ _) with (2 := Rint). pose proof (Hlin (20 * V) ltac:(lra) GV) as Q.
  assert ((9 / 8 * Cs + Ci) * t <= V * (e * e)) by (unfold V; rewrite Rmult_assoc; apply Rmult_le_compat_l; lra). lra.
Qed.

(** With enough bits the bisection takes place. *)
Lemma bisection_happens : exists d, 0 < d /\ forall m r, inb x (Fin m r) -> dyv r <= d -> exists P, forall p, (P <= p)%Z -> (2 <= p)%Z ->
  exists t, bisection_step o pol (Fin m r) p = Val (true, Some t).
Proof.
  destruct der_near as (rho & Hrho & Hrho1 & Hder). pose proof (pol_near rho Hder) as Hpn. pose proof (Rabs_pos_lt D D_nonzero) as HD. pose proof (Rabs_pos x) as X0.
  exists (rho / 3). split; [lra|]. intros m r Hx Hr. destruct (rad_pos m r Hx) as [R0 _]. cbn in Hx. apply Rabs_le_inv2 in Hx.
  set (M := Rabs x + 3). destruct (eval_rate pol M ltac:(unfold M; lra)) as (Ce & de & HCe & Hde & Heval).
  assert (Hend : forall v, Rabs (dyv v) <= M -> dyv v <> x -> Rabs (dyv v - x) <= 2 * dyv r -> exists P, forall p md, (P <= p)%Z -> (2 <= p)%Z ->
    Rabs (dyv v - x) <= Rabs (dyv (dround md p v) - x) -> contains_zero (eval_arb o pol (bexact (dround md p v)) p) = false).
  { intros v Bv Nv Hv. set (g := Rabs (dyv v - x)) in *. assert (G0 : 0 < g) by (apply Rabs_pos_lt; lra).
    set (eps := Rmin de (Rmin (Rabs D * g / 8 / Ce) (Rmin (dyv r / (2 * M)) (1 / (2 * M))))).
    assert (HDg : 0 < Rabs D * g) by (apply Rmult_lt_0_compat; lra).
    assert (Heps : 0 < eps).
    { unfold eps. repeat apply Rmin_glb_lt; try assumption; apply Rdiv_lt_0_compat; unfold M; lra. }
    destruct (pw2_neg_small eps Heps) as (P & HP). exists P. intros p md Hp H2 Hg. specialize (HP p Hp). set (t := pw2 (- p)) in *.
    assert (T0 : 0 < t) by apply pw2_pos.
    assert (T1 : t <= de) by (pose proof (Rmin_l de (Rmin (Rabs D * g / 8 / Ce) (Rmin (dyv r / (2 * M)) (1 / (2 * M))))); fold eps in H; lra).
    assert (T' : t <= Rmin (Rabs D * g / 8 / Ce) (Rmin (dyv r / (2 * M)) (1 / (2 * M)))) by (pose proof (Rmin_r de (Rmin (Rabs D * g / 8 / Ce) (Rmin (dyv r / (2 * M)) (1 / (2 * M))))); fold eps in H; lra).
    assert (T2 : t <= Rabs D * g / 8 / Ce) by (eapply Rle_trans; [exact T'|apply Rmin_l]).
    assert (T'' : t <= Rmin (dyv r / (2 * M)) (1 / (2 * M))) by (eapply Rle_trans; [exact T'|apply Rmin_r]).
    assert (T3 : t <= dyv r / (2 * M)) by (eapply Rle_trans; [exact T''|apply Rmin_l]).
    set (w := dround md p v) in *. destruct (dround_spec md p v ltac:(lia)) as (_ & Ew & _). fold w in Ew.
    replace (1 - p)%Z with (1 + - p)%Z in Ew by lia. rewrite pw2_add in Ew. fold t in Ew. change (pw2 1) with (2 ^ 1) in Ew. rewrite pow_1 in Ew.
    assert (Dw : Rabs (dyv v - dyv w) <= dyv r).
    { eapply Rle_trans; [exact Ew|]. apply Rle_trans with (M * (2 * (dyv r / (2 * M)))); [apply Rmult_le_compat; try lra; apply Rabs_pos|].
      right. field. unfold M. lra. }
    assert (Hwx : Rabs (dyv w - x) <= 3 * dyv r).
    { replace (dyv w - x) with (- (dyv v - dyv w) + (dyv v - x)) by ring. eapply Rle_trans; [apply Rabs_triang|]. rewrite Rabs_Ropp. fold g. lra. }
    destruct (Hpn (dyv w) ltac:(lra)) as [Hf _].
    assert (Hf' : Rabs D / 2 * g <= Rabs (zeval pol (dyv w))) by (eapply Rle_trans; [|exact Hf]; apply Rmult_le_compat_l; lra).
    assert (Iw : inb (dyv w) (bexact w)) by (apply inb_exact; reflexivity).
    apply (small_nonzero _ (zeval pol (dyv w))).
    - intros Q. rewrite Q, Rabs_R0 in Hf'. lra.
    - apply (eval_arb_ok o Ho); assumption.
    - apply (rad_le_mono _ (Ce * (0 + t))).
      + rewrite Rplus_0_l. assert (Ce * t <= Ce * (Rabs D * g / 8 / Ce)) by (apply Rmult_le_compat_l; lra).
        replace (Ce * (Rabs D * g / 8 / Ce)) with (Rabs D * g / 8) in H by (field; lra). lra.
      + apply (Heval (bexact w) (dyv w) 0 p H2 T1 Iw).
        * pose proof (Rabs_triang_inv (dyv w) x). unfold M. lra.
        * cbn. rewrite dyv_dz. simpl. lra.
        * lra. }
  assert (Ll : dyv (dsub m r) <> x) by (intros Q; apply (x_not_dyadic _ (eq_sym Q))).
  assert (Lu : dyv (dadd m r) <> x) by (intros Q; apply (x_not_dyadic _ (eq_sym Q))).
  destruct (Hend (dsub m r)) as (P1 & H1); [rewrite dyv_sub; unfold M, Rabs; destruct (Rcase_abs (dyv m - dyv r)), (Rcase_abs x); lra|exact Ll|rewrite dyv_sub; apply Rabs_le; lra|].
  destruct (Hend (dadd m r)) as (P2 & H2); [rewrite dyv_add; unfold M, Rabs; destruct (Rcase_abs (dyv m + dyv r)), (Rcase_abs x); lra|exact Lu|rewrite dyv_add; apply Rabs_le; lra|].
  exists (Z.max P1 P2). intros p Hp Hp2. unfold bisection_step. destruct (Z.ltb_spec p 2); [lia|]. cbn [interval].
  pose proof (dround_floor_le p (dsub m r) ltac:(lia)) as L3. pose proof (dround_ceil_ge p (dadd m r) ltac:(lia)) as L4.
  rewrite H1, H2; [|lia|lia| |lia|lia|].
  - destruct (bisection_arf _ _ _ _ _ _) as [l' u']. eexists. reflexivity.
  - rewrite dyv_add in *. unfold Rabs. destruct (Rcase_abs (dyv m + dyv r - x)), (Rcase_abs (dyv (dround RCeil p (dadd m r)) - x)); lra.
  - rewrite dyv_sub in *. unfold Rabs. destruct (Rcase_abs (dyv m - dyv r - x)), (Rcase_abs (dyv (dround RFloor p (dsub m r)) - x)); lra.
Qed.

(** * Enough accuracy *)
Lemma accurate : forall prec, exists eps, 0 < eps /\ forall m r, inb x (Fin m r) -> dyv r <= eps -> (prec <= rel_accuracy (Fin m r))%Z.
Proof.
  intros prec. pose proof (Rabs_pos_lt x x_nonzero) as Hv0. set (q := Z.max prec 0). pose proof (pw2_pos (- (q + 8))) as Hpp.
  exists (Rabs x / 2 * pw2 (- (q + 8))). split; [apply Rmult_lt_0_compat; lra|].
  intros m r Hb Hrad. destruct (rad_pos m r Hb) as [R0 Rn].
  assert (Hsm : pw2 (- (q + 8)) <= 1) by (change 1 with (pw2 0); apply pw2_le; lia).
  assert (Hmv : Rabs x / 2 <= Rabs (dyv m)).
  { cbn in Hb. pose proof (Rabs_triang_inv x (dyv m)). nra. }
  unfold rel_accuracy. cbn [rel_error]. destruct (Z.eqb_spec (fst r) 0) as [E|E]; [contradiction|].
  destruct (Z.eqb_spec (fst m) 0) as [E'|E'].
  { exfalso. apply dyv_eq0 in E'. rewrite E', Rabs_R0 in Hmv. lra. }
  destruct (dexp_spec m E') as [_ M2]. destruct (dexp_spec r E) as [M1 _]. rewrite (Rabs_pos_eq (dyv r)) in M1 by lra.
  assert (Hlt : pw2 (dexp r - 1) < pw2 (dexp m - (q + 8))).
  { replace (dexp m - (q + 8))%Z with (dexp m + - (q + 8))%Z by lia. rewrite pw2_add. nra. }
  destruct (Z.lt_ge_cases (dexp r - 1) (dexp m - (q + 8))) as [L|L]; [lia|].
  apply pw2_le in L. lra.
Qed.

(** * Small balls *)
Section Radius.
Variable r0 : R.
Hypothesis Hfit : radius_fits r0.
Hypothesis Hbis : forall m r, inb x (Fin m r) -> dyv r <= r0 -> exists P, forall p, (P <= p)%Z -> (2 <= p)%Z ->
  exists t, bisection_step o pol (Fin m r) p = Val (true, Some t).
Hypothesis Hsep : forall y, Rabs (y - x) <= 2 * r0 -> zeval pol y = 0 -> y = x.

Definition small (a : ball) : Prop := rad_le a r0.

Lemma small_safe : safe_balls o pol x small.
Proof.
  split.
  - intros [m r|] y Ha Hx _ Hy Zy; [|contradiction]. apply Hsep; [|exact Zy]. unfold small, rad_le in Ha. cbn in Hx, Hy.
    replace (y - x) with ((y - dyv m) + (dyv m - x)) by ring. eapply Rle_trans; [apply Rabs_triang|]. rewrite (Rabs_minus_sym (dyv m)). lra.
  - intros a p t Ha _ _ _ En Ht. pose proof (proj1 (newton_success _ _ _ _ _ _ En)) as Hs. revert a t Ha Ht Hs En. 
    intros [m r|] [n s|] Ha Ht Hs _; try contradiction.
    + unfold small, rad_le in *. pose proof (inb_rad _ _ _ Ht) as S0.
      pose proof (Hs (dyv n + dyv s) ltac:(cbn; rewrite Rabs_pos_eq; lra)) as A. pose proof (Hs (dyv n - dyv s) ltac:(cbn; apply Rabs_le; lra)) as B.
      cbn in A, B. apply Rabs_le_inv2 in A. apply Rabs_le_inv2 in B. lra.
    + exfalso. pose proof (Hs (dyv m + dyv r + 1) I) as A. cbn in A. unfold small in Ha. cbn in Ht. pose proof (Rabs_pos x).
      unfold Rabs in A. destruct (Rcase_abs (dyv m + dyv r + 1 - dyv m)); [|lra].
      pose proof (Hs (dyv m - dyv r + 1) I) as B. cbn in B. unfold Rabs in B. destruct (Rcase_abs (dyv m - dyv r + 1 - dyv m)); lra.
  - intros [m r|] p t Ha Hx Hp Ht Hn Eb It; [|contradiction].
    destruct (Hfit m r p Hx Ha Ht) as (_ & _ & [(t' & En & _)|(_ & b & t' & Eb' & [->|(t'' & -> & _ & R)])]).
    + exfalso. apply (Hn t' En).
    + rewrite Eb in Eb'. discriminate.
    + rewrite Eb in Eb'. injection Eb' as <- <-. apply (rad_le_mono _ _ _) with (2 := R). unfold small, rad_le in Ha. pose proof (inb_rad _ _ _ Hx). lra.
  - intros [m r|] p l u Ha Hx Hp Ht Ei; [|contradiction]. destruct (Hfit m r p Hx Ha Ht) as (_ & (l' & u' & Ei' & Hon) & _).
    rewrite Ei in Ei'. injection Ei' as <- <-. exact Hon.
Qed.

Lemma comp_prec_value : forall nf c, comp_prec nf c <> Fuel.
Proof. intros nf c. unfold comp_prec. destruct (_ <? _)%Z; discriminate. Qed.

Lemma refine_loop_small_ends : forall prec e, (forall m r, inb x (Fin m r) -> dyv r <= e -> (prec <= rel_accuracy (Fin m r))%Z) ->
  forall n nf cp m r, f_pol nf = pol -> f_emb nf = Fin m r -> inb x (Fin m r) -> dyv r <= r0 -> dyv r <= e * (4 / 3) ^ n -> tried pol (Fin m r) cp ->
  ends (fun f => refine_loop o f nf prec cp).
Proof.
  intros prec e Hacc. induction n as [|n IH]; intros nf cp m r Hpol He Hx Hr Hn Ht.
  - apply ends_S. cbn [refine_loop]. rewrite He. cbn [pow] in Hn.
    destruct (Z.ltb_spec (rel_accuracy (Fin m r)) prec) as [L|L]; [specialize (Hacc m r Hx ltac:(lra)); lia|]. apply ends_val. discriminate.
  - destruct (Hbis m r Hx Hr) as (P & HP). destruct (Hfit m r cp Hx Hr Ht) as (Hcp0 & _).
    assert (Hnext : forall t, inb x t -> rad_le t (3 / 4 * dyv r) -> ends (fun f => bind (comp_prec (with_emb nf t) 32) (fun cp' => refine_loop o f (with_emb nf t) prec cp'))).
    { intros [m' r'|] It Rt; [|contradiction]. cbn [rad_le] in Rt.
      apply (ends_bind_const _ _ (comp_prec (with_emb nf (Fin m' r')) 32) (fun cp' f => refine_loop o f (with_emb nf (Fin m' r')) prec cp')); [apply comp_prec_value|].
      intros cp' Ec. apply comp_prec_tried in Ec; [|lia]. cbn [with_emb f_pol f_emb] in Ec. rewrite Hpol in Ec.
      pose proof (inb_rad _ _ _ Hx). apply (IH _ _ m' r'); try assumption; try reflexivity; [lra|]. cbn [pow] in Hn. lra. }
    assert (Hk : exists k, (P <= 2 ^ Z.of_nat k * cp)%Z).
    { exists (Z.to_nat (Z.max P 0)). rewrite Z2Nat.id by lia. pose proof (Z.pow_gt_lin_r 2 (Z.max P 0) ltac:(lia) ltac:(lia)). nia. }
    destruct Hk as [k Hk]. revert cp Ht Hcp0 Hk. induction k as [|k IHk]; intros cp Ht Hcp0 Hk.
    + change (2 ^ Z.of_nat 0)%Z with 1%Z in Hk. apply ends_S. cbn [refine_loop]. rewrite He.
      destruct (Z.ltb_spec (rel_accuracy (Fin m r)) prec) as [L|L]; [|apply ends_val; discriminate].
      rewrite Hpol. destruct (Hfit m r cp Hx Hr Ht) as (_ & _ & [(t & En & It & Rt)|((t & En) & b & t' & Eb & Q)]); rewrite En; cbn [bind].
      * apply Hnext; assumption.
      * destruct (HP cp ltac:(lia) Hcp0) as [t2 Et2]. rewrite Eb in Et2. injection Et2 as -> ->. rewrite Eb. cbn [bind].
        destruct Q as [Q|(t3 & Q & I3 & R3)]; [discriminate|]. injection Q as <-. apply Hnext; assumption.
    + apply ends_S. cbn [refine_loop]. rewrite He.
      destruct (Z.ltb_spec (rel_accuracy (Fin m r)) prec) as [L|L]; [|apply ends_val; discriminate].
      rewrite Hpol. destruct (Hfit m r cp Hx Hr Ht) as (_ & _ & [(t & En & It & Rt)|((t & En) & b & t' & Eb & Q)]); rewrite En; cbn [bind].
      * apply Hnext; assumption.
      * rewrite Eb. cbn [bind].
        assert (Hd : ends (fun f => refine_loop o f nf prec (2 * cp))).
        { apply IHk; [apply tried_double; exact Ht|lia|]. rewrite Nat2Z.inj_succ, Z.pow_succ_r in Hk by lia. lia. }
        destruct Q as [->|(t3 & -> & I3 & R3)]; [exact Hd|]. destruct b; [apply Hnext; assumption|exact Hd].
Qed.

Lemma refine_small_ends : forall debug, refines_end o debug pol x small.
Proof.
  intros debug nf prec (Hpol & Hx & HN & Hpr). destruct (f_emb nf) as [m r|] eqn:He; [|contradiction].
  destruct (accurate prec) as (e & E0 & Hacc).
  assert (Hn : exists n, dyv r <= e * (4 / 3) ^ n).
  { destruct (Pow_x_infinity (4 / 3) ltac:(rewrite Rabs_pos_eq; lra) (dyv r / e)) as [n Hn]. exists n. specialize (Hn n (Nat.le_refl _)).
    rewrite Rabs_pos_eq in Hn by (apply pow_le; lra). apply Rge_le in Hn. apply Rmult_le_compat_l with (r := e) in Hn; [|lra].
    replace (e * (dyv r / e)) with (dyv r) in Hn by (field; lra). exact Hn. }
  destruct Hn as [n Hn].
  assert (Hgo : forall nf', f_pol nf' = pol -> f_emb nf' = Fin m r ->
    ends (fun f => bind (comp_prec nf' (Z.max (f_prec nf') 64)) (fun cp => refine_loop o f nf' prec cp))).
  { intros nf' Hp' He'. apply (ends_bind_const _ _ (comp_prec nf' (Z.max (f_prec nf') 64)) (fun cp f => refine_loop o f nf' prec cp)); [apply comp_prec_value|].
    intros cp Ec. apply comp_prec_tried in Ec; [|lia]. rewrite Hp', He' in Ec.
    apply (refine_loop_small_ends prec e Hacc n _ _ m r); assumption. }
  unfold refine. destruct debug; [|apply Hgo; assumption].
  cbn [set_immutable]. destruct (f_imm nf =? 0)%Z; [|apply ends_val; discriminate].
  match goal with |- ends (fun f => bind (@?F f) (@?G f)) => apply (ends_bind _ _ F (fun v f => G f v)) end.
  - apply Hgo; [exact Hpol|exact He].
  - intros f v _. apply ends_val. destruct (f_imm v =? 0)%Z; discriminate.
Qed.

(** The only failure is the overflow of twice the accuracy. *)
Lemma comp_prec_overflow : forall nf c, comp_prec nf c <> Abort /\ (comp_prec nf c = Undef -> (WORD_MAX < 2 * Z.abs (rel_accuracy (f_emb nf)))%Z).
Proof. intros nf c. unfold comp_prec. destruct (Z.ltb_spec WORD_MAX (2 * Z.abs (rel_accuracy (f_emb nf)))); split; intros; try discriminate. assumption. Qed.

Lemma sharpened_trans : forall a b, sharpened o pol a b -> forall c, sharpened o pol b c -> sharpened o pol a c.
Proof.
  intros a b H c H2. induction H2 as [|b' p t _ IH E|b' p t _ IH E]; [exact H|apply (sharp_newton _ _ _ b' p); assumption|apply (sharp_bisect _ _ _ b' p); assumption].
Qed.
Lemma overflow_from : forall a b, sharpened o pol a b -> word_overflow o pol b -> word_overflow o pol a.
Proof. intros a b H (t & S & W). exists t. split; [apply (sharpened_trans a b); assumption|exact W]. Qed.

Lemma refine_loop_defined : forall fuel nf prec cp m r, f_pol nf = pol -> f_emb nf = Fin m r -> inb x (Fin m r) -> dyv r <= r0 -> tried pol (Fin m r) cp ->
  refine_loop o fuel nf prec cp <> Abort /\ (refine_loop o fuel nf prec cp = Undef -> word_overflow o pol (Fin m r)).
Proof.
  induction fuel as [|fuel IH]; intros nf prec cp m r Hpol He Hx Hr Ht; [split; discriminate|]. cbn [refine_loop]. rewrite He.
  destruct (_ <? _)%Z; [|split; discriminate]. rewrite Hpol.
  assert (Hnext : forall t, inb x t -> rad_le t (3 / 4 * dyv r) -> sharpened o pol (Fin m r) t ->
    bind (comp_prec (with_emb nf t) 32) (fun cp' => refine_loop o fuel (with_emb nf t) prec cp') <> Abort /\
    (bind (comp_prec (with_emb nf t) 32) (fun cp' => refine_loop o fuel (with_emb nf t) prec cp') = Undef -> word_overflow o pol (Fin m r))).
  { intros [m' r'|] It Rt St; [|contradiction]. cbn [rad_le] in Rt. pose proof (inb_rad _ _ _ Hx).
    destruct (comp_prec_overflow (with_emb nf (Fin m' r')) 32) as [A B].
    destruct (comp_prec (with_emb nf (Fin m' r')) 32) as [cp'| | |] eqn:Ec; cbn [bind]; [|split; [discriminate|]|contradiction|split; discriminate].
    - apply comp_prec_tried in Ec; [|lia]. cbn [with_emb f_pol f_emb] in Ec. rewrite Hpol in Ec.
      destruct (IH (with_emb nf (Fin m' r')) prec cp' m' r') as [A' B']; try assumption; try reflexivity; [lra|].
      split; [exact A'|]. intros E. apply (overflow_from _ _ St), B', E.
    - intros _. exists (Fin m' r'). split; [exact St|]. apply B. reflexivity. }
  pose proof (tried_double _ _ _ Ht) as Ht2.
  destruct (Hfit m r cp Hx Hr Ht) as (_ & _ & [(t & En & It & Rt)|((t & En) & b & t' & Eb & Q)]); rewrite En; cbn [bind].
  - apply Hnext; try assumption. apply (sharp_newton _ _ _ (Fin m r) cp); [constructor|exact En].
  - rewrite Eb. cbn [bind]. destruct Q as [->|(t3 & -> & I3 & R3)]; [|destruct b; [apply Hnext; try assumption; apply (sharp_bisect _ _ _ (Fin m r) cp); [constructor|exact Eb]|]]; apply (IH _ _ _ m r); assumption.
Qed.

Lemma refine_defined : forall debug fuel nf prec, f_pol nf = pol -> inb x (f_emb nf) -> small (f_emb nf) -> f_imm nf = 0%Z ->
  refine o debug fuel nf prec <> Abort /\ (refine o debug fuel nf prec = Undef -> word_overflow o pol (f_emb nf)).
Proof.
  intros debug fuel nf prec Hpol Hx HN Hi. destruct (f_emb nf) as [m r|] eqn:He; [|contradiction].
  assert (Hgo : forall nf', f_pol nf' = pol -> f_emb nf' = Fin m r ->
    bind (comp_prec nf' (Z.max (f_prec nf') 64)) (fun cp => refine_loop o fuel nf' prec cp) <> Abort /\
    (bind (comp_prec nf' (Z.max (f_prec nf') 64)) (fun cp => refine_loop o fuel nf' prec cp) = Undef -> word_overflow o pol (Fin m r))).
  { intros nf' Hp' He'. destruct (comp_prec_overflow nf' (Z.max (f_prec nf') 64)) as [A B].
    destruct (comp_prec nf' (Z.max (f_prec nf') 64)) as [cp| | |] eqn:Ec; cbn [bind]; [|split; [discriminate|]|contradiction|split; discriminate].
    - apply comp_prec_tried in Ec; [|lia]. rewrite Hp', He' in Ec. apply refine_loop_defined; assumption.
    - intros _. exists (Fin m r). split; [constructor|]. rewrite <- He'. apply B. reflexivity. }
  unfold refine. destruct debug; [|apply Hgo; assumption].
  cbn [set_immutable]. rewrite Hi. cbn [Z.eqb].
  destruct (Hgo (with_imm nf 1) Hpol He) as [A B].
  destruct (bind (comp_prec (with_imm nf 1) (Z.max (f_prec (with_imm nf 1)) 64)) (fun cp => refine_loop o fuel (with_imm nf 1) prec cp)) as [nf2| | |] eqn:E;
    cbn [bind]; [|split; [discriminate|exact B]|contradiction|split; discriminate].
  assert (f_imm nf2 = 1%Z).
  { destruct (comp_prec (with_imm nf 1) (Z.max (f_prec (with_imm nf 1)) 64)) as [cp| | |] eqn:Ec; try discriminate. cbn [bind] in E.
    apply comp_prec_tried in Ec; [|lia]. cbn [with_imm f_pol f_emb] in Ec. rewrite Hpol, He in Ec.
    destruct (refine_loop_spec o Ho pol x small small_safe (minimal_simple pol x Hm) fuel (with_imm nf 1) prec cp nf2) as (_ & _ & _ & _ & F);
      cbn [with_imm f_pol f_emb]; rewrite ?He; try assumption. }
  cbn [set_immutable]. rewrite H. split; discriminate.
Qed.
End Radius.

Lemma small_balls_below : forall b, 0 < b -> exists r0, 0 < r0 /\ r0 <= b /\ safe_balls o pol x (small r0) /\ forall debug, refines_end o debug pol x (small r0) /\
  forall fuel nf prec, f_pol nf = pol -> inb x (f_emb nf) -> small r0 (f_emb nf) -> f_imm nf = 0%Z ->
  refine o debug fuel nf prec <> Abort /\ (refine o debug fuel nf prec = Undef -> word_overflow o pol (f_emb nf)).
Proof.
  intros b B0. destruct der_near as (rho & Hrho & Hrho1 & Hder). pose proof (pol_near rho Hder) as Hpn. pose proof (Rabs_pos_lt D D_nonzero) as HD.
  destruct bisection_happens as (d & D0 & Hb).
  destruct (below2 (rho / 2) d ltac:(lra) D0) as (m1 & N0 & N1 & N2). destruct (below2 m1 b N0 B0) as (m0 & M0 & M1 & M2).
  destruct (steps m0 M0) as (r0 & R0 & R1 & Hfit). exists r0. split; [exact R0|]. split; [lra|].
  assert (Hb' : forall m r, inb x (Fin m r) -> dyv r <= r0 -> exists P, forall p, (P <= p)%Z -> (2 <= p)%Z -> exists t, bisection_step o pol (Fin m r) p = Val (true, Some t)).
  { intros m r Hx Hr. apply Hb; [exact Hx|lra]. }
  assert (Hsep : forall y, Rabs (y - x) <= 2 * r0 -> zeval pol y = 0 -> y = x).
  { intros y Hy Zy. destruct (Hpn y ltac:(lra)) as [A _]. rewrite Zy, Rabs_R0 in A.
    destruct (Req_dec y x) as [|Ny]; [assumption|exfalso].
    assert (0 < Rabs (y - x)) by (apply Rabs_pos_lt; lra). assert (0 < Rabs D / 2 * Rabs (y - x)) by (apply Rmult_lt_0_compat; lra). lra. }
  split; [apply small_safe; assumption|]. intros debug. split; [apply refine_small_ends; assumption|].
  intros fuel nf prec. apply refine_defined; assumption.
Qed.

Theorem small_balls : exists r0, 0 < r0 /\ safe_balls o pol x (small r0) /\ forall debug, refines_end o debug pol x (small r0) /\
  forall fuel nf prec, f_pol nf = pol -> inb x (f_emb nf) -> small r0 (f_emb nf) -> f_imm nf = 0%Z ->
  refine o debug fuel nf prec <> Abort /\ (refine o debug fuel nf prec = Undef -> word_overflow o pol (f_emb nf)).
Proof. destruct (small_balls_below 1 ltac:(lra)) as (r0 & R0 & _ & A). exists r0. split; assumption. Qed.
End Small.
