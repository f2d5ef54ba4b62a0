(** The concrete ball operations of DyBall.v converge at the rates of RateSpec.v. *)
Require Import Reals ZArith Bool Lia Lra Psatz.
From Verif Require Import RootSpec VcaProofs Dyadic DyadicProofs ArbModel ArbSpec ArbProofs DyBall DyBallProofs RateSpec.
Open Scope R_scope.

Lemma pw2_m1 : pw2 (-1) = 1 / 2.
Proof. unfold pw2. cbn [powerRZ]. change (Pos.to_nat 1) with 1%nat. cbn [pow]. lra. Qed.
Lemma pw2_m2 : pw2 (-2) = 1 / 4.
Proof. unfold pw2. cbn [powerRZ]. change (Pos.to_nat 2) with 2%nat. cbn [pow]. lra. Qed.
Lemma pw2_m3 : pw2 (-3) = 1 / 8.
Proof. unfold pw2. cbn [powerRZ]. change (Pos.to_nat 3) with 3%nat. cbn [pow]. lra. Qed.

Lemma bround_rad98 : forall p m r, (1 <= p)%Z -> 0 <= dyv r ->
  rad_le (bround p m r) (9 / 8 * (dyv r + Rabs (dyv m) * (2 * pw2 (- p)))).
Proof.
  intros p m r Hp Hr. unfold bround, rad_le. set (m' := dround RDown p m).
  destruct (dround_spec RDown p m Hp) as (_ & E & _ & _). fold m' in E.
  replace (1 - p)%Z with (1 + - p)%Z in E by lia. rewrite pw2_add in E. change (pw2 1) with (2 ^ 1) in E. rewrite pow_1 in E.
  set (v := dadd r (dabs (dsub m m'))).
  assert (Hv : dyv v = dyv r + Rabs (dyv m - dyv m')) by (unfold v; rewrite dyv_add, dyv_abs, dyv_sub; reflexivity).
  destruct (dround_spec RUp 30 v ltac:(lia)) as (_ & F & _ & _).
  pose proof (Rabs_pos (dyv m - dyv m')) as P0. rewrite (Rabs_pos_eq (dyv v)) in F by lra.
  assert (Hpw : pw2 (1 - 30) <= 1 / 8).
  { rewrite <- pw2_m3. apply pw2_le. lia. }
  assert (F2 : Rabs (dyv v - dyv (dround RUp 30 v)) <= dyv v * (1 / 8)).
  { eapply Rle_trans; [exact F|]. apply Rmult_le_compat_l; [lra|exact Hpw]. }
  apply Rabs_le_inv in F2 || (unfold Rabs in F2 at 1; destruct (Rcase_abs _) in F2).
  all: lra.
Qed.

Lemma mid_bound : forall x m r M, inb x (Fin m r) -> Rabs x <= M -> dyv r <= 1 -> Rabs (dyv m) <= M + 1.
Proof. intros x m r M H Hx Hr. destruct (abs_near _ _ _ H). lra. Qed.

Lemma y_add_rate : forall M, 1 <= M -> exists C, 0 < C /\ forall a b x y e d p, (2 <= p)%Z -> inb x a -> inb y b -> Rabs x <= M -> Rabs y <= M ->
    rad_le a e -> rad_le b d -> e <= 1 -> d <= 1 -> rad_le (y_add a b p) (C * (e + d + pw2 (- p))).
Proof.
  intros M HM. exists (9 * (M + 1)). split; [lra|]. intros [m r|] [n s|] x y e d p Hp Hx Hy Bx By Re Rd He Hd; try contradiction.
  cbn [rad_le] in Re, Rd. pose proof (inb_rad _ _ _ Hx). pose proof (inb_rad _ _ _ Hy).
  pose proof (mid_bound x m r M Hx Bx ltac:(lra)). pose proof (mid_bound y n s M Hy By ltac:(lra)).
  unfold y_add, lift2. pose proof (bround_rad98 p (dadd m n) (dadd r s) ltac:(lia) ltac:(rewrite dyv_add; lra)) as B.
  destruct (bround p (dadd m n) (dadd r s)) as [m' r'|]; [|exact B]. cbn [rad_le] in *. rewrite !dyv_add in B.
  pose proof (Rabs_triang (dyv m) (dyv n)). pose proof (pw2_pos (- p)).
  assert (Rabs (dyv m + dyv n) * (2 * pw2 (- p)) <= 2 * (M + 1) * (2 * pw2 (- p))) by (apply Rmult_le_compat_r; lra).
  assert (0 <= (M - 1) * (e + d)) by (apply Rmult_le_pos; lra).
  assert (0 <= (M - 1) * pw2 (- p)) by (apply Rmult_le_pos; lra).
  nra.
Qed.

Lemma y_mul_rate : forall M, 1 <= M -> exists C, 0 < C /\ forall a b x y e d p, (2 <= p)%Z -> inb x a -> inb y b -> Rabs x <= M -> Rabs y <= M ->
    rad_le a e -> rad_le b d -> e <= 1 -> d <= 1 -> rad_le (y_mul a b p) (C * (e + d + pw2 (- p))).
Proof.
  intros M HM. exists (9 / 8 * (2 * (M + 1) * (M + 1))). split; [apply Rmult_lt_0_compat; [lra|]; apply Rmult_lt_0_compat; lra|].
  intros [m r|] [n s|] x y e d p Hp Hx Hy Bx By Re Rd He Hd; try contradiction.
  cbn [rad_le] in Re, Rd. pose proof (inb_rad _ _ _ Hx) as R0. pose proof (inb_rad _ _ _ Hy) as S0.
  pose proof (mid_bound x m r M Hx Bx ltac:(lra)) as Bm. pose proof (mid_bound y n s M Hy By ltac:(lra)) as Bn.
  pose proof (Rabs_pos (dyv m)) as Pm. pose proof (Rabs_pos (dyv n)) as Pn.
  unfold y_mul, lift2. set (rr := dadd (dmul r s) (dadd (dmul (dabs m) s) (dmul (dabs n) r))).
  assert (Vr : dyv rr = dyv r * dyv s + (Rabs (dyv m) * dyv s + Rabs (dyv n) * dyv r)) by (unfold rr; rewrite !dyv_add, !dyv_mul, !dyv_abs; reflexivity).
  assert (V1 : 0 <= dyv r * dyv s <= dyv s) by (split; [apply Rmult_le_pos; lra|]; rewrite <- (Rmult_1_l (dyv s)) at 2; apply Rmult_le_compat_r; lra).
  assert (V2 : 0 <= Rabs (dyv m) * dyv s <= (M + 1) * d) by (split; [apply Rmult_le_pos; lra|apply Rmult_le_compat; lra]).
  assert (V3 : 0 <= Rabs (dyv n) * dyv r <= (M + 1) * e) by (split; [apply Rmult_le_pos; lra|apply Rmult_le_compat; lra]).
  pose proof (bround_rad98 p (dmul m n) rr ltac:(lia) ltac:(lra)) as B.
  destruct (bround p (dmul m n) rr) as [m' r'|]; [|exact B]. cbn [rad_le] in *. rewrite dyv_mul, Rabs_mult in B.
  pose proof (pw2_pos (- p)) as Pp.
  assert (V4 : Rabs (dyv m) * Rabs (dyv n) * (2 * pw2 (- p)) <= (M + 1) * (M + 1) * (2 * pw2 (- p))).
  { apply Rmult_le_compat_r; [lra|]. apply Rmult_le_compat; lra. }
  eapply Rle_trans; [exact B|]. rewrite (Rmult_assoc (9 / 8)). apply Rmult_le_compat_l; [lra|].
  assert (V5 : (M + 2) * (e + d) <= 2 * (M + 1) * (M + 1) * (e + d)) by (apply Rmult_le_compat_r; nra).
  assert (dyv s <= d + e) by lra. nra.
Qed.

Lemma y_div_rate : forall M, 1 <= M -> exists C, 0 < C /\ forall a b x y e d p, (2 <= p)%Z -> inb x a -> inb y b -> Rabs x <= M -> 1 / M <= Rabs y <= M ->
    rad_le a e -> rad_le b d -> e <= 1 -> d <= 1 / (4 * M) -> rad_le (y_div a b p) (C * (e + Rabs x * d + pw2 (- p))).
Proof.
  intros M HM. exists (9 / 8 * (12 * M * M + 24 * M * M)). split; [nra|].
  intros [m r|] [n s|] x y e d p Hp Hx Hy Bx By Re Rd He Hd; try contradiction. cbn [rad_le] in Re, Rd.
  pose proof (inb_rad _ _ _ Hx) as R0. pose proof (inb_rad _ _ _ Hy) as S0.
  destruct (abs_near _ _ _ Hx) as [Am _]. destruct (abs_near _ _ _ Hy) as [An An'].
  set (w := / M) in *.
  assert (Hw : 0 < w <= 1). { unfold w. split; [apply Rinv_0_lt_compat; lra|]. rewrite <- Rinv_1. apply Rinv_le_contravar; lra. }
  assert (Hd' : d <= w / 4). { replace (w / 4) with (1 / (4 * M)) by (unfold w; field; lra). exact Hd. }
  assert (By' : w <= Rabs y). { replace w with (1 / M) by (unfold w; field; lra). apply By. }
  assert (MW : M * w = 1) by (unfold w; field; lra).
  assert (Hns : w / 2 <= Rabs (dyv n) - dyv s) by lra.
  assert (Hn34 : 3 / 4 * w <= Rabs (dyv n)) by lra.
  unfold y_div, lift2. destruct (dleb (dabs n) s) eqn:E.
  { apply dleb_spec in E. rewrite dyv_abs in E. lra. }
  assert (Hn : fst n <> 0%Z).
  { intros Z. apply dyv_eq0 in Z. rewrite Z, Rabs_R0 in Hns. lra. }
  cbv zeta.
  set (num := dadd (dmul r (dabs n)) (dmul (dabs m) s)). set (den := dmul (dsub (dabs n) s) (dabs n)).
  assert (Vden : dyv den = (Rabs (dyv n) - dyv s) * Rabs (dyv n)) by (unfold den; rewrite dyv_mul, dyv_sub, !dyv_abs; reflexivity).
  assert (Vnum : dyv num = dyv r * Rabs (dyv n) + Rabs (dyv m) * dyv s) by (unfold num; rewrite dyv_add, !dyv_mul, !dyv_abs; reflexivity).
  assert (Dpos : 0 < dyv den) by (rewrite Vden; apply Rmult_lt_0_compat; lra).
  assert (Hden : fst den <> 0%Z) by (intros Z; apply dyv_eq0 in Z; lra).
  pose proof (ddiv_err_spec p m n Hn) as [Q1 Q2]. pose proof (ddiv_err_spec 30 num den Hden) as [U1 U2].
  pose proof (ddiv_err_small p m n Hn) as Q3. pose proof (ddiv_err_small 30 num den Hden) as U3.
  pose proof (Rabs_pos (dyv m)) as Pm. pose proof (Rabs_pos x) as Px.
  (* the quotient of the radii *)
  assert (N0 : 0 <= dyv num).
  { rewrite Vnum. apply Rplus_le_le_0_compat; apply Rmult_le_pos; lra. }
  assert (Vq : 0 <= dyv num / dyv den <= 6 * M * M * (e + Rabs x * d)).
  { split; [apply Rmult_le_pos; [lra|left; apply Rinv_0_lt_compat; lra]|].
    apply Rmult_le_reg_r with (dyv den); [exact Dpos|]. replace (dyv num / dyv den * dyv den) with (dyv num) by (field; lra).
    rewrite Vnum, Vden.
    assert (T1 : Rabs (dyv m) * dyv s <= Rabs x * d + e).
    { assert (Rabs (dyv m) * dyv s <= (Rabs x + dyv r) * dyv s) by (apply Rmult_le_compat_r; lra).
      assert (Rabs x * dyv s <= Rabs x * d) by (apply Rmult_le_compat_l; lra).
      assert (dyv r * dyv s <= dyv r * 1) by (apply Rmult_le_compat_l; lra). nra. }
    assert (T2 : dyv r * Rabs (dyv n) <= e * Rabs (dyv n)) by (apply Rmult_le_compat_r; [apply Rabs_pos|lra]).
    assert (T3 : 0 <= e) by lra. assert (T4 : 0 <= Rabs x * d) by (apply Rmult_le_pos; lra).
    (* (|n| - s) * |n| >= w/2 * |n| and >= 3/8 w^2 *)
    set (g := Rabs (dyv n)) in *. set (h := g - dyv s) in *.
    assert (MH : 1 / 2 <= M * h) by (apply Rle_trans with (M * (w / 2)); [lra|apply Rmult_le_compat_l; lra]).
    assert (MG : 3 / 4 <= M * g) by (apply Rle_trans with (M * (3 / 4 * w)); [lra|apply Rmult_le_compat_l; lra]).
    assert (MHG : 3 / 8 <= (M * h) * (M * g)) by (replace (3 / 8) with (1 / 2 * (3 / 4)) by lra; apply Rmult_le_compat; lra).
    replace (6 * M * M * (e + Rabs x * d) * (h * g)) with (6 * ((M * h) * (M * g)) * (e + Rabs x * d)) by ring.
    assert (G1 : e * g <= 2 * ((M * h) * (M * g)) * e).
    { assert (g <= 2 * ((M * h) * (M * g))); [|nra].
      assert (1 * g <= 2 * (M * h) * (M * g)); [|lra].
      apply Rmult_le_compat; try lra. assert (0 <= (M - 1) * g) by (apply Rmult_le_pos; lra). lra. }
    assert (G2 : (Rabs x * d + e) <= 4 * ((M * h) * (M * g)) * (e + Rabs x * d)).
    { rewrite (Rplus_comm (Rabs x * d)). rewrite <- (Rmult_1_l (e + Rabs x * d)) at 1. apply Rmult_le_compat_r; lra. }
    assert (G3 : 0 <= 2 * ((M * h) * (M * g)) * (Rabs x * d)) by (apply Rmult_le_pos; lra).
    lra. }
  assert (Qle : Rabs (dyv m / dyv n) <= 3 * M * M).
  { unfold Rdiv. rewrite Rabs_mult, Rabs_inv. apply Rmult_le_reg_r with (Rabs (dyv n)); [lra|].
    replace (Rabs (dyv m) * / Rabs (dyv n) * Rabs (dyv n)) with (Rabs (dyv m)) by (field; lra).
    assert (3 * M * M * (3 / 4 * w) <= 3 * M * M * Rabs (dyv n)) by (apply Rmult_le_compat_l; nra).
    assert (H0 : 3 * M * M * (3 / 4 * w) = 9 / 4 * M * (M * w)) by field. rewrite MW in H0. lra. }
  set (q := ddiv p m n) in *. set (t := pw2 (- p)). assert (Pt : 0 < t) by apply pw2_pos.
  assert (T2 : pw2 (1 - p) = 2 * t).
  { replace (1 - p)%Z with (1 + - p)%Z by lia. rewrite pw2_add. change (pw2 1) with (2 ^ 1). rewrite pow_1. reflexivity. }
  rewrite T2 in Q3. assert (Tq : t <= 1 / 4) by (unfold t; rewrite <- pw2_m2; apply pw2_le; lia).
  assert (E1 : dyv (ddiv_err p m n) <= 3 * M * M * (2 * t)).
  { eapply Rle_trans; [exact Q3|]. apply Rmult_le_compat_r; lra. }
  assert (E2 : dyv (ddiv_err 30 num den) <= dyv num / dyv den).
  { eapply Rle_trans; [exact U3|]. rewrite Rabs_pos_eq by lra.
    assert (pw2 (1 - 30) <= 1) by (rewrite <- pw2_0; apply pw2_le; lia). pose proof (pw2_pos (1 - 30)). nra. }
  assert (Vb : 0 <= dyv (dadd (dadd (ddiv 30 num den) (ddiv_err 30 num den)) (ddiv_err p m n))).
  { rewrite !dyv_add. lra. }
  pose proof (bround_rad98 p q _ ltac:(lia) Vb) as B.
  destruct (bround p q _) as [m' r'|]; [|exact B]. cbn [rad_le] in *. rewrite !dyv_add in B.
  assert (Eq : Rabs (dyv q) <= 3 * M * M + 3 * M * M).
  { replace (dyv q) with (dyv m / dyv n - (dyv m / dyv n - dyv q)) by ring.
    eapply Rle_trans; [apply Rabs_triang|]. rewrite Rabs_Ropp, (Rabs_pos_eq (dyv m / dyv n - dyv q)) by lra.
    assert (3 * M * M * (2 * t) <= 3 * M * M * 1) by (apply Rmult_le_compat_l; nra). lra. }
  assert (E3 : Rabs (dyv q) * (2 * t) <= (3 * M * M + 3 * M * M) * (2 * t)) by (apply Rmult_le_compat_r; lra).
  eapply Rle_trans; [exact B|]. rewrite (Rmult_assoc (9 / 8)). apply Rmult_le_compat_l; [lra|].
  assert (0 <= M * M) by nra. assert (0 <= M * M * t) by (apply Rmult_le_pos; lra).
  assert (0 <= M * M * (e + Rabs x * d)) by (apply Rmult_le_pos; [lra|]; apply Rplus_le_le_0_compat; [lra|apply Rmult_le_pos; lra]).
  fold t. nra.
Qed.

Lemma y_interval_rate : forall l r p M, 1 <= M -> (2 <= p)%Z -> - M <= dyv l -> dyv l <= dyv r -> dyv r <= M ->
    rad_le (y_interval l r p) (9 / 8 * ((dyv r - dyv l) / 2) + 9 / 4 * M * pw2 (- p)).
Proof.
  intros l r p M HM Hp H1 H2 H3. unfold y_interval.
  assert (V2 : forall d, dyv (d2exp d (-1)) = dyv d / 2).
  { intros d. rewrite dyv_2exp, pw2_m1. lra. }
  pose proof (bround_rad98 p (d2exp (dadd l r) (-1)) (d2exp (dsub r l) (-1)) ltac:(lia) ltac:(rewrite V2, dyv_sub; lra)) as B.
  destruct (bround p _ _) as [m' r'|]; [|exact B]. cbn [rad_le] in *. rewrite !V2, dyv_add, dyv_sub in B.
  pose proof (pw2_pos (- p)).
  assert (Rabs ((dyv l + dyv r) / 2) <= M) by (apply Rabs_le; lra).
  assert (Rabs ((dyv l + dyv r) / 2) * (2 * pw2 (- p)) <= M * (2 * pw2 (- p))) by (apply Rmult_le_compat_r; lra). lra.
Qed.

Lemma dyops_rate : arb_rate dyops.
Proof.
  constructor; cbn [o_add o_sub o_mul o_div o_add_z o_sub_z o_mul_z o_div_z o_inv o_pow o_set_q o_round o_set_interval o_inter dyops].
  - intros M HM. destruct (y_add_rate M HM) as (C & HC & H). exists C. split; [exact HC|].
    intros a x n e p Hp Ha Bx Bn Re He. replace (e + pw2 (- p)) with (e + 0 + pw2 (- p)) by ring.
    apply (H a (bint n) x (IZR n) e 0); try assumption; [apply inb_int|unfold bint, bexact, rad_le; rewrite dyv_dz; lra|lra].
  - intros M HM. destruct (y_add_rate M HM) as (C & HC & H). exists C. split; [exact HC|].
    intros a b x y e d p Hp Ha Hb Bx By Re Rd He Hd. unfold y_sub. apply (H a (bneg b) x (- y)); try assumption.
    + apply inb_neg. exact Hb.
    + rewrite Rabs_Ropp. exact By.
    + destruct b; exact Rd.
  - exact y_mul_rate.
  - exact y_div_rate.
  - intros M HM. exists (9 / 4 * M). split; [lra|]. intros l r p Hp H1 H2 H3. apply y_interval_rate; assumption.
  - intros M HM. exists (9 / 4 * (M + 2)). split; [lra|]. intros [m r|] b x e p Hp Ha Hb Bx Re He; [|contradiction]. cbn [rad_le] in Re.
    pose proof (inb_rad _ _ _ Ha) as R0. pose proof (pw2_pos (- p)) as Pp.
    destruct b as [n s|]; cbn [y_inter].
    2:{ cbn [rad_le]. assert (0 <= 9 / 4 * (M + 2) * pw2 (- p)) by (apply Rmult_le_pos; lra). lra. }
    set (l := dmax (dsub m r) (dsub n s)). set (u := dmin (dadd m r) (dadd n s)).
    apply inb_bounds in Ha. apply inb_bounds in Hb.
    assert (L : dyv m - dyv r <= dyv l <= x).
    { unfold l, dmax. destruct (dleb (dsub m r) (dsub n s)) eqn:D; [apply dleb_spec in D|]; rewrite !dyv_sub in *; lra. }
    assert (U : x <= dyv u <= dyv m + dyv r).
    { unfold u, dmin. destruct (dleb (dadd m r) (dadd n s)) eqn:D; [|apply dleb_false in D]; rewrite !dyv_add in *; lra. }
    assert (Bx2 : - M <= x <= M) by (unfold Rabs in Bx; destruct (Rcase_abs x); lra).
    pose proof (y_interval_rate l u p (M + 2) ltac:(lra) Hp ltac:(lra) ltac:(lra) ltac:(lra)) as B.
    destruct (y_interval l u p) as [m' r'|]; [|exact B]. cbn [rad_le] in *. lra.
Qed.
