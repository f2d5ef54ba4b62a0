Require Import Reals List ZArith Bool Lia Lra.
From Verif Require Import PolyR RootSpec VcaProofs VcaTerm Dyadic DyadicProofs ArbModel ArbSpec ArbProofs DyBall.
Open Scope R_scope.

Lemma bround_in : forall p m r x, (1 <= p)%Z -> Rabs (x - dyv m) <= dyv r -> inb x (bround p m r).
Proof.
  intros p m r x Hp H. unfold bround, inb. set (m' := dround RDown p m).
  assert (Hr : 0 <= dyv (dadd r (dabs (dsub m m')))).
  { rewrite dyv_add, dyv_abs. pose proof (Rabs_pos (x - dyv m)). pose proof (Rabs_pos (dyv (dsub m m'))). lra. }
  pose proof (dround_up_ge 30 _ ltac:(lia) Hr) as Hu.
  eapply Rle_trans; [|exact Hu]. rewrite dyv_add, dyv_abs, dyv_sub.
  replace (x - dyv m') with ((x - dyv m) + (dyv m - dyv m')) by ring.
  eapply Rle_trans; [apply Rabs_triang|]. lra.
Qed.

Lemma ddiv_spec : forall p a b, fst b <> 0%Z ->
  dyv (ddiv p a b) <= dyv a / dyv b < dyv (ddiv p a b) + pw2 (snd (ddiv p a b)).
Proof.
  intros p [ma ea] [mb eb] Hb. cbn [fst] in Hb. unfold ddiv. cbn [fst snd].
  set (k := Z.max 0 (p + zbits mb - zbits ma)). assert (Hk : (0 <= k)%Z) by lia.
  pose proof (pw2_pos (ea - eb - k)) as Hp.
  set (n := (ma * 2 ^ k)%Z). set (q := (n / mb)%Z).
  assert (Hq : IZR q <= IZR n / IZR mb < IZR q + 1).
  { pose proof (Z.div_mod n mb Hb) as E. fold q in E.
    assert (EQ : IZR n / IZR mb = IZR q + IZR (n mod mb) / IZR mb).
    { rewrite E at 1. rewrite plus_IZR, mult_IZR. field. apply IZR_neq. exact Hb. }
    rewrite EQ. assert (0 <= IZR (n mod mb) / IZR mb < 1); [|lra].
    destruct (Z_lt_le_dec mb 0) as [Hs|Hs].
    - pose proof (Z.mod_neg_bound n mb Hs) as [B1 B2]. apply IZR_lt in B1. apply IZR_le in B2. apply IZR_lt in Hs.
      replace (IZR (n mod mb) / IZR mb) with ((- IZR (n mod mb)) / (- IZR mb)) by (field; lra). split.
      + apply Rmult_le_pos; [lra|]. left. apply Rinv_0_lt_compat. lra.
      + apply (Rmult_lt_reg_r (- IZR mb)); [lra|]. unfold Rdiv. rewrite Rmult_assoc, Rinv_l; lra.
    - pose proof (Z.mod_pos_bound n mb ltac:(lia)) as [B1 B2]. apply IZR_le in B1. apply IZR_lt in B2.
      assert (Hs' : 0 < IZR mb) by (apply IZR_lt; lia). split.
      + apply Rmult_le_pos; [lra|]. left. apply Rinv_0_lt_compat. lra.
      + apply (Rmult_lt_reg_r (IZR mb)); [lra|]. unfold Rdiv. rewrite Rmult_assoc, Rinv_l; lra. }
  assert (EV : dyv (ma, ea) / dyv (mb, eb) = IZR n / IZR mb * pw2 (ea - eb - k)).
  { unfold dyv. cbn [fst snd]. unfold n. rewrite mult_IZR, pw2_IZR by assumption.
    replace ea with ((ea - eb - k) + k + eb)%Z at 1 by lia. rewrite !pw2_add.
    field. split; [apply IZR_neq; exact Hb|apply pw2_neq]. }
  rewrite EV. unfold dyv. cbn [fst snd]. split.
  - apply Rmult_le_compat_r; lra.
  - rewrite <- Rmult_plus_distr_r || idtac. nra.
Qed.

Lemma ddiv_err_spec : forall p a b, fst b <> 0%Z ->
  0 <= dyv a / dyv b - dyv (ddiv p a b) <= dyv (ddiv_err p a b).
Proof.
  intros p a b Hb. pose proof (ddiv_spec p a b Hb) as H. unfold ddiv_err.
  destruct (Z.eqb_spec (fst a) 0) as [E|E].
  - assert (E1 : dyv (ddiv p a b) = 0).
    { apply dyv_eq0. unfold ddiv. cbn [fst]. rewrite E, Z.mul_0_l, Z.div_0_l by exact Hb. reflexivity. }
    rewrite E1, (proj2 (dyv_eq0 a) E), dyv_dz. unfold Rdiv. rewrite Rmult_0_l. simpl. lra.
  - replace (dyv (1%Z, snd (ddiv p a b))) with (pw2 (snd (ddiv p a b))) by (unfold dyv; cbn [fst snd]; ring). lra.
Qed.

(** The error is small against the quotient. *)
Lemma ddiv_err_small : forall p a b, fst b <> 0%Z ->
  dyv (ddiv_err p a b) <= Rabs (dyv a / dyv b) * pw2 (1 - p).
Proof.
  intros p [ma ea] [mb eb] Hb. cbn [fst] in Hb. unfold ddiv_err. cbn [fst].
  destruct (Z.eqb_spec ma 0) as [E|E].
  - rewrite dyv_dz. simpl. apply Rmult_le_pos; [apply Rabs_pos|]. left. apply pw2_pos.
  - unfold ddiv. cbn [fst snd]. set (k := Z.max 0 (p + zbits mb - zbits ma)).
    destruct (zbits_spec ma E) as [[A1 A2] A3]. destruct (zbits_spec mb Hb) as [[B1 B2] B3].
    unfold dyv. cbn [fst snd]. rewrite Rmult_1_l.
    unfold Rdiv. rewrite Rinv_mult, !Rabs_mult, !Rabs_inv.
    rewrite (Rabs_pos_eq (pw2 ea)), (Rabs_pos_eq (pw2 eb)) by (left; apply pw2_pos).
    rewrite <- !abs_IZR.
    assert (HA : pw2 (zbits ma - 1) <= IZR (Z.abs ma)) by (rewrite <- pw2_IZR by lia; apply IZR_le; exact A1).
    assert (HB : 0 < IZR (Z.abs mb) <= pw2 (zbits mb)).
    { rewrite <- pw2_IZR by lia. split; [apply IZR_lt|apply IZR_le]; lia. }
    assert (HBi : pw2 (- zbits mb) <= / IZR (Z.abs mb)).
    { assert (Ei : pw2 (- zbits mb) = / pw2 (zbits mb)).
      { pose proof (pw2_inv (zbits mb)). pose proof (pw2_neq (zbits mb)).
        apply (Rmult_eq_reg_r (pw2 (zbits mb))); [|assumption]. rewrite Rinv_l; assumption. }
      rewrite Ei. apply Rinv_le_contravar; lra. }
    assert (Eeb : / pw2 eb = pw2 (- eb)).
    { pose proof (pw2_inv eb). pose proof (pw2_neq eb).
      apply (Rmult_eq_reg_r (pw2 eb)); [|assumption]. rewrite Rinv_l by assumption. lra. }
    rewrite Eeb.
    apply Rle_trans with (pw2 (zbits ma - 1) * pw2 ea * (pw2 (- zbits mb) * pw2 (- eb)) * pw2 (1 - p)).
    + rewrite <- !pw2_add. apply pw2_le. lia.
    + pose proof (pw2_pos (1 - p)). pose proof (pw2_pos ea). pose proof (pw2_pos (- eb)).
      pose proof (pw2_pos (- zbits mb)). pose proof (pw2_pos (zbits ma - 1)).
      apply Rmult_le_compat_r; [lra|]. apply Rmult_le_compat; try nra.
Qed.

Lemma y_add_ok : forall a b x y p, (2 <= p)%Z -> inb x a -> inb y b -> inb (x + y) (y_add a b p).
Proof.
  intros [m r|] [n s|] x y p Hp Hx Hy; try exact I. unfold y_add, lift2. apply bround_in; [lia|].
  rewrite !dyv_add. unfold inb in Hx, Hy.
  replace (x + y - (dyv m + dyv n)) with ((x - dyv m) + (y - dyv n)) by ring.
  eapply Rle_trans; [apply Rabs_triang|]. lra.
Qed.

Lemma mul_err : forall x y m n r s, Rabs (x - m) <= r -> Rabs (y - n) <= s ->
  Rabs (x * y - m * n) <= r * s + (Rabs m * s + Rabs n * r).
Proof.
  intros x y m n r s Hx Hy.
  replace (x * y - m * n) with ((x - m) * (y - n) + (m * (y - n) + n * (x - m))) by ring.
  eapply Rle_trans; [apply Rabs_triang|]. eapply Rle_trans; [apply Rplus_le_compat_l, Rabs_triang|].
  rewrite !Rabs_mult. pose proof (Rabs_pos (x - m)). pose proof (Rabs_pos (y - n)).
  pose proof (Rabs_pos m). pose proof (Rabs_pos n).
  apply Rplus_le_compat; [apply Rmult_le_compat; assumption|].
  apply Rplus_le_compat; apply Rmult_le_compat_l; assumption.
Qed.

Lemma y_mul_ok : forall a b x y p, (2 <= p)%Z -> inb x a -> inb y b -> inb (x * y) (y_mul a b p).
Proof.
  intros [m r|] [n s|] x y p Hp Hx Hy; try exact I. unfold y_mul, lift2. apply bround_in; [lia|].
  rewrite !dyv_add, !dyv_mul, !dyv_abs. apply mul_err; assumption.
Qed.

Lemma div_err : forall x y m n r s, Rabs (x - m) <= r -> Rabs (y - n) <= s -> s < Rabs n ->
  y <> 0 /\ Rabs (x / y - m / n) <= (r * Rabs n + Rabs m * s) / ((Rabs n - s) * Rabs n).
Proof.
  intros x y m n r s Hx Hy Hs.
  assert (Hy' : Rabs n - s <= Rabs y).
  { pose proof (Rabs_triang_inv n (n - y)) as T. replace (n - (n - y)) with y in T by ring.
    rewrite Rabs_minus_sym in Hy. lra. }
  assert (Hs0 : 0 <= s) by (pose proof (Rabs_pos (y - n)); lra).
  assert (Hr0 : 0 <= r) by (pose proof (Rabs_pos (x - m)); lra).
  assert (Hny : y <> 0). { intros ->. rewrite Rabs_R0 in Hy'. lra. }
  assert (Hn : n <> 0). { intros ->. rewrite Rabs_R0 in Hs. lra. }
  split; [exact Hny|].
  replace (x / y - m / n) with (((x - m) * n - m * (y - n)) / (y * n)) by (field; split; assumption).
  unfold Rdiv. rewrite Rabs_mult, Rabs_inv, Rabs_mult.
  pose proof (Rabs_pos m) as Pm. pose proof (Rabs_pos n) as Pn.
  assert (Num : Rabs ((x - m) * n - m * (y - n)) <= r * Rabs n + Rabs m * s).
  { unfold Rminus at 1. eapply Rle_trans; [apply Rabs_triang|]. rewrite Rabs_Ropp, !Rabs_mult.
    apply Rplus_le_compat; [apply Rmult_le_compat_r|apply Rmult_le_compat_l]; assumption. }
  apply Rmult_le_compat; [apply Rabs_pos| |exact Num|].
  - left. apply Rinv_0_lt_compat. apply Rmult_lt_0_compat; lra.
  - apply Rinv_le_contravar; [apply Rmult_lt_0_compat; lra|]. apply Rmult_le_compat_r; lra.
Qed.

Lemma dyv_1 : forall e, dyv (1%Z, e) = pw2 e.
Proof. intros e. unfold dyv. cbn [fst snd]. ring. Qed.

Lemma y_div_ok : forall a b x y p, (2 <= p)%Z -> inb x a -> inb y b -> inb (x / y) (y_div a b p).
Proof.
  intros [m r|] [n s|] x y p Hp Hx Hy; try exact I. unfold y_div, lift2.
  destruct (dleb (dabs n) s) eqn:E; [exact I|]. apply dleb_false in E. rewrite dyv_abs in E.
  apply bround_in; [lia|]. unfold inb in Hx, Hy.
  destruct (div_err x y (dyv m) (dyv n) (dyv r) (dyv s) Hx Hy E) as [Hny He].
  assert (Hs0 : 0 <= dyv s) by (pose proof (Rabs_pos (y - dyv n)); lra).
  assert (Hn : fst n <> 0%Z).
  { intros Z. apply dyv_eq0 in Z. rewrite Z, Rabs_R0 in E. lra. }
  set (num := dadd (dmul r (dabs n)) (dmul (dabs m) s)). set (den := dmul (dsub (dabs n) s) (dabs n)).
  assert (Hden : fst den <> 0%Z).
  { intros Z. apply dyv_eq0 in Z. unfold den in Z. rewrite dyv_mul, dyv_sub, !dyv_abs in Z.
    apply Rmult_integral in Z. lra. }
  pose proof (ddiv_err_spec p m n Hn) as [Q1 Q2]. pose proof (ddiv_err_spec 30 num den Hden) as [T1 T2].
  assert (EN : dyv num / dyv den = (dyv r * Rabs (dyv n) + Rabs (dyv m) * dyv s) / ((Rabs (dyv n) - dyv s) * Rabs (dyv n))).
  { unfold num, den. rewrite dyv_add, !dyv_mul, dyv_sub, !dyv_abs. reflexivity. }
  rewrite <- EN in He. cbv zeta. fold num den. rewrite !dyv_add.
  set (q := ddiv p m n) in *. set (t := ddiv 30 num den) in *.
  replace (x / y - dyv q) with ((x / y - dyv m / dyv n) + (dyv m / dyv n - dyv q)) by ring.
  eapply Rle_trans; [apply Rabs_triang|].
  rewrite (Rabs_pos_eq (dyv m / dyv n - dyv q)) by lra. lra.
Qed.

Lemma dyv_half : forall d, dyv (d2exp d (-1)) = dyv d / 2.
Proof. intros d. rewrite dyv_2exp. unfold pw2. simpl. lra. Qed.

Lemma y_interval_ok : forall l r x p, (2 <= p)%Z -> dyv l <= x <= dyv r -> inb x (y_interval l r p).
Proof.
  intros l r x p Hp H. unfold y_interval. apply bround_in; [lia|]. rewrite !dyv_half, dyv_add, dyv_sub.
  apply Rabs_le. lra.
Qed.

Lemma y_inter_ok : forall a b x p, (2 <= p)%Z -> inb x a -> inb x b -> inb x (y_inter a b p).
Proof.
  intros [m r|] [n s|] x p Hp Hx Hy; cbn [y_inter]; try assumption.
  apply inb_bounds in Hx. apply inb_bounds in Hy. apply y_interval_ok; [exact Hp|].
  unfold dmax, dmin. split.
  - destruct (dleb _ _); rewrite dyv_sub; lra.
  - destruct (dleb _ _); rewrite dyv_add; lra.
Qed.

Lemma y_pow_ok : forall n a x p, (2 <= p)%Z -> inb x a -> inb (x ^ n) (y_pow a n p).
Proof.
  induction n as [|n IH]; intros a x p Hp Hx; cbn [y_pow pow]; [apply (inb_int 1)|].
  apply y_mul_ok; auto.
Qed.

Lemma dyops_ok : arb_ok dyops.
Proof.
  constructor; cbn [o_add o_sub o_mul o_div o_add_z o_sub_z o_mul_z o_div_z o_inv o_pow o_set_q o_round o_set_interval o_inter dyops].
  - exact y_add_ok.
  - intros. unfold y_sub, Rminus. apply y_add_ok; [assumption|assumption|]. apply inb_neg. assumption.
  - exact y_mul_ok.
  - intros. apply y_div_ok; assumption.
  - intros. apply y_add_ok; [assumption|assumption|apply inb_int].
  - intros. unfold Rminus. rewrite <- opp_IZR. apply y_add_ok; [assumption|assumption|apply inb_int].
  - intros. apply y_mul_ok; [assumption|assumption|apply inb_int].
  - intros. apply y_div_ok; [assumption|assumption|apply inb_int].
  - intros a x p Hp Hx Hn. replace (/ x) with (1 / x) by (unfold Rdiv; ring).
    apply y_div_ok; [assumption|apply (inb_int 1)|assumption].
  - intros. apply y_pow_ok; assumption.
  - intros. apply y_div_ok; [assumption|apply inb_int|apply inb_int].
  - intros [m r|] x p Hp Hx; [|exact I]. apply bround_in; [lia|exact Hx].
  - intros. apply y_interval_ok; assumption.
  - intros. apply y_inter_ok; assumption.
Qed.

(** * Convergence *)
Lemma bround_rad : forall p m r, (1 <= p)%Z -> 0 <= dyv r ->
  rad_le (bround p m r) (2 * (dyv r + Rabs (dyv m) * pw2 (1 - p))).
Proof.
  intros p m r Hp Hr. unfold bround, rad_le. set (m' := dround RDown p m).
  destruct (dround_spec RDown p m Hp) as (_ & E & _ & _). fold m' in E.
  set (v := dadd r (dabs (dsub m m'))).
  assert (Hv : dyv v = dyv r + Rabs (dyv m - dyv m')) by (unfold v; rewrite dyv_add, dyv_abs, dyv_sub; reflexivity).
  destruct (dround_spec RUp 30 v ltac:(lia)) as (_ & F & _ & _).
  pose proof (Rabs_pos (dyv m - dyv m')) as P0.
  rewrite (Rabs_pos_eq (dyv v)) in F by lra.
  assert (Hpw : pw2 (1 - 30) <= 1) by (rewrite <- pw2_0; apply pw2_le; lia).
  assert (F2 : Rabs (dyv v - dyv (dround RUp 30 v)) <= dyv v).
  { eapply Rle_trans; [exact F|]. pose proof (pw2_pos (1 - 30)). nra. }
  pose proof (Rabs_pos (dyv m)). pose proof (pw2_pos (1 - p)).
  unfold Rabs in F2 at 1. destruct (Rcase_abs _) in F2; nra.
Qed.

Lemma bround_conv : forall z e, 0 < e -> exists d P, 0 < d /\ forall m r p, (P <= p)%Z ->
  Rabs (z - dyv m) <= dyv r -> dyv r <= d -> rad_le (bround p m r) e.
Proof.
  intros z e He. set (M := Rabs z + 1). assert (HM : 1 <= M) by (unfold M; pose proof (Rabs_pos z); lra).
  destruct (pw2_small (e / (8 * M)) ) as (K & HK0 & HK).
  { apply Rdiv_lt_0_compat; lra. }
  exists (Rmin 1 (e / 8)), (K + 1)%Z. split; [apply Rmin_pos; lra|].
  intros m r p Hp Hz Hr.
  pose proof (Rmin_l 1 (e / 8)). pose proof (Rmin_r 1 (e / 8)).
  assert (Hr0 : 0 <= dyv r) by (pose proof (Rabs_pos (z - dyv m)); lra).
  assert (Hm : Rabs (dyv m) <= M).
  { unfold M. pose proof (Rabs_triang_inv (dyv m) z) as T. rewrite Rabs_minus_sym in T. lra. }
  specialize (HK (p - 1)%Z ltac:(lia)). replace (- (p - 1))%Z with (1 - p)%Z in HK by lia.
  pose proof (bround_rad p m r ltac:(lia) Hr0) as B. unfold rad_le in *.
  destruct (bround p m r) as [m' r'|]; [|exact B].
  pose proof (pw2_pos (1 - p)). pose proof (Rabs_pos (dyv m)).
  assert (Rabs (dyv m) * pw2 (1 - p) <= e / 8).
  { apply Rle_trans with (M * (e / (8 * M))); [apply Rmult_le_compat; lra|]. right. field. lra. }
  lra.
Qed.

Lemma y_add_conv : forall x y, conv2 y_add x y.
Proof.
  intros x y e He. destruct (bround_conv (x + y) e He) as (d & P & Hd & H).
  exists (d / 2), P. split; [lra|]. intros [m r|] [n s|] p Hp Hx Hy Ra Rb; try contradiction.
  unfold y_add, lift2. apply H; [exact Hp| |].
  - rewrite !dyv_add. unfold inb in Hx, Hy.
    replace (x + y - (dyv m + dyv n)) with ((x - dyv m) + (y - dyv n)) by ring.
    eapply Rle_trans; [apply Rabs_triang|]. lra.
  - rewrite dyv_add. unfold rad_le in Ra, Rb. lra.
Qed.

Lemma abs_near : forall x m r, Rabs (x - m) <= r -> Rabs m <= Rabs x + r /\ Rabs x <= Rabs m + r.
Proof.
  intros x m r H. pose proof (Rabs_triang_inv m x) as T1. pose proof (Rabs_triang_inv x m) as T2.
  rewrite Rabs_minus_sym in T1. lra.
Qed.

Lemma y_mul_conv : forall x y, conv2 y_mul x y.
Proof.
  intros x y e He. destruct (bround_conv (x * y) e He) as (d & P & Hd & H).
  set (C := 3 + Rabs x + Rabs y).
  assert (HC : 3 <= C) by (unfold C; pose proof (Rabs_pos x); pose proof (Rabs_pos y); lra).
  exists (Rmin 1 (d / C)), P. split; [apply Rmin_pos; [lra|apply Rdiv_lt_0_compat; lra]|].
  intros [m r|] [n s|] p Hp Hx Hy Ra Rb; try contradiction. unfold rad_le in Ra, Rb.
  pose proof (Rmin_l 1 (d / C)). pose proof (Rmin_r 1 (d / C)).
  unfold y_mul, lift2. apply H; [exact Hp| |].
  - rewrite !dyv_add, !dyv_mul, !dyv_abs. apply mul_err; assumption.
  - rewrite !dyv_add, !dyv_mul, !dyv_abs.
    pose proof (inb_rad _ _ _ Hx) as R0. pose proof (inb_rad _ _ _ Hy) as S0.
    destruct (abs_near _ _ _ Hx) as [Am _]. destruct (abs_near _ _ _ Hy) as [An _].
    pose proof (Rabs_pos (dyv m)). pose proof (Rabs_pos (dyv n)).
    set (t := d / C) in *.
    assert (Ht : t * C = d) by (unfold t; field; lra).
    assert (dyv r * dyv s <= 1 * t) by (apply Rmult_le_compat; lra).
    assert (Rabs (dyv m) * dyv s <= (Rabs x + 1) * t) by (apply Rmult_le_compat; lra).
    assert (Rabs (dyv n) * dyv r <= (Rabs y + 1) * t) by (apply Rmult_le_compat; lra).
    unfold C in Ht. nra.
Qed.

Lemma y_div_conv : forall x y, y <> 0 -> conv2 y_div x y.
Proof.
  intros x y Hy0 e He.
  destruct (bround_conv (x / y) e He) as (d & P & Hd & H).
  pose proof (Rabs_pos_lt y Hy0) as Py. pose proof (Rabs_pos x) as Px.
  set (C := (Rabs y + 1 + (Rabs x + 1)) / (Rabs y / 2 * (Rabs y / 2))).
  assert (HC : 0 < C).
  { unfold C. apply Rdiv_lt_0_compat; [lra|]. apply Rmult_lt_0_compat; lra. }
  set (Q := (Rabs x + 1) / (Rabs y / 2)).
  assert (HQ : 0 < Q) by (unfold Q; apply Rdiv_lt_0_compat; lra).
  destruct (pw2_small (d / (4 * Q))) as (K & HK0 & HK); [apply Rdiv_lt_0_compat; lra|].
  set (t := Rmin (Rmin 1 (Rabs y / 4)) (d / (4 * C))).
  assert (T1 : t <= 1) by (unfold t; eapply Rle_trans; [apply Rmin_l|apply Rmin_l]).
  assert (T2 : t <= Rabs y / 4) by (unfold t; eapply Rle_trans; [apply Rmin_l|apply Rmin_r]).
  assert (T3 : t <= d / (4 * C)) by (unfold t; apply Rmin_r).
  assert (T0 : 0 < t).
  { unfold t. apply Rmin_pos; [apply Rmin_pos; lra|]. apply Rdiv_lt_0_compat; lra. }
  exists t, (Z.max P (K + 1)). split; [exact T0|].
  intros [m r|] [n s|] p Hp Hx Hy Ra Rb; try contradiction. unfold rad_le in Ra, Rb.
  pose proof (inb_rad _ _ _ Hx) as R0. pose proof (inb_rad _ _ _ Hy) as S0.
  destruct (abs_near _ _ _ Hx) as [Am _]. destruct (abs_near _ _ _ Hy) as [An An'].
  assert (Hns : dyv s < Rabs (dyv n)) by lra.
  unfold y_div, lift2. destruct (dleb (dabs n) s) eqn:E.
  { apply dleb_spec in E. rewrite dyv_abs in E. lra. }
  assert (Hn : fst n <> 0%Z).
  { intros Z. apply dyv_eq0 in Z. rewrite Z, Rabs_R0 in Hns. lra. }
  cbv zeta.
  set (num := dadd (dmul r (dabs n)) (dmul (dabs m) s)). set (den := dmul (dsub (dabs n) s) (dabs n)).
  assert (Vden : dyv den = (Rabs (dyv n) - dyv s) * Rabs (dyv n)) by (unfold den; rewrite dyv_mul, dyv_sub, !dyv_abs; reflexivity).
  assert (Vnum : dyv num = dyv r * Rabs (dyv n) + Rabs (dyv m) * dyv s) by (unfold num; rewrite dyv_add, !dyv_mul, !dyv_abs; reflexivity).
  assert (Dpos : Rabs y / 2 * (Rabs y / 2) <= dyv den) by (rewrite Vden; apply Rmult_le_compat; lra).
  assert (Dpos0 : 0 < Rabs y / 2 * (Rabs y / 2)) by (apply Rmult_lt_0_compat; lra).
  assert (Hden : fst den <> 0%Z) by (intros Z; apply dyv_eq0 in Z; lra).
  pose proof (ddiv_err_spec p m n Hn) as [Q1 Q2]. pose proof (ddiv_err_spec 30 num den Hden) as [U1 U2].
  pose proof (ddiv_err_small p m n Hn) as Q3. pose proof (ddiv_err_small 30 num den Hden) as U3.
  assert (Nle : 0 <= dyv num <= t * (Rabs y + 1 + (Rabs x + 1))).
  { rewrite Vnum. pose proof (Rabs_pos (dyv m)). pose proof (Rabs_pos (dyv n)).
    assert (dyv r * Rabs (dyv n) <= t * (Rabs y + 1)) by (apply Rmult_le_compat; lra).
    assert (Rabs (dyv m) * dyv s <= (Rabs x + 1) * t) by (apply Rmult_le_compat; lra).
    split; [|lra]. apply Rplus_le_le_0_compat; apply Rmult_le_pos; lra. }
  assert (Vle : 0 <= dyv num / dyv den <= t * C).
  { split.
    - apply Rmult_le_pos; [lra|]. left. apply Rinv_0_lt_compat. lra.
    - unfold C. unfold Rdiv. rewrite <- Rmult_assoc. apply Rmult_le_compat; try lra.
      + left. apply Rinv_0_lt_compat. lra.
      + apply Rinv_le_contravar; lra. }
  assert (TC : t * C <= d / 4).
  { apply Rle_trans with (d / (4 * C) * C); [apply Rmult_le_compat_r; lra|]. right. field. lra. }
  assert (Qle : Rabs (dyv m / dyv n) <= Q).
  { unfold Rdiv. rewrite Rabs_mult, Rabs_inv. unfold Q, Rdiv. apply Rmult_le_compat; try lra.
    - apply Rabs_pos.
    - left. apply Rinv_0_lt_compat. lra.
    - apply Rinv_le_contravar; lra. }
  specialize (HK (p - 1)%Z ltac:(lia)). replace (- (p - 1))%Z with (1 - p)%Z in HK by lia.
  assert (E1 : dyv (ddiv_err p m n) <= d / 4).
  { eapply Rle_trans; [exact Q3|]. apply Rle_trans with (Q * (d / (4 * Q))).
    - apply Rmult_le_compat; try lra; [apply Rabs_pos|]. left. apply pw2_pos.
    - right. field. lra. }
  assert (E2 : dyv (ddiv_err 30 num den) <= d / 4).
  { eapply Rle_trans; [exact U3|]. rewrite Rabs_pos_eq by lra.
    assert (pw2 (1 - 30) <= 1) by (rewrite <- pw2_0; apply pw2_le; lia). pose proof (pw2_pos (1 - 30)). nra. }
  apply H; [lia| |].
  - destruct (div_err x y (dyv m) (dyv n) (dyv r) (dyv s) Hx Hy Hns) as [_ Her].
    rewrite <- Vnum, <- Vden in Her. rewrite !dyv_add.
    replace (x / y - dyv (ddiv p m n)) with ((x / y - dyv m / dyv n) + (dyv m / dyv n - dyv (ddiv p m n))) by ring.
    eapply Rle_trans; [apply Rabs_triang|]. rewrite (Rabs_pos_eq (dyv m / dyv n - dyv (ddiv p m n))) by lra. lra.
  - rewrite !dyv_add. lra.
Qed.

Lemma rad_le_int : forall n d, 0 < d -> rad_le (bint n) d.
Proof. intros n d H. unfold bint, bexact, rad_le. rewrite dyv_dz. simpl. lra. Qed.

Lemma conv2_int_r : forall f x n, conv2 f x (IZR n) -> conv1 (fun a p => f a (bint n) p) x.
Proof.
  intros f x n H e He. destruct (H e He) as (d & P & Hd & Hf). exists d, P. split; [exact Hd|].
  intros a p Hp Ha Hr. apply Hf; try assumption; [apply inb_int|apply rad_le_int; exact Hd].
Qed.

Lemma dyops_conv : arb_conv dyops.
Proof.
  constructor; cbn [o_add o_sub o_mul o_div o_add_z o_sub_z o_mul_z o_div_z o_inv o_pow o_set_q o_round o_set_interval o_inter dyops].
  - exact y_add_conv.
  - intros x y e He. destruct (y_add_conv x (- y) e He) as (d & P & Hd & H). exists d, P. split; [exact Hd|].
    intros a b p Hp Hx Hy Ra Rb. unfold y_sub. apply H; try assumption.
    + apply inb_neg. exact Hy.
    + destruct b; exact Rb.
  - exact y_mul_conv.
  - exact y_div_conv.
  - intros x n. apply (conv2_int_r y_add). apply y_add_conv.
  - intros x n. apply (conv2_int_r y_mul). apply y_mul_conv.
  - intros x n Hn. apply (conv2_int_r y_div). apply y_div_conv. apply IZR_neq. exact Hn.
  - intros n d Hd e He. destruct (y_div_conv (IZR n) (IZR d) (IZR_neq _ _ Hd) e He) as (t & P & Ht & H).
    exists P. intros p Hp. apply H; try apply inb_int; try (apply rad_le_int; exact Ht). exact Hp.
Qed.
