(** Ball arithmetic as in FLINT is bounded by a computable one. *)
Require Import Reals List ZArith Bool Lia Lra.
From Verif Require Import PolyR RootSpec RootModel Dyadic DyadicProofs VcaProofs VcaTerm ArbModel ArbSpec ArbProofs FieldProofs DyBall DyBallProofs DyRate FlSpec.
Import ListNotations.
Open Scope R_scope.

(** * Rounding depends on the value only *)

Lemma zbits_shift : forall m k, m <> 0%Z -> (0 <= k)%Z -> zbits (m * 2 ^ k) = (zbits m + k)%Z.
Proof.
  intros m k Hm Hk. unfold zbits. assert (0 < 2 ^ k)%Z by (apply Z.pow_pos_nonneg; lia).
  destruct (Z.eqb_spec (m * 2 ^ k) 0) as [E|_]; [nia|]. destruct (Z.eqb_spec m 0) as [|_]; [contradiction|].
  rewrite Z.abs_mul, (Z.abs_eq (2 ^ k)) by lia. rewrite Z.log2_mul_pow2 by lia. lia.
Qed.

Lemma dround_shift : forall p m e k, (1 <= p)%Z -> (0 <= k)%Z -> dyv (dround RDown p (m * 2 ^ k, e - k)%Z) = dyv (dround RDown p (m, e)).
Proof.
  intros p m e k Hp Hk. destruct (Z.eq_dec m 0) as [->|Hm].
  - rewrite Z.mul_0_l. unfold dround. cbn [fst]. change (zbits 0) with 0%Z. destruct (Z.leb_spec (0 - p) 0); [|lia]. unfold dyv. cbn [fst snd]. lra.
  - unfold dround. cbn [fst snd]. rewrite zbits_shift by assumption. set (s := (zbits m - p)%Z). replace (zbits m + k - p)%Z with (s + k)%Z by (subst s; lia).
    assert (V : dyv (m * 2 ^ k, e - k)%Z = dyv (m, e)).
    { unfold dyv. cbn [fst snd]. rewrite mult_IZR, pw2_IZR by exact Hk. replace e with (k + (e - k))%Z at 2 by lia. rewrite pw2_add. ring. }
    assert (P : forall z, (0 <= z)%Z -> (0 < 2 ^ z)%Z) by (intros; apply Z.pow_pos_nonneg; lia).
    destruct (Z.leb_spec (s + k) 0) as [A|A]; destruct (Z.leb_spec s 0) as [B|B]; try lia.
    + exact V.
    + rewrite <- V. rewrite zround_eq by lia. cbv iota beta.
      assert (E : (m * 2 ^ k)%Z = (m * 2 ^ (- s) * 2 ^ (s + k))%Z) by (rewrite <- Z.mul_assoc, <- Z.pow_add_r by lia; do 2 f_equal; lia).
      assert (R : (if 0 <=? m * 2 ^ k then m * 2 ^ k / 2 ^ (s + k) else - (- (m * 2 ^ k) / 2 ^ (s + k)))%Z = (m * 2 ^ (- s))%Z).
      { rewrite E. pose proof (P (s + k)%Z ltac:(lia)). rewrite <- Z.mul_opp_l, !Z.div_mul by lia. destruct (_ <=? _)%Z; lia. }
      rewrite R. unfold dyv. cbn [fst snd]. rewrite E, (mult_IZR _ (2 ^ (s + k))), (pw2_IZR (s + k)) by lia.
      replace (e - k + (s + k))%Z with ((s + k) + (e - k))%Z by lia. rewrite (pw2_add (s + k)). ring.
    + rewrite !zround_eq by lia. cbv iota beta. rewrite Z.pow_add_r by lia.
      pose proof (P k Hk). pose proof (P s ltac:(lia)).
      rewrite <- Z.mul_opp_l, !Z.div_mul_cancel_r by lia.
      replace (0 <=? m * 2 ^ k)%Z with (0 <=? m)%Z by (destruct (Z.leb_spec 0 m), (Z.leb_spec 0 (m * 2 ^ k)); try reflexivity; nia).
      f_equal. f_equal. lia.
Qed.

Lemma dround_value : forall p a b, (1 <= p)%Z -> dyv a = dyv b -> dyv (dround RDown p a) = dyv (dround RDown p b).
Proof.
  assert (W : forall p a b, (1 <= p)%Z -> (snd b <= snd a)%Z -> dyv a = dyv b -> dyv (dround RDown p a) = dyv (dround RDown p b)).
  { intros p [m e] [n f] Hp H E. cbn [snd] in H. assert (N : n = (m * 2 ^ (e - f))%Z).
    { unfold dyv in E. cbn [fst snd] in E. replace e with ((e - f) + f)%Z in E by lia. rewrite pw2_add, <- Rmult_assoc in E.
      pose proof (pw2_pos f). apply Rmult_eq_reg_r in E; [|lra]. rewrite <- pw2_IZR, <- mult_IZR in E by lia. apply eq_IZR in E. symmetry. exact E. }
    subst n. replace f with (e - (e - f))%Z at 2 by lia. rewrite dround_shift by lia. reflexivity. }
  intros p a b Hp E. destruct (Z_le_gt_dec (snd b) (snd a)); [apply W; assumption|]. symmetry. apply W; [exact Hp|lia|symmetry; exact E].
Qed.

(** * The bounding arithmetic *)
Definition slackd : dy := (65537, -16)%Z.
Definition hi_round (p : Z) (m r : dy) : ball :=
  let m' := dround RDown p m in
  Fin m' (dmul slackd (dadd r (if fst (dsub m m') =? 0 then dz 0 else dmul (dabs m) (1, 1 - p)))%Z).
Definition h_add_z (a : ball) (n : Z) (p : Z) : ball := lift1 (fun m r => hi_round p (dadd m (dz n)) r) a.
Definition h_mul (a b : ball) (p : Z) : ball :=
  lift2 (fun m r n s => hi_round p (dmul m n) (dadd (dmul r s) (dadd (dmul (dabs m) s) (dmul (dabs n) r)))) a b.
Fixpoint h_eval (p : list Z) (a : ball) (prec : Z) : ball :=
  match p with
  | [] => bzero
  | c :: q => h_add_z (h_mul (h_eval q a prec) a prec) c prec
  end.

Lemma slackd_val : dyv slackd = slack.
Proof. unfold dyv, slackd, slack. cbn [fst snd]. replace (pw2 (-16)) with (/ IZR (2 ^ 16)); [change (2 ^ 16)%Z with 65536%Z; lra|].
  rewrite pw2_IZR by lia. change (-16)%Z with (- (16))%Z. pose proof (pw2_inv 16) as E. pose proof (pw2_pos 16).
  apply (Rmult_eq_reg_r (pw2 16)); [|lra]. rewrite Rinv_l by lra. symmetry. exact E. Qed.

(** Same midpoint, smaller radius. *)
Definition below (a b : ball) : Prop :=
  match a, b with Fin m r, Fin n s => dyv m = dyv n /\ 0 <= dyv r <= dyv s | _, _ => False end.

Lemma made_below : forall p v w e f b, (1 <= p)%Z -> made p v e b -> dyv v = dyv w -> 0 <= e <= dyv f -> below b (hi_round p w f).
Proof.
  intros p v w e f b Hp (m & r & -> & Em & R0 & R1 & R2) V He. unfold hi_round, below. cbv zeta.
  rewrite (dround_value p v w Hp V) in Em. split; [exact Em|]. split; [exact R0|]. rewrite dyv_mul, slackd_val, dyv_add.
  assert (S0 : 0 < slack) by (unfold slack; lra).
  destruct (Z.eqb_spec (fst (dsub w (dround RDown p w))) 0) as [Z0|_].
  - apply dyv_eq0 in Z0. rewrite dyv_sub in Z0. rewrite dyv_dz, Rplus_0_r. eapply Rle_trans; [apply R2; lra|]. apply Rmult_le_compat_l; lra.
  - eapply Rle_trans; [exact R1|]. rewrite dyv_mul, dyv_abs, V. apply Rmult_le_compat_l; [lra|]. apply Rplus_le_compat; [lra|].
    right. f_equal. unfold dyv. cbn [fst snd]. ring.
Qed.

Section Below.
Variable o : arbops.
Hypothesis Ho : arb_fl o.

Lemma add_below : forall a b n p, (2 <= p)%Z -> below a b -> below (o_add_z o a n p) (h_add_z b n p).
Proof.
  intros [m r|] [m' r'|] n p Hp H; try contradiction. destruct H as [E R]. unfold h_add_z, lift1.
  eapply made_below; [|exact (fl_add_z o Ho m r n p Hp (proj1 R))| |exact R]; [lia|]. rewrite !dyv_add, E. reflexivity.
Qed.

Lemma mul_below : forall a b c d p, (2 <= p)%Z -> below a b -> below c d -> below (o_mul o a c p) (h_mul b d p).
Proof.
  intros [m r|] [m' r'|] [n s|] [n' s'|] p Hp H K; try contradiction. destruct H as [E R]. destruct K as [F S]. unfold h_mul, lift2.
  eapply made_below; [|exact (fl_mul o Ho m r n s p Hp (proj1 R) (proj1 S))| |]; [lia|rewrite !dyv_mul, E, F; reflexivity|].
  rewrite !dyv_add, !dyv_mul, !dyv_abs, E, F. pose proof (Rabs_pos (dyv m')). pose proof (Rabs_pos (dyv n')).
  split; [repeat apply Rplus_le_le_0_compat; apply Rmult_le_pos; lra|]. repeat apply Rplus_le_compat; apply Rmult_le_compat; lra.
Qed.

Lemma eval_below : forall p a b prec, (2 <= prec)%Z -> below a b -> below (eval_arb o p a prec) (h_eval p b prec).
Proof.
  intros p a b prec Hp H. induction p as [|c q IH]; cbn [eval_arb h_eval].
  - unfold bzero, bint, bexact, below. split; [reflexivity|]. unfold dz, dyv. cbn [fst snd]. lra.
  - apply add_below; [exact Hp|]. apply mul_below; assumption.
Qed.

Lemma exact_below : forall d, below (bexact d) (bexact d).
Proof. intros d. unfold bexact, below. split; [reflexivity|]. unfold dz, dyv. cbn [fst snd]. lra. Qed.

Lemma dsgn_val : forall a b, dyv a = dyv b -> dsgn a = dsgn b.
Proof.
  intros a b E. unfold dsgn. pose proof (dyv_pos a). pose proof (dyv_pos b). pose proof (dyv_eq0 a). pose proof (dyv_eq0 b).
  destruct (Z_lt_ge_dec 0 (fst a)) as [P|P].
  - assert (0 < fst b)%Z by tauto || (apply dyv_pos; rewrite <- E; apply dyv_pos; exact P). rewrite !Z.sgn_pos by assumption. reflexivity.
  - destruct (Z.eq_dec (fst a) 0) as [Q|Q].
    + assert (fst b = 0%Z) by (apply dyv_eq0; rewrite <- E; apply dyv_eq0; exact Q). congruence.
    + assert (fst b < 0)%Z.
      { destruct (Z_lt_ge_dec 0 (fst b)) as [B|B]; [apply dyv_pos in B; rewrite <- E in B; apply dyv_pos in B; lia|].
        destruct (Z.eq_dec (fst b) 0) as [C|C]; [apply dyv_eq0 in C; rewrite <- E in C; apply dyv_eq0 in C; contradiction|lia]. }
      rewrite !Z.sgn_neg by lia. reflexivity.
Qed.

Lemma below_sign : forall a b, below a b -> contains_zero b = false -> contains_zero a = false /\ msgn a = msgn b.
Proof.
  intros [m r|] [n s|] H Z; try contradiction. destruct H as [E R]. cbn [contains_zero msgn] in *. split; [|apply dsgn_val, E].
  apply dleb_false. apply dleb_false in Z. rewrite dyv_abs in *. rewrite E. lra.
Qed.

Lemma eval_sign : forall p d prec s, (2 <= prec)%Z -> contains_zero (h_eval p (bexact d) prec) = false -> msgn (h_eval p (bexact d) prec) = s ->
  contains_zero (eval_arb o p (bexact d) prec) = false /\ msgn (eval_arb o p (bexact d) prec) = s.
Proof.
  intros p d prec s Hp Z <-. apply below_sign; [|exact Z]. apply eval_below; [exact Hp|apply exact_below].
Qed.

End Below.

(** * The concrete arithmetic is of this kind *)
Lemma bround_made : forall p v e, (2 <= p)%Z -> 0 <= dyv e -> made p v (dyv e) (bround p v e).
Proof.
  intros p v e Hp He. unfold bround. cbv zeta. eexists _, _. split; [reflexivity|]. split; [reflexivity|].
  destruct (dround_spec RDown p v ltac:(lia)) as (_ & E & _). set (m := dround RDown p v) in *.
  assert (D : dyv (dadd e (dabs (dsub v m))) = dyv e + Rabs (dyv v - dyv m)) by (rewrite dyv_add, dyv_abs, dyv_sub; reflexivity).
  set (t := dadd e (dabs (dsub v m))) in *. pose proof (Rabs_pos (dyv v - dyv m)).
  destruct (dround_spec RUp 30 t ltac:(lia)) as (_ & F & G & _). rewrite D in F, G. specialize (G ltac:(lra)).
  rewrite (Rabs_pos_eq (dyv e + Rabs (dyv v - dyv m))) in F by lra.
  assert (K : pw2 (1 - 30) <= 1 / 65536).
  { apply Rle_trans with (pw2 (-16)); [apply pw2_le; lia|]. right. pose proof slackd_val as S. unfold dyv, slackd, slack in S. cbn [fst snd] in S. lra. }
  assert (U : dyv (dround RUp 30 t) <= slack * (dyv e + Rabs (dyv v - dyv m))).
  { unfold slack. assert ((dyv e + Rabs (dyv v - dyv m)) * pw2 (1 - 30) <= (dyv e + Rabs (dyv v - dyv m)) * (1 / 65536)) by (apply Rmult_le_compat_l; lra).
    revert F. unfold Rabs at 1. destruct (Rcase_abs _); intros F; lra. }
  split; [exact G|]. split.
  - eapply Rle_trans; [exact U|]. apply Rmult_le_compat_l; [unfold slack; lra|]. lra.
  - intros Q. rewrite Q, Rminus_diag_eq, Rabs_R0, Rplus_0_r in U by reflexivity. exact U.
Qed.

Lemma dmax_val : forall a b, dyv (dmax a b) = Rmax (dyv a) (dyv b).
Proof. intros a b. unfold dmax, Rmax. destruct (dleb a b) eqn:E; [apply dleb_spec in E|apply dleb_false in E]; destruct (Rle_dec _ _); lra. Qed.
Lemma dmin_val : forall a b, dyv (dmin a b) = Rmin (dyv a) (dyv b).
Proof. intros a b. unfold dmin, Rmin. destruct (dleb a b) eqn:E; [apply dleb_spec in E|apply dleb_false in E]; destruct (Rle_dec _ _); lra. Qed.

Lemma half : forall a, dyv (d2exp a (-1)) = dyv a / 2.
Proof. intros a. rewrite dyv_2exp. rewrite pw2_m1. lra. Qed.

Lemma y_interval_made : forall l r p, (2 <= p)%Z -> dyv l <= dyv r -> made p (d2exp (dadd l r) (-1)) ((dyv r - dyv l) / 2) (y_interval l r p).
Proof.
  intros l r p Hp H. unfold y_interval. assert (E : (dyv r - dyv l) / 2 = dyv (d2exp (dsub r l) (-1))) by (rewrite half, dyv_sub; reflexivity).
  rewrite E. apply bround_made; [exact Hp|]. rewrite <- E. lra.
Qed.

Lemma y_div_made : forall m r n p, (2 <= p)%Z -> 0 <= dyv r -> (0 < n)%Z -> exists m' r', y_div (Fin m r) (bint n) p = Fin m' r' /\
  Rabs (dyv m' - dyv m / IZR n) <= Rabs (dyv m / IZR n) * pw2 (3 - p) /\ 0 <= dyv r' <= 2 * (dyv r / IZR n + Rabs (dyv m / IZR n) * pw2 (3 - p)).
Proof.
  intros m r n p Hp Hr Hn. assert (Pn : 0 < IZR n) by (apply IZR_lt; exact Hn). unfold y_div, bint, bexact, lift2.
  destruct (dleb (dabs (dz n)) (dz 0)) eqn:L; [apply dleb_spec in L; rewrite dyv_abs, !dyv_dz, Rabs_pos_eq in L by lra; lra|].
  set (num := dadd (dmul r (dabs (dz n))) (dmul (dabs m) (dz 0))). set (den := dmul (dsub (dabs (dz n)) (dz 0)) (dabs (dz n))).
  assert (Vn : dyv num = dyv r * IZR n) by (unfold num; rewrite dyv_add, !dyv_mul, dyv_abs, !dyv_dz, Rabs_pos_eq by lra; ring).
  assert (Vd : dyv den = IZR n * IZR n) by (unfold den; rewrite dyv_mul, dyv_sub, dyv_abs, !dyv_dz, Rabs_pos_eq by lra; ring).
  assert (Hz : fst (dz n) <> 0%Z) by (unfold dz; cbn [fst]; lia).
  assert (Hd : fst den <> 0%Z) by (intros Z0; apply dyv_eq0 in Z0; rewrite Vd in Z0; nra).
  pose proof (ddiv_err_spec p m (dz n) Hz) as [Q1 Q2]. pose proof (ddiv_err_small p m (dz n) Hz) as Q3.
  pose proof (ddiv_err_spec 30 num den Hd) as [U1 U2]. pose proof (ddiv_err_small 30 num den Hd) as U3. rewrite dyv_dz in Q1, Q2, Q3.
  assert (N : dyv num / dyv den = dyv r / IZR n) by (rewrite Vn, Vd; field; lra). rewrite N in U1, U2, U3.
  assert (R0 : 0 <= dyv r / IZR n) by (apply Rmult_le_pos; [exact Hr|left; apply Rinv_0_lt_compat, Pn]). rewrite (Rabs_pos_eq _ R0) in U3.
  assert (K : pw2 (1 - 30) <= 1 / 65536).
  { apply Rle_trans with (pw2 (-16)); [apply pw2_le; lia|]. right. pose proof slackd_val as S. unfold dyv, slackd, slack in S. cbn [fst snd] in S. lra. }
  assert (U4 : dyv r / IZR n * pw2 (1 - 30) <= dyv r / IZR n * (1 / 65536)) by (apply Rmult_le_compat_l; lra).
  set (q := ddiv p m (dz n)) in *. set (e := dadd (dadd (ddiv 30 num den) (ddiv_err 30 num den)) (ddiv_err p m (dz n))).
  assert (Ve : dyv e = dyv (ddiv 30 num den) + dyv (ddiv_err 30 num den) + dyv (ddiv_err p m (dz n))) by (unfold e; rewrite !dyv_add; reflexivity).
  destruct (bround_made p q e Hp ltac:(lra)) as (m' & r' & E & Em & S0 & S1 & _). exists m', r'. split; [exact E|].
  destruct (dround_spec RDown p q ltac:(lia)) as (_ & D & _). rewrite <- Em in D.
  assert (P3 : pw2 (3 - p) = 4 * pw2 (1 - p)) by (replace (3 - p)%Z with (1 + (1 + (1 - p)))%Z by lia; rewrite !pw2_add, pw2_1; ring).
  assert (P1 : pw2 (1 - p) <= 1 / 2) by (rewrite <- pw2_m1; apply pw2_le; lia). pose proof (pw2_pos (1 - p)) as P0. rewrite P3. set (u := pw2 (1 - p)) in *.
  set (t := dyv m / IZR n) in *. pose proof (Rabs_pos t) as T0. set (w := Rabs t * u) in *. assert (W : 0 <= w) by (apply Rmult_le_pos; lra).
  assert (Wt : w <= Rabs t / 2) by (unfold w; apply Rle_trans with (Rabs t * / 2); [apply Rmult_le_compat_l; lra|lra]).
  assert (B : Rabs (dyv q) * u <= 2 * w).
  { assert (C : Rabs (dyv q) <= 2 * Rabs t).
    { replace (dyv q) with (t - (t - dyv q)) by ring. eapply Rle_trans; [apply Rabs_triang|]. rewrite Rabs_Ropp, (Rabs_pos_eq (t - dyv q)) by lra. lra. }
    unfold w. rewrite <- Rmult_assoc. apply Rmult_le_compat_r; [lra|exact C]. }
  replace (Rabs t * (4 * u)) with (4 * w) by (unfold w; ring).
  split.
  - replace (dyv m' - t) with (- ((dyv q - dyv m') + (t - dyv q))) by ring. rewrite Rabs_Ropp. eapply Rle_trans; [apply Rabs_triang|]. rewrite (Rabs_pos_eq (t - dyv q)) by lra. lra.
  - split; [exact S0|]. eapply Rle_trans; [exact S1|]. unfold slack. rewrite Ve. lra.
Qed.

Lemma dyops_fl : arb_fl dyops.
Proof.
  split; cbn [o_add_z o_mul o_mul_z o_div_z o_set_interval o_inter dyops].
  - intros m r n p Hp Hr. unfold y_add, bint, bexact, lift2. replace (dyv r) with (dyv (dadd r (dz 0))) by (rewrite dyv_add, dyv_dz; ring).
    apply bround_made; [exact Hp|]. rewrite dyv_add, dyv_dz. lra.
  - intros m r n s p Hp Hr Hs. unfold y_mul, lift2.
    replace (dyv r * dyv s + (Rabs (dyv m) * dyv s + Rabs (dyv n) * dyv r)) with (dyv (dadd (dmul r s) (dadd (dmul (dabs m) s) (dmul (dabs n) r))))
      by (rewrite !dyv_add, !dyv_mul, !dyv_abs; reflexivity).
    apply bround_made; [exact Hp|]. rewrite !dyv_add, !dyv_mul, !dyv_abs. pose proof (Rabs_pos (dyv m)). pose proof (Rabs_pos (dyv n)).
    repeat apply Rplus_le_le_0_compat; apply Rmult_le_pos; lra.
  - intros m r n p Hp Hr. unfold y_mul, bint, bexact, lift2.
    replace (Rabs (IZR n) * dyv r) with (dyv (dadd (dmul r (dz 0)) (dadd (dmul (dabs m) (dz 0)) (dmul (dabs (dz n)) r))))
      by (rewrite !dyv_add, !dyv_mul, !dyv_abs, !dyv_dz; ring).
    apply bround_made; [exact Hp|]. rewrite !dyv_add, !dyv_mul, !dyv_abs, !dyv_dz. pose proof (Rabs_pos (IZR n)).
    rewrite !Rmult_0_r, !Rplus_0_l. apply Rmult_le_pos; lra.
  - exact y_interval_made.
  - exact y_div_made.
  - intros m r n s p lo hi Hp Hr Hs El Eh H. cbv zeta. unfold y_inter.
    set (l := dmax (dsub m r) (dsub n s)). set (h := dmin (dadd m r) (dadd n s)).
    assert (Vl : dyv l = lo) by (unfold l; rewrite dmax_val, !dyv_sub; symmetry; exact El).
    assert (Vh : dyv h = hi) by (unfold h; rewrite dmin_val, !dyv_add; symmetry; exact Eh).
    destruct (y_interval_made l h p Hp ltac:(lra)) as (m' & r' & E & Em & R0 & R1 & _). exists m', r'. split; [exact E|]. split; [exact R0|].
    destruct (dround_spec RDown p (d2exp (dadd l h) (-1)) ltac:(lia)) as (_ & D & _). rewrite <- Em in D.
    rewrite half, dyv_add, Vl, Vh in *. set (c := (lo + hi) / 2) in *.
    assert (C : Rabs c <= Rmax (Rabs lo) (Rabs hi)).
    { unfold c. pose proof (Rmax_l (Rabs lo) (Rabs hi)) as A1. pose proof (Rmax_r (Rabs lo) (Rabs hi)) as A2. set (M := Rmax (Rabs lo) (Rabs hi)) in *. clearbody M.
      revert A1 A2. unfold Rabs. repeat destruct (Rcase_abs _); intros; lra. }
    replace (pw2 (1 - p)) with (2 * pw2 (- p)) in * by (replace (1 - p)%Z with (1 + - p)%Z by lia; rewrite pw2_add, pw2_1; reflexivity).
    pose proof (pw2_pos (- p)). set (q := pw2 (- p)) in *. assert (Rabs c * q <= Rmax (Rabs lo) (Rabs hi) * q) by (apply Rmult_le_compat_r; lra).
    assert (0 <= Rabs c * q) by (apply Rmult_le_pos; [apply Rabs_pos|lra]).
    unfold slack in R1. assert (B : Rabs (c - dyv m') <= 2 * (Rabs c * q)) by lra. clear D.
    assert (- (2 * (Rabs c * q)) <= c - dyv m' <= 2 * (Rabs c * q)) by (revert B; unfold Rabs at 1; destruct (Rcase_abs _); intros; lra).
    unfold c in *. lra.
Qed.
