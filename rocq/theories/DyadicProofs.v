Require Import Reals ZArith List Bool Lia Lra.
From Verif Require Import PolyR RootSpec VcaProofs Dyadic.
Open Scope R_scope.

Lemma dat_val : forall d e, (e <= snd d)%Z -> dyv d = IZR (dat d e) * pw2 e.
Proof.
  intros [m k] e H. cbn [fst snd] in H. unfold dyv, dat. cbn [fst snd].
  rewrite Z.shiftl_mul_pow2, mult_IZR, pw2_IZR by lia. rewrite Rmult_assoc, <- pw2_add. do 2 f_equal. lia.
Qed.

Lemma dyv_dz : forall n, dyv (dz n) = IZR n.
Proof. intros n. unfold dyv, dz. cbn [fst snd]. rewrite pw2_0. ring. Qed.

Lemma dyv_neg : forall a, dyv (dneg a) = - dyv a.
Proof. intros a. unfold dyv, dneg. cbn [fst snd]. rewrite opp_IZR. ring. Qed.

Lemma dyv_abs : forall a, dyv (dabs a) = Rabs (dyv a).
Proof.
  intros a. unfold dyv, dabs. cbn [fst snd]. rewrite abs_IZR, Rabs_mult.
  rewrite (Rabs_pos_eq (pw2 _)); [reflexivity|]. left. apply pw2_pos.
Qed.

Lemma dyv_add : forall a b, dyv (dadd a b) = dyv a + dyv b.
Proof.
  intros a b. unfold dadd. set (e := Z.min (snd a) (snd b)).
  rewrite (dat_val a e), (dat_val b e) by (unfold e; lia).
  unfold dyv at 1. cbn [fst snd]. rewrite plus_IZR. ring.
Qed.

Lemma dyv_sub : forall a b, dyv (dsub a b) = dyv a - dyv b.
Proof. intros a b. unfold dsub. rewrite dyv_add, dyv_neg. ring. Qed.

Lemma dyv_mul : forall a b, dyv (dmul a b) = dyv a * dyv b.
Proof. intros a b. unfold dmul, dyv. cbn [fst snd]. rewrite mult_IZR, pw2_add. ring. Qed.

Lemma dyv_2exp : forall a k, dyv (d2exp a k) = dyv a * pw2 k.
Proof. intros a k. unfold d2exp, dyv. cbn [fst snd]. rewrite pw2_add. ring. Qed.

Lemma dleb_spec : forall a b, dleb a b = true <-> dyv a <= dyv b.
Proof.
  intros a b. unfold dleb. set (e := Z.min (snd a) (snd b)).
  rewrite (dat_val a e), (dat_val b e) by (unfold e; lia). rewrite Z.leb_le.
  pose proof (pw2_pos e) as Hp. split; intros H.
  - apply Rmult_le_compat_r; [lra|]. apply IZR_le. exact H.
  - apply le_IZR. apply (Rmult_le_reg_r (pw2 e)); assumption.
Qed.

Lemma dleb_false : forall a b, dleb a b = false <-> dyv b < dyv a.
Proof.
  intros a b. destruct (dleb a b) eqn:E; split; intros H; try reflexivity; try discriminate.
  - apply dleb_spec in E. lra.
  - destruct (Rlt_or_le (dyv b) (dyv a)) as [|L]; [assumption|].
    apply dleb_spec in L. congruence.
Qed.

Lemma dltb_spec : forall a b, dltb a b = true <-> dyv a < dyv b.
Proof.
  intros a b. unfold dltb. rewrite negb_true_iff. apply dleb_false.
Qed.

Lemma dltb_false : forall a b, dltb a b = false <-> dyv b <= dyv a.
Proof.
  intros a b. unfold dltb. rewrite negb_false_iff. apply dleb_spec.
Qed.

Lemma deqb_spec : forall a b, deqb a b = true <-> dyv a = dyv b.
Proof.
  intros a b. unfold deqb. rewrite andb_true_iff, !dleb_spec. split; intros; [lra|split; lra].
Qed.

Definition Rsgn (x : R) : Z := match total_order_T x 0 with
  | inleft (left _) => -1 | inleft (right _) => 0 | inright _ => 1 end%Z.

Lemma Rsgn_pos : forall x, 0 < x -> Rsgn x = 1%Z.
Proof. intros x H. unfold Rsgn. destruct (total_order_T x 0) as [[?|?]|?]; try reflexivity; lra. Qed.
Lemma Rsgn_neg : forall x, x < 0 -> Rsgn x = (-1)%Z.
Proof. intros x H. unfold Rsgn. destruct (total_order_T x 0) as [[?|?]|?]; try reflexivity; lra. Qed.
Lemma Rsgn_0 : Rsgn 0 = 0%Z.
Proof. unfold Rsgn. destruct (total_order_T 0 0) as [[?|?]|?]; try reflexivity; lra. Qed.

Lemma dyv_pos : forall d, 0 < dyv d <-> (0 < fst d)%Z.
Proof.
  intros d. unfold dyv. pose proof (pw2_pos (snd d)) as Hp. split; intros H.
  - apply lt_IZR. apply (Rmult_lt_reg_r (pw2 (snd d))); lra.
  - apply Rmult_lt_0_compat; [|assumption]. apply IZR_lt. exact H.
Qed.
Lemma dyv_nonneg : forall d, 0 <= dyv d <-> (0 <= fst d)%Z.
Proof.
  intros d. unfold dyv. pose proof (pw2_pos (snd d)) as Hp. split; intros H.
  - apply le_IZR. apply (Rmult_le_reg_r (pw2 (snd d))); lra.
  - apply Rmult_le_pos; [|lra]. apply IZR_le. exact H.
Qed.
Lemma dyv_eq0 : forall d, dyv d = 0 <-> fst d = 0%Z.
Proof.
  intros d. unfold dyv. pose proof (pw2_neq (snd d)) as Hp. split; intros H.
  - apply Rmult_integral in H. destruct H as [H|H]; [|contradiction]. apply eq_IZR. exact H.
  - rewrite H. ring.
Qed.

Lemma dsgn_spec : forall d, dsgn d = Rsgn (dyv d).
Proof.
  intros d. unfold dsgn. destruct (Z.lt_trichotomy (fst d) 0) as [H|[H|H]].
  - assert (E : dyv d < 0).
    { destruct (Rlt_or_le (dyv d) 0) as [|L]; [assumption|]. apply dyv_nonneg in L. lia. }
    rewrite (Rsgn_neg _ E). lia.
  - rewrite (proj2 (dyv_eq0 d) H), Rsgn_0. lia.
  - rewrite (Rsgn_pos (dyv d)) by (apply dyv_pos; exact H). lia.
Qed.

(** ** Sizes *)
Lemma zbits_spec : forall m, m <> 0%Z -> (2 ^ (zbits m - 1) <= Z.abs m < 2 ^ zbits m /\ 1 <= zbits m)%Z.
Proof.
  intros m H. unfold zbits. destruct (Z.eqb_spec m 0) as [|_]; [contradiction|].
  pose proof (Z.log2_spec (Z.abs m) ltac:(lia)) as Hl. pose proof (Z.log2_nonneg (Z.abs m)) as Hn.
  replace (Z.log2 (Z.abs m) + 1 - 1)%Z with (Z.log2 (Z.abs m)) by lia.
  replace (Z.log2 (Z.abs m) + 1)%Z with (Z.succ (Z.log2 (Z.abs m))) by lia. lia.
Qed.

Lemma pw2_le : forall a b, (a <= b)%Z -> pw2 a <= pw2 b.
Proof.
  intros a b H. replace b with (a + (b - a))%Z by lia. rewrite pw2_add.
  rewrite <- (Rmult_1_r (pw2 a)) at 1. apply Rmult_le_compat_l; [left; apply pw2_pos|].
  rewrite <- pw2_IZR by lia. apply IZR_le. assert (0 < 2 ^ (b - a))%Z; [|lia].
  apply Z.pow_pos_nonneg; lia.
Qed.

Lemma pw2_lt : forall a b, (a < b)%Z -> pw2 a < pw2 b.
Proof.
  intros a b H. apply Rlt_le_trans with (pw2 (a + 1)).
  - rewrite pw2_add, pw2_1. pose proof (pw2_pos a). lra.
  - apply pw2_le. lia.
Qed.

Lemma dexp_spec : forall d, fst d <> 0%Z -> pw2 (dexp d - 1) <= Rabs (dyv d) < pw2 (dexp d).
Proof.
  intros [m e] H. cbn [fst] in H. unfold dexp, dyv. cbn [fst snd].
  destruct (Z.eqb_spec m 0) as [|_]; [contradiction|].
  destruct (zbits_spec m H) as [[H1 H2] H3]. pose proof (pw2_pos e) as Hp.
  rewrite Rabs_mult, (Rabs_pos_eq (pw2 e)), <- abs_IZR by lra.
  replace (zbits m + e - 1)%Z with ((zbits m - 1) + e)%Z by lia. rewrite !pw2_add.
  rewrite <- (pw2_IZR (zbits m - 1)), <- (pw2_IZR (zbits m)) by lia. split.
  - apply Rmult_le_compat_r; [lra|]. apply IZR_le; assumption.
  - apply Rmult_lt_compat_r; [lra|]. apply IZR_lt; assumption.
Qed.

(** ** Rounding *)
Lemma div_bounds : forall m s, (0 <= s)%Z ->
  IZR (m / 2 ^ s) * pw2 s <= IZR m < IZR (m / 2 ^ s) * pw2 s + pw2 s.
Proof.
  intros m s H. assert (Hp : (0 < 2 ^ s)%Z) by (apply Z.pow_pos_nonneg; lia).
  rewrite <- pw2_IZR by assumption. rewrite <- mult_IZR, <- plus_IZR.
  pose proof (Z.div_mod m (2 ^ s) ltac:(lia)). pose proof (Z.mod_pos_bound m (2 ^ s) Hp).
  split; [apply IZR_le|apply IZR_lt]; nia.
Qed.

Lemma cdiv_bounds : forall m s, (0 <= s)%Z ->
  IZR (- ((- m) / 2 ^ s)) * pw2 s - pw2 s < IZR m <= IZR (- ((- m) / 2 ^ s)) * pw2 s.
Proof.
  intros m s H. pose proof (div_bounds (- m) s H) as B. rewrite opp_IZR in B.
  rewrite opp_IZR. lra.
Qed.

Definition rnd_le (md : rnd) (x y : R) : Prop := (* y is a rounding of x in this direction *)
  match md with
  | RFloor => y <= x
  | RCeil => x <= y
  | RDown => Rabs y <= Rabs x
  | RUp => Rabs x <= Rabs y
  | RNear => True
  end.

Lemma zround_eq : forall md m s, (0 <= s)%Z -> zround md m s =
  match md with
  | RFloor => m / 2 ^ s
  | RCeil => - ((- m) / 2 ^ s)
  | RDown => if 0 <=? m then m / 2 ^ s else - ((- m) / 2 ^ s)
  | RUp => if 0 <=? m then - ((- m) / 2 ^ s) else m / 2 ^ s
  | RNear =>
      match 2 * (m mod 2 ^ s) ?= 2 ^ s with
      | Lt => m / 2 ^ s
      | Gt => m / 2 ^ s + 1
      | Eq => if Z.even (m / 2 ^ s) then m / 2 ^ s else m / 2 ^ s + 1
      end
  end%Z.
Proof.
  intros md m s H. unfold zround. rewrite Z.shiftl_mul_pow2, !Z.shiftr_div_pow2 by exact H.
  rewrite (Z.mod_eq m (2 ^ s)) by (pose proof (Z.pow_pos_nonneg 2 s); lia). rewrite (Z.mul_comm (m / 2 ^ s) (2 ^ s)). reflexivity.
Qed.

Lemma zround_spec : forall md m s, (0 < s)%Z ->
  rnd_le md (IZR m) (IZR (zround md m s) * pw2 s) /\
  Rabs (IZR m - IZR (zround md m s) * pw2 s) < pw2 s /\
  (0 <= IZR m -> 0 <= IZR (zround md m s) * pw2 s) /\
  (IZR m <= 0 -> IZR (zround md m s) * pw2 s <= 0).
Proof.
  intros md m s H. pose proof (div_bounds m s ltac:(lia)) as B. pose proof (cdiv_bounds m s ltac:(lia)) as C.
  pose proof (pw2_pos s) as Hp.
  assert (Hp2 : (0 < 2 ^ s)%Z) by (apply Z.pow_pos_nonneg; lia).
  set (q := (m / 2 ^ s)%Z) in *. set (c := (- ((- m) / 2 ^ s))%Z) in *.
  assert (Sq1 : 0 <= IZR m -> 0 <= IZR q * pw2 s).
  { intros Hm. apply Rmult_le_pos; [|lra]. apply IZR_le. apply le_IZR in Hm. apply Z.div_pos; lia. }
  assert (Sc1 : 0 <= IZR m -> 0 <= IZR c * pw2 s) by (intros; lra).
  assert (Sc2 : IZR m <= 0 -> IZR c * pw2 s <= 0).
  { intros Hm. apply le_IZR in Hm. assert (Hc : (c <= 0)%Z).
    { unfold c. assert (0 <= (- m) / 2 ^ s)%Z by (apply Z.div_pos; lia). lia. }
    apply IZR_le in Hc. nra. }
  rewrite zround_eq by lia. destruct md; cbn [rnd_le]; fold q; fold c.
  - destruct (Z.leb_spec 0 m) as [Hm|Hm].
    + pose proof (IZR_le _ _ Hm) as Hm'. specialize (Sq1 Hm').
      rewrite !Rabs_pos_eq by lra. repeat split; try lra; try (intros; assumption).
    + pose proof (IZR_lt _ _ Hm) as Hm'. specialize (Sc2 ltac:(lra)).
      rewrite (Rabs_left1 (IZR m)) by lra. rewrite (Rabs_left1 (IZR c * pw2 s)) by lra.
      repeat split; try lra. rewrite Rabs_left1; lra.
  - destruct (Z.leb_spec 0 m) as [Hm|Hm].
    + pose proof (IZR_le _ _ Hm) as Hm'.
      rewrite (Rabs_pos_eq (IZR m)), (Rabs_pos_eq (IZR c * pw2 s)) by lra.
      repeat split; try lra; rewrite Rabs_left1; lra.
    + pose proof (IZR_lt _ _ Hm) as Hm'.
      rewrite (Rabs_left1 (IZR m)), (Rabs_left1 (IZR q * pw2 s)) by lra.
      repeat split; try lra. rewrite Rabs_pos_eq; lra.
  - repeat split; try lra; try assumption; rewrite Rabs_pos_eq; lra.
  - repeat split; try lra; rewrite Rabs_left1; lra.
  - assert (Em : (m = 2 ^ s * q + m mod 2 ^ s)%Z) by (apply Z.div_mod; lia).
    pose proof (Z.mod_pos_bound m (2 ^ s) Hp2) as Hb. set (r := (m mod 2 ^ s)%Z) in *.
    assert (D1 : (2 * r <= 2 ^ s)%Z -> Rabs (IZR m - IZR q * pw2 s) < pw2 s).
    { intros _. rewrite Rabs_pos_eq; lra. }
    assert (D2 : (2 ^ s <= 2 * r)%Z -> Rabs (IZR m - IZR (q + 1) * pw2 s) < pw2 s).
    { intros Hr. rewrite plus_IZR. rewrite Rabs_left1 by lra.
      assert (IZR q * pw2 s < IZR m); [|lra].
      rewrite <- pw2_IZR, <- mult_IZR by lia. apply IZR_lt. lia. }
    assert (S1 : 0 <= IZR m -> 0 <= IZR (q + 1) * pw2 s).
    { intros Hm. specialize (Sq1 Hm). rewrite plus_IZR. lra. }
    assert (S2 : IZR m <= 0 -> IZR q * pw2 s <= 0) by (intros; lra).
    assert (S3 : (2 ^ s <= 2 * r)%Z -> IZR m <= 0 -> IZR (q + 1) * pw2 s <= 0).
    { intros Hr Hm. apply le_IZR in Hm. assert (q + 1 <= 0)%Z by nia.
      apply IZR_le in H0. nra. }
    destruct (2 * r ?= 2 ^ s)%Z eqn:E.
    + apply Z.compare_eq in E. destruct (Z.even q); (split; [exact I|]).
      * split; [apply D1; lia|]. split; assumption.
      * split; [apply D2; lia|]. split; [assumption|]. apply S3; lia.
    + rewrite Z.compare_lt_iff in E. split; [exact I|]. split; [apply D1; lia|]. split; assumption.
    + rewrite Z.compare_gt_iff in E. split; [exact I|]. split; [apply D2; lia|]. split; [assumption|]. apply S3; lia.
Qed.

Lemma rnd_le_refl : forall md x, rnd_le md x x.
Proof. intros [] x; simpl; lra. Qed.

Lemma rnd_le_scale : forall md x y k, 0 < k -> rnd_le md x y -> rnd_le md (x * k) (y * k).
Proof.
  intros md x y k Hk H. destruct md; simpl in *; rewrite ?Rabs_mult, ?(Rabs_pos_eq k) by lra; nra.
Qed.

(** Rounding goes in the right direction and changes the value by less than one
    unit in the last place, without crossing 0. *)
Lemma dround_spec : forall md prec d, (1 <= prec)%Z ->
  rnd_le md (dyv d) (dyv (dround md prec d)) /\
  Rabs (dyv d - dyv (dround md prec d)) <= Rabs (dyv d) * pw2 (1 - prec) /\
  (0 <= dyv d -> 0 <= dyv (dround md prec d)) /\
  (dyv d <= 0 -> dyv (dround md prec d) <= 0).
Proof.
  intros md prec [m e] Hprec. unfold dround. cbn [fst snd].
  pose proof (pw2_pos (1 - prec)) as Hpp. pose proof (Rabs_pos (dyv (m, e))) as Hab.
  destruct (Z.leb_spec (zbits m - prec) 0) as [Hs|Hs].
  - split; [apply rnd_le_refl|]. rewrite Rminus_diag_eq, Rabs_R0 by reflexivity.
    split; [apply Rmult_le_pos; lra|]. tauto.
  - assert (Hm : m <> 0%Z).
    { intros ->. unfold zbits in Hs. simpl in Hs. lia. }
    destruct (zbits_spec m Hm) as [[B1 B2] B3].
    set (s := (zbits m - prec)%Z) in *.
    destruct (zround_spec md m s Hs) as (R1 & R2 & R3 & R4).
    pose proof (pw2_pos e) as He.
    assert (E : dyv (zround md m s, (e + s)%Z) = IZR (zround md m s) * pw2 s * pw2 e).
    { unfold dyv. cbn [fst snd]. rewrite pw2_add. ring. }
    rewrite E. unfold dyv. cbn [fst snd]. split; [|split; [|split]].
    + apply rnd_le_scale; assumption.
    + rewrite <- Rmult_minus_distr_r, !Rabs_mult, (Rabs_pos_eq (pw2 e)) by lra.
      apply Rle_trans with (pw2 s * pw2 e); [apply Rmult_le_compat_r; lra|].
      apply Rle_trans with (pw2 (zbits m - 1) * pw2 e * pw2 (1 - prec)).
      * rewrite <- !pw2_add. apply pw2_le. unfold s. lia.
      * apply Rmult_le_compat_r; [lra|]. apply Rmult_le_compat_r; [lra|].
        rewrite <- pw2_IZR, <- abs_IZR by lia. apply IZR_le. assumption.
    + intros H0. apply Rmult_le_pos; [|lra]. apply R3. nra.
    + intros H0. assert (IZR m <= 0) by nra. specialize (R4 H). nra.
Qed.

Lemma dround_floor_le : forall prec d, (1 <= prec)%Z -> dyv (dround RFloor prec d) <= dyv d.
Proof. intros prec d H. apply (dround_spec RFloor prec d H). Qed.
Lemma dround_ceil_ge : forall prec d, (1 <= prec)%Z -> dyv d <= dyv (dround RCeil prec d).
Proof. intros prec d H. apply (dround_spec RCeil prec d H). Qed.
Lemma dround_up_ge : forall prec d, (1 <= prec)%Z -> 0 <= dyv d -> dyv d <= dyv (dround RUp prec d).
Proof.
  intros prec d H H0. destruct (dround_spec RUp prec d H) as (A & _ & B & _). simpl in A.
  rewrite !Rabs_pos_eq in A; auto.
Qed.

Lemma dfloor_spec : forall d, IZR (dfloor d) <= dyv d < IZR (dfloor d) + 1.
Proof.
  intros [m e]. unfold dfloor, dyv. cbn [fst snd]. destruct (Z.leb_spec 0 e) as [H|H].
  - rewrite mult_IZR, pw2_IZR by assumption. lra.
  - rewrite Z.shiftr_div_pow2 by lia. pose proof (div_bounds m (- e) ltac:(lia)) as B. pose proof (pw2_pos e) as Hp.
    assert (E : pw2 (- e) * pw2 e = 1) by apply pw2_inv.
    set (q := (m / 2 ^ (- e))%Z) in *. split.
    + replace (IZR q) with (IZR q * pw2 (- e) * pw2 e) by (rewrite Rmult_assoc, E; ring).
      apply Rmult_le_compat_r; lra.
    + replace (IZR q + 1) with ((IZR q * pw2 (- e) + pw2 (- e)) * pw2 e) by (rewrite Rmult_plus_distr_r, Rmult_assoc, E; ring).
      apply Rmult_lt_compat_r; lra.
Qed.

Lemma dceil_spec : forall d, IZR (dceil d) - 1 < dyv d <= IZR (dceil d).
Proof.
  intros d. unfold dceil. pose proof (dfloor_spec (dneg d)) as H. rewrite dyv_neg in H.
  rewrite opp_IZR. lra.
Qed.
