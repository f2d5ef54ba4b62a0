(** Wrong answers in the field of C08 whose enclosure contains no root, for every ball
    arithmetic that works like FLINT's. *)
Require Import Reals List ZArith Bool Lia Lra.
From Verif Require Import PolyR RootSpec RootModel ExtraModel Dyadic DyadicProofs VcaProofs ArbModel ArbSpec ArbProofs FieldProofs DyRate
  ArbRefute EmbModel EmbWrong ElemModel ElemSpec ElemProofs ElemRefute EndsRefute RefineEnds FlSpec FlProofs FlRefute FlRoot.
Import ListNotations.
Open Scope R_scope.

(** The number 1 + 7 * 2^-66 is between the enclosure, up to 1 + 4 * 2^-66, and the
    root, about 1 + 7.3 * 2^-66. *)
Definition wden : Z := 73786976294838206464.
Definition wnum : Z := 73786976294838206471.
Definition welem : elem := {| e_num := [- wnum; wden]; e_den := wden |}%Z.
Definition wgen : elem := {| e_num := [0; 1]; e_den := 1 |}%Z.
Definition wrat : elem := {| e_num := [wnum]; e_den := wden |}%Z.

Lemma welem_canon : canon wrong_pol welem.
Proof. apply canon_intro; [reflexivity|discriminate|cbn; lia|vm_compute; reflexivity]. Qed.
Lemma wgen_canon : canon wrong_pol wgen.
Proof. apply canon_intro; [reflexivity|discriminate|cbn; lia|vm_compute; reflexivity]. Qed.
Lemma wrat_canon : canon wrong_pol wrat.
Proof. apply canon_intro; [reflexivity|discriminate|cbn; lia|vm_compute; reflexivity]. Qed.
Lemma welem_val : forall x, ev x welem = x - IZR wnum / IZR wden.
Proof. intros x. unfold ev, welem. cbn [e_num e_den]. rewrite !zeval_cons, zeval_nil, opp_IZR. unfold wden, wnum. field. Qed.
Lemma wgen_val : forall x, ev x wgen = x.
Proof. intros x. unfold ev, wgen. cbn [e_num e_den]. rewrite !zeval_cons, zeval_nil. field. Qed.
Lemma wrat_val : forall x, ev x wrat = IZR wnum / IZR wden.
Proof. intros x. unfold ev, wrat. cbn [e_num e_den]. rewrite !zeval_cons, zeval_nil. f_equal. ring. Qed.

Lemma wminimal : forall x, zeval wrong_pol x = 0 -> minimal wrong_pol x.
Proof.
  intros x E. constructor; [exact E|cbn; lia|vm_compute; discriminate|]. rewrite wrong_eval in E.
  set (W := (2 ^ 67)%Z) in *. assert (Wp : 0 < IZR W) by (apply IZR_lt; reflexivity).
  intros p L Ep. cbn [length wrong_pol] in L.
  assert (K : forall a b, IZR a + IZR b * x = 0 -> a = 0%Z /\ b = 0%Z).
  { intros a b H. assert (b = 0%Z).
    { apply (sq_descent (W * a + b * (W + 16)) b). apply eq_IZR. rewrite !mult_IZR, plus_IZR, !mult_IZR, plus_IZR.
      assert (Q : IZR W * IZR a + IZR b * (IZR W + 16) = - (IZR b * (IZR W * x - IZR W - 16))).
      { assert (Ha : IZR a = - (IZR b * x)) by lra. rewrite Ha. ring. }
      rewrite Q. replace 2 with ((IZR W * x - IZR W - 16) * (IZR W * x - IZR W - 16)) at 1 by lra. ring. }
    subst b. split; [apply eq_IZR; lra|reflexivity]. }
  destruct p as [|a [|b [|? ?]]]; [constructor| | |cbn in L; lia]; rewrite !zeval_cons, zeval_nil in Ep.
  - destruct (K a 0%Z); [lra|]. subst. repeat constructor.
  - destruct (K a b); [lra|]. subst. repeat constructor.
Qed.

(** The smaller root. *)
Lemma wroot : exists x, zeval wrong_pol x = 0 /\ (forall y, zeval wrong_pol y = 0 -> x <= y) /\ IZR wnum / IZR wden < x < IZR wnum / IZR wden + 1.
Proof.
  pose proof (sqrt_def 2 ltac:(lra)) as S. pose proof (sqrt_pos 2) as S0. set (s := sqrt 2) in *.
  assert (B : 1.41 < s < 1.42) by (split; nra).
  exists ((147573952589676412928 + 16 - s) / 147573952589676412928).
  assert (Ev : forall x, zeval wrong_pol x = (147573952589676412928 * x - 147573952589676412928 - 16) * (147573952589676412928 * x - 147573952589676412928 - 16) - 2) by exact wrong_eval.
  split; [|split].
  - rewrite Ev. replace (147573952589676412928 * ((147573952589676412928 + 16 - s) / 147573952589676412928) - 147573952589676412928 - 16) with (- s) by field. lra.
  - intros y Hy. rewrite Ev in Hy. set (t := 147573952589676412928 * y - 147573952589676412928 - 16) in *.
    assert (- s <= t) by (destruct (Rle_or_lt (- s) t); [assumption|nra]).
    apply (Rmult_le_reg_l 147573952589676412928); [lra|]. replace (147573952589676412928 * ((147573952589676412928 + 16 - s) / 147573952589676412928)) with (147573952589676412928 + 16 - s) by field.
    unfold t in *. lra.
  - unfold wnum, wden. lra.
Qed.

Section Wrong.
Variable o : arbops.
Hypothesis Ho : arb_ok o.
Hypothesis Hf : arb_fl o.
Variables m r : dy.
Hypothesis R0 : 0 <= dyv r.
Hypothesis L : 1 - 1 / 302231454903657293676544 <= dyv m - dyv r <= 1.
Hypothesis U : 1 + 1 / 18446744073709551616 <= dyv m + dyv r <= 1 + 1 / 18446744073709551616 + 1 / 302231454903657293676544.
Hypothesis A : rel_accuracy (Fin m r) = 64%Z.
Notation nf := (wfield (Fin m r) 0).
Variable debug : bool.

Lemma one_in : inb 1 (Fin m r).
Proof. apply inb_bounds. lra. Qed.
Lemma one_below : 1 - IZR wnum / IZR wden < 0 /\ -1 < 1 - IZR wnum / IZR wden.
Proof. unfold wnum, wden. split; lra. Qed.

Lemma w_start : start_prec nf = 64%Z.
Proof. unfold start_prec. cbn [f_prec f_emb wfield]. rewrite A. reflexivity. Qed.

Lemma w_cond : (66 <= elem_cond nf welem)%Z.
Proof.
  unfold elem_cond. change (is_rational welem) with false. cbn [f_emb f_prec wfield welem e_num]. change (Z.max 64 16) with 64%Z.
  pose proof (cond_2exp_weak [- wnum; wden]%Z (Fin m r) 64 1 ltac:(lia) ltac:(discriminate) eq_refl one_in) as W.
  unfold abs_sum in W. cbn [map] in W. rewrite !zeval_cons, zeval_nil, Rabs_R1 in W.
  destruct (Z_lt_le_dec (cond_2exp [- wnum; wden]%Z (Fin m r) 64) 66) as [K|K]; [exfalso|exact K].
  assert (Q : pw2 (cond_2exp [- wnum; wden]%Z (Fin m r) 64 + 1) <= pw2 66) by (apply pw2_le; lia).
  rewrite <- (pw2_IZR 66) in Q by lia. change (2 ^ 66)%Z with wden in Q. change (Z.abs (- wnum))%Z with wnum in W. change (Z.abs wden) with wden in W.
  unfold wnum, wden in *. lra.
Qed.

Lemma w_gen_cond : (0 <= elem_cond nf wgen)%Z.
Proof.
  unfold elem_cond. change (is_rational wgen) with false. cbn [f_emb f_prec wfield wgen e_num]. change (Z.max 64 16) with 64%Z.
  pose proof (cond_2exp_weak [0; 1]%Z (Fin m r) 64 1 ltac:(lia) ltac:(discriminate) eq_refl one_in) as W.
  unfold abs_sum in W. cbn [map Z.abs] in W. rewrite !zeval_cons, zeval_nil, Rabs_R1 in W.
  destruct (Z_lt_le_dec (cond_2exp [0; 1]%Z (Fin m r) 64) 0) as [K|K]; [exfalso|exact K].
  assert (Q : pw2 (cond_2exp [0; 1]%Z (Fin m r) 64 + 1) <= pw2 0) by (apply pw2_le; lia). change (pw2 0) with 1 in Q. lra.
Qed.

(** The difference is evaluated to a negative ball. *)
Lemma w_eval : forall p, (100 <= p)%Z -> exists mm rr, set_evaluation o nf welem p = Val (Fin mm rr) /\ 0 <= dyv rr /\ - / 4 < dyv mm - dyv rr /\ dyv mm + dyv rr < 0.
Proof.
  intros p Hp. unfold set_evaluation. destruct (Z.ltb_spec p 2); [lia|].
  cbn [f_pol f_emb wfield]. change (linear wrong_pol) with false. change (quadratic wrong_pol) with true. cbv iota. cbn [nth e_num e_den welem].
  assert (Q : forall k, (-99 >= k)%Z -> 0 < pw2 k <= / 633825300114114700748351602688).
  { intros k Hk. split; [apply pw2_pos|]. eapply Rle_trans; [apply (pw2_le k (-99)); lia|]. right.
    change (-99)%Z with (- (99))%Z. pose proof (dyv_neg_exp 1 99 ltac:(lia)) as D. unfold dyv in D. cbn [fst snd] in D. rewrite Rmult_1_l in D. rewrite D.
    change (2 ^ 99)%Z with 633825300114114700748351602688%Z. lra. }
  pose proof (Q (1 - p)%Z ltac:(lia)) as [Q0 Q1].
  assert (P1 : 0 < pw2 (3 - p) <= / 158456325028528675187087900672).
  { split; [apply pw2_pos|]. replace (3 - p)%Z with (2 + (1 - p))%Z by lia. rewrite pw2_add. change (pw2 2) with (2 ^ 2). lra. }
  destruct P1 as [P0 P1]. set (q := pw2 (1 - p)) in *. set (q3 := pw2 (3 - p)) in *.
  set (N := 73786976294838206464). change (IZR wden) with N in *.
  assert (Nm : N + 2 - 1 / 1000 <= dyv m * N <= N + 2 + 1 / 1000) by (unfold N; lra).
  assert (Nr : 0 <= N * dyv r <= 2 + 1 / 1000) by (unfold N; lra).
  destruct (fl_mul_z o Hf m r wden p ltac:(lia) R0) as (m1 & r1 & E1 & M1 & S1 & T1 & _). rewrite E1.
  assert (D1 : N + 2 - 2 / 1000 <= dyv m1 <= N + 2 + 2 / 1000).
  { destruct (dround_spec RDown p (dmul m (dz wden)) ltac:(lia)) as (_ & D & _). rewrite <- M1, dyv_mul, dyv_dz in D. fold q in D. change (IZR wden) with N in D.
    rewrite (Rabs_pos_eq (dyv m * N)) in D by (unfold N in *; lra).
    assert (dyv m * N * q <= (N + 3) * / 633825300114114700748351602688) by (apply Rmult_le_compat; unfold N in *; lra).
    apply Rabs_le_inv2 in D. unfold N in *. lra. }
  assert (B1 : dyv r1 <= 2 + 2 / 1000).
  { rewrite dyv_mul, dyv_dz in T1. change (IZR wden) with N in T1. fold q in T1. rewrite (Rabs_pos_eq N), (Rabs_pos_eq (dyv m * N)) in T1 by (unfold N in *; lra).
    assert (dyv m * N * q <= (N + 3) * / 633825300114114700748351602688) by (apply Rmult_le_compat; unfold N in *; lra).
    unfold slack, N in *. lra. }
  destruct (fl_add_z o Hf m1 r1 (- wnum) p ltac:(lia) S1) as (m2 & r2 & E2 & M2 & S2 & T2 & _). rewrite E2.
  set (v := dyv m1 + IZR (- wnum)) in *.
  assert (V : -5 - 2 / 1000 <= v <= -5 + 2 / 1000) by (unfold v; rewrite opp_IZR; unfold wnum, N in *; lra).
  assert (Av : Rabs v <= 6) by (apply Rabs_le; lra). assert (Av0 : 0 <= Rabs v) by apply Rabs_pos.
  assert (Vq : 0 <= Rabs v * q <= 1 / 1000).
  { split; [apply Rmult_le_pos; lra|]. eapply Rle_trans; [apply (Rmult_le_compat (Rabs v) 6 q (/ 633825300114114700748351602688)); lra|lra]. }
  assert (D2 : -5 - 3 / 1000 <= dyv m2 <= -5 + 3 / 1000).
  { destruct (dround_spec RDown p (dadd m1 (dz (- wnum))) ltac:(lia)) as (_ & D & _). rewrite <- M2, dyv_add, dyv_dz in D. fold v q in D. apply Rabs_le_inv2 in D. lra. }
  assert (B2 : dyv r2 <= 2 + 4 / 1000).
  { rewrite dyv_add, dyv_dz in T2. fold v q in T2. unfold slack in T2. lra. }
  destruct (fl_div_z o Hf m2 r2 wden p ltac:(lia) S2 ltac:(reflexivity)) as (m3 & r3 & E3 & D3 & S3 & T3). rewrite E3. exists m3, r3. split; [reflexivity|].
  split; [exact S3|]. change (IZR wden) with N in D3, T3. fold q3 in D3, T3.
  assert (W : Rabs (dyv m2 / N) * q3 <= 1 / 1000 / N).
  { unfold Rdiv. rewrite Rabs_mult, (Rabs_pos_eq (/ N)) by (unfold N; lra). rewrite (Rabs_left (dyv m2)) by lra.
    replace (- dyv m2 * / N * q3) with (- dyv m2 * q3 * / N) by ring. apply Rmult_le_compat_r; [unfold N; lra|].
    eapply Rle_trans; [apply (Rmult_le_compat (- dyv m2) 6 q3 (/ 158456325028528675187087900672)); lra|lra]. }
  apply Rabs_le_inv2 in D3.
  assert (dyv m2 / N <= (-5 + 3 / 1000) / N) by (unfold Rdiv; apply Rmult_le_compat_r; [unfold N|]; lra).
  assert ((-5 - 3 / 1000) / N <= dyv m2 / N) by (unfold Rdiv; apply Rmult_le_compat_r; [unfold N|]; lra).
  assert (dyv r2 / N <= (2 + 4 / 1000) / N) by (unfold Rdiv; apply Rmult_le_compat_r; [unfold N|]; lra).
  unfold N in *. split; lra.
Qed.

Definition shadow (y : relem) : Prop := r_elem y = welem /\ inb (1 - IZR wnum / IZR wden) (r_emb y).

Lemma minus_one : forall b, contains_zero b = false -> inb (1 - IZR wnum / IZR wden) b -> msgn b = (-1)%Z.
Proof. intros b C I. destruct (contains_zero_false b _ C I) as [_ ->]. apply Rsgn_neg. apply one_below. Qed.

Lemma w_sgn_ball : forall fuel y, shadow y -> exists e, sgn o debug (S fuel) nf y = Val (nf, e, (-1)%Z) /\ forall z, inb z e -> z < 0.
Proof.
  intros fuel y [E I]. unfold sgn. rewrite E. cbn [welem e_num]. fold welem. destruct (contains_zero (r_emb y)) eqn:C; cbn [negb].
  - rewrite w_start. destruct (w_eval (64 + elem_cond nf welem) ltac:(pose proof w_cond; lia)) as (mm & rr & Ee & Rr & _ & Hi). rewrite Ee. cbn [bind sgn_loop].
    assert (Z0 : contains_zero (Fin mm rr) = false) by (cbn [contains_zero]; apply dleb_false; rewrite dyv_abs, Rabs_left by lra; lra).
    rewrite Z0. cbn [negb msgn]. eexists. split; [do 3 f_equal; rewrite dsgn_spec; apply Rsgn_neg; lra|].
    intros z Iz. apply inb_bounds in Iz. lra.
  - eexists. split; [do 3 f_equal; apply minus_one; assumption|]. intros z Iz. pose proof (minus_one _ C I) as Q.
    destruct (contains_zero_false _ _ C Iz) as [N T]. rewrite Q in T. destruct (Rtotal_order z 0) as [K|[K|K]]; [exact K|contradiction|]. rewrite (Rsgn_pos _ K) in T. discriminate.
Qed.
Lemma w_sgn : forall fuel y, shadow y -> exists e, sgn o debug (S fuel) nf y = Val (nf, e, (-1)%Z).
Proof. intros fuel y S. destruct (w_sgn_ball fuel y S) as (e & E & _). exists e. exact E. Qed.

(** Rounding of numbers between -1 and 0. *)
Definition rounds (rd : roundop) (k : Z) : Prop := (rd = rd_floor /\ k = -1)%Z \/ (rd = rd_ceil /\ k = 0)%Z.

Lemma rounds_inside : forall rd k d, rounds rd k -> -1 < dyv d -> dyv d < 0 -> rd_dy rd d = k.
Proof.
  intros rd k d [[-> ->]|[-> ->]] H1 H2; cbn [rd_dy rd_floor rd_ceil].
  - pose proof (dfloor_spec d) as F. assert (-2 < dfloor d)%Z by (apply lt_IZR; lra). assert (dfloor d < 0)%Z by (apply lt_IZR; lra). lia.
  - pose proof (dceil_spec d) as F. assert (-1 < dceil d)%Z by (apply lt_IZR; lra). assert (dceil d < 1)%Z by (apply lt_IZR; lra). lia.
Qed.

Lemma rounds_between : forall rd k l h z, rounds rd k -> -1 < z -> z < 0 -> dyv l <= z <= dyv h -> rd_dy rd l = rd_dy rd h -> rd_dy rd l = k.
Proof.
  intros rd k l h z [[-> ->]|[-> ->]] H1 H2 [Hl Hh] E; cbn [rd_dy rd_floor rd_ceil] in *.
  - pose proof (dfloor_spec l) as F. pose proof (dfloor_spec h) as G. rewrite <- E in G. assert (-2 < dfloor l)%Z by (apply lt_IZR; lra). assert (dfloor l < 0)%Z by (apply lt_IZR; lra). lia.
  - pose proof (dceil_spec l) as F. pose proof (dceil_spec h) as G. rewrite <- E in G. assert (-1 < dceil l)%Z by (apply lt_IZR; lra). assert (dceil l < 1)%Z by (apply lt_IZR; lra). lia.
Qed.

Lemma w_unique : forall rd k p q mm rr, rounds rd k -> (2 <= q)%Z -> (100 <= p)%Z -> set_evaluation o nf welem p = Val (Fin mm rr) -> unique_int rd (Fin mm rr) q = Some (k, k).
Proof.
  intros rd k p q mm rr Hrd Hq Hp E. destruct (w_eval p Hp) as (m' & r' & E' & Rr & Lo & Hi). rewrite E' in E. injection E as -> ->.
  unfold unique_int. cbn [interval].
  assert (H2 : pw2 (1 - q) <= / 2) by (eapply Rle_trans; [apply (pw2_le _ (-1)); lia|]; change (pw2 (-1)) with (/ 2 ^ 1); rewrite pow_1; lra).
  pose proof (pw2_pos (1 - q)) as P0.
  destruct (dround_spec RFloor q (dsub mm rr) ltac:(lia)) as (_ & D & _). destruct (dround_spec RCeil q (dadd mm rr) ltac:(lia)) as (C & D' & _).
  pose proof (dround_floor_le q (dsub mm rr) ltac:(lia)) as F. pose proof (dround_ceil_ge q (dadd mm rr) ltac:(lia)) as G.
  rewrite dyv_sub in D, F. rewrite dyv_add in D', G. rewrite (Rabs_left (dyv mm - dyv rr)) in D by lra. rewrite (Rabs_left (dyv mm + dyv rr)) in D' by lra.
  assert (W : - (dyv mm - dyv rr) * pw2 (1 - q) <= - (dyv mm - dyv rr) * / 2) by (apply Rmult_le_compat_l; lra).
  assert (W' : - (dyv mm + dyv rr) * pw2 (1 - q) <= - (dyv mm + dyv rr) * / 2) by (apply Rmult_le_compat_l; lra).
  apply Rabs_le_inv2 in D. apply Rabs_le_inv2 in D'.
  rewrite (rounds_inside rd k (dround RFloor q (dsub mm rr)) Hrd ltac:(lra) ltac:(lra)), (rounds_inside rd k (dround RCeil q (dadd mm rr)) Hrd ltac:(lra) ltac:(lra)). reflexivity.
Qed.

Lemma w_round : forall rd k fuel y, rounds rd k -> shadow y -> exists e, round_int o debug rd (S fuel) nf y = Val (nf, e, k).
Proof.
  intros rd k fuel y Hrd [E I]. pose proof w_cond as C. destruct (w_eval (64 + elem_cond nf welem) ltac:(lia)) as (mm & rr & Ee & _).
  pose proof (fun q Hq => w_unique rd k (64 + elem_cond nf welem) q mm rr Hrd Hq ltac:(lia) Ee) as Un.
  unfold round_int. rewrite E. change (is_rational welem) with false. cbv iota zeta. rewrite w_start.
  destruct (r_emb y) as [my ry|] eqn:Ey; cbn [is_finite].
  - cbn [bind f_prec wfield]. fold (wfield (Fin m r) 0). destruct (unique_int rd (Fin my ry) 64) as [[l h]|] eqn:Eu; [|unfold unique_int in Eu; cbn [interval] in Eu; discriminate].
    destruct (Z.eqb_spec l h) as [Q|_].
    + unfold unique_int in Eu. destruct (interval (Fin my ry) 64) as [[a b]|] eqn:Ei; [|discriminate]. injection Eu as <- <-.
      eexists. do 3 f_equal. apply (rounds_between rd k a b (1 - IZR wnum / IZR wden) Hrd); [apply one_below|apply one_below| |exact Q].
      apply (interval_spec (Fin my ry) 64 a b _ ltac:(lia) Ei I).
    + cbn [round_loop]. fold (wfield (Fin m r) 0). rewrite w_start, Ee. cbn [bind]. rewrite Un by lia. rewrite Z.eqb_refl. eexists. reflexivity.
  - rewrite Ee. cbn [bind finite_loop is_finite f_prec wfield]. fold (wfield (Fin m r) 0). rewrite Un by lia. rewrite Z.eqb_refl. eexists. reflexivity.
Qed.

Variable x : R.
Hypothesis Zx : zeval wrong_pol x = 0.
Variable n : nfops.
Hypothesis Hn : nf_ok wrong_pol x n.

Lemma w_sub : n_sub n wgen wrat = welem.
Proof.
  destruct (nk_sub _ _ _ Hn wgen wrat wgen_canon wrat_canon) as [C V]. apply (canon_unique wrong_pol x (wminimal x Zx) _ _ C welem_canon).
  rewrite V, wgen_val, wrat_val, welem_val. reflexivity.
Qed.
Lemma w_sub_q : n_sub_q n wgen wnum wden = welem.
Proof.
  destruct (nk_sub_q _ _ _ Hn wgen wnum wden wgen_canon ltac:(reflexivity)) as [C V]. apply (canon_unique wrong_pol x (wminimal x Zx) _ _ C welem_canon).
  rewrite V, wgen_val, welem_val. reflexivity.
Qed.
Lemma w_set_poly : n_set_poly n [0; 1]%Z 1 = wgen.
Proof.
  destruct (nk_set_poly _ _ _ Hn [0; 1]%Z 1 ltac:(lia)) as [C V]. apply (canon_unique wrong_pol x (wminimal x Zx) _ _ C wgen_canon).
  rewrite V, wgen_val, !zeval_cons, zeval_nil. field.
Qed.
Lemma w_set_q : n_set_q n wnum wden = wrat.
Proof.
  destruct (nk_set_q _ _ _ Hn wnum wden ltac:(reflexivity)) as [C V]. apply (canon_unique wrong_pol x (wminimal x Zx) _ _ C wrat_canon).
  rewrite V, wrat_val. reflexivity.
Qed.

Lemma eval_at_one : forall a p b, set_evaluation o nf a p = Val b -> (0 < e_den a)%Z -> (length (e_num a) <= 2)%nat -> inb (ev 1 a) b.
Proof.
  intros a p b E D Ln. unfold set_evaluation in E. destruct (Z.ltb_spec p 2); [discriminate|]. cbn [f_pol f_emb wfield] in E.
  change (linear wrong_pol) with false in E. change (quadratic wrong_pol) with true in E. cbv iota in E. injection E as <-.
  replace (ev 1 a) with ((1 * IZR (nth 1 (e_num a) 0%Z) + IZR (nth 0 (e_num a) 0%Z)) / IZR (e_den a)).
  - apply (ok_div_z o Ho); [lia| |lia]. apply (ok_add_z o Ho); [lia|]. apply (ok_mul_z o Ho); [lia|apply one_in].
  - unfold ev. destruct (e_num a) as [|c0 [|c1 [|? ?]]]; cbn [nth length] in *; [| | |lia]; rewrite ?zeval_cons, ?zeval_nil; f_equal; ring.
Qed.

Lemma w_cmp : forall fuel y z, r_elem y = wgen -> inb 1 (r_emb y) -> r_elem z = wrat -> inb (IZR wnum / IZR wden) (r_emb z) ->
  exists e1 e2, cmp o n debug (S fuel) nf y z = Val (nf, e1, e2, (-1)%Z).
Proof.
  intros fuel y z Ey Iy Ez Iz. pose proof one_below as [Neg _]. unfold cmp. rewrite Ey, Ez. change (elem_eqb wgen wrat) with false. cbv iota zeta.
  destruct (blt (r_emb y) (r_emb z)); [do 2 eexists; reflexivity|].
  destruct (blt (r_emb z) (r_emb y)) eqn:B; [pose proof (blt_spec _ _ _ _ B Iz Iy); lra|].
  change (is_rational wgen && is_rational wrat)%bool with false. cbv iota. rewrite w_start.
  pose proof w_gen_cond as G.
  change (elem_cond nf wrat) with 0%Z.
  destruct (set_evaluation o nf wgen (64 + elem_cond nf wgen)) as [ea| | |] eqn:Ea;
    try (unfold set_evaluation in Ea; destruct (Z.ltb_spec (64 + elem_cond nf wgen) 2); [lia|]; cbn [f_pol wfield] in Ea; discriminate).
  cbn [bind]. destruct (set_evaluation o nf wrat (64 + 0)) as [eb| | |] eqn:Eb;
    try (unfold set_evaluation in Eb; change (64 + 0 <? 2)%Z with false in Eb; cbn [f_pol wfield] in Eb; discriminate).
  cbn [bind]. pose proof (eval_at_one _ _ _ Ea ltac:(reflexivity) ltac:(cbn; lia)) as Ia. pose proof (eval_at_one _ _ _ Eb ltac:(reflexivity) ltac:(cbn; lia)) as Ib.
  rewrite wgen_val in Ia. rewrite wrat_val in Ib.
  destruct (blt ea eb); [do 2 eexists; reflexivity|]. destruct (blt eb ea) eqn:B'; [pose proof (blt_spec _ _ _ _ B' Ib Ia); lra|].
  unfold relem_sub. cbn [r_elem r_emb f_prec wfield]. fold (wfield (Fin m r) 0). rewrite w_sub.
  destruct (w_sgn fuel {| r_elem := welem; r_emb := o_sub o ea eb 64 |}) as (e & ->).
  - split; [reflexivity|]. cbn [r_emb]. apply (ok_sub o Ho); [lia|exact Ia|exact Ib].
  - cbn [bind]. do 2 eexists. reflexivity.
Qed.

Lemma w_cmp_q : forall fuel y, r_elem y = wgen -> inb 1 (r_emb y) -> exists e, cmp_q o n debug (S fuel) nf y wnum wden = Val (nf, e, (-1)%Z).
Proof.
  intros fuel y Ey Iy. unfold cmp_q. rewrite Ey. change (wnum =? 0)%Z with false. change (is_zero wgen) with false. change (is_rational wgen) with false. cbv iota zeta.
  assert (Iq : forall p, (2 <= p)%Z -> inb (IZR wnum / IZR wden) (o_set_q o wnum wden p)) by (intros p Hp; apply (ok_set_q o Ho); [exact Hp|discriminate]).
  cbn [f_prec wfield]. fold (wfield (Fin m r) 0).
  pose proof (ok_sub o Ho _ _ _ _ 64%Z ltac:(lia) Iy (Iq 64%Z ltac:(lia))) as I1.
  destruct (contains_zero (o_sub o (r_emb y) (o_set_q o wnum wden 64) 64)) eqn:C; cbn [negb]; [|eexists; do 3 f_equal; apply minus_one; assumption].
  pose proof w_gen_cond as G.
  rewrite w_start. destruct (Z.eqb_spec 64 (- elem_cond nf wgen)); [lia|]. rewrite andb_false_r.
  destruct (set_evaluation o nf wgen (64 + elem_cond nf wgen)) as [ea| | |] eqn:Ea;
    try (unfold set_evaluation in Ea; destruct (Z.ltb_spec (64 + elem_cond nf wgen) 2); [lia|]; cbn [f_pol wfield] in Ea; discriminate).
  cbn [bind]. pose proof (eval_at_one _ _ _ Ea ltac:(reflexivity) ltac:(cbn; lia)) as Ia. rewrite wgen_val in Ia.
  pose proof (ok_sub o Ho _ _ _ _ 64%Z ltac:(lia) Ia (Iq 64%Z ltac:(lia))) as I2.
  destruct (contains_zero (o_sub o ea (o_set_q o wnum wden 64) 64)) eqn:C2; cbn [negb]; [|eexists; do 3 f_equal; apply minus_one; assumption].
  rewrite w_sub_q. destruct (w_sgn fuel {| r_elem := welem; r_emb := o_sub o ea (o_set_q o wnum wden 64) 64 |}) as (e & ->); [split; [reflexivity|exact I2]|].
  cbn [bind]. eexists. reflexivity.
Qed.

(** The generator, its difference with the number, and the number. *)
Definition wcalls : list call := [KGen 0; KSubQ 1 0 wnum wden; KSetQ 2 wnum wden]%Z.
Lemma w_state : forall fuel, exists mm, runs o n debug fuel nf mem0 wcalls = Val (nf, mm) /\ r_elem (mm 0%nat) = wgen /\ inb 1 (r_emb (mm 0%nat)) /\
  shadow (mm 1%nat) /\ r_elem (mm 2%nat) = wrat /\ inb (IZR wnum / IZR wden) (r_emb (mm 2%nat)).
Proof.
  intros fuel.
  assert (I0 : inb 1 (eval_arb_q o [0; 1]%Z 1 (Fin m r) 64)).
  { replace 1 with (zeval [0; 1]%Z 1 / 1) by (rewrite !zeval_cons, zeval_nil; field). apply (eval_arb_q_ok o Ho); [lia|apply one_in|lia]. }
  assert (Iq : inb (IZR wnum / IZR wden) (o_set_q o wnum wden 64)) by (apply (ok_set_q o Ho); [lia|discriminate]).
  eexists. split; [cbn [runs wcalls run bind gen f_pol wfield wrong_pol]; reflexivity|].
  unfold shadow. cbn [upd upd_elem upd_emb r_elem r_emb Nat.eqb f_emb f_prec wfield]. rewrite w_set_poly, w_sub_q, w_set_q.
  split; [reflexivity|]. split; [exact I0|]. split; [split; [reflexivity|]|split; [reflexivity|exact Iq]]. apply (ok_sub o Ho); [lia|exact I0|exact Iq].
Qed.
End Wrong.

Lemma wrong_answers : exists p fuel x qn qd l, (0 < qd)%Z /\ Z.gcd qn qd = 1%Z /\ minimal p x /\ (forall y, zeval p y = 0 -> x <= y) /\ IZR qn / IZR qd < x < IZR qn / IZR qd + 1 /\
  forall o n, arb_ok o -> arb_fl o -> nf_ok p x n -> forall debug, exists nf m,
    set_embeddings o debug 0 fuel p 1 64 = Val ([nf], 2%Z) /\ runs o n debug fuel nf mem0 l = Val (nf, m) /\
    ev x (r_elem (m 0%nat)) = x /\ ev x (r_elem (m 1%nat)) = x - IZR qn / IZR qd /\ ev x (r_elem (m 2%nat)) = IZR qn / IZR qd /\
    (exists e, sgn o debug fuel nf (m 1%nat) = Val (nf, e, (-1)%Z)) /\
    (exists e1 e2, cmp o n debug fuel nf (m 0%nat) (m 2%nat) = Val (nf, e1, e2, (-1)%Z)) /\
    (exists e, cmp_q o n debug fuel nf (m 0%nat) qn qd = Val (nf, e, (-1)%Z)) /\
    (exists e, floor o debug fuel nf (m 1%nat) = Val (nf, e, (-1)%Z)) /\
    (exists e, ceil o debug fuel nf (m 1%nat) = Val (nf, e, 0%Z)).
Proof.
  destruct wroot as (x & Zx & Lo & Bd). exists wrong_pol, 500%nat, x, wnum, wden, wcalls.
  split; [reflexivity|]. split; [vm_compute; reflexivity|]. split; [apply wminimal, Zx|]. split; [exact Lo|]. split; [exact Bd|].
  intros o n Ho Hf Hn debug. destruct (w_made_at o Ho Hf debug) as (m & r & E & R0 & L & U & A).
  destruct (w_state o Ho m r L U debug x Zx n Hn 500) as (mm & Er & E0 & I0 & S1 & E2 & I2).
  exists (wfield (Fin m r) 0), mm. split; [apply (w_embedded o debug (Fin m r) E)|]. split; [exact Er|].
  split; [rewrite E0; apply wgen_val|]. split; [rewrite (proj1 S1); apply welem_val|]. split; [rewrite E2; apply wrat_val|].
  change 500%nat with (S 499). split; [apply (w_sgn o Hf m r R0 L U A debug 499 _ S1)|].
  split; [apply (w_cmp o Ho Hf m r R0 L U A debug x Zx n Hn 499); assumption|].
  split; [apply (w_cmp_q o Ho Hf m r R0 L U A debug x Zx n Hn 499); assumption|].
  split; [apply (w_round o Hf m r R0 L U A debug rd_floor (-1) 499 _); [left; split; reflexivity|exact S1]|].
  apply (w_round o Hf m r R0 L U A debug rd_ceil 0 499 _); [right; split; reflexivity|exact S1].
Qed.

Lemma runs_then : forall o n debug fuel l k nf m, runs o n debug fuel nf m (l ++ [k]) = bind (runs o n debug fuel nf m l) (fun '(nf', m') => run o n debug fuel nf' m' k).
Proof.
  intros o n debug fuel l k. induction l as [|c l IH]; intros nf m; cbn [app runs].
  - cbn [bind]. destruct (run o n debug fuel nf m k) as [[nf' m']| | |]; reflexivity.
  - destruct (run o n debug fuel nf m c) as [[nf' m']| | |]; cbn [bind]; [apply IH|reflexivity..].
Qed.

(** Asked for its sign, the difference gets an enclosure without it. *)
Lemma wrong_enclosure : exists p fuel x l, minimal p x /\ (forall y, zeval p y = 0 -> x <= y) /\ Forall (call_ok p) l /\
  forall o n, arb_ok o -> arb_fl o -> nf_ok p x n -> forall debug, exists nf m,
    set_embeddings o debug 0 fuel p 1 64 = Val ([nf], 2%Z) /\ runs o n debug fuel nf mem0 l = Val (nf, m) /\
    ~ inb (ev x (r_elem (m 1%nat))) (r_emb (m 1%nat)).
Proof.
  destruct wroot as (x & Zx & Lo & Bd). exists wrong_pol, 500%nat, x, (wcalls ++ [KSgn 1])%list.
  split; [apply wminimal, Zx|]. split; [exact Lo|]. split; [unfold wcalls; repeat constructor; try discriminate|].
  intros o n Ho Hf Hn debug. destruct (w_made_at o Ho Hf debug) as (m & r & E & R0 & L & U & A).
  destruct (w_state o Ho m r L U debug x Zx n Hn 500) as (mm & Er & E0 & I0 & S1 & E2 & I2).
  destruct (w_sgn_ball o Hf m r R0 L U A debug 499 _ S1) as (e & Es & Ne).
  exists (wfield (Fin m r) 0). eexists. split; [apply (w_embedded o debug (Fin m r) E)|].
  split.
  { rewrite runs_then, Er. cbn [bind run]. change 500%nat with (S 499). rewrite Es. cbn [bind]. reflexivity. }
  cbn [upd upd_elem upd_emb r_elem r_emb Nat.eqb]. rewrite (proj1 S1), welem_val. intros I. apply Ne in I. lra.
Qed.
