Require Import Reals List ZArith Bool Lia Lra.
From Verif Require Import PolyR RootSpec RootModel ExtraModel SquarefreeProofs ExtraProofs IsoProofs VcaProofs Dyadic DyadicProofs ArbModel ArbSpec.
Import ListNotations.
Open Scope R_scope.

(** * Predicates *)
Lemma inb_exact : forall x d, inb x (bexact d) <-> x = dyv d.
Proof.
  intros x d. unfold inb, bexact. rewrite dyv_dz. split; intros H.
  - assert (Rabs (x - dyv d) = 0) as E by (pose proof (Rabs_pos (x - dyv d)); simpl in H; lra).
    destruct (Req_dec (x - dyv d) 0) as [E0|E0]; [lra|]. apply Rabs_no_R0 in E0. lra.
  - subst. rewrite Rminus_diag_eq, Rabs_R0 by reflexivity. simpl; lra.
Qed.

Lemma inb_int : forall n, inb (IZR n) (bint n).
Proof. intros n. unfold bint. apply inb_exact. rewrite dyv_dz. reflexivity. Qed.
Lemma inb_zero : inb 0 bzero. Proof. apply (inb_int 0). Qed.

Lemma inb_neg : forall x b, inb x b -> inb (- x) (bneg b).
Proof.
  intros x [m r|] H; [|exact I]. unfold inb, bneg in *. rewrite dyv_neg.
  replace (- x - - dyv m) with (- (x - dyv m)) by ring. rewrite Rabs_Ropp. exact H.
Qed.

Lemma inb_bounds : forall x m r, inb x (Fin m r) <-> dyv m - dyv r <= x <= dyv m + dyv r.
Proof.
  intros x m r. unfold inb. split; intros H.
  - unfold Rabs in H. destruct (Rcase_abs _) in H; lra.
  - apply Rabs_le. lra.
Qed.

Lemma inb_rad : forall x m r, inb x (Fin m r) -> 0 <= dyv r.
Proof. intros x m r H. unfold inb in H. pose proof (Rabs_pos (x - dyv m)). lra. Qed.

(** A ball without zero: all its members have the sign of the midpoint. *)
Lemma contains_zero_false : forall b x, contains_zero b = false -> inb x b -> x <> 0 /\ msgn b = Rsgn x.
Proof.
  intros [m r|] x H Hx; [|discriminate]. unfold contains_zero in H. apply dleb_false in H.
  rewrite dyv_abs in H. apply inb_bounds in Hx. unfold msgn. rewrite dsgn_spec.
  unfold Rabs in H. destruct (Rcase_abs (dyv m)) as [C|C].
  - split; [lra|]. rewrite !Rsgn_neg by lra. reflexivity.
  - split; [lra|]. rewrite !Rsgn_pos by lra. reflexivity.
Qed.

Lemma contains_zero_true : forall b, inb 0 b -> contains_zero b = true.
Proof.
  intros b H. destruct (contains_zero b) eqn:E; [reflexivity|].
  destruct (contains_zero_false b 0 E H). contradiction.
Qed.

Lemma bcontains_subset : forall a b, bcontains a b = true -> subset b a.
Proof.
  intros [m r|] [n s|] H x Hx; try exact I; [|discriminate].
  unfold bcontains in H. apply dleb_spec in H. rewrite dyv_add, dyv_abs, dyv_sub in H.
  apply inb_bounds in Hx. apply inb_bounds.
  unfold Rabs in H. destruct (Rcase_abs _) in H; lra.
Qed.

Lemma bequal_false : forall a b, bequal a b = false -> a <> b.
Proof.
  intros a b H ->. destruct b as [m r|]; simpl in H; [|discriminate].
  rewrite (proj2 (deqb_spec m m)), (proj2 (deqb_spec r r)) in H by reflexivity. discriminate.
Qed.

Lemma boverlaps_common : forall a b x, inb x a -> inb x b -> boverlaps a b = true.
Proof.
  intros [m r|] [n s|] x H1 H2; try reflexivity. unfold boverlaps. apply dleb_spec.
  rewrite dyv_abs, dyv_sub, dyv_add. apply inb_bounds in H1. apply inb_bounds in H2.
  apply Rabs_le. lra.
Qed.

Lemma blt_spec : forall a b x y, blt a b = true -> inb x a -> inb y b -> x < y.
Proof.
  intros [m r|] [n s|] x y H Hx Hy; try discriminate. unfold blt in H. apply dltb_spec in H.
  rewrite dyv_add, dyv_sub in H. apply inb_bounds in Hx. apply inb_bounds in Hy. lra.
Qed.

Lemma interval_spec : forall b prec l r x, (1 <= prec)%Z -> interval b prec = Some (l, r) ->
  inb x b -> dyv l <= x <= dyv r.
Proof.
  intros [m rr|] prec l r x Hp E Hx; [|discriminate]. unfold interval in E. injection E as <- <-.
  apply inb_bounds in Hx.
  pose proof (dround_floor_le prec (dsub m rr) Hp) as A. rewrite dyv_sub in A.
  pose proof (dround_ceil_ge prec (dadd m rr) Hp) as B. rewrite dyv_add in B. lra.
Qed.

(** * Evaluation (C13) *)
Lemma eval_arb_ok : forall o, arb_ok o -> forall p a x prec, (2 <= prec)%Z -> inb x a ->
  inb (zeval p x) (eval_arb o p a prec).
Proof.
  intros o Ho p a x prec Hp Hx. unfold zeval. induction p as [|c q IH]; cbn [map peval eval_arb].
  - apply inb_zero.
  - replace (IZR c + x * peval (map IZR q) x) with (peval (map IZR q) x * x + IZR c) by ring.
    apply (ok_add_z o Ho); [exact Hp|]. apply (ok_mul o Ho); assumption.
Qed.

Lemma eval_arb_q_ok : forall o, arb_ok o -> forall p d a x prec, (2 <= prec)%Z -> inb x a -> d <> 0%Z ->
  inb (zeval p x / IZR d) (eval_arb_q o p d a prec).
Proof.
  intros o Ho p d a x prec Hp Hx Hd. unfold eval_arb_q. apply (ok_div_z o Ho); try assumption.
  apply eval_arb_ok; assumption.
Qed.

(** * Newton (C15) *)
Lemma mvt_zeval : forall p x m, exists c, (Rmin x m <= c <= Rmax x m) /\
  zeval p m - zeval p x = zeval (zderiv p) c * (m - x).
Proof.
  intros p x m. destruct (Rtotal_order x m) as [H|[H|H]].
  - destruct (peval_mvt (map IZR p) x m H) as (c & Hc & E). exists c. rewrite zeval_zderiv.
    rewrite Rmin_left, Rmax_right by lra. split; [lra|exact E].
  - subst m. exists x. rewrite Rmin_left, Rmax_left by lra. split; [lra|]. ring.
  - destruct (peval_mvt (map IZR p) m x H) as (c & Hc & E). exists c. rewrite zeval_zderiv.
    rewrite Rmin_right, Rmax_left by lra. split; [lra|]. unfold zeval. lra.
Qed.

Lemma inb_between : forall a x y c, inb x a -> inb y a -> Rmin x y <= c <= Rmax x y -> inb c a.
Proof.
  intros [m r|] x y c Hx Hy Hc; [|exact I]. apply inb_bounds in Hx. apply inb_bounds in Hy. apply inb_bounds.
  unfold Rmin, Rmax in Hc. destruct (Rle_dec x y) in Hc; lra.
Qed.

Lemma newton_encloses : forall o, arb_ok o -> forall pol a x prec b t,
  newton_step o pol (zderiv pol) a prec = Val (b, Some t) ->
  inb x a -> zeval pol x = 0 -> inb x t.
Proof.
  intros o Ho pol a x prec b t E Hx Hr. unfold newton_step in E.
  destruct (prec <=? 0)%Z; [discriminate|]. destruct (Z.ltb_spec prec 2) as [|Hp]; [discriminate|].
  destruct (contains_zero (eval_arb o (zderiv pol) a prec)) eqn:Ez; [discriminate|].
  injection E as _ <-.
  (* the centre of the ball, or x itself when the ball is infinite *)
  assert (Hm : exists m, inb m (bmid a) /\ inb m a).
  { destruct a as [m r|].
    - exists (dyv m). split; [apply inb_exact; reflexivity|]. pose proof (inb_rad _ _ _ Hx).
      unfold inb. rewrite Rminus_diag_eq, Rabs_R0 by reflexivity. assumption.
    - exists x. split; exact I. }
  destruct Hm as (m & Hm1 & Hm2).
  destruct (mvt_zeval pol x m) as (c & Hc & Em).
  pose proof (inb_between a x m c Hx Hm2 Hc) as Hca.
  pose proof (eval_arb_ok o Ho (zderiv pol) a c prec Hp Hca) as Hd.
  destruct (contains_zero_false _ _ Ez Hd) as [Hnz _].
  pose proof (eval_arb_ok o Ho pol (bmid a) m prec Hp Hm1) as Hy.
  pose proof (ok_div o Ho _ _ _ _ prec Hp Hy Hd Hnz) as Hq.
  pose proof (ok_sub o Ho _ _ _ _ prec Hp Hq Hm1) as Hs.
  apply inb_neg in Hs.
  replace x with (- (zeval pol m / zeval (zderiv pol) c - m)); [exact Hs|].
  assert (E1 : zeval pol m = zeval (zderiv pol) c * (m - x)) by lra.
  rewrite E1. field. exact Hnz.
Qed.

Lemma newton_success : forall o pol der a prec t,
  newton_step o pol der a prec = Val (true, Some t) -> subset t a /\ t <> a.
Proof.
  intros o pol der a prec t E. unfold newton_step in E.
  destruct (prec <=? 0)%Z; [discriminate|]. destruct (prec <? 2)%Z; [discriminate|].
  destruct (contains_zero _); [discriminate|]. injection E as E1 E2. rewrite E2 in E1.
  apply andb_true_iff in E1. destruct E1 as [E1 E3]. apply negb_true_iff in E3.
  split; [apply bcontains_subset; exact E1|]. apply bequal_false in E3. congruence.
Qed.

(** * Bisection (C16) *)

(** A polynomial with the only simple root x between l and r. *)
Lemma sign_constant : forall p u v, u < v -> (forall y, u <= y <= v -> zeval p y <> 0) ->
  Rsgn (zeval p u) = Rsgn (zeval p v).
Proof.
  intros p u v Huv H.
  destruct (Rtotal_order (zeval p u) 0) as [A|[A|A]]; [| exfalso; apply (H u); lra |];
  destruct (Rtotal_order (zeval p v) 0) as [B|[B|B]]; try (exfalso; apply (H v); lra).
  - rewrite !Rsgn_neg by assumption. reflexivity.
  - exfalso. destruct (peval_ivt (map IZR p) u v Huv) as (y & Hy & E); [unfold zeval in *; nra|].
    apply (H y); [lra|exact E].
  - exfalso. destruct (peval_ivt (map IZR p) u v Huv) as (y & Hy & E); [unfold zeval in *; nra|].
    apply (H y); [lra|exact E].
  - rewrite !Rsgn_pos by assumption. reflexivity.
Qed.

(** A simple root changes the sign. *)
Lemma simple_changes : forall p x, simple_root p x -> exists d, 0 < d /\
  forall u v, x - d < u < x -> x < v < x + d -> Rsgn (zeval p u) <> Rsgn (zeval p v).
Proof.
  intros p x [Hr Hd].
  assert (Hlim : derivable_pt_lim (zeval p) x (peval (pderiv (map IZR p)) x)).
  { unfold zeval. apply peval_derivable_lim. }
  set (k := peval (pderiv (map IZR p)) x) in *.
  assert (Hk : 0 < Rabs k / 2) by (pose proof (Rabs_pos_lt k Hd); lra).
  destruct (Hlim (Rabs k / 2) Hk) as [[d Hdpos] Hdl]. cbn in Hdl.
  exists d. split; [exact Hdpos|]. intros u v Hu Hv.
  assert (Hq : forall h, h <> 0 -> Rabs h < d -> zeval p (x + h) / h * k > 0).
  { intros h Hh Hhd. specialize (Hdl h Hh Hhd). rewrite Hr, Rminus_0_r in Hdl.
    set (q := zeval p (x + h) / h) in *. unfold Rabs in Hdl at 1. unfold Rabs in Hdl, Hk.
    destruct (Rcase_abs (q - k)); destruct (Rcase_abs k); nra. }
  pose proof (Hq (u - x) ltac:(lra) ltac:(apply Rabs_def1; lra)) as Q1.
  pose proof (Hq (v - x) ltac:(lra) ltac:(apply Rabs_def1; lra)) as Q2.
  replace (x + (u - x)) with u in Q1 by ring. replace (x + (v - x)) with v in Q2 by ring.
  assert (N1 : zeval p u * k < 0).
  { assert (E : zeval p u * k = (zeval p u / (u - x) * k) * (u - x)) by (field; lra). rewrite E. nra. }
  assert (N2 : zeval p v * k > 0).
  { assert (E : zeval p v * k = (zeval p v / (v - x) * k) * (v - x)) by (field; lra). rewrite E. nra. }
  destruct (Rtotal_order k 0) as [K|[K|K]]; [|contradiction|].
  - rewrite (Rsgn_pos (zeval p u)), (Rsgn_neg (zeval p v)) by nra. lia.
  - rewrite (Rsgn_neg (zeval p u)), (Rsgn_pos (zeval p v)) by nra. lia.
Qed.

Lemma sign_sides : forall p x l r, simple_root p x -> l < x < r -> only_root p l r x ->
  forall m, l < m < r -> m <> x ->
  (Rsgn (zeval p m) = Rsgn (zeval p l) -> m < x) /\ (Rsgn (zeval p m) <> Rsgn (zeval p l) -> x < m).
Proof.
  intros p x l r Hs Hx [Hr Ho] m Hm Hmx.
  assert (L : forall y, l < y < x -> Rsgn (zeval p y) = Rsgn (zeval p l)).
  { intros y Hy. symmetry. apply sign_constant; [lra|]. intros z Hz E. apply Ho in E; lra. }
  assert (Rr : forall y z, x < y <= r -> x < z <= r -> Rsgn (zeval p y) = Rsgn (zeval p z)).
  { intros y z Hy Hz. destruct (Rtotal_order y z) as [H|[H|H]]; [|subst; reflexivity|].
    - apply sign_constant; [lra|]. intros w Hw E. apply Ho in E; lra.
    - symmetry. apply sign_constant; [lra|]. intros w Hw E. apply Ho in E; lra. }
  destruct (simple_changes p x Hs) as (d & Hd & Hc).
  set (u := Rmax ((l + x) / 2) (x - d / 2)). set (v := Rmin ((x + r) / 2) (x + d / 2)).
  assert (Hu : l < u < x /\ x - d < u).
  { unfold u. unfold Rmax. destruct (Rle_dec _ _); lra. }
  assert (Hv : x < v < r /\ v < x + d).
  { unfold v. unfold Rmin. destruct (Rle_dec _ _); lra. }
  specialize (Hc u v ltac:(lra) ltac:(lra)). rewrite (L u) in Hc by lra.
  split; intros E.
  - destruct (Rlt_or_le m x); [assumption|]. exfalso. rewrite (Rr m v) in E by lra. congruence.
  - destruct (Rlt_or_le x m); [assumption|]. exfalso. apply E. apply L. lra.
Qed.

Lemma bisection_arf_keeps : forall o, arb_ok o -> forall pol x prec l r l' r', (2 <= prec)%Z ->
  only_root pol (dyv l) (dyv r) x -> simple_root pol x -> dyv l <= x <= dyv r ->
  contains_zero (eval_arb o pol (bexact l) prec) = false ->
  contains_zero (eval_arb o pol (bexact r) prec) = false ->
  bisection_arf o l r pol (msgn (eval_arb o pol (bexact l) prec)) prec = (l', r') ->
  dyv l' <= x <= dyv r'.
Proof.
  intros o Ho pol x prec l r l' r' Hp Hon Hs Hlr Zl Zr Eb.
  pose proof (eval_arb_ok o Ho pol (bexact l) (dyv l) prec Hp ltac:(apply inb_exact; reflexivity)) as Hl.
  pose proof (eval_arb_ok o Ho pol (bexact r) (dyv r) prec Hp ltac:(apply inb_exact; reflexivity)) as Hr.
  destruct (contains_zero_false _ _ Zl Hl) as [Nl Sl]. destruct (contains_zero_false _ _ Zr Hr) as [Nr _].
  assert (Hstrict : dyv l < x < dyv r).
  { destruct Hs as [Hz _]. split.
    - destruct (Req_dec (dyv l) x) as [e|]; [rewrite e in Nl; contradiction|lra].
    - destruct (Req_dec (dyv r) x) as [e|]; [rewrite e in Nr; contradiction|lra]. }
  unfold bisection_arf in Eb.
  set (m := d2exp (dround RNear prec (dadd l r)) (-1)) in *.
  destruct (dleb m l) eqn:M1; [injection Eb as <- <-; lra|].
  destruct (dleb r m) eqn:M2; [injection Eb as <- <-; lra|].
  apply dleb_false in M1. apply dleb_false in M2. cbn [orb] in Eb.
  pose proof (eval_arb_ok o Ho pol (bexact m) (dyv m) prec Hp ltac:(apply inb_exact; reflexivity)) as Hmm.
  destruct (contains_zero (eval_arb o pol (bexact m) prec)) eqn:Zm; [injection Eb as <- <-; lra|].
  destruct (contains_zero_false _ _ Zm Hmm) as [Nm Sm].
  assert (Hmx : dyv m <> x) by (intros e; rewrite e in Nm; destruct Hs; contradiction).
  destruct (sign_sides pol x (dyv l) (dyv r) Hs Hstrict Hon (dyv m) ltac:(lra) Hmx) as [A B].
  rewrite Sl, Sm in Eb. destruct (Z.eqb_spec (Rsgn (zeval pol (dyv m))) (Rsgn (zeval pol (dyv l)))) as [e|e];
    injection Eb as <- <-; [specialize (A e)|specialize (B e)]; lra.
Qed.

Lemma bisection_encloses : forall o, arb_ok o -> forall pol a x prec l r t,
  bisection_step o pol a prec = Val (true, Some t) ->
  interval a prec = Some (l, r) -> only_root pol (dyv l) (dyv r) x -> simple_root pol x ->
  inb x a -> inb x t.
Proof.
  intros o Ho pol a x prec l r t E Ei Hon Hs Hx. unfold bisection_step in E.
  destruct (Z.ltb_spec prec 2) as [|Hp]; [discriminate|]. rewrite Ei in E.
  destruct (contains_zero (eval_arb o pol (bexact l) prec)) eqn:Zl; [discriminate|].
  destruct (contains_zero (eval_arb o pol (bexact r) prec)) eqn:Zr; [discriminate|].
  pose proof (interval_spec a prec l r x ltac:(lia) Ei Hx) as Hlr.
  destruct (bisection_arf o l r pol (msgn (eval_arb o pol (bexact l) prec)) prec) as [l' r'] eqn:Eb.
  injection E as <-. apply (ok_inter o Ho); [exact Hp| |exact Hx].
  apply (ok_set_interval o Ho); [exact Hp|].
  apply (bisection_arf_keeps o Ho pol x prec l r); assumption.
Qed.
