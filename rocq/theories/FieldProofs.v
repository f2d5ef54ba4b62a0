(** Condition number, uniqueness check, refinement, equality of fields. *)
Require Import Reals List ZArith Bool Lia Lra.
From Verif Require Import PolyR RootSpec RootModel ExtraModel SquarefreeProofs ExtraProofs IsoProofs VcaProofs
  Dyadic DyadicProofs ArbModel ArbSpec ArbProofs.
Import ListNotations.
Open Scope R_scope.

(** * Condition number (C14) *)
Lemma abs_sum_cons : forall c q x, abs_sum (c :: q) x = Rabs (IZR c) + Rabs x * abs_sum q x.
Proof. intros c q x. unfold abs_sum, zeval. cbn [map peval]. rewrite abs_IZR. reflexivity. Qed.

Lemma abs_sum_nonneg : forall p x, 0 <= abs_sum p x.
Proof.
  induction p as [|c q IH]; intros x; [unfold abs_sum, zeval; simpl; lra|].
  rewrite abs_sum_cons. pose proof (Rabs_pos (IZR c)). pose proof (Rabs_pos x). specialize (IH x). nra.
Qed.

Lemma cond_sum_ge : forall prec k, (1 <= prec)%Z -> 0 < k <= 1 -> forall p abs x,
  Rabs x <= dyv abs ->
  (k * Rabs (IZR (last p 0%Z)) <= dyv (cond_sum [last p 0%Z] abs prec)) ->
  p <> [] -> k * abs_sum p x <= dyv (cond_sum p abs prec).
Proof.
  intros prec k Hp Hk p abs x Hx. pose proof (Rabs_pos x) as Hx0.
  induction p as [|c q IH]; intros Hl Hn; [contradiction|].
  rewrite abs_sum_cons. destruct q as [|c' q'].
  - cbn [last] in Hl. unfold abs_sum at 1, zeval. cbn [map peval]. rewrite Rmult_0_r, Rplus_0_r. exact Hl.
  - set (q := c' :: q') in *.
    assert (IH' : k * abs_sum q x <= dyv (cond_sum q abs prec)).
    { apply IH; [|discriminate]. exact Hl. }
    pose proof (abs_sum_nonneg q x) as Hq.
    change (cond_sum (c :: q) abs prec) with
      (let res := dround RUp prec (dmul (cond_sum q abs prec) abs) in
       if (0 <? c)%Z then dround RUp prec (dadd res (dz c))
       else if (c <? 0)%Z then dround RUp prec (dsub res (dz c)) else res).
    cbv zeta. set (cs := cond_sum q abs prec) in *.
    assert (H0 : 0 <= dyv cs) by nra.
    assert (H1 : k * abs_sum q x * Rabs x <= dyv (dmul cs abs)).
    { rewrite dyv_mul. apply Rmult_le_compat; nra. }
    assert (H2 : dyv (dmul cs abs) <= dyv (dround RUp prec (dmul cs abs))).
    { apply dround_up_ge; [lia|]. rewrite dyv_mul. apply Rmult_le_pos; lra. }
    assert (Hm0 : 0 <= k * abs_sum q x * Rabs x) by (apply Rmult_le_pos; [nra|lra]).
    set (res := dround RUp prec (dmul cs abs)) in *.
    destruct (Z.ltb_spec 0 c) as [Hc|Hc]; [|destruct (Z.ltb_spec c 0) as [Hc'|Hc']].
    + pose proof (IZR_lt _ _ Hc) as Hc1.
      assert (Hge : dyv (dadd res (dz c)) <= dyv (dround RUp prec (dadd res (dz c)))).
      { apply dround_up_ge; [lia|]. rewrite dyv_add, dyv_dz. nra. }
      rewrite dyv_add, dyv_dz in Hge. rewrite (Rabs_pos_eq (IZR c)) by lra. nra.
    + pose proof (IZR_lt _ _ Hc') as Hc1.
      assert (Hge : dyv (dsub res (dz c)) <= dyv (dround RUp prec (dsub res (dz c)))).
      { apply dround_up_ge; [lia|]. rewrite dyv_sub, dyv_dz. nra. }
      rewrite dyv_sub, dyv_dz in Hge. rewrite (Rabs_left (IZR c)) by lra. nra.
    + assert (c = 0%Z) by lia. subst c. rewrite Rabs_R0. nra.
Qed.

Lemma cond_lead : forall c abs prec, (2 <= prec)%Z ->
  / 2 * Rabs (IZR c) <= dyv (cond_sum [c] abs prec) /\
  ((0 < c \/ zbits c <= prec)%Z -> Rabs (IZR c) <= dyv (cond_sum [c] abs prec)).
Proof.
  intros c abs prec Hp. cbn [cond_sum]. destruct (Z.ltb_spec 0 c) as [Hc|Hc].
  - pose proof (IZR_lt _ _ Hc) as Hc'. rewrite Rabs_pos_eq by lra.
    assert (H : dyv (dz c) <= dyv (dround RUp prec (dz c))).
    { apply dround_up_ge; [lia|]. rewrite dyv_dz. lra. }
    rewrite dyv_dz in H. split; [lra|]. intros _. lra.
  - pose proof (IZR_le _ _ Hc) as Hc'. rewrite dyv_neg.
    destruct (dround_spec RDown prec (dz c) ltac:(lia)) as (_ & E & _ & S).
    rewrite dyv_dz in E, S. rewrite (Rabs_left1 (IZR c)) by lra. specialize (S Hc').
    rewrite (Rabs_left1 (IZR c)) in E by lra.
    assert (Hpw : pw2 (1 - prec) <= / 2).
    { apply Rle_trans with (pw2 (-1)); [apply pw2_le; lia|]. unfold pw2. simpl. lra. }
    pose proof (pw2_pos (1 - prec)) as Hpp. split.
    + unfold Rabs in E. destruct (Rcase_abs _) in E; nra.
    + intros [H|H]; [lia|]. unfold dround. cbn [fst dz].
      destruct (Z.leb_spec (zbits c - prec) 0) as [_|]; [|lia].
      change (c, 0%Z) with (dz c). rewrite dyv_dz. lra.
Qed.

Lemma dexp_bound : forall d, 0 <= dyv d -> dyv d < pw2 (dexp d).
Proof.
  intros d H. destruct (Z.eq_dec (fst d) 0) as [E|E].
  - rewrite (proj2 (dyv_eq0 d) E). apply pw2_pos.
  - pose proof (dexp_spec d E) as [_ B]. rewrite Rabs_pos_eq in B; lra.
Qed.

Lemma abs_ubound_spec : forall b prec a x, (1 <= prec)%Z -> abs_ubound b prec = Some a -> inb x b -> Rabs x <= dyv a.
Proof.
  intros [m r|] prec a x Hp E Hx; [|discriminate]. injection E as <-.
  pose proof (inb_rad _ _ _ Hx) as Hr. apply inb_bounds in Hx.
  assert (H : dyv (dadd (dabs m) r) <= dyv (dround RUp prec (dadd (dabs m) r))).
  { apply dround_up_ge; [lia|]. rewrite dyv_add, dyv_abs. pose proof (Rabs_pos (dyv m)). lra. }
  rewrite dyv_add, dyv_abs in H. unfold Rabs in *. destruct (Rcase_abs x), (Rcase_abs (dyv m)); lra.
Qed.

Lemma cond_2exp_weak : forall p b prec x, (2 <= prec)%Z -> p <> [] -> is_finite b = true -> inb x b ->
  abs_sum p x < pw2 (cond_2exp p b prec + 1).
Proof.
  intros p b prec x Hp Hn Hf Hx. unfold cond_2exp.
  destruct (abs_ubound b prec) as [a|] eqn:E; [|destruct b; discriminate].
  pose proof (abs_ubound_spec b prec a x ltac:(lia) E Hx) as Ha.
  pose proof (proj1 (cond_lead (last p 0%Z) a prec Hp)) as Hl.
  pose proof (cond_sum_ge prec (/ 2) ltac:(lia) ltac:(lra) p a x Ha Hl Hn) as Hc.
  pose proof (abs_sum_nonneg p x). pose proof (dexp_bound (cond_sum p a prec) ltac:(lra)).
  rewrite pw2_add, pw2_1. lra.
Qed.

Lemma cond_2exp_strong : forall p b prec x, (2 <= prec)%Z -> p <> [] -> is_finite b = true -> inb x b ->
  (0 < last p 0 \/ zbits (last p 0) <= prec)%Z ->
  abs_sum p x < pw2 (cond_2exp p b prec).
Proof.
  intros p b prec x Hp Hn Hf Hx Hld. unfold cond_2exp.
  destruct (abs_ubound b prec) as [a|] eqn:E; [|destruct b; discriminate].
  pose proof (abs_ubound_spec b prec a x ltac:(lia) E Hx) as Ha.
  pose proof (proj2 (cond_lead (last p 0%Z) a prec Hp) Hld) as Hl. rewrite <- Rmult_1_l in Hl at 1.
  pose proof (cond_sum_ge prec 1 ltac:(lia) ltac:(lra) p a x Ha Hl Hn) as Hc.
  pose proof (abs_sum_nonneg p x). pose proof (dexp_bound (cond_sum p a prec) ltac:(lra)). lra.
Qed.

Lemma cond_2exp_refuted : exists p b prec x, (2 <= prec)%Z /\ p <> [] /\ is_finite b = true /\ inb x b /\
  pw2 (cond_2exp p b prec) <= abs_sum p x.
Proof.
  exists [0; -11]%Z, (bexact (3, -2)%Z), 2%Z, (3 / 4). repeat split; try lia; try discriminate.
  - apply inb_exact. unfold dyv, pw2. simpl. lra.
  - assert (E : cond_2exp [0; -11]%Z (bexact (3, -2)%Z) 2 = 3%Z) by reflexivity. rewrite E.
    unfold abs_sum, zeval, pw2. simpl. rewrite Rabs_pos_eq by lra. lra.
Qed.

(** * Uniqueness check (C17) *)
Lemma sgn2_spec : forall b x, inb x b -> (sgn2 b = 1%Z -> 0 < x) /\ (sgn2 b = (-1)%Z -> x < 0).
Proof.
  intros b x Hx. unfold sgn2. destruct (contains_zero b) eqn:E; [split; discriminate|].
  destruct (contains_zero_false b x E Hx) as [Hn Hs]. rewrite Hs. split; intros H.
  - destruct (Rtotal_order x 0) as [A|[A|A]]; [rewrite Rsgn_neg in H by lra; discriminate|contradiction|lra].
  - destruct (Rtotal_order x 0) as [A|[A|A]]; [lra|contradiction|rewrite Rsgn_pos in H by lra; discriminate].
Qed.

Lemma sgn2_range : forall b, (sgn2 b = -1 \/ sgn2 b = 0 \/ sgn2 b = 1)%Z.
Proof.
  intros b. unfold sgn2. destruct (contains_zero b); [lia|]. destruct b as [m r|]; cbn [msgn]; [|lia].
  unfold dsgn. lia.
Qed.

Lemma dy_fmpq_spec : forall d, (0 < snd (dy_fmpq d))%Z /\ qval (dy_fmpq d) = dyv d.
Proof.
  intros [m e]. unfold dy_fmpq, qval, dyv. cbn [fst snd]. destruct (Z.leb_spec 0 e) as [H|H]; cbn [fst snd].
  - split; [lia|]. rewrite mult_IZR, pw2_IZR by assumption. field.
  - assert (Hp : (0 < 2 ^ (- e))%Z) by (apply Z.pow_pos_nonneg; lia).
    set (P := (2 ^ (- e))%Z) in *. set (g := Z.gcd m P).
    assert (Hg : (0 < g)%Z).
    { pose proof (Z.gcd_nonneg m P) as G. fold g in G. destruct (Z.eq_dec g 0) as [E|]; [|lia].
      apply Z.gcd_eq_0_r in E. lia. }
    destruct (Z.gcd_divide_l m P) as [u Eu]. destruct (Z.gcd_divide_r m P) as [v Ev]. fold g in Eu, Ev.
    assert (Hv : (0 < v)%Z) by nia.
    assert (D1 : (m / g = u)%Z) by (rewrite Eu; apply Z.div_mul; lia).
    assert (D2 : (P / g = v)%Z) by (rewrite Ev; apply Z.div_mul; lia).
    rewrite D1, D2. split; [assumption|].
    replace (IZR m) with (IZR u * IZR g) by (rewrite <- mult_IZR; f_equal; lia).
    assert (EP : IZR P * pw2 e = 1).
    { unfold P. rewrite pw2_IZR by lia. apply pw2_inv. }
    rewrite Ev, mult_IZR in EP.
    pose proof (IZR_lt _ _ Hv). pose proof (IZR_lt _ _ Hg).
    assert (E1 : pw2 e = / (IZR v * IZR g)).
    { apply (Rmult_eq_reg_l (IZR v * IZR g)); [rewrite EP; field; lra|nra]. }
    rewrite E1. field. lra.
Qed.

Lemma last_nonzero : forall p, last p 0%Z <> 0%Z -> nonzero p.
Proof.
  intros p H Hf. apply H. clear H. induction Hf as [|a l Ha Hl IH]; [reflexivity|].
  cbn [last]. destruct l; [exact Ha|exact IH].
Qed.

(** One root counted in the rescaled unit interval. *)
Lemma count_one : forall fuel pol l r, last pol 0%Z <> 0%Z -> (2 <= length pol)%nat -> dyv l < dyv r ->
  num_real_roots_0_1 fuel (scale_0_1 pol (dy_fmpq l) (dy_fmpq r)) = Some 1%nat ->
  exists! x, dyv l <= x < dyv r /\ zeval pol x = 0.
Proof.
  intros fuel pol l r Hl H2 Hlr E.
  destruct (dy_fmpq_spec l) as [Dl Vl]. destruct (dy_fmpq_spec r) as [Dr Vr].
  destruct (scale_0_1_spec pol (dy_fmpq l) (dy_fmpq r) Dl Dr ltac:(lra) Hl H2) as (c & Hc & Hv).
  rewrite Vl, Vr in Hv. set (q := scale_0_1 pol (dy_fmpq l) (dy_fmpq r)) in *.
  assert (Hs : IZR (Z.sgn (last pol 0%Z)) <> 0).
  { intros H. apply eq_IZR in H. apply Hl. lia. }
  assert (Hroot : forall x, zeval q x = 0 <-> zeval pol (dyv l + (dyv r - dyv l) * x) = 0).
  { intros x. specialize (Hv x). split; intros H.
    - rewrite H, Rmult_0_l in Hv. symmetry in Hv. apply Rmult_integral in Hv. tauto.
    - rewrite H, Rmult_0_r in Hv. apply Rmult_integral in Hv. destruct Hv; [assumption|lra]. }
  assert (Hq : nonzero q).
  { intros Hz. apply (last_nonzero pol Hl).
    assert (Hpz : forall y, zeval pol y = 0).
    { intros y. replace y with (dyv l + (dyv r - dyv l) * ((y - dyv l) / (dyv r - dyv l))) by (field; lra).
      apply Hroot. unfold zeval. apply peval_pzero. apply Forall_map. eapply Forall_impl; [|exact Hz].
      intros a ->. reflexivity. }
    pose proof (peval_zero_interval (map IZR pol) 0 1 ltac:(lra)) as Hpi.
    assert (Hpz' : pzero (map IZR pol)) by (apply Hpi; intros; apply Hpz).
    unfold pzero in Hpz'. rewrite Forall_map in Hpz'. eapply Forall_impl; [|exact Hpz'].
    intros a Ha. apply eq_IZR. exact Ha. }
  destruct (count_unit_partial fuel q 1 Hq E) as (ex & ints & Hi & Hn).
  (* there is exactly one root of q in [0,1) *)
  assert (U : exists! u, unit_co u /\ zeval q u = 0).
  { destruct ex as [|d [|? ?]]; destruct ints as [|i [|? ?]]; cbn [length] in Hn; try lia.
    - destruct (iso_int_root _ _ _ _ Hi i ltac:(left; reflexivity)) as (u & [Hu1 Hu2] & Huu).
      exists u. split.
      + split; [apply (iso_int_dom _ _ _ _ Hi i); [left; reflexivity|exact Hu1]|exact Hu2].
      + intros v [Hv1 Hv2]. destruct (iso_complete _ _ _ _ Hi v Hv1 Hv2) as [(d & [] & _)|(d & [<-|[]] & Hd)].
        apply Huu. split; assumption.
    - destruct (iso_exact_root _ _ _ _ Hi d ltac:(left; reflexivity)) as [Hu1 Hu2].
      exists (dyv d). split; [split; assumption|]. intros v [Hv1 Hv2].
      destruct (iso_complete _ _ _ _ Hi v Hv1 Hv2) as [(d' & [<-|[]] & Hd)|(d' & [] & Hd)]. exact Hd. }
  destruct U as (u & [Hu1 Hu2] & Huu). unfold unit_co in Hu1.
  exists (dyv l + (dyv r - dyv l) * u). split.
  - split; [nra|]. apply Hroot. exact Hu2.
  - intros y [Hy1 Hy2]. set (v := (y - dyv l) / (dyv r - dyv l)).
    assert (Ey : y = dyv l + (dyv r - dyv l) * v) by (unfold v; field; lra).
    assert (Hv1 : unit_co v).
    { unfold unit_co. unfold v. split.
      - apply Rmult_le_pos; [lra|]. left. apply Rinv_0_lt_compat. lra.
      - apply (Rmult_lt_reg_r (dyv r - dyv l)); [lra|]. unfold Rdiv. rewrite Rmult_assoc, Rinv_l; lra. }
    rewrite Ey. f_equal. f_equal. apply Huu. split; [exact Hv1|]. apply Hroot. rewrite <- Ey. exact Hy2.
Qed.

(** What an accepted ball satisfies. *)
Definition accepted (pol : list Z) (a : ball) (l r : R) : Prop :=
  (exists x, l < x < r /\ zeval pol x = 0) /\
  (forall x y, inb x a -> inb y a -> zeval pol x = 0 -> zeval pol y = 0 -> x = y).

Lemma check_unique_accepts : forall o, arb_ok o -> forall fuel pol a prec l r,
  last pol 0%Z <> 0%Z -> (3 <= length pol)%nat ->
  check_unique o fuel pol a prec = Val true -> interval a prec = Some (l, r) ->
  (exists x, inb x a) -> accepted pol a (dyv l) (dyv r).
Proof.
  intros o Ho fuel pol a prec l r Hl H3 E Ei [z Hz].
  destruct pol as [|c0 [|c1 [|c2 p']]]; cbn [length] in H3; try lia. set (pol := c0 :: c1 :: c2 :: p') in *.
  unfold check_unique in E. unfold pol in E at 1.
  destruct (Z.ltb_spec prec 2) as [|Hp]; [discriminate|]. rewrite Ei in E.
  pose proof (eval_arb_ok o Ho pol (bexact l) (dyv l) (2 * prec) ltac:(lia) ltac:(apply inb_exact; reflexivity)) as Vl.
  pose proof (eval_arb_ok o Ho pol (bexact r) (dyv r) (2 * prec) ltac:(lia) ltac:(apply inb_exact; reflexivity)) as Vr.
  fold pol in E.
  destruct (sgn2_spec _ _ Vl) as [L1 L2]. destruct (sgn2_spec _ _ Vr) as [R1 R2].
  pose proof (sgn2_range (eval_arb o pol (bexact l) (2 * prec))) as Rl.
  pose proof (sgn2_range (eval_arb o pol (bexact r) (2 * prec))) as Rr.
  set (ls := sgn2 (eval_arb o pol (bexact l) (2 * prec))) in *.
  set (rs := sgn2 (eval_arb o pol (bexact r) (2 * prec))) in *.
  destruct (Z.eqb_spec (ls * rs) (-1)) as [Hs|]; [|discriminate].
  pose proof (interval_spec a prec l r z ltac:(lia) Ei Hz) as Hlr.
  assert (Hsign : zeval pol (dyv l) * zeval pol (dyv r) < 0).
  { destruct Rl as [e|[e|e]]; rewrite e in *; [|lia|].
    - assert (rs = 1%Z) by lia. pose proof (L2 eq_refl). pose proof (R1 H). nra.
    - assert (rs = (-1)%Z) by lia. pose proof (L1 eq_refl). pose proof (R2 H). nra. }
  assert (Hlt : dyv l < dyv r).
  { destruct (Req_dec (dyv l) (dyv r)) as [e|]; [rewrite e in Hsign; nra|lra]. }
  split.
  - unfold zeval in *. apply peval_ivt; assumption.
  - intros x y Hx Hy Zx Zy.
    destruct (contains_zero (eval_arb o (zderiv pol) a prec)) eqn:Ed; cbn [negb] in E.
    + destruct (num_real_roots_0_1 fuel (scale_0_1 pol (dy_fmpq l) (dy_fmpq r))) as [n|] eqn:En; [|discriminate].
      injection E as E. apply Nat.eqb_eq in E. subst n.
      destruct (count_one fuel pol l r Hl ltac:(unfold pol; cbn [length]; lia) Hlt En) as (u & _ & Hu).
      pose proof (interval_spec a prec l r x ltac:(lia) Ei Hx) as Bx.
      pose proof (interval_spec a prec l r y ltac:(lia) Ei Hy) as By.
      assert (Nr : zeval pol (dyv r) <> 0) by (intros e; rewrite e in Hsign; lra).
      rewrite <- (Hu x), <- (Hu y); [reflexivity| |]; (split; [|assumption]).
      * destruct (Req_dec y (dyv r)) as [e|]; [subst y; contradiction|lra].
      * destruct (Req_dec x (dyv r)) as [e|]; [subst x; contradiction|lra].
    + destruct (Req_dec x y) as [|Hne]; [assumption|]. exfalso.
      destruct (mvt_zeval pol x y) as (c & Hc & Em).
      pose proof (inb_between a x y c Hx Hy Hc) as Hca.
      pose proof (eval_arb_ok o Ho (zderiv pol) a c prec Hp Hca) as Hd.
      destruct (contains_zero_false _ _ Ed Hd) as [Hnz _].
      assert (Hz0 : zeval (zderiv pol) c * (y - x) = 0) by lra.
      apply Rmult_integral in Hz0. destruct Hz0; [contradiction|lra].
Qed.

Lemma check_unique_linear : forall o fuel c0 c1 a prec, c1 <> 0%Z ->
  check_unique o fuel [c0; c1] a prec = Val true -> unique_root [c0; c1] a.
Proof.
  intros o fuel c0 c1 a prec Hc E. cbn [check_unique] in E. injection E as E.
  pose proof (IZR_neq _ _ Hc) as Hc'.
  exists (- IZR c0 / IZR c1). split.
  - split.
    + destruct a as [m r|]; [|exact I]. unfold bcontains_q in E. apply dleb_spec in E.
      rewrite dyv_abs, dyv_sub, !dyv_mul, !dyv_dz, mult_IZR, opp_IZR in E.
      unfold inb. rewrite abs_IZR in E.
      assert (Hs : IZR (Z.sgn c1) * Rabs (IZR c1) = IZR c1).
      { rewrite <- abs_IZR, <- mult_IZR. f_equal. lia. }
      pose proof (Rabs_pos_lt _ Hc') as Ha.
      apply (Rmult_le_reg_r (Rabs (IZR c1))); [exact Ha|].
      eapply Rle_trans; [|exact E]. right.
      rewrite <- (Rabs_pos_eq (Rabs (IZR c1))) at 1 by lra. rewrite <- Rabs_mult.
      rewrite <- (Rabs_Ropp (_ - _ * _)). f_equal.
      assert (E2 : - IZR c0 / IZR c1 * Rabs (IZR c1) = - IZR c0 * IZR (Z.sgn c1)).
      { assert (S2 : IZR (Z.sgn c1) * IZR (Z.sgn c1) = 1).
        { rewrite <- mult_IZR. f_equal. lia. }
        assert (Hab : Rabs (IZR c1) = IZR (Z.sgn c1) * IZR c1).
        { rewrite <- Hs at 2. rewrite <- Rmult_assoc, S2. ring. }
        rewrite Hab. field. exact Hc'. }
      rewrite Rmult_minus_distr_r, E2. ring.
    + unfold zeval. cbn [map peval]. field. exact Hc'.
  - intros y [_ Hy]. unfold zeval in Hy. cbn [map peval] in Hy.
    apply (Rmult_eq_reg_r (IZR c1)); [|exact Hc']. unfold Rdiv. rewrite Rmult_assoc, Rinv_l by exact Hc'. nra.
Qed.

Lemma check_unique_exact : forall o, arb_ok o -> forall fuel pol a prec,
  last pol 0%Z <> 0%Z -> check_unique o fuel pol a prec = Val true -> (exists x, inb x a) ->
  (forall l r, interval a prec = Some (l, r) -> inb (dyv l) a /\ inb (dyv r) a) ->
  is_finite a = true -> unique_root pol a.
Proof.
  intros o Ho fuel pol a prec Hl E Hne Hex Hf.
  destruct (Nat.le_gt_cases 3 (length pol)) as [H3|H3].
  - destruct a as [m rr|]; [|discriminate].
    destruct (interval (Fin m rr) prec) as [[l r]|] eqn:Ei; [|discriminate].
    destruct (check_unique_accepts o Ho fuel pol _ prec l r Hl H3 E Ei Hne) as [(x & Hx & Zx) Hu].
    destruct (Hex l r eq_refl) as [B1 B2]. apply inb_bounds in B1. apply inb_bounds in B2.
    assert (Hxa : inb x (Fin m rr)) by (apply inb_bounds; lra).
    exists x. split; [split; assumption|]. intros y [Hy Zy]. apply Hu; assumption.
  - destruct pol as [|c0 [|c1 [|? ?]]]; cbn [length] in H3; try lia; try discriminate.
    eapply check_unique_linear; [|exact E]. exact Hl.
Qed.
