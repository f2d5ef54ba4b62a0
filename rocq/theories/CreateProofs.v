(** Fields are created at sufficient precision from small enclosures. *)
Require Import Reals List ZArith Bool Lia Lra.
From Verif Require Import PolyR RootSpec RootModel ExtraModel ExtraProofs VcaProofs VcaTerm IsoProofs CountAll Dyadic DyadicProofs ArbModel ArbSpec ArbProofs FieldProofs
  RefineProofs ElemModel ElemSpec ElemProofs RateSpec EndsSpec EndsProofs RefineEnds DefSpec ToolsProofs.
Import ListNotations.
Open Scope R_scope.

(** * The test for a unique root accepts *)

Lemma count_is_one : forall pol l r, last pol 0%Z <> 0%Z -> (2 <= length pol)%nat -> dyv l < dyv r -> simple_roots pol reals ->
  (exists! x, dyv l <= x < dyv r /\ zeval pol x = 0) ->
  exists f0, forall fuel, (f0 <= fuel)%nat -> num_real_roots_0_1 fuel (scale_0_1 pol (dy_fmpq l) (dy_fmpq r)) = Some 1%nat.
Proof.
  intros pol l r Hl0 L2 Hlt HS (x & [Hx Zx] & Ux).
  destruct (dy_fmpq_spec l) as [Dl Vl]. destruct (dy_fmpq_spec r) as [Dr Vr].
  destruct (scale_0_1_spec pol (dy_fmpq l) (dy_fmpq r) Dl Dr ltac:(lra) Hl0 L2) as (c & Hc & Hv).
  rewrite Vl, Vr in Hv. set (q := scale_0_1 pol (dy_fmpq l) (dy_fmpq r)) in *.
  assert (Hsg : IZR (Z.sgn (last pol 0%Z)) <> 0).
  { intros H. apply eq_IZR in H. apply Hl0. lia. }
  assert (Hroot : forall y, zeval q y = 0 <-> zeval pol (dyv l + (dyv r - dyv l) * y) = 0).
  { intros y. specialize (Hv y). split; intros H.
    - rewrite H, Rmult_0_l in Hv. symmetry in Hv. apply Rmult_integral in Hv. tauto.
    - rewrite H, Rmult_0_r in Hv. apply Rmult_integral in Hv. destruct Hv; [assumption|lra]. }
  assert (Hq : nonzero q).
  { intros Hz0. apply (last_nonzero pol Hl0).
    assert (Hpz : forall y, zeval pol y = 0).
    { intros y. replace y with (dyv l + (dyv r - dyv l) * ((y - dyv l) / (dyv r - dyv l))) by (field; lra).
      apply Hroot. unfold zeval. apply peval_pzero. apply Forall_map. eapply Forall_impl; [|exact Hz0].
      intros b ->. reflexivity. }
    pose proof (peval_zero_interval (map IZR pol) 0 1 ltac:(lra)) as Hpi.
    assert (Hpz' : pzero (map IZR pol)) by (apply Hpi; intros; apply Hpz).
    unfold pzero in Hpz'. rewrite Forall_map in Hpz'. eapply Forall_impl; [|exact Hpz'].
    intros b Hb. apply eq_IZR. exact Hb. }
  assert (HSq : simple_roots q unit_cc).
  { apply (simple_roots_affine pol q (dyv r - dyv l) (dyv l) (c / IZR (Z.sgn (last pol 0%Z))) reals unit_cc).
    - lra.
    - intros H. apply Rmult_integral in H. destruct H as [H|H]; [lra|]. apply (Rinv_neq_0_compat _ Hsg H).
    - intros y. specialize (Hv y). replace ((dyv r - dyv l) * y + dyv l) with (dyv l + (dyv r - dyv l) * y) by ring.
      apply (Rmult_eq_reg_l (IZR (Z.sgn (last pol 0%Z)))); [|exact Hsg]. rewrite <- Hv. field. exact Hsg.
    - intros; exact I.
    - exact HS. }
  destruct (count_unit_correct q Hq HSq) as (f0 & roots & [Nd Hr] & Hf).
  assert (El : length roots = 1%nat); [|exists f0; intros fuel Hfu; rewrite (Hf fuel Hfu), El; reflexivity].
  set (u := (x - dyv l) / (dyv r - dyv l)).
  assert (Eu : x = dyv l + (dyv r - dyv l) * u) by (unfold u; field; lra).
  assert (Hu : In u roots).
  { apply Hr. split; [|apply Hroot; rewrite <- Eu; exact Zx]. unfold unit_co, u. split.
    - apply Rmult_le_pos; [lra|]. left. apply Rinv_0_lt_compat. lra.
    - apply (Rmult_lt_reg_r (dyv r - dyv l)); [lra|]. unfold Rdiv. rewrite Rmult_assoc, Rinv_l; lra. }
  assert (Hall : forall v, In v roots -> v = u).
  { intros v Hv'. apply Hr in Hv'. destruct Hv' as [[V0 V1] Zv]. apply Hroot in Zv.
    assert (B1 : 0 <= (dyv r - dyv l) * v) by (apply Rmult_le_pos; lra).
    assert (B2 : (dyv r - dyv l) * v < (dyv r - dyv l) * 1) by (apply Rmult_lt_compat_l; lra).
    assert (B3 : dyv l <= dyv l + (dyv r - dyv l) * v < dyv r) by lra. specialize (Ux _ (conj B3 Zv)). unfold u. rewrite Ux. field. lra. }
  destruct roots as [|v [|w t]]; [contradiction|reflexivity|]. exfalso.
  inversion Nd as [|? ? N _]. apply N. rewrite (Hall v), (Hall w); [left; reflexivity|right; left; reflexivity|left; reflexivity].
Qed.

Lemma near_value : forall pol L, zeval pol L <> 0 -> exists d, 0 < d /\ forall y, Rabs (y - L) <= d -> Rabs (zeval pol y - zeval pol L) < Rabs (zeval pol L) / 2.
Proof.
  intros pol L H. pose proof (Rabs_pos_lt _ H) as H0.
  destruct (peval_continuity (map IZR pol) L (Rabs (zeval pol L) / 2) ltac:(lra)) as (al & Hal & Hc).
  exists (al / 2). split; [lra|]. intros y Hy. destruct (Req_dec y L) as [->|N]; [rewrite Rminus_eq_0, Rabs_R0; lra|].
  apply (Hc y). split; [split; [exact I|congruence]|]. cbn. unfold R_dist. lra.
Qed.

Lemma near_sign : forall v w, Rabs (v - w) < Rabs w / 2 -> Rsgn v = Rsgn w /\ Rabs w / 2 < Rabs v /\ v <> 0.
Proof.
  intros v w H. unfold Rabs in *. destruct (Rcase_abs w), (Rcase_abs (v - w)), (Rcase_abs v); repeat split; try lra;
  solve [rewrite !Rsgn_neg by lra; reflexivity | rewrite !Rsgn_pos by lra; reflexivity].
Qed.

Section Check.
Variables (o : arbops) (pol : list Z).
Hypothesis Ho : arb_ok o.
Hypothesis Hrt : arb_rate o.
Hypothesis Hl : last pol 0%Z <> 0%Z.
Hypothesis Hdeg : (3 <= length pol)%nat.
Hypothesis HS : simple_roots pol reals.

Lemma check_wide : forall B K, 0 < B -> 0 < K -> exists P, forall a prec l r, (P <= prec)%Z -> interval a prec = Some (l, r) ->
  Rabs (dyv l) <= K -> Rabs (dyv r) <= K -> B <= Rabs (zeval pol (dyv l)) -> B <= Rabs (zeval pol (dyv r)) ->
  zeval pol (dyv l) * zeval pol (dyv r) < 0 -> dyv l < dyv r ->
  (forall x y, dyv l <= x < dyv r -> dyv l <= y < dyv r -> zeval pol x = 0 -> zeval pol y = 0 -> x = y) ->
  exists f0, forall fuel, (f0 <= fuel)%nat -> check_unique o fuel pol a prec = Val true.
Proof.
  intros B K HB HK.
  destruct (eval_rate o Ho Hrt pol K ltac:(lra)) as (C & de & HC & Hde & Heval).
  destruct (below2 (B / 8 / C) de) as (e & E0 & Ea & Eb); [apply Rdiv_lt_0_compat; lra|exact Hde|].
  destruct (pw2_neg_small e E0) as (P & HP).
  exists (Z.max 2 P). intros a prec l r Hp Ei Kl Kr Bl Br Hneg Hlr Huni.
  assert (Ht : pw2 (- (2 * prec)) < e) by (apply HP; lia). set (t := pw2 (- (2 * prec))) in *. assert (T0 : 0 < t) by apply pw2_pos.
  assert (Nl : zeval pol (dyv l) <> 0) by (intros E; rewrite E, Rabs_R0 in Bl; lra).
  assert (Nr : zeval pol (dyv r) <> 0) by (intros E; rewrite E, Rabs_R0 in Br; lra).
  assert (Hev : forall v, Rabs (dyv v) <= K -> B <= Rabs (zeval pol (dyv v)) -> zeval pol (dyv v) <> 0 ->
    sgn2 (eval_arb o pol (bexact v) (2 * prec)) = Rsgn (zeval pol (dyv v))).
  { intros v Hv Bv Nv. assert (Iv : inb (dyv v) (bexact v)) by (apply inb_exact; reflexivity).
    pose proof (eval_arb_ok o Ho pol (bexact v) (dyv v) (2 * prec) ltac:(lia) Iv) as Ev.
    assert (Cz : contains_zero (eval_arb o pol (bexact v) (2 * prec)) = false).
    { apply (small_nonzero _ (zeval pol (dyv v)) Nv Ev). apply (rad_le_mono _ (C * (0 + t))).
      - rewrite Rplus_0_l. assert (H1 : C * t <= C * (B / 8 / C)) by (apply Rmult_le_compat_l; lra).
        replace (C * (B / 8 / C)) with (B / 8) in H1 by (field; lra). lra.
      - apply (Heval (bexact v) (dyv v) 0 (2 * prec)%Z); [lia|fold t; lra|exact Iv|exact Hv| |lra]. cbn. rewrite dyv_dz. simpl. lra. }
    unfold sgn2. rewrite Cz. apply (contains_zero_false _ _ Cz Ev). }
  pose proof (Hev l Kl Bl Nl) as El. pose proof (Hev r Kr Br Nr) as Er.
  assert (Hprod : (Rsgn (zeval pol (dyv l)) * Rsgn (zeval pol (dyv r)) = -1)%Z).
  { destruct (Rtotal_order (zeval pol (dyv l)) 0) as [A|[A|A]]; [|contradiction|].
    - rewrite (Rsgn_neg (zeval pol (dyv l)) A), (Rsgn_pos (zeval pol (dyv r))); [reflexivity|nra].
    - rewrite (Rsgn_pos (zeval pol (dyv l)) A), (Rsgn_neg (zeval pol (dyv r))); [reflexivity|nra]. }
  assert (U : exists! x, dyv l <= x < dyv r /\ zeval pol x = 0).
  { destruct (peval_ivt (map IZR pol) (dyv l) (dyv r) Hlr Hneg) as (x & Hx & Zx).
    exists x. split; [split; [lra|exact Zx]|]. intros y [Hy Zy]. apply Huni; [lra|exact Hy|exact Zx|exact Zy]. }
  destruct (count_is_one pol l r Hl ltac:(lia) Hlr HS U) as (f0 & Hf). exists f0. intros fuel Hfu.
  destruct pol as [|c0 [|c1 [|c2 p']]] eqn:Epol; cbn [length] in Hdeg; try lia. rewrite <- Epol in *.
  unfold check_unique. rewrite Epol at 1. destruct (Z.ltb_spec prec 2) as [|_]; [lia|]. rewrite Ei. rewrite El, Er, Hprod.
  cbn [Z.eqb Pos.eqb]. destruct (negb _); [reflexivity|]. rewrite (Hf fuel Hfu). reflexivity.
Qed.

Lemma check_complete : forall L R, L < R -> zeval pol L * zeval pol R < 0 -> (forall x y, L < x < R -> L < y < R -> zeval pol x = 0 -> zeval pol y = 0 -> x = y) ->
  exists d P, 0 < d /\ forall a prec l r, (P <= prec)%Z -> interval a prec = Some (l, r) -> Rabs (dyv l - L) <= d -> Rabs (dyv r - R) <= d ->
  exists f0, forall fuel, (f0 <= fuel)%nat -> check_unique o fuel pol a prec = Val true.
Proof.
  intros L R HLR Hsg Huni.
  assert (NL : zeval pol L <> 0) by (intros E; rewrite E in Hsg; lra). assert (NR : zeval pol R <> 0) by (intros E; rewrite E in Hsg; lra).
  destruct (near_value pol L NL) as (dL & DL0 & DL). destruct (near_value pol R NR) as (dR & DR0 & DR).
  destruct (below2 dL dR DL0 DR0) as (d1 & D10 & D11 & D12). destruct (below2 d1 ((R - L) / 3) D10 ltac:(lra)) as (d2 & D20 & D21 & D22).
  destruct (below2 d2 1 D20 ltac:(lra)) as (d & D0 & Da & Db).
  set (K := Rabs L + Rabs R + 1). pose proof (Rabs_pos L). pose proof (Rabs_pos R).
  pose proof (Rabs_pos_lt _ NL) as AL. pose proof (Rabs_pos_lt _ NR) as AR.
  destruct (below2 (Rabs (zeval pol L) / 2) (Rabs (zeval pol R) / 2)) as (B & B0 & B1 & B2); [lra|lra|].
  destruct (check_wide B K B0 ltac:(unfold K; lra)) as (P & HP).
  exists d, P. split; [exact D0|]. intros a prec l r Hp Ei Hl' Hr'.
  destruct (near_sign _ _ (DL (dyv l) ltac:(lra))) as (Sl & Bl & Nl). destruct (near_sign _ _ (DR (dyv r) ltac:(lra))) as (Sr & Br & Nr).
  assert (Kl : Rabs (dyv l) <= K) by (pose proof (Rabs_triang_inv (dyv l) L); unfold K; lra).
  assert (Kr : Rabs (dyv r) <= K) by (pose proof (Rabs_triang_inv (dyv r) R); unfold K; lra).
  assert (Hprod : (Rsgn (zeval pol (dyv l)) * Rsgn (zeval pol (dyv r)) = -1)%Z).
  { rewrite Sl, Sr. destruct (Rtotal_order (zeval pol L) 0) as [A|[A|A]]; [|contradiction|].
    - rewrite (Rsgn_neg (zeval pol L) A), (Rsgn_pos (zeval pol R)); [reflexivity|nra].
    - rewrite (Rsgn_pos (zeval pol L) A), (Rsgn_neg (zeval pol R)); [reflexivity|nra]. }
  assert (Hneg : zeval pol (dyv l) * zeval pol (dyv r) < 0).
  { destruct (Rtotal_order (zeval pol (dyv l)) 0) as [A|[A|A]]; [|contradiction|];
    destruct (Rtotal_order (zeval pol (dyv r)) 0) as [A'|[A'|A']]; try contradiction; try nra; exfalso.
    - rewrite (Rsgn_neg _ A), (Rsgn_neg _ A') in Hprod. discriminate.
    - rewrite (Rsgn_pos _ A), (Rsgn_pos _ A') in Hprod. discriminate. }
  apply Rabs_le_inv2 in Hl'. apply Rabs_le_inv2 in Hr'.
  assert (Hin : forall y, dyv l <= y < dyv r -> zeval pol y = 0 -> L < y < R).
  { intros y Hy Zy. split.
    - destruct (Rlt_le_dec L y) as [|Q]; [assumption|exfalso]. destruct (near_sign _ _ (DL y ltac:(rewrite Rabs_left1; lra))) as (_ & _ & N). contradiction.
    - destruct (Rlt_le_dec y R) as [|Q]; [assumption|exfalso]. destruct (near_sign _ _ (DR y ltac:(rewrite Rabs_pos_eq; lra))) as (_ & _ & N). contradiction. }
  apply (HP a prec l r Hp Ei Kl Kr); [lra|lra|exact Hneg|lra|].
  intros u v Hu Hv Zu Zv. apply Huni; [apply Hin; assumption|apply Hin; assumption|exact Zu|exact Zv].
Qed.
End Check.

(** The endpoints after rounding. *)
Lemma interval_close : forall B d, 0 <= B -> 0 < d -> exists P, forall m r prec, (P <= prec)%Z -> Rabs (dyv m - dyv r) <= B -> Rabs (dyv m + dyv r) <= B ->
  exists l u, interval (Fin m r) prec = Some (l, u) /\ Rabs (dyv l - (dyv m - dyv r)) <= d /\ Rabs (dyv u - (dyv m + dyv r)) <= d.
Proof.
  intros B d HB Hd. destruct (pw2_neg_small (d / (2 * (B + 1)))) as (P & HP); [apply Rdiv_lt_0_compat; lra|].
  exists (Z.max 1 P). intros m r prec Hp H1 H2. specialize (HP prec ltac:(lia)).
  assert (Hrnd : forall md v, Rabs (dyv v) <= B -> Rabs (dyv (dround md prec v) - dyv v) <= d).
  { intros md v Hv. destruct (dround_spec md prec v ltac:(lia)) as (_ & E & _). rewrite Rabs_minus_sym.
    replace (1 - prec)%Z with (1 + - prec)%Z in E by lia. rewrite pw2_add in E. change (pw2 1) with (2 ^ 1) in E. rewrite pow_1 in E.
    eapply Rle_trans; [exact E|]. pose proof (pw2_pos (- prec)).
    apply Rle_trans with ((B + 1) * (2 * (d / (2 * (B + 1))))); [apply Rmult_le_compat; try lra; apply Rabs_pos|]. right. field. lra. }
  exists (dround RFloor prec (dsub m r)), (dround RCeil prec (dadd m r)). split; [reflexivity|].
  split; [rewrite <- dyv_sub|rewrite <- dyv_add]; apply Hrnd; [rewrite dyv_sub|rewrite dyv_add]; assumption.
Qed.

(** Opposite signs on both sides of a simple root. *)
Lemma sides : forall p x L R, simple_root p x -> L < x < R -> (forall y, L <= y <= R -> zeval p y = 0 -> y = x) -> zeval p L * zeval p R < 0.
Proof.
  intros p x L R Hs Hx Ho.
  assert (NL : zeval p L <> 0) by (intros E; apply Ho in E; lra). assert (NR : zeval p R <> 0) by (intros E; apply Ho in E; lra).
  assert (Hon : only_root p L R x) by (split; [apply Hs|exact Ho]).
  set (m := (x + R) / 2). destruct (sign_sides p x L R Hs Hx Hon m ltac:(unfold m; lra) ltac:(unfold m; lra)) as [A _].
  assert (E : Rsgn (zeval p m) = Rsgn (zeval p R)).
  { apply sign_constant; [unfold m; lra|]. intros y Hy E. apply Ho in E; unfold m in Hy; lra. }
  destruct (Rtotal_order (zeval p L) 0) as [P|[P|P]]; [|contradiction|]; destruct (Rtotal_order (zeval p R) 0) as [Q|[Q|Q]]; try contradiction; try nra; exfalso.
  - rewrite E, (Rsgn_neg _ P), (Rsgn_neg _ Q) in A. specialize (A eq_refl). unfold m in A. lra.
  - rewrite E, (Rsgn_pos _ P), (Rsgn_pos _ Q) in A. specialize (A eq_refl). unfold m in A. lra.
Qed.

(** * Creation *)
Section Create.
Variables (o : arbops) (pol : list Z) (x : R).
Hypothesis Ho : arb_ok o.
Hypothesis Hrt : arb_rate o.
Hypothesis Hm : minimal pol x.
Hypothesis Hdeg : (3 <= length pol)%nat.
Hypothesis HS : simple_roots pol reals.

Definition made (r0 : R) (den prec : Z) (nf : renf) : Prop :=
  field_ok pol x (fun a => rad_le a r0) nf /\ f_den nf = den /\ f_prec nf = prec /\ f_imm nf = 0%Z /\ (prec <= rel_accuracy (f_emb nf))%Z.

(** Enclosures of radius at most [r0] holding the root at a distance of at least [mu] from the ends. *)
Lemma create_small : exists r0, 0 < r0 /\ (forall y, Rabs (y - x) <= 2 * r0 -> zeval pol y = 0 -> y = x) /\
  forall mu, 0 < mu -> exists P, forall debug den m r prec, (P <= prec)%Z ->
  mu <= x - (dyv m - dyv r) -> mu <= dyv m + dyv r - x -> dyv r <= r0 ->
  (exists f0, forall fuel, (f0 <= fuel)%nat -> check_unique o fuel pol (Fin m r) prec = Val true) /\
  answers (fun fuel => renf_init o debug fuel pol den (Fin m r) prec) (made r0 den prec) (word_overflow o pol (Fin m r)).
Proof.
  destruct (der_near pol x Hm) as (rho & Hrho & _ & Hder). pose proof (pol_near pol x Hm rho Hder) as Hpn.
  pose proof (Rabs_pos_lt _ (D_nonzero pol x Hm)) as HD.
  assert (Hsep0 : forall y, Rabs (y - x) <= rho -> zeval pol y = 0 -> y = x).
  { intros y Hy Zy. destruct (Hpn y Hy) as [A _]. rewrite Zy, Rabs_R0 in A. destruct (Req_dec y x) as [|Ny]; [assumption|exfalso].
    assert (0 < Rabs (y - x)) by (apply Rabs_pos_lt; lra).
    assert (0 < Rabs (D pol x) / 2 * Rabs (y - x)) by (apply Rmult_lt_0_compat; lra). lra. }
  destruct (small_balls_below o pol x Ho Hrt Hm Hdeg (rho / 4) ltac:(lra)) as (r0 & R0 & R1 & Hsafe & Hends).
  assert (Hsep : forall y, Rabs (y - x) <= 2 * r0 -> zeval pol y = 0 -> y = x) by (intros y Hy; apply Hsep0; lra).
  exists r0. split; [exact R0|]. split; [exact Hsep|]. intros mu Hmu.
  set (K := Rabs x + rho). pose proof (Rabs_pos x).
  destruct (interval_close K (rho / 4)) as (P2 & Hi); [unfold K; lra|lra|].
  destruct (check_wide o pol Ho Hrt (min_lead _ _ Hm) Hdeg HS (Rabs (D pol x) / 2 * mu) K) as (P1 & Hc); [apply Rmult_lt_0_compat; lra|unfold K; lra|].
  exists (Z.max 2 (Z.max P1 P2)). intros debug den m r prec HP M1 M2 Hr.
  assert (A1 : Rabs (dyv m - dyv r - x) <= rho / 2) by (apply Rabs_le; lra).
  assert (A2 : Rabs (dyv m + dyv r - x) <= rho / 2) by (apply Rabs_le; lra).
  assert (B1 : Rabs (dyv m - dyv r) <= K) by (pose proof (Rabs_triang_inv (dyv m - dyv r) x); unfold K; lra).
  assert (B2 : Rabs (dyv m + dyv r) <= K) by (pose proof (Rabs_triang_inv (dyv m + dyv r) x); unfold K; lra).
  destruct (Hi m r prec ltac:(lia) B1 B2) as (l & u & Ei & Hl & Hu).
  assert (Hxa : inb x (Fin m r)) by (apply inb_bounds; lra).
  assert (I1 : inb (dyv m - dyv r) (Fin m r)) by (apply inb_bounds; lra). assert (I2 : inb (dyv m + dyv r) (Fin m r)) by (apply inb_bounds; lra).
  destruct (interval_spec (Fin m r) prec l u _ ltac:(lia) Ei I1) as [Ol _]. destruct (interval_spec (Fin m r) prec l u _ ltac:(lia) Ei I2) as [_ Ou].
  apply Rabs_le_inv2 in Hl. apply Rabs_le_inv2 in Hu. apply Rabs_le_inv2 in A1. apply Rabs_le_inv2 in A2.
  assert (El : Rabs (dyv l - x) <= rho) by (apply Rabs_le; lra). assert (Eu : Rabs (dyv u - x) <= rho) by (apply Rabs_le; lra).
  assert (Fl : Rabs (dyv l - x) = x - dyv l) by (rewrite Rabs_left1; lra). assert (Fu : Rabs (dyv u - x) = dyv u - x) by (rewrite Rabs_pos_eq; lra).
  assert (Hon : forall y, dyv l <= y <= dyv u -> zeval pol y = 0 -> y = x).
  { intros y Hy. apply Hsep0. rewrite Fl in El. rewrite Fu in Eu. apply Rabs_le. lra. }
  assert (Hck : exists f0, forall fuel, (f0 <= fuel)%nat -> check_unique o fuel pol (Fin m r) prec = Val true).
  { apply (Hc (Fin m r) prec l u ltac:(lia) Ei).
    - pose proof (Rabs_triang_inv (dyv l) x). unfold K. lra.
    - pose proof (Rabs_triang_inv (dyv u) x). unfold K. lra.
    - eapply Rle_trans; [|apply (Hpn (dyv l) El)]. apply Rmult_le_compat_l; [lra|]. rewrite Fl. lra.
    - eapply Rle_trans; [|apply (Hpn (dyv u) Eu)]. apply Rmult_le_compat_l; [lra|]. rewrite Fu. lra.
    - apply (sides pol x); [apply (minimal_simple pol x Hm)|lra|exact Hon].
    - lra.
    - intros y z Hy Hz Zy Zz. rewrite (Hon y), (Hon z); [reflexivity|lra|exact Zz|lra|exact Zy]. }
  split; [exact Hck|]. destruct Hck as (f1 & Hf1).
  set (nf := {| f_pol := pol; f_den := den; f_emb := Fin m r; f_prec := prec; f_imm := 0 |}).
  assert (Hok : field_ok pol x (fun a => rad_le a r0) nf) by (repeat split; [exact Hxa|exact Hr|cbn; lia]).
  destruct (Hends debug) as [He Hd]. destruct (He nf prec Hok) as (f2 & res & Nf & Hf2).
  exists (Nat.max f1 f2), res.
  assert (L2 : Nat.eqb (length pol) 2 = false) by (apply Nat.eqb_neq; lia).
  split.
  { intros f Hf. unfold renf_init. rewrite Hf1 by lia. cbn [bind]. rewrite L2. apply Hf2. lia. }
  specialize (Hf2 f2 (Nat.le_refl _)). destruct (Hd f2 nf prec eq_refl Hxa Hr eq_refl) as [HA HU]. rewrite Hf2 in HA, HU.
  destruct res as [nf'| | |]; [|apply HU; reflexivity|contradiction|contradiction].
  destruct (refine_spec o Ho pol x _ Hsafe (minimal_simple pol x Hm) debug f2 nf prec nf' eq_refl Hxa Hr Hf2) as (A & B & C & (E1 & E2 & E3) & F).
  cbn in E1, E2, E3, F. split; [repeat split; [exact E1|exact A|exact B|rewrite E3; lia]|]. repeat split; assumption.
Qed.
End Create.
