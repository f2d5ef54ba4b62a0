(** Fields made with a callback: the precision is doubled until the test accepts. *)
Require Import Reals List ZArith Bool Lia Lra Ascii.
From Verif Require Import PolyR RootSpec RootModel ExtraModel ExtraProofs VcaProofs VcaTerm IsoProofs CountAll Dyadic DyadicProofs ArbModel ArbSpec ArbProofs FieldProofs
  RefineProofs ElemModel ElemSpec ElemProofs RateSpec EndsSpec EndsProofs RefineEnds DefSpec ToolsSpec ToolsIrred ToolsProofs StrModel CxxModel MakeModel
  CreateSpec CreateProofs CreateMain CallSpec.
Import ListNotations.
Open Scope R_scope.

(** ** The count ends on every interval *)
Lemma count_ends : forall pol l r, last pol 0%Z <> 0%Z -> (2 <= length pol)%nat -> dyv l < dyv r -> simple_roots pol reals ->
  exists f0 k, forall fuel, (f0 <= fuel)%nat -> num_real_roots_0_1 fuel (scale_0_1 pol (dy_fmpq l) (dy_fmpq r)) = Some k.
Proof.
  intros pol l r Hl0 L2 Hlt HS.
  destruct (dy_fmpq_spec l) as [Dl Vl]. destruct (dy_fmpq_spec r) as [Dr Vr].
  destruct (scale_0_1_spec pol (dy_fmpq l) (dy_fmpq r) Dl Dr ltac:(lra) Hl0 L2) as (c & Hc & Hv).
  rewrite Vl, Vr in Hv. set (q := scale_0_1 pol (dy_fmpq l) (dy_fmpq r)) in *.
  assert (Hsg : IZR (Z.sgn (last pol 0%Z)) <> 0).
  { intros H. apply eq_IZR in H. apply Hl0. lia. }
  assert (Hroot : forall y, zeval q y = 0 <-> zeval pol (dyv l + (dyv r - dyv l) * y) = 0).
  { intros y. specialize (Hv y). split; intros H.
    - rewrite H, Rmult_0_l in Hv. symmetry in Hv. apply Rmult_integral in Hv. tauto.
    - rewrite H, Rmult_0_r in Hv. apply Rmult_integral in Hv. destruct Hv; [assumption|lra]. }
  assert (Hq : nonzero q).
  { intros Hz0. apply (last_nonzero pol Hl0).
    assert (Hpz : forall y, zeval pol y = 0).
    { intros y. replace y with (dyv l + (dyv r - dyv l) * ((y - dyv l) / (dyv r - dyv l))) by (field; lra).
      apply Hroot. unfold zeval. apply peval_pzero. apply Forall_map. eapply Forall_impl; [|exact Hz0].
      intros b ->. reflexivity. }
    pose proof (peval_zero_interval (map IZR pol) 0 1 ltac:(lra)) as Hpi.
    assert (Hpz' : pzero (map IZR pol)) by (apply Hpi; intros; apply Hpz).
    unfold pzero in Hpz'. rewrite Forall_map in Hpz'. eapply Forall_impl; [|exact Hpz'].
    intros b Hb. apply eq_IZR. exact Hb. }
  assert (HSq : simple_roots q unit_cc).
  { apply (simple_roots_affine pol q (dyv r - dyv l) (dyv l) (c / IZR (Z.sgn (last pol 0%Z))) reals unit_cc).
    - lra.
    - intros H. apply Rmult_integral in H. destruct H as [H|H]; [lra|]. apply (Rinv_neq_0_compat _ Hsg H).
    - intros y. specialize (Hv y). replace ((dyv r - dyv l) * y + dyv l) with (dyv l + (dyv r - dyv l) * y) by ring.
      apply (Rmult_eq_reg_l (IZR (Z.sgn (last pol 0%Z)))); [|exact Hsg]. rewrite <- Hv. field. exact Hsg.
    - intros; exact I.
    - exact HS. }
  destruct (count_unit_correct q Hq HSq) as (f0 & roots & _ & Hf). exists f0, (length roots). exact Hf.
Qed.

Section Call.
Variables (o : arbops) (pol : list Z).
Hypothesis Ho : arb_ok o.
Hypothesis Hrt : arb_rate o.
Hypothesis Hi : irreducible pol.
Hypothesis Hl : last pol 0%Z <> 0%Z.
Hypothesis Hdeg : (3 <= length pol)%nat.

Lemma check_ends : forall m r prec x, (2 <= prec)%Z -> zeval pol x = 0 -> inb x (Fin m r) ->
  exists f0 b, forall fuel, (f0 <= fuel)%nat -> check_unique o fuel pol (Fin m r) prec = Val b.
Proof.
  intros m r prec x Hp Zx Hx. destruct (interval (Fin m r) prec) as [[l u]|] eqn:Ei; [|discriminate].
  destruct (interval_spec (Fin m r) prec l u x ltac:(lia) Ei Hx) as [Al Au].
  assert (Hlt : dyv l < dyv u).
  { destruct (Req_dec (dyv l) x) as [E|E]; [|lra]. exfalso. apply (irreducible_not_dyadic pol l Hi Hl Hdeg). rewrite E. exact Zx. }
  destruct (count_ends pol l u Hl ltac:(lia) Hlt) as (f0 & k & Hf).
  { apply irreducible_simple; [exact Hi|exact Hl|lia]. }
  exists f0, ((sgn2 (eval_arb o pol (bexact l) (2 * prec)) * sgn2 (eval_arb o pol (bexact u) (2 * prec)) =? -1)%Z &&
    (negb (contains_zero (eval_arb o (zderiv pol) (Fin m r) prec)) || Nat.eqb k 1)).
  intros fuel Hfu. destruct pol as [|c0 [|c1 [|c2 p']]] eqn:Epol; cbn [length] in Hdeg; try lia. rewrite <- Epol in *.
  unfold check_unique. rewrite Epol at 1. destruct (Z.ltb_spec prec 2) as [|_]; [lia|]. rewrite Ei.
  destruct (Z.eqb _ _); cbn [andb]; [|reflexivity]. destruct (negb _); cbn [orb]; [reflexivity|]. rewrite (Hf fuel Hfu). reflexivity.
Qed.

(** A ball with two roots is refused. *)
Lemma check_two : forall m r prec x y, (2 <= prec)%Z -> zeval pol x = 0 -> zeval pol y = 0 -> y <> x -> inb x (Fin m r) -> inb y (Fin m r) ->
  exists f0, forall fuel, (f0 <= fuel)%nat -> check_unique o fuel pol (Fin m r) prec = Val false.
Proof.
  intros m r prec x y Hp Zx Zy N Hx Hy. destruct (check_ends m r prec x Hp Zx Hx) as (f0 & [|] & H); [exfalso|exists f0; exact H].
  destruct (interval (Fin m r) prec) as [[l u]|] eqn:Ei; [|discriminate].
  destruct (check_unique_accepts o Ho f0 pol (Fin m r) prec l u Hl Hdeg (H f0 (Nat.le_refl _)) Ei (ex_intro _ x Hx)) as [_ U].
  apply N. apply U; assumption.
Qed.

(** ** Small balls *)

(** The test accepts when the root is not too close to the ends for the precision. *)
Lemma check_margin : forall x, zeval pol x = 0 -> exists r0 C P, 0 < r0 /\ 0 < C /\ forall m r prec, (P <= prec)%Z ->
  C * pw2 (- (2 * prec)) <= x - (dyv m - dyv r) -> C * pw2 (- (2 * prec)) <= dyv m + dyv r - x -> dyv r <= r0 ->
  exists f0, forall fuel, (f0 <= fuel)%nat -> check_unique o fuel pol (Fin m r) prec = Val true.
Proof.
  intros x Zx. assert (Hm : minimal pol x) by (apply irreducible_minimal; [exact Hi|exact Hl|lia|exact Zx]).
  destruct (der_near pol x Hm) as (rho & Hrho & _ & Hder). pose proof (pol_near pol x Hm rho Hder) as Hpn.
  pose proof (Rabs_pos_lt _ (D_nonzero pol x Hm)) as HD. set (D := Rabs (RefineEnds.D pol x)) in *.
  assert (Hsep0 : forall y, Rabs (y - x) <= rho -> zeval pol y = 0 -> y = x).
  { intros y Hy Zy. destruct (Hpn y Hy) as [A _]. rewrite Zy, Rabs_R0 in A. destruct (Req_dec y x) as [|Ny]; [assumption|exfalso].
    assert (0 < Rabs (y - x)) by (apply Rabs_pos_lt; lra).
    assert (0 < D / 2 * Rabs (y - x)) by (apply Rmult_lt_0_compat; lra). unfold D in *. lra. }
  set (K := Rabs x + rho). pose proof (Rabs_pos x).
  destruct (eval_rate o Ho Hrt pol K ltac:(unfold K; lra)) as (Ce & de & HC & Hde & Heval).
  destruct (pw2_neg_small de Hde) as (P1 & HP1). destruct (interval_close K (rho / 4)) as (P2 & Hc); [unfold K; lra|lra|].
  exists (rho / 4), (16 * Ce / D), (Z.max 2 (Z.max P1 P2)). split; [lra|]. split; [apply Rdiv_lt_0_compat; lra|].
  intros m r prec HP M1 M2 Hr. assert (Ht : pw2 (- (2 * prec)) < de) by (apply HP1; lia). set (t := pw2 (- (2 * prec))) in *. assert (T0 : 0 < t) by apply pw2_pos.
  set (mu := 16 * Ce / D * t) in *. assert (Hmu : 0 < mu) by (unfold mu; apply Rmult_lt_0_compat; [apply Rdiv_lt_0_compat; lra|exact T0]).
  set (B := D / 2 * mu). assert (HB : B = 8 * (Ce * t)) by (unfold B, mu; field; lra). assert (0 < Ce * t) by (apply Rmult_lt_0_compat; lra).
  assert (A1 : Rabs (dyv m - dyv r - x) <= rho / 2) by (apply Rabs_le; lra).
  assert (A2 : Rabs (dyv m + dyv r - x) <= rho / 2) by (apply Rabs_le; lra).
  assert (B1 : Rabs (dyv m - dyv r) <= K) by (pose proof (Rabs_triang_inv (dyv m - dyv r) x); unfold K; lra).
  assert (B2 : Rabs (dyv m + dyv r) <= K) by (pose proof (Rabs_triang_inv (dyv m + dyv r) x); unfold K; lra).
  destruct (Hc m r prec ltac:(lia) B1 B2) as (l & u & Ei & Hl' & Hu').
  assert (Hxa : inb x (Fin m r)) by (apply inb_bounds; lra).
  assert (I1 : inb (dyv m - dyv r) (Fin m r)) by (apply inb_bounds; lra). assert (I2 : inb (dyv m + dyv r) (Fin m r)) by (apply inb_bounds; lra).
  destruct (interval_spec (Fin m r) prec l u _ ltac:(lia) Ei I1) as [Ol _]. destruct (interval_spec (Fin m r) prec l u _ ltac:(lia) Ei I2) as [_ Ou].
  apply Rabs_le_inv2 in Hl'. apply Rabs_le_inv2 in Hu'. apply Rabs_le_inv2 in A1. apply Rabs_le_inv2 in A2.
  assert (El : Rabs (dyv l - x) <= rho) by (apply Rabs_le; lra). assert (Eu : Rabs (dyv u - x) <= rho) by (apply Rabs_le; lra).
  assert (Fl : Rabs (dyv l - x) = x - dyv l) by (rewrite Rabs_left1; lra). assert (Fu : Rabs (dyv u - x) = dyv u - x) by (rewrite Rabs_pos_eq; lra).
  assert (Hon : forall y, dyv l <= y <= dyv u -> zeval pol y = 0 -> y = x).
  { intros y Hy. apply Hsep0. rewrite Fl in El. rewrite Fu in Eu. apply Rabs_le. lra. }
  assert (Kl : Rabs (dyv l) <= K) by (pose proof (Rabs_triang_inv (dyv l) x); unfold K; lra).
  assert (Ku : Rabs (dyv u) <= K) by (pose proof (Rabs_triang_inv (dyv u) x); unfold K; lra).
  assert (Bl : B <= Rabs (zeval pol (dyv l))).
  { eapply Rle_trans; [|apply (Hpn (dyv l) El)]. unfold B. apply Rmult_le_compat_l; [lra|]. rewrite Fl. lra. }
  assert (Bu : B <= Rabs (zeval pol (dyv u))).
  { eapply Rle_trans; [|apply (Hpn (dyv u) Eu)]. unfold B. apply Rmult_le_compat_l; [lra|]. rewrite Fu. lra. }
  assert (Hneg : zeval pol (dyv l) * zeval pol (dyv u) < 0) by (apply (sides pol x); [apply (minimal_simple pol x Hm)|lra|exact Hon]).
  assert (Nl : zeval pol (dyv l) <> 0) by (intros E; rewrite E in Hneg; lra). assert (Nu : zeval pol (dyv u) <> 0) by (intros E; rewrite E in Hneg; lra).
  assert (Hev : forall v, Rabs (dyv v) <= K -> B <= Rabs (zeval pol (dyv v)) -> zeval pol (dyv v) <> 0 ->
    sgn2 (eval_arb o pol (bexact v) (2 * prec)) = Rsgn (zeval pol (dyv v))).
  { intros v Hv Bv Nv. assert (Iv : inb (dyv v) (bexact v)) by (apply inb_exact; reflexivity).
    pose proof (eval_arb_ok o Ho pol (bexact v) (dyv v) (2 * prec) ltac:(lia) Iv) as Ev.
    assert (Cz : contains_zero (eval_arb o pol (bexact v) (2 * prec)) = false).
    { apply (small_nonzero _ (zeval pol (dyv v)) Nv Ev). apply (rad_le_mono _ (Ce * (0 + t))).
      - rewrite Rplus_0_l. lra.
      - apply (Heval (bexact v) (dyv v) 0 (2 * prec)%Z); [lia|fold t; lra|exact Iv|exact Hv| |lra]. cbn. rewrite dyv_dz. simpl. lra. }
    unfold sgn2. rewrite Cz. apply (contains_zero_false _ _ Cz Ev). }
  pose proof (Hev l Kl Bl Nl) as Sl. pose proof (Hev u Ku Bu Nu) as Su.
  assert (Hprod : (Rsgn (zeval pol (dyv l)) * Rsgn (zeval pol (dyv u)) = -1)%Z).
  { destruct (Rtotal_order (zeval pol (dyv l)) 0) as [A|[A|A]]; [|contradiction|].
    - rewrite (Rsgn_neg (zeval pol (dyv l)) A), (Rsgn_pos (zeval pol (dyv u))); [reflexivity|nra].
    - rewrite (Rsgn_pos (zeval pol (dyv l)) A), (Rsgn_neg (zeval pol (dyv u))); [reflexivity|nra]. }
  assert (U : exists! y, dyv l <= y < dyv u /\ zeval pol y = 0).
  { exists x. split; [split; [lra|exact Zx]|]. intros y [Hy Zy]. symmetry. apply Hon; [lra|exact Zy]. }
  destruct (count_is_one pol l u Hl ltac:(lia) ltac:(lra) (irreducible_simple pol Hi Hl ltac:(lia)) U) as (f0 & Hf). exists f0. intros fuel Hfu.
  destruct pol as [|c0 [|c1 [|c2 p']]] eqn:Epol; cbn [length] in Hdeg; try lia. rewrite <- Epol in *.
  unfold check_unique. rewrite Epol at 1. destruct (Z.ltb_spec prec 2) as [|_]; [lia|]. rewrite Ei. rewrite Sl, Su, Hprod.
  cbn [Z.eqb Pos.eqb]. destruct (negb _); [reflexivity|]. rewrite (Hf fuel Hfu). reflexivity.
Qed.

(** Once accepted, small balls are refined. *)
Lemma init_accepted : forall x, zeval pol x = 0 -> exists r0, 0 < r0 /\ forall debug den m r prec, (2 <= prec)%Z -> inb x (Fin m r) -> dyv r <= r0 ->
  (exists f0, forall fuel, (f0 <= fuel)%nat -> check_unique o fuel pol (Fin m r) prec = Val true) ->
  answers (fun fuel => renf_init o debug fuel pol den (Fin m r) prec) (embedded pol den x prec) (word_overflow o pol (Fin m r)).
Proof.
  intros x Zx. assert (Hm : minimal pol x) by (apply irreducible_minimal; [exact Hi|exact Hl|lia|exact Zx]).
  destruct (create_small o pol x Ho Hrt Hm Hdeg (minimal_simple_roots pol x Hm)) as (r1 & R1 & Hsep & _).
  destruct (small_balls_below o pol x Ho Hrt Hm Hdeg r1 R1) as (r0 & R0 & R01 & Hsafe & Hends).
  exists r0. split; [exact R0|]. intros debug den m r prec Hp Hxa Hr (f1 & Hf1).
  set (nf := {| f_pol := pol; f_den := den; f_emb := Fin m r; f_prec := prec; f_imm := 0 |}).
  assert (Hok : field_ok pol x (fun a => rad_le a r0) nf) by (repeat split; [exact Hxa|exact Hr|cbn; lia]).
  destruct (Hends debug) as [He Hd]. destruct (He nf prec Hok) as (f2 & res & Nf & Hf2).
  exists (Nat.max f1 f2), res.
  assert (L2 : Nat.eqb (length pol) 2 = false) by (apply Nat.eqb_neq; lia).
  split.
  { intros f Hf. unfold renf_init. rewrite Hf1 by lia. cbn [bind]. rewrite L2. apply Hf2. lia. }
  specialize (Hf2 f2 (Nat.le_refl _)). destruct (Hd f2 nf prec eq_refl Hxa Hr eq_refl) as [HA HU]. rewrite Hf2 in HA, HU.
  destruct res as [nf'| | |]; [|apply HU; reflexivity|contradiction|contradiction].
  destruct (refine_spec o Ho pol x _ Hsafe (minimal_simple pol x Hm) debug f2 nf prec nf' eq_refl Hxa Hr Hf2) as (A & B & C & (E1 & E2 & E3) & F).
  cbn in E1, E2, E3, F. apply (made_embedded pol x r0); [intros y Hy; apply Hsep; lra|].
  split; [repeat split; [exact E1|exact A|exact B|rewrite E3; lia]|]. repeat split; assumption.
Qed.
End Call.

(** ** The loop *)
Lemma make_callback : forall o zd read, arb_ok o -> arb_rate o ->
  forall pol x, irreducible pol -> last pol 0%Z <> 0%Z -> (3 <= length pol)%nat -> zeval pol x = 0 ->
  exists w C P, 0 < w /\ 0 < C /\ forall minpoly gen p emb p0 k ball_at, set_str zd gen minpoly = Val (Some p) -> e_num p = pol ->
  (2 <= p0)%Z ->
  (P <= p0 * 2 ^ Z.of_nat k)%Z -> closing_in read emb pol x w C p0 k ball_at ->
  forall debug n, (k < n)%nat ->
  answers (fun fuel => make_loop o debug zd read fuel n minpoly gen emb p0)
    (fun res => snd res = O /\ exists j nf, (j <= k)%nat /\ fst res = Ret nf /\ embedded pol (e_den p) x (p0 * 2 ^ Z.of_nat j) nf)
    ((exists j, (j <= k)%nat /\ word_overflow o pol (ball_at j)) \/ (WORD_MAX < p0 * 2 ^ Z.of_nat k)%Z).
Proof.
  intros o zd read Ho Hrt pol x Hi Hl Hdeg Zx.
  destruct (check_margin o pol Ho Hrt Hi Hl Hdeg x Zx) as (r1 & C & P & R1 & HC & Hacc).
  destruct (init_accepted o pol Ho Hrt Hi Hl Hdeg x Zx) as (r2 & R2 & Hinit).
  destruct (below2 r1 r2 R1 R2) as (w & W0 & W1 & W2).
  exists w, C, P. split; [exact W0|]. split; [exact HC|].
  intros minpoly gen p emb p0 k. revert p0. induction k as [|k IH]; intros p0 ball_at Es Ep Hp0 HP (Hb & Hw & Hmar) debug n Hn; (destruct n as [|n]; [lia|]).
  - change (p0 * 2 ^ Z.of_nat 0)%Z with (p0 * 1)%Z in *. rewrite Z.mul_1_r in *.
    destruct (Hb 0%nat (Nat.le_refl _)) as (s & E1 & E2 & F0 & Hx & _). change (p0 * 2 ^ Z.of_nat 0)%Z with (p0 * 1)%Z in *. rewrite Z.mul_1_r in *.
    destruct (ball_at 0%nat) as [m r|] eqn:Eb; [|discriminate]. cbn in Hw.
    set (mu := C * pw2 (- (2 * p0))) in *. assert (Hmu : 0 < mu) by (apply Rmult_lt_0_compat; [exact HC|apply pw2_pos]).
    assert (I1 : inb (x - mu) (Fin m r)) by (apply Hmar; replace (x - mu - x) with (- mu) by ring; rewrite Rabs_Ropp, Rabs_pos_eq; lra).
    assert (I2 : inb (x + mu) (Fin m r)) by (apply Hmar; replace (x + mu - x) with mu by ring; rewrite Rabs_pos_eq; lra).
    apply inb_bounds in I1. apply inb_bounds in I2.
    destruct (Hacc m r p0 HP) as (f1 & Hc); [fold mu; lra|fold mu; lra|lra|].
    destruct (Hinit debug (e_den p) m r p0 Hp0 Hx ltac:(lra) (ex_intro _ f1 Hc)) as (f2 & res & Hf & Hres).
    exists (Nat.max f1 f2), (bind res (fun nf => Val (Ret nf, O))). split.
    + intros f Hm. cbn [make_loop]. rewrite Es. cbn [bind]. rewrite E1. destruct (Z.ltb_spec p0 2); [lia|]. rewrite E2, Ep, Hc by lia. cbn [bind].
      rewrite Hf by lia. reflexivity.
    + destruct res as [nf| | |]; cbn [bind]; try contradiction.
      * split; [reflexivity|]. exists 0%nat, nf. change (p0 * 2 ^ Z.of_nat 0)%Z with (p0 * 1)%Z. rewrite Z.mul_1_r. repeat split; try lia; apply Hres.
      * left. exists 0%nat. rewrite Eb. split; [lia|exact Hres].
  - assert (Epow : forall j, (p0 * 2 ^ Z.of_nat (S j) = 2 * p0 * 2 ^ Z.of_nat j)%Z).
    { intros j. rewrite Nat2Z.inj_succ, Z.pow_succ_r by lia. ring. }
    specialize (IH (2 * p0)%Z (fun j => ball_at (S j)) Es Ep ltac:(lia)).
    rewrite Epow in HP, Hmar |- *.
    assert (Hb' : forall j, (j <= k)%nat -> exists s, emb (2 * p0 * 2 ^ Z.of_nat j)%Z = Ret s /\ read s (2 * p0 * 2 ^ Z.of_nat j)%Z = Some (ball_at (S j)) /\
      is_finite (ball_at (S j)) = true /\ inb x (ball_at (S j)) /\ (rad_le (ball_at (S j)) w \/ exists y, inb y (ball_at (S j)) /\ zeval pol y = 0 /\ y <> x)).
    { intros j Hj. destruct (Hb (S j) ltac:(lia)) as (s & H). rewrite Epow in H. exists s. exact H. }
    specialize (IH HP (conj Hb' (conj Hw Hmar)) debug n ltac:(lia)).
    destruct (Hb 0%nat ltac:(lia)) as (s & E1 & E2 & F0 & Hx & Hsm). change (p0 * 2 ^ Z.of_nat 0)%Z with (p0 * 1)%Z in *. rewrite Z.mul_1_r in *.
    assert (M2 : (2 * p0 <= 2 * p0 * 2 ^ Z.of_nat k)%Z) by (pose proof (Z.pow_pos_nonneg 2 (Z.of_nat k) ltac:(lia) ltac:(lia)); nia).
    destruct (ball_at 0%nat) as [m r|] eqn:Eb; [|discriminate].
    assert (Hcase : (exists f1, forall fuel, (f1 <= fuel)%nat -> check_unique o fuel pol (Fin m r) p0 = Val false) \/
      (dyv r <= w /\ exists f1, forall fuel, (f1 <= fuel)%nat -> check_unique o fuel pol (Fin m r) p0 = Val true)).
    { destruct Hsm as [Hsm|(y & Hy & Zy & Ny)]; [|left; apply (check_two o pol Ho Hi Hl Hdeg m r p0 x y); assumption].
      destruct (check_ends o pol Hi Hl Hdeg m r p0 x Hp0 Zx Hx) as (f1 & [|] & Hf); [right; split; [exact Hsm|exists f1; exact Hf]|left; exists f1; exact Hf]. }
    destruct Hcase as [(f1 & Hc)|(Hr & f1 & Hc)].
    + destruct (Z.ltb_spec WORD_MAX (2 * p0)) as [Hov|Hov].
      { exists f1, Undef. split; [|right; lia]. intros f Hm. cbn [make_loop]. rewrite Es. cbn [bind]. rewrite E1. destruct (Z.ltb_spec p0 2); [lia|].
        rewrite E2, Ep, Hc by lia. cbn [bind]. destruct (Z.ltb_spec WORD_MAX (2 * p0)); [reflexivity|lia]. }
      destruct IH as (f2 & res & Hf & Hres). exists (Nat.max f1 f2), res. split.
      * intros f Hm. cbn [make_loop]. rewrite Es. cbn [bind]. rewrite E1. destruct (Z.ltb_spec p0 2); [lia|]. rewrite E2, Ep, Hc by lia. cbn [bind].
        destruct (Z.ltb_spec WORD_MAX (2 * p0)); [lia|]. apply Hf. lia.
      * destruct res as [v| | |]; try contradiction.
        -- destruct Hres as (A & j & nf & Hj & B & D). split; [exact A|]. exists (S j), nf. rewrite Epow. split; [lia|]. split; assumption.
        -- destruct Hres as [(j & Hj & D)|D]; [left; exists (S j); split; [lia|exact D]|right; exact D].
    + destruct (Hinit debug (e_den p) m r p0 Hp0 Hx ltac:(lra) (ex_intro _ f1 Hc)) as (f2 & res & Hf & Hres).
      exists (Nat.max f1 f2), (bind res (fun nf => Val (Ret nf, O))). split.
      * intros f Hm. cbn [make_loop]. rewrite Es. cbn [bind]. rewrite E1. destruct (Z.ltb_spec p0 2); [lia|]. rewrite E2, Ep, Hc by lia. cbn [bind].
        rewrite Hf by lia. reflexivity.
      * destruct res as [nf| | |]; cbn [bind]; try contradiction.
        -- split; [reflexivity|]. exists 0%nat, nf. change (p0 * 2 ^ Z.of_nat 0)%Z with (p0 * 1)%Z. rewrite Z.mul_1_r. repeat split; try lia; apply Hres.
        -- left. exists 0%nat. rewrite Eb. split; [lia|exact Hres].
Qed.
