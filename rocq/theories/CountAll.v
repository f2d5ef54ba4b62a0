(** The Descartes upper bound on the number of real roots (C07) and the number
    of slots used by the isolation (C08); termination of the isolation. *)
Require Import Reals List Lra Lia ZArith Bool Sorting.
From Verif Require Import PolyR SignVar RootModel DescartesProofs RootSpec VcaProofs VcaTerm IsoProofs IsoAll.
Import ListNotations.
Open Scope R_scope.

(** The value of [descartes01] with the bound used by descartes_bound.c. *)
Lemma desc_part_value : forall flog0 p, p <> [] ->
  desc_part flog0 p = DCount (match root_bound flog0 p with None => 0%nat
                              | Some k => var (tc (length p) (scale2 k p)) end).
Proof.
  intros flog0 p Hp. unfold desc_part. destruct (root_bound flog0 p) as [k|]; [|reflexivity].
  assert (Hl : length (scale2 k p) = length p) by apply scale2_length.
  rewrite descartes01_var; [|intros E; rewrite E in Hl; destruct p; [congruence|discriminate]|lia].
  pose proof (tc_length_var (scale2 k p)) as Hv. rewrite Hl in *. apply capped_stop; lia.
Qed.

Lemma upper_bound_value : forall flog0 pol, nonzero pol ->
  let '(i0, p) := low_zeros pol in
  num_real_roots_upper_bound flog0 pol =
    CVal (i0 + (match root_bound flog0 p with None => 0%nat
                              | Some k => var (tc (length p) (scale2 k p)) end)
             + (match root_bound flog0 (flip p) with None => 0%nat
                              | Some k => var (tc (length p) (scale2 k (flip p))) end)).
Proof.
  intros flog0 pol HP. destruct (low_zeros pol) as [i0 p] eqn:EL. unfold num_real_roots_upper_bound.
  destruct (forallb (Z.eqb 0) pol) eqn:Ez.
  { exfalso. apply HP. rewrite forallb_forall in Ez. apply Forall_forall. intros a Ha.
    symmetry. apply Z.eqb_eq. apply Ez. exact Ha. }
  rewrite EL. destruct (low_zeros_spec pol i0 p EL) as (_ & Hne & _). destruct (Hne HP) as [Hp _].
  destruct (flip_spec p) as [Hfl _].
  rewrite (desc_part_value flog0 p Hp), (desc_part_value flog0 (flip p)).
  - rewrite Hfl. reflexivity.
  - intros E. rewrite E in Hfl. destruct p; [congruence|discriminate].
Qed.

(** * C07 *)
Lemma filter_linprod : forall (f : R -> bool) rs x,
  linprod rs x = linprod (filter f rs) x * linprod (filter (fun r => negb (f r)) rs) x.
Proof.
  intros f rs x. induction rs as [|r rs IH]; simpl; [ring|]. destruct (f r); simpl; rewrite IH; ring.
Qed.
Lemma filter_length_split : forall (f : R -> bool) (rs : list R),
  length rs = (length (filter f rs) + length (filter (fun r => negb (f r)) rs))%nat.
Proof. intros f rs. induction rs as [|r rs IH]; simpl; [reflexivity|]. destruct (f r); simpl; lia. Qed.

Lemma positive_roots_count : forall flog0 p rs q, zeval p 0 <> 0 -> good_bound flog0 p ->
  (forall r, In r rs -> 0 < r) -> (forall x, zeval p x = linprod rs x * peval q x) ->
  (length rs <= match root_bound flog0 p with None => 0 | Some k => var (tc (length p) (scale2 k p)) end)%nat.
Proof.
  intros flog0 p rs q H0 Hg Hpos E.
  assert (Hr : forall r, In r rs -> zeval p r = 0).
  { intros r Hr. rewrite E. apply linprod_zero in Hr. rewrite Hr. ring. }
  unfold good_bound in Hg. destruct (root_bound flog0 p) as [k|].
  - destruct (scale2_eval k p) as (l & Hl & Es).
    pose proof (pw2_pos k) as Hk. pose proof (pw2_inv k) as Hki.
    set (s := pw2 k) in *. set (t := pw2 (- k)) in *. assert (Ht : 0 < t) by apply pw2_pos.
    rewrite <- (map_length (Rmult t) rs). rewrite <- (scale2_length k p) at 1.
    destruct (compose_affine q s 0) as [q' Hq'].
    assert (Hnz : nonzero p) by (apply nonzero_iff; exists 0; exact H0).
    apply (tc_roots (scale2 k p) (map (Rmult t) rs) (pscal (/ l * s ^ length rs) q')).
    + apply scale2_nonzero. exact Hnz.
    + intros r Hin. apply in_map_iff in Hin. destruct Hin as (r' & <- & Hin).
      pose proof (Hpos r' Hin). pose proof (Hg r' H (Hr r' Hin)). split; [nra|]. nra.
    + intros x. rewrite peval_pscal, Hq'. replace (s * x + 0) with (s * x) by ring.
      assert (E1 : linprod (map (Rmult t) rs) x * s ^ length rs = linprod rs (s * x)).
      { replace x with (t * (s * x)) at 1 by (replace (t * (s * x)) with (t * s * x) by ring; rewrite Hki; ring).
        rewrite linprod_scale.
        replace (t ^ length rs * linprod rs (s * x) * s ^ length rs) with ((t ^ length rs * s ^ length rs) * linprod rs (s * x)) by ring.
        rewrite <- Rpow_mult_distr, Hki, pow1. ring. }
      replace (linprod (map (Rmult t) rs) x * (/ l * s ^ length rs * peval q (s * x)))
        with (/ l * ((linprod (map (Rmult t) rs) x * s ^ length rs) * peval q (s * x))) by ring.
      rewrite E1, <- E, Es. field. lra.
  - destruct rs as [|r rs]; [simpl; lia|exfalso].
    apply (Hg r); [apply Hpos; left; reflexivity|apply Hr; left; reflexivity].
Qed.

Lemma pow_list : forall n, exists A, forall x, peval A x = x ^ n.
Proof.
  induction n as [|n [A HA]]; [exists [1]; intros; simpl; ring|]. exists (0 :: A). intros x. simpl. rewrite HA. ring.
Qed.

Theorem upper_bound_correct : forall flog0 pol, nonzero pol ->
  good_bound flog0 (snd (low_zeros pol)) -> good_bound flog0 (flip (snd (low_zeros pol))) ->
  exists n, num_real_roots_upper_bound flog0 pol = CVal n /\
    forall rs, divides_out rs pol -> (length rs <= n)%nat.
Proof.
  intros flog0 pol HP G1 G2. pose proof (upper_bound_value flog0 pol HP) as EV.
  destruct (low_zeros pol) as [i0 p] eqn:EL. cbn [snd] in G1, G2.
  destruct (low_zeros_spec pol i0 p EL) as (E & Hne & _). destruct (Hne HP) as [Hp H0].
  destruct (flip_spec p) as [Hfl Hf].
  eexists. split; [exact EV|]. clear EV. intros rs (q & Eq).
  set (isp := fun r : R => if Rlt_dec 0 r then true else false).
  set (isn := fun r : R => if Rlt_dec r 0 then true else false).
  set (rp := filter isp rs). set (rn := filter isn (filter (fun r => negb (isp r)) rs)).
  set (rz := filter (fun r => negb (isn r)) (filter (fun r => negb (isp r)) rs)).
  assert (Hlen : length rs = (length rp + (length rn + length rz))%nat).
  { unfold rp, rn, rz. rewrite (filter_length_split isp rs) at 1. f_equal. apply filter_length_split. }
  assert (Hsplit : forall x, linprod rs x = linprod rp x * linprod rn x * linprod rz x).
  { intros x. unfold rp, rn, rz. rewrite (filter_linprod isp rs x). rewrite Rmult_assoc. f_equal. apply filter_linprod. }
  assert (Hrp : forall r, In r rp -> 0 < r).
  { intros r Hr. apply filter_In in Hr. destruct Hr as [_ Hr]. unfold isp in Hr. destruct (Rlt_dec 0 r); [assumption|discriminate]. }
  assert (Hrn : forall r, In r rn -> r < 0).
  { intros r Hr. apply filter_In in Hr. destruct Hr as [_ Hr]. unfold isn in Hr. destruct (Rlt_dec r 0); [assumption|discriminate]. }
  assert (Hrz : forall r, In r rz -> r = 0).
  { intros r Hr. apply filter_In in Hr. destruct Hr as [Hr1 Hr]. apply filter_In in Hr1. destruct Hr1 as [_ Hr1].
    unfold isn in Hr. unfold isp in Hr1. destruct (Rlt_dec r 0); [discriminate|]. destruct (Rlt_dec 0 r); [discriminate|]. lra. }
  destruct (linprod_list rp) as [Lp HLp]. destruct (linprod_list rn) as [Ln HLn].
  destruct (linprod_list rz) as [Lz HLz]. destruct (pow_list i0) as [A HA].
  assert (Hpz : ~ pzero (map IZR p)).
  { intros H. apply H0. unfold zeval. apply peval_pzero. exact H. }
  (* positive roots divide p *)
  destruct (linprod_cancel rp A (map IZR p) (pmul Ln (pmul Lz q))) as [q1 Hq1].
  { intros x. rewrite HA, !peval_pmul, HLn, HLz. fold (zeval p x). rewrite <- E, Eq, Hsplit. ring. }
  { intros r Hr. rewrite HA. apply pow_nonzero. pose proof (Hrp r Hr). lra. }
  { exact Hpz. }
  destruct (linprod_cancel rn A (map IZR p) (pmul Lp (pmul Lz q))) as [q2 Hq2].
  { intros x. rewrite HA, !peval_pmul, HLp, HLz. fold (zeval p x). rewrite <- E, Eq, Hsplit. ring. }
  { intros r Hr. rewrite HA. apply pow_nonzero. pose proof (Hrn r Hr). lra. }
  { exact Hpz. }
  pose proof (positive_roots_count flog0 p rp q1 H0 G1 Hrp Hq1) as C1.
  assert (C2 : (length rn <= match root_bound flog0 (flip p) with None => 0 | Some k => var (tc (length p) (scale2 k (flip p))) end)%nat).
  { rewrite <- Hfl. rewrite <- (map_length Ropp rn).
    destruct (compose_affine q2 (-1) 0) as [q2' Hq2'].
    apply (positive_roots_count flog0 (flip p) (map Ropp rn) (pscal ((-1) ^ length rn) q2')); [|exact G2| |].
    - rewrite Hf, Ropp_0. exact H0.
    - intros r Hr. apply in_map_iff in Hr. destruct Hr as (r' & <- & Hr). pose proof (Hrn r' Hr). lra.
    - intros x. rewrite Hf. unfold zeval. rewrite Hq2, peval_pscal, Hq2'.
      replace x with (- - x) at 3 by ring. rewrite linprod_opp. replace (-1 * x + 0) with (- x) by ring.
      replace ((-1) ^ length rn * linprod rn (- x) * ((-1) ^ length rn * peval q2 (- x)))
        with (((-1) ^ length rn * (-1) ^ length rn) * (linprod rn (- x) * peval q2 (- x))) by ring.
      rewrite <- Rpow_mult_distr. replace (-1 * -1) with 1 by ring. rewrite pow1. ring. }
  (* zero roots *)
  assert (C3 : (length rz <= i0)%nat).
  { destruct (le_lt_dec (length rz) i0) as [H|H]; [exact H|exfalso].
    assert (Erz : forall x, linprod rz x = x ^ length rz).
    { clear - Hrz. induction rz as [|r l IH]; intros x; [reflexivity|]. simpl.
      rewrite (Hrz r (or_introl eq_refl)), IH by (intros; apply Hrz; right; assumption). ring. }
    assert (Ez : forall x, zeval p x = x * peval (pmul A (pmul Lp (pmul Ln q))) x -> True) by auto.
    destruct (pow_list (length rz - i0 - 1)) as [B HB].
    assert (Hp' : forall x, peval (map IZR p) x = peval (0 :: pmul B (pmul Lp (pmul Ln q))) x).
    { apply (quotient_unique _ _ (repeat 0 i0)). intros x.
      assert (Er : linprod (repeat 0 i0) x = x ^ i0).
      { clear. induction i0; simpl; [reflexivity|]. rewrite IHi0. ring. }
      rewrite Er. fold (zeval p x). rewrite <- E, Eq, Hsplit, Erz.
      cbn [peval]. rewrite !peval_pmul, HB, HLp, HLn.
      replace (length rz) with (i0 + (1 + (length rz - i0 - 1)))%nat at 1 by lia.
      rewrite !pow_add. simpl. ring. }
    apply H0. unfold zeval. rewrite Hp'. simpl. ring. }
  lia.
Qed.

(** * C08 *)
Lemma isolates_total : forall p ex ints, nonzero p -> zeval p 0 <> 0 -> isolates p unit_co ex ints ->
  (length ex + length ints <= var (tc (length p) p))%nat.
Proof.
  intros p ex ints HP H0 HI.
  destruct (isolates_divides p ex ints HP HI) as (rs & Hr & (q & Eq) & Hlen & Hnd).
  destruct (iso_exact_mult _ _ _ _ HI) as (w & Ew & _).
  destruct (linprod_list (map dyv ex)) as [A HA].
  destruct (ints_roots p ints (iso_int_root _ _ _ _ HI)) as [rs' Hrs'].
  (* use rs' from the intervals so that they avoid the exact roots *)
  assert (Hlen' : length rs' = length ints) by (symmetry; apply (forall2_len _ _ _ _ _ Hrs')).
  assert (Hnd' : NoDup rs') by (apply (ints_roots_nodup p ints rs' (iso_int_sorted _ _ _ _ HI) Hrs')).
  assert (Hroot' : forall r, In r rs' -> 0 < r < 1 /\ zeval p r = 0 /\ ~ In r (map dyv ex)).
  { intros r Hin. destruct (forall2_in_r _ _ _ _ _ Hrs' _ Hin) as (e & He & [H1 H2]).
    split; [|split; [exact H2|]].
    - pose proof (iso_int_dom _ _ _ _ HI e r He H1) as Hd. unfold unit_co in Hd.
      destruct (Req_dec r 0) as [->|]; [contradiction|lra].
    - intros Hex. apply in_map_iff in Hex. destruct Hex as (d & Hd1 & Hd2). subst r.
      apply (iso_exclusive _ _ _ _ HI d e Hd2 He H1). }
  assert (Hwz : ~ pzero w).
  { intros Hz. apply H0. rewrite Ew, (peval_pzero w 0 Hz). ring. }
  assert (Hw : exists q3, forall x, peval w x = linprod rs' x * peval q3 x).
  { assert (Hwr : forall r, In r rs' -> peval w r = 0).
    { intros r Hin. destruct (Hroot' r Hin) as (_ & H1 & H2). rewrite Ew in H1. apply Rmult_integral in H1.
      destruct H1 as [H1|H1]; [|exact H1]. exfalso. apply H2. apply linprod_zero. exact H1. }
    clear - Hwr Hnd' Hwz. induction Hnd' as [|r l Hr Hn IH].
    - exists w. intros; simpl; ring.
    - destruct IH as [q Hq]; [intros; apply Hwr; right; assumption|].
      assert (Hqr : peval q r = 0).
      { specialize (Hwr r (or_introl eq_refl)). rewrite Hq in Hwr. apply Rmult_integral in Hwr.
        destruct Hwr as [Hz|Hz]; [|exact Hz]. apply linprod_zero in Hz. contradiction. }
      destruct (le_lt_dec 2 (length q)) as [Hl|Hl].
      + exists (pquot r q). intros x. rewrite Hq. simpl.
        pose proof (factor_list q r Hl Hqr) as Hf. rewrite <- Hf at 1. rewrite peval_plin. ring.
      + exfalso. apply Hwz. apply (peval_zero_interval _ 0 1); [lra|]. intros x _. rewrite Hq.
        assert (peval q x = 0); [|nra].
        destruct q as [|a [|b q]]; simpl in Hl, Hqr |- *; try lra; lia. }
  destruct Hw as [q3 Hq3].
  rewrite <- Hlen', <- (map_length dyv ex), <- app_length.
  apply (tc_roots p (map dyv ex ++ rs') q3 HP).
  - intros r Hin. apply in_app_or in Hin. destruct Hin as [Hin|Hin]; [|apply Hroot'; exact Hin].
    apply in_map_iff in Hin. destruct Hin as (d & <- & Hd). destruct (iso_exact_root _ _ _ _ HI d Hd) as [H1 H2].
    unfold unit_co in H1. destruct (Req_dec (dyv d) 0) as [Ez|]; [rewrite Ez in H2; contradiction|lra].
  - intros x. rewrite Ew, Hq3, linprod_app. ring.
Qed.

Theorem slots_sufficient : forall flog0 f pol ex ints, nonzero pol ->
  isolate flog0 f pol = VDone ex ints ->
  exists n, num_real_roots_upper_bound flog0 pol = CVal n /\ (length ex + length ints <= n)%nat.
Proof.
  intros flog0 f pol ex ints HP EI.
  pose proof (upper_bound_value flog0 pol HP) as EV. unfold isolate in EI.
  destruct (forallb (Z.eqb 0) pol); [discriminate|].
  destruct (low_zeros pol) as [i0 p] eqn:EL.
  destruct (low_zeros_spec pol i0 p EL) as (_ & Hne & _). destruct (Hne HP) as [Hp H0].
  destruct (flip_spec p) as [Hfl Hf].
  assert (H0' : zeval (flip p) 0 <> 0) by (rewrite Hf, Ropp_0; exact H0).
  eexists. split; [exact EV|]. clear EV.
  assert (Hpart : forall p k ex ints, zeval p 0 <> 0 -> vca f (scale2 k p) [] [] = VDone ex ints ->
     (length ex + length ints <= var (tc (length p) (scale2 k p)))%nat).
  { clear. intros p k ex ints H0 E.
    assert (Hnz : nonzero (scale2 k p)) by (apply scale2_nonzero; apply nonzero_iff; exists 0; exact H0).
    pose proof (vca_correct f (scale2 k p) Hnz) as HC. rewrite E in HC.
    rewrite <- (scale2_length k p) at 1. apply isolates_total; [exact Hnz| |exact HC].
    destruct (scale2_eval k p) as (l & Hl & Es). specialize (Es 0). rewrite Rmult_0_r in Es.
    intros Hz. apply H0. rewrite Es, Hz. ring. }
  assert (Hneg : forall nex nints,
    match root_bound flog0 (flip p) with
      | None => VDone [] []
      | Some k =>
          match vca f (scale2 k (flip p)) [] [] with
          | VDone ex ints =>
              VDone (rev (map (fun d => dy_shift k (dy_opp d)) ex))
                    (rev (map (fun d => dy_shift k (int_opp d)) ints))
          | r => r
          end
      end = VDone nex nints ->
    (length nex + length nints <= match root_bound flog0 (flip p) with None => 0%nat
                              | Some k => var (tc (length p) (scale2 k (flip p))) end)%nat).
  { intros nex nints E. destruct (root_bound flog0 (flip p)) as [k|].
    - destruct (vca f (scale2 k (flip p)) [] []) as [e i| | |] eqn:EV; try discriminate.
      inversion E; subst. rewrite !rev_length, !map_length. rewrite <- Hfl. apply Hpart; assumption.
    - inversion E; subst. simpl. lia. }
  match type of EI with match ?m with _ => _ end = _ => destruct m as [nex nints| | |] eqn:EN; try discriminate end.
  pose proof (Hneg nex nints eq_refl) as HL.
  destruct (root_bound flog0 p) as [k|].
  - destruct (vca f (scale2 k p) [] []) as [pex pints| | |] eqn:EV; try discriminate.
    inversion EI; subst. rewrite !app_length, repeat_length, !map_length.
    pose proof (Hpart p k pex pints H0 EV). lia.
  - inversion EI; subst. rewrite app_length, repeat_length. lia.
Qed.

(** * Termination of the isolation of all roots *)
Lemma simple_roots_affine : forall p q s c l (dom dom' : R -> Prop), s <> 0 -> l <> 0 ->
  (forall x, zeval p (s * x + c) = l * zeval q x) -> (forall x, dom' x -> dom (s * x + c)) ->
  simple_roots p dom -> simple_roots q dom'.
Proof.
  intros p q s c l dom dom' Hs Hl E Hd HS x Hx H0 H1.
  apply (HS (s * x + c)); [apply Hd; exact Hx|rewrite E, H0; ring|].
  assert (D1 : derivable_pt_lim (fun z => s * z + c) x s).
  { intros eps He. exists (mkposreal 1 Rlt_0_1). intros h Hh _.
    replace ((s * (x + h) + c - (s * x + c)) / h - s) with 0 by (field; exact Hh). rewrite Rabs_R0. exact He. }
  pose proof (derivable_pt_lim_comp (fun z => s * z + c) (peval (map IZR p)) x s _ D1
    (peval_derivable_lim (map IZR p) (s * x + c))) as D2.
  pose proof (derivable_pt_lim_scal (peval (map IZR q)) l x _ (peval_derivable_lim (map IZR q) x)) as D3.
  assert (D4 : derivable_pt_lim (mult_real_fct l (peval (map IZR q))) x (peval (pderiv (map IZR p)) (s * x + c) * s)).
  { intros eps He. destruct (D2 eps He) as [d Hdl]. exists d. intros h Hh Hhd. specialize (Hdl h Hh Hhd).
    unfold comp in Hdl. unfold mult_real_fct. fold (zeval q (x + h)). fold (zeval q x).
    rewrite <- !E. exact Hdl. }
  pose proof (uniqueness_limite _ _ _ _ D3 D4) as U. rewrite H1, Rmult_0_r in U.
  symmetry in U. apply Rmult_integral in U. destruct U; [assumption|contradiction].
Qed.

Lemma simple_roots_low : forall pol p n, (forall x, zeval pol x = x ^ n * zeval p x) ->
  simple_roots pol reals -> simple_roots p reals.
Proof.
  intros pol p n E HS x _ H0 H1.
  destruct (pow_list n) as [A HA].
  apply (HS x I); [rewrite E, H0; ring|].
  assert (D1 : derivable_pt_lim (fun z => peval A z * peval (map IZR p) z) x
             (peval (pderiv A) x * peval (map IZR p) x + peval A x * peval (pderiv (map IZR p)) x)).
  { apply derivable_pt_lim_mult with (f1 := peval A) (f2 := peval (map IZR p)); apply peval_derivable_lim. }
  assert (D3 : derivable_pt_lim (peval (map IZR pol)) x
             (peval (pderiv A) x * peval (map IZR p) x + peval A x * peval (pderiv (map IZR p)) x)).
  { intros eps He. destruct (D1 eps He) as [d Hd]. exists d. intros h Hh Hhd.
    fold (zeval pol (x + h)). fold (zeval pol x). rewrite !E, <- !HA. apply Hd; assumption. }
  rewrite (uniqueness_limite _ _ _ _ (peval_derivable_lim (map IZR pol) x) D3).
  fold (zeval p x). rewrite H0, H1. ring.
Qed.

Theorem isolate_terminates : forall flog0 pol, nonzero pol -> simple_roots pol reals ->
  exists f0, forall f, (f0 <= f)%nat -> exists ex ints, isolate flog0 f pol = VDone ex ints.
Proof.
  intros flog0 pol HP HS.
  destruct (low_zeros pol) as [nz p] eqn:EL.
  destruct (low_zeros_spec pol nz p EL) as (E & Hne & _). destruct (Hne HP) as [_ H0].
  destruct (flip_spec p) as [_ Hf].
  pose proof (simple_roots_low pol p nz E HS) as HSp.
  assert (HSf : simple_roots (flip p) reals).
  { apply (simple_roots_affine p (flip p) (-1) 0 1 reals reals); try lra; [|intros; exact I|exact HSp].
    intros x. rewrite Hf. replace (-1 * x + 0) with (- x) by ring. ring. }
  assert (Hnz : nonzero p) by (apply nonzero_iff; exists 0; exact H0).
  assert (Hfz : nonzero (flip p)) by (apply flip_nonzero; exact Hnz).
  assert (Hpart : forall k r, nonzero r -> simple_roots r reals ->
     exists f0, forall f, (f0 <= f)%nat -> exists ex ints, vca f (scale2 k r) [] [] = VDone ex ints).
  { intros k r Hr HSr. apply vca_terminates; [apply scale2_nonzero; exact Hr|].
    destruct (scale2_eval k r) as (l & Hl & Es).
    apply (simple_roots_affine r (scale2 k r) (pw2 k) 0 l reals unit_cc); [apply pw2_neq|lra| |intros; exact I|exact HSr].
    intros x. rewrite Rplus_0_r. apply Es. }
  assert (Hopt : forall r, nonzero r -> simple_roots r reals -> exists f0, forall f, (f0 <= f)%nat ->
     match root_bound flog0 r with None => True | Some k => exists ex ints, vca f (scale2 k r) [] [] = VDone ex ints end).
  { intros r Hr HSr. destruct (root_bound flog0 r) as [k|]; [apply Hpart; assumption|]. exists 0%nat. auto. }
  destruct (Hopt p Hnz HSp) as [f1 H1]. destruct (Hopt (flip p) Hfz HSf) as [f2 H2].
  exists (Nat.max f1 f2). intros f Hfm. specialize (H1 f ltac:(lia)). specialize (H2 f ltac:(lia)).
  unfold isolate. destruct (forallb (Z.eqb 0) pol) eqn:Ez.
  { exfalso. apply HP. rewrite forallb_forall in Ez. apply Forall_forall. intros a Ha.
    symmetry. apply Z.eqb_eq. apply Ez. exact Ha. }
  rewrite EL.
  destruct (root_bound flog0 (flip p)) as [k2|].
  - destruct H2 as (e2 & i2 & ->). destruct (root_bound flog0 p) as [k1|].
    + destruct H1 as (e1 & i1 & ->). eexists; eexists; reflexivity.
    + eexists; eexists; reflexivity.
  - destruct (root_bound flog0 p) as [k1|].
    + destruct H1 as (e1 & i1 & ->). eexists; eexists; reflexivity.
    + eexists; eexists; reflexivity.
Qed.
