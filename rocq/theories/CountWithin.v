(** Counts of the roots between the computed bounds (C06, C07). *)
Require Import Reals List Lra Lia ZArith Bool Sorting.
From Verif Require Import PolyR SignVar RootModel DescartesProofs RootSpec VcaProofs VcaTerm IsoProofs IsoAll IsoWithin CountAll.
Import ListNotations.
Open Scope R_scope.

Lemma count_vca_within : forall flog0 fuel p n, nonzero p -> simple_roots p reals ->
  num_real_roots_vca flog0 fuel p = Some n -> exists l, root_list p (in_bounds flog0 p) l /\ n = length l.
Proof.
  intros flog0 fuel p n Hp Hs E. pose proof (isolate_within flog0 fuel p Hp) as HC.
  unfold num_real_roots_vca in E. destruct (isolate flog0 fuel p) as [ex ints| | |]; try discriminate. injection E as <-.
  destruct (iso_exact_mult _ _ _ _ HC) as (q & Eq & _).
  assert (Hnd : NoDup (map dyv ex)) by (apply (nodup_simple p reals _ q Eq); [intros x _; exact I|exact Hs]).
  destruct (isolates_root_list p _ ex ints HC Hnd) as (l & Hl & Hlen). exists l. split; [exact Hl|]. symmetry. exact Hlen.
Qed.

Lemma positive_roots_within : forall flog0 p rs q, zeval p 0 <> 0 ->
  (forall r, In r rs -> 0 < r /\ below (root_bound flog0 p) r) -> (forall x, zeval p x = linprod rs x * peval q x) ->
  (length rs <= match root_bound flog0 p with None => 0 | Some k => var (tc (length p) (scale2 k p)) end)%nat.
Proof.
  intros flog0 p rs q H0 Hpos E.
  assert (Hr : forall r, In r rs -> zeval p r = 0).
  { intros r Hr. rewrite E. apply linprod_zero in Hr. rewrite Hr. ring. }
  destruct (root_bound flog0 p) as [k|].
  - destruct (scale2_eval k p) as (l & Hl & Es).
    pose proof (pw2_pos k) as Hk. pose proof (pw2_inv k) as Hki.
    set (s := pw2 k) in *. set (t := pw2 (- k)) in *. assert (Ht : 0 < t) by apply pw2_pos.
    rewrite <- (map_length (Rmult t) rs). rewrite <- (scale2_length k p) at 1.
    destruct (compose_affine q s 0) as [q' Hq'].
    assert (Hnz : nonzero p) by (apply nonzero_iff; exists 0; exact H0).
    apply (tc_roots (scale2 k p) (map (Rmult t) rs) (pscal (/ l * s ^ length rs) q')).
    + apply scale2_nonzero. exact Hnz.
    + intros r Hin. apply in_map_iff in Hin. destruct Hin as (r' & <- & Hin).
      destruct (Hpos r' Hin) as [P1 P2]. cbn [below] in P2. fold s in P2. split; nra.
    + intros x. rewrite peval_pscal, Hq'. replace (s * x + 0) with (s * x) by ring.
      assert (E1 : linprod (map (Rmult t) rs) x * s ^ length rs = linprod rs (s * x)).
      { replace x with (t * (s * x)) at 1 by (replace (t * (s * x)) with (t * s * x) by ring; rewrite Hki; ring).
        rewrite linprod_scale.
        replace (t ^ length rs * linprod rs (s * x) * s ^ length rs) with ((t ^ length rs * s ^ length rs) * linprod rs (s * x)) by ring.
        rewrite <- Rpow_mult_distr, Hki, pow1. ring. }
      replace (linprod (map (Rmult t) rs) x * (/ l * s ^ length rs * peval q (s * x)))
        with (/ l * ((linprod (map (Rmult t) rs) x * s ^ length rs) * peval q (s * x))) by ring.
      rewrite E1, <- E, Es. field. lra.
  - destruct rs as [|r rs]; [simpl; lia|exfalso].
    apply (Hpos r). left. reflexivity.
Qed.

Theorem upper_bound_within : forall flog0 pol, nonzero pol ->
  exists n, num_real_roots_upper_bound flog0 pol = CVal n /\
    forall rs, divides_out rs pol -> (forall r, In r rs -> in_bounds flog0 pol r) -> (length rs <= n)%nat.
Proof.
  intros flog0 pol HP. pose proof (upper_bound_value flog0 pol HP) as EV.
  destruct (low_zeros pol) as [i0 p] eqn:EL. unfold in_bounds. rewrite EL. cbn [snd].
  destruct (low_zeros_spec pol i0 p EL) as (E & Hne & _). destruct (Hne HP) as [Hp H0].
  destruct (flip_spec p) as [Hfl Hf].
  eexists. split; [exact EV|]. clear EV. intros rs (q & Eq) Hb.
  set (isp := fun r : R => if Rlt_dec 0 r then true else false).
  set (isn := fun r : R => if Rlt_dec r 0 then true else false).
  set (rp := filter isp rs). set (rn := filter isn (filter (fun r => negb (isp r)) rs)).
  set (rz := filter (fun r => negb (isn r)) (filter (fun r => negb (isp r)) rs)).
  assert (Hlen : length rs = (length rp + (length rn + length rz))%nat).
  { unfold rp, rn, rz. rewrite (filter_length_split isp rs) at 1. f_equal. apply filter_length_split. }
  assert (Hsplit : forall x, linprod rs x = linprod rp x * linprod rn x * linprod rz x).
  { intros x. unfold rp, rn, rz. rewrite (filter_linprod isp rs x). rewrite Rmult_assoc. f_equal. apply filter_linprod. }
  assert (Hrp : forall r, In r rp -> 0 < r).
  { intros r Hr. apply filter_In in Hr. destruct Hr as [_ Hr]. unfold isp in Hr. destruct (Rlt_dec 0 r); [assumption|discriminate]. }
  assert (Hrn : forall r, In r rn -> r < 0).
  { intros r Hr. apply filter_In in Hr. destruct Hr as [_ Hr]. unfold isn in Hr. destruct (Rlt_dec r 0); [assumption|discriminate]. }
  assert (Hrz : forall r, In r rz -> r = 0).
  { intros r Hr. apply filter_In in Hr. destruct Hr as [Hr1 Hr]. apply filter_In in Hr1. destruct Hr1 as [_ Hr1].
    unfold isn in Hr. unfold isp in Hr1. destruct (Rlt_dec r 0); [discriminate|]. destruct (Rlt_dec 0 r); [discriminate|]. lra. }
  assert (Hrpb : forall r, In r rp -> 0 < r /\ below (root_bound flog0 p) r).
  { intros r Hr. pose proof (Hrp r Hr). split; [assumption|]. apply filter_In in Hr. apply (Hb r); [apply Hr|assumption]. }
  assert (Hrnb : forall r, In r rn -> below (root_bound flog0 (flip p)) (- r)).
  { intros r Hr. pose proof (Hrn r Hr). apply filter_In in Hr. destruct Hr as [Hr _]. apply filter_In in Hr. apply (Hb r); [apply Hr|assumption]. }
  destruct (linprod_list rp) as [Lp HLp]. destruct (linprod_list rn) as [Ln HLn].
  destruct (linprod_list rz) as [Lz HLz]. destruct (pow_list i0) as [A HA].
  assert (Hpz : ~ pzero (map IZR p)).
  { intros H. apply H0. unfold zeval. apply peval_pzero. exact H. }
  (* positive roots divide p *)
  destruct (linprod_cancel rp A (map IZR p) (pmul Ln (pmul Lz q))) as [q1 Hq1].
  { intros x. rewrite HA, !peval_pmul, HLn, HLz. fold (zeval p x). rewrite <- E, Eq, Hsplit. ring. }
  { intros r Hr. rewrite HA. apply pow_nonzero. pose proof (Hrp r Hr). lra. }
  { exact Hpz. }
  destruct (linprod_cancel rn A (map IZR p) (pmul Lp (pmul Lz q))) as [q2 Hq2].
  { intros x. rewrite HA, !peval_pmul, HLp, HLz. fold (zeval p x). rewrite <- E, Eq, Hsplit. ring. }
  { intros r Hr. rewrite HA. apply pow_nonzero. pose proof (Hrn r Hr). lra. }
  { exact Hpz. }
  pose proof (positive_roots_within flog0 p rp q1 H0 Hrpb Hq1) as C1.
  assert (C2 : (length rn <= match root_bound flog0 (flip p) with None => 0 | Some k => var (tc (length p) (scale2 k (flip p))) end)%nat).
  { rewrite <- Hfl. rewrite <- (map_length Ropp rn).
    destruct (compose_affine q2 (-1) 0) as [q2' Hq2'].
    apply (positive_roots_within flog0 (flip p) (map Ropp rn) (pscal ((-1) ^ length rn) q2')).
    - rewrite Hf, Ropp_0. exact H0.
    - intros r Hr. apply in_map_iff in Hr. destruct Hr as (r' & <- & Hr). pose proof (Hrn r' Hr). split; [lra|apply Hrnb; exact Hr].
    - intros x. rewrite Hf. unfold zeval. rewrite Hq2, peval_pscal, Hq2'.
      replace x with (- - x) at 3 by ring. rewrite linprod_opp. replace (-1 * x + 0) with (- x) by ring.
      replace ((-1) ^ length rn * linprod rn (- x) * ((-1) ^ length rn * peval q2 (- x)))
        with (((-1) ^ length rn * (-1) ^ length rn) * (linprod rn (- x) * peval q2 (- x))) by ring.
      rewrite <- Rpow_mult_distr. replace (-1 * -1) with 1 by ring. rewrite pow1. ring. }
  (* zero roots *)
  assert (C3 : (length rz <= i0)%nat).
  { destruct (le_lt_dec (length rz) i0) as [H|H]; [exact H|exfalso].
    assert (Erz : forall x, linprod rz x = x ^ length rz).
    { clear - Hrz. induction rz as [|r l IH]; intros x; [reflexivity|]. simpl.
      rewrite (Hrz r (or_introl eq_refl)), IH by (intros; apply Hrz; right; assumption). ring. }
    assert (Ez : forall x, zeval p x = x * peval (pmul A (pmul Lp (pmul Ln q))) x -> True) by auto.
    destruct (pow_list (length rz - i0 - 1)) as [B HB].
    assert (Hp' : forall x, peval (map IZR p) x = peval (0 :: pmul B (pmul Lp (pmul Ln q))) x).
    { apply (quotient_unique _ _ (repeat 0 i0)). intros x.
      assert (Er : linprod (repeat 0 i0) x = x ^ i0).
      { clear. induction i0; simpl; [reflexivity|]. rewrite IHi0. ring. }
      rewrite Er. fold (zeval p x). rewrite <- E, Eq, Hsplit, Erz.
      cbn [peval]. rewrite !peval_pmul, HB, HLp, HLn.
      replace (length rz) with (i0 + (1 + (length rz - i0 - 1)))%nat at 1 by lia.
      rewrite !pow_add. simpl. ring. }
    apply H0. unfold zeval. rewrite Hp'. simpl. ring. }
  lia.
Qed.
