(** What the isolation finds, whether or not the root bounds are right (C06, C08). *)
Require Import Reals List Lra Lia ZArith Bool Sorting.
From Verif Require Import PolyR SignVar RootModel DescartesProofs RootSpec VcaProofs VcaTerm IsoProofs IsoAll.
Import ListNotations.
Open Scope R_scope.

(** The reals between the two bounds that are computed. *)
Definition below (b : option Z) (x : R) : Prop := match b with Some k => x < pw2 k | None => False end.
Definition in_bounds (flog0 : Z) (p : list Z) (x : R) : Prop :=
  (0 < x -> below (root_bound flog0 (snd (low_zeros p))) x) /\
  (x < 0 -> below (root_bound flog0 (flip (snd (low_zeros p)))) (- x)).

Lemma pos_int_lo_w : forall (M : R -> Prop) p ex ints d, isolates p (fun x => 0 < x /\ M x) ex ints -> In d ints -> 0 <= ilo d.
Proof.
  intros M p ex ints d HI Hd. destruct (Rle_dec 0 (ilo d)) as [H|H]; [exact H|exfalso].
  pose proof (int_nonempty d).
  assert (Hm : in_int d (Rmin ((ilo d + ihi d) / 2) (ilo d / 2))).
  { unfold in_int. split; [apply Rmin_glb_lt; lra|]. eapply Rle_lt_trans; [apply Rmin_l|lra]. }
  pose proof (iso_int_dom _ _ _ _ HI d _ Hd Hm) as Hp. cbn beta in Hp.
  pose proof (Rmin_r ((ilo d + ihi d) / 2) (ilo d / 2)). lra.
Qed.
Lemma neg_int_hi_w : forall (M : R -> Prop) p ex ints d, isolates p (fun x => x < 0 /\ M x) ex ints -> In d ints -> ihi d <= 0.
Proof.
  intros M p ex ints d HI Hd. destruct (Rle_dec (ihi d) 0) as [H|H]; [exact H|exfalso].
  pose proof (int_nonempty d).
  assert (Hm : in_int d (Rmax ((ilo d + ihi d) / 2) (ihi d / 2))).
  { unfold in_int. split; [eapply Rlt_le_trans; [|apply Rmax_l]; lra|]. apply Rmax_lub_lt; lra. }
  pose proof (iso_int_dom _ _ _ _ HI d _ Hd Hm) as Hp. cbn beta in Hp.
  pose proof (Rmax_r ((ilo d + ihi d) / 2) (ihi d / 2)). lra.
Qed.
Lemma isolates_glue_w : forall (M N : R -> Prop) P p n nex nints pex pints,
  (forall x, zeval P x = x ^ n * zeval p x) -> zeval p 0 <> 0 ->
  isolates p (fun x => x < 0 /\ N x) nex nints -> isolates p (fun x => 0 < x /\ M x) pex pints ->
  isolates P (fun x => (0 < x -> M x) /\ (x < 0 -> N x)) (nex ++ repeat (0, 0)%Z n ++ pex) (nints ++ pints).
Proof.
  intros M N P p n nex nints pex pints E H0 HN HP.
  assert (Hroot : forall x, zeval p x = 0 -> zeval P x = 0) by (intros x H; rewrite E, H; ring).
  assert (Hroot' : forall x, x <> 0 -> zeval P x = 0 -> zeval p x = 0).
  { intros x Hx H. rewrite E in H. apply Rmult_integral in H. destruct H as [H|H]; [|exact H].
    exfalso. apply (pow_nonzero x n Hx). exact H. }
  assert (Hz : forall d, In d (repeat (0, 0)%Z n) -> dyv d = 0 /\ (1 <= n)%nat).
  { intros d Hd. pose proof Hd as Hd'. apply repeat_spec in Hd. subst. split; [unfold dyv; simpl; ring|].
    destruct n; [destruct Hd'|lia]. }
  assert (Hnex : forall d, In d nex -> dyv d < 0 /\ zeval p (dyv d) = 0) by (intros d Hd; destruct (iso_exact_root _ _ _ _ HN d Hd) as [[] ]; split; assumption).
  assert (Hpex : forall d, In d pex -> 0 < dyv d /\ zeval p (dyv d) = 0) by (intros d Hd; destruct (iso_exact_root _ _ _ _ HP d Hd) as [[] ]; split; assumption).
  constructor.
  - intros d Hd. split.
    { apply in_app_or in Hd. destruct Hd as [Hd|Hd]; [|apply in_app_or in Hd; destruct Hd as [Hd|Hd]].
      - destruct (iso_exact_root _ _ _ _ HN d Hd) as [[K1 K2] _]. split; intros K; [lra|exact K2].
      - destruct (Hz d Hd) as [Ez _]. rewrite Ez. split; intros K; lra.
      - destruct (iso_exact_root _ _ _ _ HP d Hd) as [[K1 K2] _]. split; intros K; [exact K2|lra]. }
    apply in_app_or in Hd. destruct Hd as [Hd|Hd].
    + apply Hroot. apply Hnex. exact Hd.
    + apply in_app_or in Hd. destruct Hd as [Hd|Hd].
      * destruct (Hz d Hd) as [-> Hn]. rewrite E. destruct n; [lia|]. simpl. ring.
      * apply Hroot. apply Hpex. exact Hd.
  - destruct (iso_exact_mult _ _ _ _ HN) as (q1 & E1 & N1).
    destruct (iso_exact_mult _ _ _ _ HP) as (q2 & E2 & N2).
    destruct (linprod_list (map dyv nex)) as [A HA].
    destruct (linprod_cancel (map dyv pex) A q1 q2) as [q3 Hq3].
    + intros x. rewrite HA, <- E1, E2. reflexivity.
    + intros r Hr. apply in_map_iff in Hr. destruct Hr as (d & <- & Hd). rewrite HA. intros H.
      apply linprod_zero in H. apply in_map_iff in H. destruct H as (d' & Hd1 & Hd2).
      pose proof (Hnex d' Hd2). pose proof (Hpex d Hd). lra.
    + intros Hq. apply H0. rewrite E1, (peval_pzero q1 0 Hq). ring.
    + exists q3.
      assert (E3 : forall x, zeval p x = linprod (map dyv nex) x * linprod (map dyv pex) x * peval q3 x).
      { intros x. rewrite E1, Hq3. ring. }
      assert (E4 : forall x, peval q2 x = linprod (map dyv nex) x * peval q3 x).
      { intros x. rewrite <- HA, <- peval_pmul. apply (quotient_unique _ _ (map dyv pex)). intros y.
        rewrite <- E2, E3, peval_pmul, HA. ring. }
      split.
      * intros x. rewrite !map_app, !linprod_app, linprod_zeros, E, E3. ring.
      * intros d Hd Hq. apply in_app_or in Hd. destruct Hd as [Hd|Hd]; [|apply in_app_or in Hd; destruct Hd as [Hd|Hd]].
        -- apply (N1 d Hd). rewrite Hq3, Hq. ring.
        -- destruct (Hz d Hd) as [Ez _]. rewrite Ez in Hq. apply H0. rewrite E3, Hq. ring.
        -- apply (N2 d Hd). rewrite E4, Hq. ring.
  - intros d Hd. apply in_app_or in Hd. destruct Hd as [Hd|Hd].
    + destruct (iso_int_root _ _ _ _ HN d Hd) as (x & [Hx1 Hx2] & Hu). exists x.
      split; [split; [exact Hx1|apply Hroot; exact Hx2]|]. intros y [Hy1 Hy2]. apply Hu. split; [exact Hy1|].
      apply Hroot'; [|exact Hy2]. pose proof (iso_int_dom _ _ _ _ HN d y Hd Hy1) as [H _]. lra.
    + destruct (iso_int_root _ _ _ _ HP d Hd) as (x & [Hx1 Hx2] & Hu). exists x.
      split; [split; [exact Hx1|apply Hroot; exact Hx2]|]. intros y [Hy1 Hy2]. apply Hu. split; [exact Hy1|].
      apply Hroot'; [|exact Hy2]. pose proof (iso_int_dom _ _ _ _ HP d y Hd Hy1) as [H _]. lra.
  - intros d x Hd Hx. apply in_app_or in Hd. destruct Hd as [Hd|Hd].
    + destruct (iso_int_dom _ _ _ _ HN d x Hd Hx) as [K1 K2]. split; intros K; [lra|exact K2].
    + destruct (iso_int_dom _ _ _ _ HP d x Hd Hx) as [K1 K2]. split; intros K; [exact K2|lra].
  - intros x [DM DN] Hx. destruct (Rtotal_order x 0) as [Hs|[Hs|Hs]].
    + destruct (iso_complete _ _ _ _ HN x (conj Hs (DN Hs)) (Hroot' x ltac:(lra) Hx)) as [(d & H1 & H2)|(d & H1 & H2)].
      * left. exists d. split; [apply in_or_app; left; exact H1|exact H2].
      * right. exists d. split; [apply in_or_app; left; exact H1|exact H2].
    + subst x. left. exists (0, 0)%Z. split; [|unfold dyv; simpl; ring].
      apply in_or_app. right. apply in_or_app. left. destruct n; [|left; reflexivity].
      exfalso. apply H0. rewrite E in Hx. simpl in Hx. lra.
    + destruct (iso_complete _ _ _ _ HP x (conj Hs (DM Hs)) (Hroot' x ltac:(lra) Hx)) as [(d & H1 & H2)|(d & H1 & H2)].
      * left. exists d. split; [apply in_or_app; right; apply in_or_app; right; exact H1|exact H2].
      * right. exists d. split; [apply in_or_app; right; exact H1|exact H2].
  - intros d e Hd He Hin. unfold in_int in Hin. apply in_app_or in He. destruct He as [He|He].
    + pose proof (neg_int_hi_w _ _ _ _ e HN He) as Hh. apply in_app_or in Hd.
      destruct Hd as [Hd|Hd]; [apply (iso_exclusive _ _ _ _ HN d e Hd He Hin)|].
      apply in_app_or in Hd. destruct Hd as [Hd|Hd].
      * destruct (Hz d Hd) as [Ez _]. lra.
      * pose proof (Hpex d Hd). lra.
    + pose proof (pos_int_lo_w _ _ _ _ e HP He) as Hh. apply in_app_or in Hd.
      destruct Hd as [Hd|Hd]; [pose proof (Hnex d Hd); lra|].
      apply in_app_or in Hd. destruct Hd as [Hd|Hd].
      * destruct (Hz d Hd) as [Ez _]. lra.
      * apply (iso_exclusive _ _ _ _ HP d e Hd He Hin).
  - apply ss_app; [exact (iso_exact_sorted _ _ _ _ HN)| |].
    + apply ss_app; [apply repeat_sorted; lra|exact (iso_exact_sorted _ _ _ _ HP)|].
      intros x y Hx Hy. destruct (Hz x Hx) as [-> _]. pose proof (Hpex y Hy). lra.
    + intros x y Hx Hy. pose proof (Hnex x Hx). apply in_app_or in Hy. destruct Hy as [Hy|Hy].
      * destruct (Hz y Hy) as [-> _]. lra.
      * pose proof (Hpex y Hy). lra.
  - apply ss_app; [exact (iso_int_sorted _ _ _ _ HN)|exact (iso_int_sorted _ _ _ _ HP)|].
    intros x y Hx Hy. pose proof (neg_int_hi_w _ _ _ _ x HN Hx). pose proof (pos_int_lo_w _ _ _ _ y HP Hy). lra.
Qed.
Lemma vca_within : forall flog0 f p, zeval p 0 <> 0 ->
  match root_bound flog0 p with
  | None => isolates p (fun x => 0 < x /\ below (root_bound flog0 p) x) [] []
  | Some k => match vca f (scale2 k p) [] [] with
              | VDone ex ints => isolates p (fun x => 0 < x /\ below (root_bound flog0 p) x) (map (dy_shift k) ex) (map (dy_shift k) ints)
              | VFuel => True
              | _ => False
              end
  end.
Proof.
  intros flog0 f p H0. destruct (root_bound flog0 p) as [k|]; cbn [below].
  - assert (Hnz : nonzero p) by (apply nonzero_iff; exists 0; exact H0).
    pose proof (vca_correct f (scale2 k p) (scale2_nonzero k p Hnz)) as HC.
    destruct (vca f (scale2 k p) [] []) as [ex ints| | |]; try exact HC.
    destruct (scale2_eval k p) as (l & Hl & E).
    (* intersect with positive: the root 0 does not exist *)
    assert (Hs0 : zeval (scale2 k p) 0 <> 0).
    { intros H. apply H0. specialize (E 0). rewrite H, Rmult_0_r, Rmult_0_r in E. exact E. }
    assert (HC' : isolates (scale2 k p) (fun x => 0 < x < 1) ex ints).
    { destruct HC as [c1 c2 c3 c4 c5 c6 c7 c8]. constructor; try assumption.
      - intros d Hd. destruct (c1 d Hd) as [Hdm Hr]. split; [|exact Hr]. unfold unit_co in Hdm.
        destruct (Req_dec (dyv d) 0) as [Ez|Ez]; [rewrite Ez in Hr; contradiction|lra].
      - intros d x Hd Hx. pose proof (c4 d x Hd Hx) as Hdm. unfold unit_co in Hdm.
        destruct (Req_dec x 0) as [Ez|Ez]; [exfalso|lra]. subst x. unfold in_int in Hx.
        assert (Hm : in_int d (ilo d / 2)) by (unfold in_int; lra).
        pose proof (c4 d _ Hd Hm) as Hd2. unfold unit_co in Hd2. lra.
      - intros x Hx Hr. apply c5; [unfold unit_co; lra|exact Hr]. }
    apply (isolates_shift p (scale2 k p) k l (fun x => 0 < x < 1) (fun x => 0 < x /\ x < pw2 k) ex ints Hl E); [| |exact HC'].
    + intros x Hx. pose proof (pw2_pos k). split; nra.
    + intros x [Hx Hx1] _. pose proof (pw2_pos k). split; nra.
  - apply isolates_none. intros x [_ []].
Qed.
Theorem isolate_within : forall flog0 f pol, nonzero pol ->
  match isolate flog0 f pol with
  | VDone ex ints => isolates pol (in_bounds flog0 pol) ex ints
  | VFuel => True
  | _ => False
  end.
Proof.
  intros flog0 f pol HP. unfold in_bounds, isolate.
  destruct (forallb (Z.eqb 0) pol) eqn:Ez.
  { exfalso. apply HP. rewrite forallb_forall in Ez. apply Forall_forall. intros a Ha.
    symmetry. apply Z.eqb_eq. apply Ez. exact Ha. }
  destruct (low_zeros pol) as [nz p] eqn:EL. cbn [snd].
  destruct (low_zeros_spec pol nz p EL) as (E & Hne & _). destruct (Hne HP) as [_ H0].
  destruct (flip_spec p) as [_ Hf].
  assert (H0' : zeval (flip p) 0 <> 0) by (rewrite Hf, Ropp_0; exact H0).
  pose proof (vca_within flog0 f p H0) as VP.
  pose proof (vca_within flog0 f (flip p) H0') as VN.
  assert (Hopp : forall ex ints, isolates (flip p) (fun x => 0 < x /\ below (root_bound flog0 (flip p)) x) ex ints ->
     isolates p (fun x => x < 0 /\ below (root_bound flog0 (flip p)) (- x)) (rev (map dy_opp ex)) (rev (map int_opp ints))).
  { intros ex ints. apply isolates_opp; [intros; rewrite Hf; reflexivity|].
    intros x. rewrite Ropp_involutive. split; intros [? ?]; split; try assumption; lra. }
  assert (Hcomm1 : forall k ex, rev (map dy_opp (map (dy_shift k) ex)) = rev (map (fun d => dy_shift k (dy_opp d)) ex)).
  { intros. rewrite map_map. reflexivity. }
  assert (Hcomm2 : forall k ex, rev (map int_opp (map (dy_shift k) ex)) = rev (map (fun d => dy_shift k (int_opp d)) ex)).
  { intros. rewrite map_map. reflexivity. }
  assert (Hfin : forall nex nints, isolates p (fun x => x < 0 /\ below (root_bound flog0 (flip p)) (- x)) nex nints ->
    match (match root_bound flog0 p with
        | None => VDone (nex ++ repeat (0, 0)%Z nz) nints
        | Some k =>
            match vca f (scale2 k p) [] [] with
            | VDone pex pints =>
                VDone (nex ++ repeat (0, 0)%Z nz ++ map (dy_shift k) pex) (nints ++ map (dy_shift k) pints)
            | r => r
            end
        end) with
    | VDone ex ints => isolates pol (fun x => (0 < x -> below (root_bound flog0 p) x) /\ (x < 0 -> below (root_bound flog0 (flip p)) (- x))) ex ints | VFuel => True | _ => False end).
  { intros nex nints HN. destruct (root_bound flog0 p) as [k|].
    - destruct (vca f (scale2 k p) [] []) as [pex pints| | |]; try exact VP.
      apply (isolates_glue_w _ _ pol p nz); assumption.
    - pose proof (isolates_glue_w _ _ pol p nz nex nints [] [] E H0 HN VP) as G. rewrite !app_nil_r in G. exact G. }
  destruct (root_bound flog0 (flip p)) as [k|].
  - destruct (vca f (scale2 k (flip p)) [] []) as [ex ints| | |]; try exact VN.
    apply Hfin. pose proof (Hopp _ _ VN) as HN. rewrite Hcomm1, Hcomm2 in HN. exact HN.
  - apply Hfin. exact (Hopp _ _ VN).
Qed.
