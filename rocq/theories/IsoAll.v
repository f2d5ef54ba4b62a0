(** Isolation of all the real roots from the unit interval procedure (C06), and
    the Descartes upper bound on their number (C07, C08). *)
Require Import Reals List Lra Lia ZArith Bool Sorting.
From Verif Require Import PolyR SignVar RootModel DescartesProofs RootSpec VcaProofs VcaTerm IsoProofs.
Import ListNotations.
Open Scope R_scope.

(** * Low zeros and x -> -x *)
Lemma low_zeros_spec : forall p n r, low_zeros p = (n, r) ->
  (forall x, zeval p x = x ^ n * zeval r x) /\ (nonzero p -> r <> [] /\ zeval r 0 <> 0) /\
  length p = (n + length r)%nat.
Proof.
  induction p as [|a p IH]; intros n r E; simpl in E.
  - inversion E; subst. split; [intros; unfold zeval; simpl; ring|]. split; [|reflexivity].
    intros H. exfalso. apply H. constructor.
  - destruct (Z.eqb_spec a 0) as [Ha|Ha].
    + destruct (low_zeros p) as [n' r'] eqn:E'. inversion E; subst. destruct (IH n' r eq_refl) as (H1 & H2 & H3).
      split; [|split].
      * intros x. rewrite zeval_cons, H1. simpl. ring.
      * intros H. apply H2. intros Hz. apply H. constructor; [reflexivity|exact Hz].
      * simpl. lia.
    + inversion E; subst. split; [intros; simpl; ring|]. split; [|reflexivity].
      intros _. split; [discriminate|]. rewrite zeval_cons. rewrite Rmult_0_l, Rplus_0_r.
      apply not_0_IZR. exact Ha.
Qed.

Lemma flip_spec : forall p, length (flip p) = length p /\ forall x, zeval (flip p) x = zeval p (- x).
Proof.
  assert (H : forall n p, (length p <= n)%nat -> length (flip p) = length p /\ forall x, zeval (flip p) x = zeval p (- x)).
  { induction n as [|n IH]; intros p Hn.
    - destruct p; simpl in Hn; [|lia]. split; [reflexivity|intros; reflexivity].
    - destruct p as [|a [|b q]].
      + split; [reflexivity|intros; reflexivity].
      + split; [reflexivity|]. intros x. simpl. rewrite !zeval_cons. unfold zeval; simpl. ring.
      + simpl in Hn. destruct (IH q ltac:(lia)) as [H1 H2]. split; [simpl; rewrite H1; reflexivity|].
        intros x. change (flip (a :: b :: q)) with (a :: (- b)%Z :: flip q).
        rewrite !zeval_cons, H2, opp_IZR. ring. }
  intros p. apply (H (length p) p). lia.
Qed.

Lemma zeval_nonzero_ext : forall p q (g : R -> R) l, 0 < l -> (forall x, zeval p (g x) = l * zeval q x) ->
  (forall y, exists x, g x = y) -> nonzero p -> nonzero q.
Proof.
  intros p q g l Hl E Hg Hp. apply nonzero_iff in Hp. destruct Hp as [y Hy].
  destruct (Hg y) as [x <-]. apply nonzero_iff. exists x. intros H. apply Hy. rewrite E, H. ring.
Qed.

Lemma flip_nonzero : forall p, nonzero p -> nonzero (flip p).
Proof.
  intros p. apply (zeval_nonzero_ext p (flip p) Ropp 1 Rlt_0_1).
  - intros x. destruct (flip_spec p) as [_ H]. rewrite H. ring.
  - intros y. exists (- y). ring.
Qed.
Lemma scale2_nonzero : forall k p, nonzero p -> nonzero (scale2 k p).
Proof.
  intros k p Hp. destruct (scale2_eval k p) as (l & Hl & E).
  apply (zeval_nonzero_ext p (scale2 k p) (Rmult (pw2 k)) l Hl E); [|exact Hp].
  intros y. exists (y * pw2 (- k)). pose proof (pw2_inv k). 
  replace (pw2 k * (y * pw2 (- k))) with (y * (pw2 (- k) * pw2 k)) by ring. rewrite H. ring.
Qed.

(** * Transport of isolations *)
Lemma ss_map : forall (A B : Type) (f : A -> B) (R1 : A -> A -> Prop) (R2 : B -> B -> Prop) l,
  (forall x y, R1 x y -> R2 (f x) (f y)) -> StronglySorted R1 l -> StronglySorted R2 (map f l).
Proof.
  intros A B f R1 R2 l H HS. induction HS as [|a l HS IH HF]; simpl; constructor; [exact IH|].
  rewrite Forall_forall in *. intros y Hy. apply in_map_iff in Hy. destruct Hy as (x & <- & Hx). auto.
Qed.
Lemma ss_app : forall (A : Type) (Rr : A -> A -> Prop) l m, StronglySorted Rr l -> StronglySorted Rr m ->
  (forall x y, In x l -> In y m -> Rr x y) -> StronglySorted Rr (l ++ m).
Proof.
  intros A Rr l m HL HM H. induction HL as [|a l HL IH HF]; simpl; [exact HM|]. constructor.
  - apply IH. intros; apply H; [right|]; assumption.
  - rewrite Forall_forall in *. intros y Hy. apply in_app_or in Hy. destruct Hy as [Hy|Hy]; [auto|].
    apply H; [left; reflexivity|exact Hy].
Qed.
Lemma ss_rev : forall (A : Type) (Rr : A -> A -> Prop) l, StronglySorted Rr l -> StronglySorted (fun x y => Rr y x) (rev l).
Proof.
  intros A Rr l H. induction H as [|a l HS IH HF]; simpl; [constructor|].
  apply ss_app; [exact IH|constructor; [constructor|constructor]|].
  intros x y Hx [<-|[]]. rewrite Forall_forall in HF. apply HF. apply in_rev. exact Hx.
Qed.

Lemma dyv_shift : forall k d, dyv (dy_shift k d) = pw2 k * dyv d.
Proof. intros k [c e]. unfold dyv, dy_shift. simpl. rewrite pw2_add. ring. Qed.
Lemma ilo_shift : forall k d, ilo (dy_shift k d) = pw2 k * ilo d.
Proof. intros k [c e]. unfold ilo, dy_shift. simpl. rewrite pw2_add. ring. Qed.
Lemma ihi_shift : forall k d, ihi (dy_shift k d) = pw2 k * ihi d.
Proof. intros k [c e]. unfold ihi, dy_shift. simpl. rewrite pw2_add. ring. Qed.
Lemma dyv_opp : forall d, dyv (dy_opp d) = - dyv d.
Proof. intros [c e]. unfold dyv, dy_opp. simpl. rewrite opp_IZR. ring. Qed.
Lemma ilo_opp : forall d, ilo (int_opp d) = - ihi d.
Proof. intros [c e]. unfold ilo, ihi, int_opp. cbn [fst snd]. rewrite opp_IZR, plus_IZR. ring. Qed.
Lemma ihi_opp : forall d, ihi (int_opp d) = - ilo d.
Proof. intros [c e]. unfold ilo, ihi, int_opp. cbn [fst snd]. rewrite opp_IZR, plus_IZR. ring. Qed.

Lemma linprod_scale : forall rs s x, linprod (map (Rmult s) rs) (s * x) = s ^ length rs * linprod rs x.
Proof. induction rs as [|r rs IH]; intros s x; simpl; [ring|]. rewrite IH. ring. Qed.

Lemma isolates_shift : forall p q k l (dom dom' : R -> Prop) ex ints, 0 < l ->
  (forall x, zeval p (pw2 k * x) = l * zeval q x) ->
  (forall x, dom x -> dom' (pw2 k * x)) ->
  (forall x, dom' (pw2 k * x) -> zeval q x = 0 -> dom x) ->
  isolates q dom ex ints -> isolates p dom' (map (dy_shift k) ex) (map (dy_shift k) ints).
Proof.
  intros p q k l dom dom' ex ints Hl E D1 D2 HI.
  pose proof (pw2_pos k) as Hk. pose proof (pw2_inv k) as Hki. set (s := pw2 k) in *. set (t := pw2 (- k)) in *.
  assert (Hy : forall y, s * (t * y) = y) by (intros y; replace (s * (t * y)) with (t * s * y) by ring; rewrite Hki; ring).
  assert (Hroot : forall x, zeval p (s * x) = 0 <-> zeval q x = 0).
  { intros x. rewrite E. split; intros H; [nra|rewrite H; ring]. }
  assert (Hin : forall d x, in_int (dy_shift k d) (s * x) <-> in_int d x).
  { intros d x. unfold in_int. rewrite ilo_shift, ihi_shift. fold s. split; intros [? ?]; split; nra. }
  constructor.
  - intros d Hd. apply in_map_iff in Hd. destruct Hd as (e & <- & He). rewrite dyv_shift. fold s.
    destruct (iso_exact_root _ _ _ _ HI e He) as [H1 H2]. split; [apply D1; exact H1|apply Hroot; exact H2].
  - destruct (iso_exact_mult _ _ _ _ HI) as (w & Ew & Hw).
    destruct (compose_affine w t 0) as [w' Hw'].
    exists (pscal (l * t ^ length ex) w'). split.
    + intros y. rewrite <- (Hy y) at 1. rewrite E, Ew, peval_pscal, Hw'.
      rewrite map_map. rewrite (map_ext (fun x => dyv (dy_shift k x)) (fun x => s * dyv x)) by (intros; apply dyv_shift).
      rewrite <- (map_map dyv (Rmult s)). rewrite <- (Hy y) at 3. rewrite linprod_scale, map_length.
      replace (t * y + 0) with (t * y) by ring.
      replace (s ^ length ex * linprod (map dyv ex) (t * y) * (l * t ^ length ex * peval w (t * y)))
        with ((t ^ length ex * s ^ length ex) * (l * (linprod (map dyv ex) (t * y) * peval w (t * y)))) by ring.
      rewrite <- Rpow_mult_distr, Hki, pow1. ring.
    + intros d Hd. apply in_map_iff in Hd. destruct Hd as (e & <- & He). rewrite dyv_shift. fold s.
      rewrite peval_pscal, Hw'. replace (t * (s * dyv e) + 0) with (dyv e) by (replace (t * (s * dyv e)) with (t * s * dyv e) by ring; rewrite Hki; ring).
      pose proof (Hw e He). assert (0 < t) by apply pw2_pos. assert (0 < t ^ length ex) by (apply pow_lt; assumption).
      apply Rmult_integral_contrapositive. split; [|assumption]. nra.
  - intros d Hd. apply in_map_iff in Hd. destruct Hd as (e & <- & He).
    destruct (iso_int_root _ _ _ _ HI e He) as (x & [Hx1 Hx2] & Hu). exists (s * x).
    split; [split; [apply Hin; exact Hx1|apply Hroot; exact Hx2]|].
    intros y [Hy1 Hy2]. rewrite <- (Hy y) in Hy1, Hy2 |- *. f_equal. apply Hu.
    split; [apply (proj1 (Hin _ _)) in Hy1; exact Hy1|apply Hroot; exact Hy2].
  - intros d y Hd Hiy. apply in_map_iff in Hd. destruct Hd as (e & <- & He).
    rewrite <- (Hy y) in Hiy |- *. apply (proj1 (Hin _ _)) in Hiy. apply D1. apply (iso_int_dom _ _ _ _ HI e _ He Hiy).
  - intros y Hdy Hy0. rewrite <- (Hy y) in Hdy, Hy0. apply (proj1 (Hroot _)) in Hy0. pose proof (D2 _ Hdy Hy0) as Hd.
    destruct (iso_complete _ _ _ _ HI _ Hd Hy0) as [(d & Hd1 & Hd2)|(d & Hd1 & Hd2)].
    + left. exists (dy_shift k d). split; [apply in_map; exact Hd1|]. rewrite dyv_shift, Hd2. apply Hy.
    + right. exists (dy_shift k d). split; [apply in_map; exact Hd1|]. rewrite <- (Hy y). apply Hin. exact Hd2.
  - intros d e Hd He. apply in_map_iff in Hd. destruct Hd as (d' & <- & Hd').
    apply in_map_iff in He. destruct He as (e' & <- & He'). rewrite dyv_shift. fold s. rewrite Hin.
    apply (iso_exclusive _ _ _ _ HI); assumption.
  - apply (ss_map _ _ _ (fun d e => dyv d <= dyv e)); [|exact (iso_exact_sorted _ _ _ _ HI)].
    intros x y H. rewrite !dyv_shift. fold s. nra.
  - apply (ss_map _ _ _ (fun d e => ihi d <= ilo e)); [|exact (iso_int_sorted _ _ _ _ HI)].
    intros x y H. rewrite ilo_shift, ihi_shift. fold s. nra.
Qed.

Lemma linprod_opp : forall rs x, linprod (map Ropp rs) (- x) = (-1) ^ length rs * linprod rs x.
Proof. induction rs as [|r rs IH]; intros x; simpl; [ring|]. rewrite IH. ring. Qed.
Lemma linprod_rev : forall rs x, linprod (rev rs) x = linprod rs x.
Proof. induction rs as [|r rs IH]; intros x; simpl; [reflexivity|]. rewrite linprod_app, IH. simpl. ring. Qed.

Lemma isolates_opp : forall p q (dom dom' : R -> Prop) ex ints,
  (forall x, zeval p (- x) = zeval q x) -> (forall x, dom x <-> dom' (- x)) ->
  isolates q dom ex ints -> isolates p dom' (rev (map dy_opp ex)) (rev (map int_opp ints)).
Proof.
  intros p q dom dom' ex ints E D HI.
  assert (Hin : forall d x, in_int (int_opp d) (- x) <-> in_int d x).
  { intros d x. unfold in_int. rewrite ilo_opp, ihi_opp. split; intros [? ?]; split; lra. }
  assert (Hex : forall d, In d (rev (map dy_opp ex)) -> exists e, In e ex /\ dyv d = - dyv e).
  { intros d Hd. apply in_rev in Hd. apply in_map_iff in Hd. destruct Hd as (e & <- & He).
    exists e. split; [exact He|apply dyv_opp]. }
  assert (Hint : forall d, In d (rev (map int_opp ints)) -> exists e, In e ints /\ d = int_opp e).
  { intros d Hd. apply in_rev in Hd. apply in_map_iff in Hd. destruct Hd as (e & <- & He). exists e. split; [exact He|reflexivity]. }
  constructor.
  - intros d Hd. destruct (Hex d Hd) as (e & He & ->). destruct (iso_exact_root _ _ _ _ HI e He) as [H1 H2].
    split; [apply D; exact H1|rewrite E; exact H2].
  - destruct (iso_exact_mult _ _ _ _ HI) as (w & Ew & Hw).
    destruct (compose_affine w (-1) 0) as [w' Hw'].
    exists (pscal ((-1) ^ length ex) w'). split.
    + intros y. replace y with (- - y) at 1 by ring. rewrite E, Ew, peval_pscal, Hw'.
      rewrite map_rev, linprod_rev, map_map.
      rewrite (map_ext (fun x => dyv (dy_opp x)) (fun x => - dyv x)) by (intros; apply dyv_opp).
      rewrite <- (map_map dyv Ropp). replace y with (- - y) at 3 by ring. rewrite linprod_opp, map_length.
      replace (-1 * y + 0) with (- y) by ring.
      replace ((-1) ^ length ex * linprod (map dyv ex) (- y) * ((-1) ^ length ex * peval w (- y)))
        with (((-1) ^ length ex * (-1) ^ length ex) * (linprod (map dyv ex) (- y) * peval w (- y))) by ring.
      rewrite <- Rpow_mult_distr. replace (-1 * -1) with 1 by ring. rewrite pow1. ring.
    + intros d Hd. destruct (Hex d Hd) as (e & He & ->). rewrite peval_pscal, Hw'.
      replace (-1 * - dyv e + 0) with (dyv e) by ring.
      apply Rmult_integral_contrapositive. split; [|apply Hw; exact He]. apply pow_nonzero. lra.
  - intros d Hd. destruct (Hint d Hd) as (e & He & ->).
    destruct (iso_int_root _ _ _ _ HI e He) as (x & [Hx1 Hx2] & Hu). exists (- x).
    split; [split; [apply Hin; exact Hx1|rewrite E; exact Hx2]|].
    intros y [Hy1 Hy2]. replace y with (- - y) in Hy1, Hy2 by ring. apply (proj1 (Hin _ _)) in Hy1. rewrite E in Hy2.
    rewrite (Hu (- y) (conj Hy1 Hy2)). ring.
  - intros d y Hd Hiy. destruct (Hint d Hd) as (e & He & ->).
    replace y with (- - y) in Hiy |- * by ring. apply (proj1 (Hin _ _)) in Hiy. apply D. apply (iso_int_dom _ _ _ _ HI e _ He Hiy).
  - intros y Hdy Hy0. replace y with (- - y) in Hdy, Hy0 by ring. rewrite E in Hy0. apply (proj2 (D _)) in Hdy.
    destruct (iso_complete _ _ _ _ HI _ Hdy Hy0) as [(d & Hd1 & Hd2)|(d & Hd1 & Hd2)].
    + left. exists (dy_opp d). split; [apply -> in_rev; apply in_map; exact Hd1|]. rewrite dyv_opp, Hd2. ring.
    + right. exists (int_opp d). split; [apply -> in_rev; apply in_map; exact Hd1|].
      replace y with (- - y) by ring. apply Hin. exact Hd2.
  - intros d e Hd He. destruct (Hex d Hd) as (d' & Hd' & ->). destruct (Hint e He) as (e' & He' & ->).
    rewrite Hin. apply (iso_exclusive _ _ _ _ HI); assumption.
  - apply (ss_rev _ (fun d e => dyv e <= dyv d)).
    apply (ss_map _ _ _ (fun d e => dyv d <= dyv e)); [|exact (iso_exact_sorted _ _ _ _ HI)].
    intros x y H. rewrite !dyv_opp. lra.
  - apply (ss_rev _ (fun d e => ihi e <= ilo d)).
    apply (ss_map _ _ _ (fun d e => ihi d <= ilo e)); [|exact (iso_int_sorted _ _ _ _ HI)].
    intros x y H. rewrite ilo_opp, ihi_opp. lra.
Qed.

(** Two divisors without common root. *)
Lemma linprod_cancel : forall rs2 (A q1 q2 : list R),
  (forall x, peval A x * peval q1 x = linprod rs2 x * peval q2 x) ->
  (forall r, In r rs2 -> peval A r <> 0) -> ~ pzero q1 ->
  exists q3, forall x, peval q1 x = linprod rs2 x * peval q3 x.
Proof.
  induction rs2 as [|r rs2 IH]; intros A q1 q2 E HA Hz.
  - exists q1. intros; simpl; ring.
  - assert (Hr : peval q1 r = 0).
    { specialize (E r). simpl in E. replace ((r - r) * linprod rs2 r * peval q2 r) with 0 in E by ring.
      apply Rmult_integral in E. destruct E as [E|E]; [exfalso; apply (HA r (or_introl eq_refl)); exact E|exact E]. }
    destruct (le_lt_dec 2 (length q1)) as [Hl|Hl].
    + set (u := pquot r q1).
      assert (Eu : forall x, peval q1 x = (x - r) * peval u x).
      { intros x. rewrite <- peval_plin. unfold u. rewrite factor_list by assumption. reflexivity. }
      destruct (linprod_list rs2) as [w Hw].
      assert (E' : forall x, peval A x * peval u x = linprod rs2 x * peval q2 x).
      { intros x. rewrite <- Hw, <- !peval_pmul. apply (quotient_unique _ _ [r]). intros y.
        rewrite !peval_pmul, Hw. simpl. specialize (E y). rewrite Eu in E. simpl in E. lra. }
      destruct (IH A u q2 E') as [q3 Hq3].
      * intros s Hs. apply HA. right. exact Hs.
      * intros Hu. apply Hz. apply (peval_zero_interval _ 0 1); [lra|]. intros x _. rewrite Eu, (peval_pzero u x Hu). ring.
      * exists q3. intros x. rewrite Eu, Hq3. simpl. ring.
    + exfalso. apply Hz. destruct q1 as [|a [|b q1]]; simpl in Hl, Hr; try lia; repeat constructor. lra.
Qed.

Definition positive (x : R) : Prop := 0 < x.
Definition negative (x : R) : Prop := x < 0.

Lemma linprod_zeros : forall n x, linprod (map dyv (repeat (0, 0)%Z n)) x = x ^ n.
Proof.
  induction n as [|n IH]; intros x; simpl; [reflexivity|]. rewrite IH. unfold dyv. simpl. ring.
Qed.

Lemma repeat_sorted : forall (A : Type) (Rr : A -> A -> Prop) a n, Rr a a -> StronglySorted Rr (repeat a n).
Proof.
  intros A Rr a n H. induction n; simpl; constructor; [assumption|].
  rewrite Forall_forall. intros x Hx. apply repeat_spec in Hx. subst. exact H.
Qed.

Lemma int_bounds : forall p (dom : R -> Prop) ex ints d (P : R -> Prop), isolates p dom ex ints -> In d ints -> 
  (forall x, dom x -> P x) -> forall x, in_int d x -> P x.
Proof. intros p dom ex ints d P HI Hd H x Hx. apply H. apply (iso_int_dom _ _ _ _ HI d x Hd Hx). Qed.

Lemma int_nonempty : forall d, ilo d < ihi d.
Proof. intros [c e]. unfold ilo, ihi. simpl. pose proof (pw2_pos e). nra. Qed.
Lemma pos_int_lo : forall p ex ints d, isolates p positive ex ints -> In d ints -> 0 <= ilo d.
Proof.
  intros p ex ints d HI Hd. destruct (Rle_dec 0 (ilo d)) as [H|H]; [exact H|exfalso].
  pose proof (int_nonempty d).
  assert (Hm : in_int d (Rmin ((ilo d + ihi d) / 2) (ilo d / 2))).
  { unfold in_int. split; [apply Rmin_glb_lt; lra|]. eapply Rle_lt_trans; [apply Rmin_l|lra]. }
  pose proof (iso_int_dom _ _ _ _ HI d _ Hd Hm) as Hp. unfold positive in Hp.
  pose proof (Rmin_r ((ilo d + ihi d) / 2) (ilo d / 2)). lra.
Qed.
Lemma neg_int_hi : forall p ex ints d, isolates p negative ex ints -> In d ints -> ihi d <= 0.
Proof.
  intros p ex ints d HI Hd. destruct (Rle_dec (ihi d) 0) as [H|H]; [exact H|exfalso].
  pose proof (int_nonempty d).
  assert (Hm : in_int d (Rmax ((ilo d + ihi d) / 2) (ihi d / 2))).
  { unfold in_int. split; [eapply Rlt_le_trans; [|apply Rmax_l]; lra|]. apply Rmax_lub_lt; lra. }
  pose proof (iso_int_dom _ _ _ _ HI d _ Hd Hm) as Hp. unfold negative in Hp.
  pose proof (Rmax_r ((ilo d + ihi d) / 2) (ihi d / 2)). lra.
Qed.

Lemma isolates_glue : forall P p n nex nints pex pints,
  (forall x, zeval P x = x ^ n * zeval p x) -> zeval p 0 <> 0 ->
  isolates p negative nex nints -> isolates p positive pex pints ->
  isolates P reals (nex ++ repeat (0, 0)%Z n ++ pex) (nints ++ pints).
Proof.
  intros P p n nex nints pex pints E H0 HN HP.
  assert (Hroot : forall x, zeval p x = 0 -> zeval P x = 0) by (intros x H; rewrite E, H; ring).
  assert (Hroot' : forall x, x <> 0 -> zeval P x = 0 -> zeval p x = 0).
  { intros x Hx H. rewrite E in H. apply Rmult_integral in H. destruct H as [H|H]; [|exact H].
    exfalso. apply (pow_nonzero x n Hx). exact H. }
  assert (Hz : forall d, In d (repeat (0, 0)%Z n) -> dyv d = 0 /\ (1 <= n)%nat).
  { intros d Hd. pose proof Hd as Hd'. apply repeat_spec in Hd. subst. split; [unfold dyv; simpl; ring|].
    destruct n; [destruct Hd'|lia]. }
  assert (Hnex : forall d, In d nex -> dyv d < 0 /\ zeval p (dyv d) = 0) by (intros d Hd; exact (iso_exact_root _ _ _ _ HN d Hd)).
  assert (Hpex : forall d, In d pex -> 0 < dyv d /\ zeval p (dyv d) = 0) by (intros d Hd; exact (iso_exact_root _ _ _ _ HP d Hd)).
  constructor.
  - intros d Hd. split; [exact I|]. apply in_app_or in Hd. destruct Hd as [Hd|Hd].
    + apply Hroot. apply Hnex. exact Hd.
    + apply in_app_or in Hd. destruct Hd as [Hd|Hd].
      * destruct (Hz d Hd) as [-> Hn]. rewrite E. destruct n; [lia|]. simpl. ring.
      * apply Hroot. apply Hpex. exact Hd.
  - destruct (iso_exact_mult _ _ _ _ HN) as (q1 & E1 & N1).
    destruct (iso_exact_mult _ _ _ _ HP) as (q2 & E2 & N2).
    destruct (linprod_list (map dyv nex)) as [A HA].
    destruct (linprod_cancel (map dyv pex) A q1 q2) as [q3 Hq3].
    + intros x. rewrite HA, <- E1, E2. reflexivity.
    + intros r Hr. apply in_map_iff in Hr. destruct Hr as (d & <- & Hd). rewrite HA. intros H.
      apply linprod_zero in H. apply in_map_iff in H. destruct H as (d' & Hd1 & Hd2).
      pose proof (Hnex d' Hd2). pose proof (Hpex d Hd). lra.
    + intros Hq. apply H0. rewrite E1, (peval_pzero q1 0 Hq). ring.
    + exists q3.
      assert (E3 : forall x, zeval p x = linprod (map dyv nex) x * linprod (map dyv pex) x * peval q3 x).
      { intros x. rewrite E1, Hq3. ring. }
      assert (E4 : forall x, peval q2 x = linprod (map dyv nex) x * peval q3 x).
      { intros x. rewrite <- HA, <- peval_pmul. apply (quotient_unique _ _ (map dyv pex)). intros y.
        rewrite <- E2, E3, peval_pmul, HA. ring. }
      split.
      * intros x. rewrite !map_app, !linprod_app, linprod_zeros, E, E3. ring.
      * intros d Hd Hq. apply in_app_or in Hd. destruct Hd as [Hd|Hd]; [|apply in_app_or in Hd; destruct Hd as [Hd|Hd]].
        -- apply (N1 d Hd). rewrite Hq3, Hq. ring.
        -- destruct (Hz d Hd) as [Ez _]. rewrite Ez in Hq. apply H0. rewrite E3, Hq. ring.
        -- apply (N2 d Hd). rewrite E4, Hq. ring.
  - intros d Hd. apply in_app_or in Hd. destruct Hd as [Hd|Hd].
    + destruct (iso_int_root _ _ _ _ HN d Hd) as (x & [Hx1 Hx2] & Hu). exists x.
      split; [split; [exact Hx1|apply Hroot; exact Hx2]|]. intros y [Hy1 Hy2]. apply Hu. split; [exact Hy1|].
      apply Hroot'; [|exact Hy2]. pose proof (iso_int_dom _ _ _ _ HN d y Hd Hy1) as H. unfold negative in H. lra.
    + destruct (iso_int_root _ _ _ _ HP d Hd) as (x & [Hx1 Hx2] & Hu). exists x.
      split; [split; [exact Hx1|apply Hroot; exact Hx2]|]. intros y [Hy1 Hy2]. apply Hu. split; [exact Hy1|].
      apply Hroot'; [|exact Hy2]. pose proof (iso_int_dom _ _ _ _ HP d y Hd Hy1) as H. unfold positive in H. lra.
  - intros. exact I.
  - intros x _ Hx. destruct (Rtotal_order x 0) as [Hs|[Hs|Hs]].
    + destruct (iso_complete _ _ _ _ HN x Hs (Hroot' x ltac:(lra) Hx)) as [(d & H1 & H2)|(d & H1 & H2)].
      * left. exists d. split; [apply in_or_app; left; exact H1|exact H2].
      * right. exists d. split; [apply in_or_app; left; exact H1|exact H2].
    + subst x. left. exists (0, 0)%Z. split; [|unfold dyv; simpl; ring].
      apply in_or_app. right. apply in_or_app. left. destruct n; [|left; reflexivity].
      exfalso. apply H0. rewrite E in Hx. simpl in Hx. lra.
    + destruct (iso_complete _ _ _ _ HP x Hs (Hroot' x ltac:(lra) Hx)) as [(d & H1 & H2)|(d & H1 & H2)].
      * left. exists d. split; [apply in_or_app; right; apply in_or_app; right; exact H1|exact H2].
      * right. exists d. split; [apply in_or_app; right; exact H1|exact H2].
  - intros d e Hd He Hin. unfold in_int in Hin. apply in_app_or in He. destruct He as [He|He].
    + pose proof (neg_int_hi _ _ _ e HN He) as Hh. apply in_app_or in Hd.
      destruct Hd as [Hd|Hd]; [apply (iso_exclusive _ _ _ _ HN d e Hd He Hin)|].
      apply in_app_or in Hd. destruct Hd as [Hd|Hd].
      * destruct (Hz d Hd) as [Ez _]. lra.
      * pose proof (Hpex d Hd). lra.
    + pose proof (pos_int_lo _ _ _ e HP He) as Hh. apply in_app_or in Hd.
      destruct Hd as [Hd|Hd]; [pose proof (Hnex d Hd); lra|].
      apply in_app_or in Hd. destruct Hd as [Hd|Hd].
      * destruct (Hz d Hd) as [Ez _]. lra.
      * apply (iso_exclusive _ _ _ _ HP d e Hd He Hin).
  - apply ss_app; [exact (iso_exact_sorted _ _ _ _ HN)| |].
    + apply ss_app; [apply repeat_sorted; lra|exact (iso_exact_sorted _ _ _ _ HP)|].
      intros x y Hx Hy. destruct (Hz x Hx) as [-> _]. pose proof (Hpex y Hy). lra.
    + intros x y Hx Hy. pose proof (Hnex x Hx). apply in_app_or in Hy. destruct Hy as [Hy|Hy].
      * destruct (Hz y Hy) as [-> _]. lra.
      * pose proof (Hpex y Hy). lra.
  - apply ss_app; [exact (iso_int_sorted _ _ _ _ HN)|exact (iso_int_sorted _ _ _ _ HP)|].
    intros x y Hx Hy. pose proof (neg_int_hi _ _ _ x HN Hx). pose proof (pos_int_lo _ _ _ y HP Hy). lra.
Qed.

(** * The whole procedure under correct root bounds *)
Definition good_bound (flog0 : Z) (p : list Z) : Prop :=
  match root_bound flog0 p with
  | None => forall x, 0 < x -> zeval p x <> 0
  | Some k => forall x, 0 < x -> zeval p x = 0 -> x < pw2 k
  end.

Lemma isolates_none : forall p (dom : R -> Prop), (forall x, dom x -> zeval p x <> 0) -> isolates p dom [] [].
Proof.
  intros p dom H. split.
  - intros d [].
  - exists (map IZR p). split; [intros; simpl; unfold zeval; ring|intros d []].
  - intros d [].
  - intros d x [].
  - intros x Hx H0. exfalso. exact (H x Hx H0).
  - intros d e [].
  - constructor.
  - constructor.
Qed.

Lemma vca_positive : forall flog0 f p, zeval p 0 <> 0 -> good_bound flog0 p ->
  match root_bound flog0 p with
  | None => isolates p positive [] []
  | Some k => match vca f (scale2 k p) [] [] with
              | VDone ex ints => isolates p positive (map (dy_shift k) ex) (map (dy_shift k) ints)
              | VFuel => True
              | _ => False
              end
  end.
Proof.
  intros flog0 f p H0 Hg. unfold good_bound in Hg. destruct (root_bound flog0 p) as [k|].
  - assert (Hnz : nonzero p) by (apply nonzero_iff; exists 0; exact H0).
    pose proof (vca_correct f (scale2 k p) (scale2_nonzero k p Hnz)) as HC.
    destruct (vca f (scale2 k p) [] []) as [ex ints| | |]; try exact HC.
    destruct (scale2_eval k p) as (l & Hl & E).
    (* intersect with positive: the root 0 does not exist *)
    assert (Hs0 : zeval (scale2 k p) 0 <> 0).
    { intros H. apply H0. specialize (E 0). rewrite H, Rmult_0_r, Rmult_0_r in E. exact E. }
    assert (HC' : isolates (scale2 k p) (fun x => 0 < x < 1) ex ints).
    { destruct HC as [c1 c2 c3 c4 c5 c6 c7 c8]. constructor; try assumption.
      - intros d Hd. destruct (c1 d Hd) as [Hdm Hr]. split; [|exact Hr]. unfold unit_co in Hdm.
        destruct (Req_dec (dyv d) 0) as [Ez|Ez]; [rewrite Ez in Hr; contradiction|lra].
      - intros d x Hd Hx. pose proof (c4 d x Hd Hx) as Hdm. unfold unit_co in Hdm.
        destruct (Req_dec x 0) as [Ez|Ez]; [exfalso|lra]. subst x. unfold in_int in Hx.
        assert (Hm : in_int d (ilo d / 2)) by (unfold in_int; lra).
        pose proof (c4 d _ Hd Hm) as Hd2. unfold unit_co in Hd2. lra.
      - intros x Hx Hr. apply c5; [unfold unit_co; lra|exact Hr]. }
    apply (isolates_shift p (scale2 k p) k l (fun x => 0 < x < 1) positive ex ints Hl E); [| |exact HC'].
    + intros x Hx. unfold positive. pose proof (pw2_pos k). nra.
    + intros x Hx Hr. unfold positive in Hx. pose proof (pw2_pos k) as Hk.
      assert (Hx0 : 0 < x) by nra. split; [exact Hx0|].
      assert (pw2 k * x < pw2 k); [|nra]. apply Hg; [exact Hx|]. rewrite E, Hr. ring.
  - apply isolates_none. intros x Hx. apply Hg. exact Hx.
Qed.

Theorem isolate_correct : forall flog0 f pol, nonzero pol ->
  good_bound flog0 (snd (low_zeros pol)) -> good_bound flog0 (flip (snd (low_zeros pol))) ->
  match isolate flog0 f pol with
  | VDone ex ints => isolates pol reals ex ints
  | VFuel => True
  | _ => False
  end.
Proof.
  intros flog0 f pol HP G1 G2. unfold isolate.
  destruct (forallb (Z.eqb 0) pol) eqn:Ez.
  { exfalso. apply HP. rewrite forallb_forall in Ez. apply Forall_forall. intros a Ha.
    symmetry. apply Z.eqb_eq. apply Ez. exact Ha. }
  destruct (low_zeros pol) as [nz p] eqn:EL. simpl in G1, G2.
  destruct (low_zeros_spec pol nz p EL) as (E & Hne & _). destruct (Hne HP) as [_ H0].
  destruct (flip_spec p) as [_ Hf].
  assert (H0' : zeval (flip p) 0 <> 0) by (rewrite Hf, Ropp_0; exact H0).
  pose proof (vca_positive flog0 f p H0 G1) as VP.
  pose proof (vca_positive flog0 f (flip p) H0' G2) as VN.
  assert (Hopp : forall ex ints, isolates (flip p) positive ex ints ->
     isolates p negative (rev (map dy_opp ex)) (rev (map int_opp ints))).
  { intros ex ints. apply isolates_opp; [intros; rewrite Hf; reflexivity|].
    intros x; unfold positive, negative; split; lra. }
  assert (Hcomm1 : forall k ex, rev (map dy_opp (map (dy_shift k) ex)) = rev (map (fun d => dy_shift k (dy_opp d)) ex)).
  { intros. rewrite map_map. reflexivity. }
  assert (Hcomm2 : forall k ex, rev (map int_opp (map (dy_shift k) ex)) = rev (map (fun d => dy_shift k (int_opp d)) ex)).
  { intros. rewrite map_map. reflexivity. }
  assert (Hfin : forall nex nints, isolates p negative nex nints ->
    match (match root_bound flog0 p with
        | None => VDone (nex ++ repeat (0, 0)%Z nz) nints
        | Some k =>
            match vca f (scale2 k p) [] [] with
            | VDone pex pints =>
                VDone (nex ++ repeat (0, 0)%Z nz ++ map (dy_shift k) pex) (nints ++ map (dy_shift k) pints)
            | r => r
            end
        end) with
    | VDone ex ints => isolates pol reals ex ints | VFuel => True | _ => False end).
  { intros nex nints HN. destruct (root_bound flog0 p) as [k|].
    - destruct (vca f (scale2 k p) [] []) as [pex pints| | |]; try exact VP.
      apply (isolates_glue pol p nz); assumption.
    - pose proof (isolates_glue pol p nz nex nints [] [] E H0 HN VP) as G. rewrite !app_nil_r in G. exact G. }
  destruct (root_bound flog0 (flip p)) as [k|].
  - destruct (vca f (scale2 k (flip p)) [] []) as [ex ints| | |]; try exact VN.
    apply Hfin. pose proof (Hopp _ _ VN) as HN. rewrite Hcomm1, Hcomm2 in HN. exact HN.
  - apply Hfin. exact (Hopp _ _ VN).
Qed.
