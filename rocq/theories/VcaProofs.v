(** Proofs about the bisection isolation on [0,1) (C02). *)
Require Import Reals List Lra Lia ZArith Bool Sorting.
From Verif Require Import PolyR SignVar RootModel DescartesProofs RootSpec.
Import ListNotations.
Open Scope R_scope.

(** * Powers of two *)
Lemma pw2_add : forall a b, pw2 (a + b) = pw2 a * pw2 b.
Proof. intros. unfold pw2. apply powerRZ_add. lra. Qed.
Lemma pw2_pos : forall a, 0 < pw2 a.
Proof. intros. unfold pw2. apply powerRZ_lt. lra. Qed.
Lemma pw2_0 : pw2 0 = 1. Proof. reflexivity. Qed.
Lemma pw2_1 : pw2 1 = 2. Proof. unfold pw2. simpl. ring. Qed.
Lemma pw2_inv : forall a, pw2 (- a) * pw2 a = 1.
Proof. intros. rewrite <- pw2_add. replace (- a + a)%Z with 0%Z by lia. reflexivity. Qed.
Lemma pw2_IZR : forall k, (0 <= k)%Z -> IZR (2 ^ k) = pw2 k.
Proof.
  intros k Hk. pattern k. apply natlike_ind; [reflexivity| |exact Hk].
  intros x Hx IH. rewrite Z.pow_succ_r by exact Hx. rewrite mult_IZR, IH.
  unfold Z.succ. rewrite pw2_add, pw2_1. ring.
Qed.
Lemma pw2_neq : forall a, pw2 a <> 0. Proof. intros a. pose proof (pw2_pos a). lra. Qed.

(** * Evaluation of the FLINT primitives *)
Lemma zeval_zlin_go : forall r c prev x, zeval (zlin_go c prev r) x = IZR prev + (x + IZR c) * zeval r x.
Proof.
  induction r as [|b r IH]; intros c prev x; cbn [zlin_go].
  - unfold zeval; simpl; ring.
  - rewrite !zeval_cons, IH, plus_IZR, mult_IZR. ring.
Qed.

Lemma zeval_tshift : forall p c x, zeval (tshift c p) x = zeval p (x + IZR c).
Proof.
  induction p as [|a p IH]; intros c x; cbn [tshift]; [reflexivity|].
  rewrite zeval_zlin_go, IH, zeval_cons. ring.
Qed.

Lemma zeval_zpows : forall p b acc x, zeval (zpows b acc p) x = IZR acc * zeval p (IZR b * x).
Proof.
  induction p as [|a p IH]; intros b acc x; cbn [zpows]; [unfold zeval; simpl; ring|].
  rewrite !zeval_cons, IH, !mult_IZR. ring.
Qed.

Lemma zpows_app : forall p q b acc, (zpows b acc (p ++ q)) = zpows b acc p ++ zpows b (acc * b ^ Z.of_nat (length p)) q.
Proof.
  induction p as [|a p IH]; intros q b acc.
  - cbn [app zpows length]. rewrite Z.pow_0_r, Z.mul_1_r. reflexivity.
  - cbn [app zpows length]. rewrite IH. do 3 f_equal.
    rewrite Nat2Z.inj_succ, Z.pow_succ_r by lia. ring.
Qed.

Lemma zeval_zpows_rev : forall p b x, (0 < b)%Z ->
  exists l, 0 < l /\ zeval (rev (zpows b 1 (rev p))) x * IZR b = IZR b ^ length p * zeval p (x / IZR b).
Proof.
  intros p b x Hb. exists 1. split; [lra|].
  assert (HB : 0 < IZR b) by (apply IZR_lt; exact Hb).
  induction p as [|a p IH].
  - unfold zeval; simpl; ring.
  - cbn [rev]. rewrite zpows_app, rev_app_distr. cbn [zpows rev app].
    rewrite rev_length, Z.mul_1_l, !zeval_cons, mult_IZR, <- pow_IZR.
    cbn [length pow].
    transitivity (IZR a * IZR b ^ length p * IZR b + x * (zeval (rev (zpows b 1 (rev p))) x * IZR b)); [ring|].
    rewrite IH. field. lra.
Qed.

Lemma pos_val2_spec : forall p, exists m, (Zpos p = Zpos m * 2 ^ Z.of_nat (pos_val2 p) /\ Z.odd (Zpos m) = true)%Z.
Proof.
  induction p as [p IH|p IH|].
  - exists (xI p). cbn [pos_val2]. split; [rewrite Z.pow_0_r; lia|reflexivity].
  - destruct IH as (m & E & Ho). exists m. split; [|exact Ho].
    cbn [pos_val2]. rewrite Nat2Z.inj_succ, Z.pow_succ_r by lia.
    rewrite Pos2Z.inj_xO, E. ring.
  - exists xH. split; reflexivity.
Qed.

Lemma val2_spec : forall z, z <> 0%Z -> exists m, (z = m * 2 ^ Z.of_nat (val2 z) /\ Z.odd m = true)%Z.
Proof.
  intros [|p|p] Hz; [congruence| |].
  - destruct (pos_val2_spec p) as (m & E & Ho). exists (Zpos m). split; assumption.
  - destruct (pos_val2_spec p) as (m & E & Ho). exists (Zneg m). split; [|destruct m; assumption].
    cbn [val2]. rewrite <- (Pos2Z.opp_pos p), <- (Pos2Z.opp_pos m), E. ring.
Qed.

Lemma min_val2_spec : forall p v, min_val2 p = Some v -> forall a, In a p -> (2 ^ Z.of_nat v | a)%Z.
Proof.
  induction p as [|b p IH]; intros v H a Ha; [discriminate|].
  cbn [min_val2] in H. destruct (Z.eqb_spec b 0) as [E|E].
  - destruct Ha as [Ha|Ha]; [subst; exists 0%Z; reflexivity|]. apply IH; assumption.
  - destruct (val2_spec b E) as (m & Em & _).
    assert (Hb : forall w, (w <= val2 b)%nat -> (2 ^ Z.of_nat w | b)%Z).
    { intros w Hw. exists (m * 2 ^ (Z.of_nat (val2 b) - Z.of_nat w))%Z.
      rewrite Em at 1. rewrite <- Z.mul_assoc, <- Z.pow_add_r by lia. do 2 f_equal. lia. }
    destruct (min_val2 p) as [w|] eqn:Ep.
    + injection H as <-.
      destruct Ha as [<-|Ha]; [apply Hb; lia|].
      apply (Z.divide_trans _ (2 ^ Z.of_nat w)); [|apply (IH w eq_refl a Ha)].
      exists (2 ^ (Z.of_nat w - Z.of_nat (Nat.min (val2 b) w)))%Z.
      rewrite <- Z.pow_add_r by lia. f_equal. lia.
    + injection H as <-. destruct Ha as [<-|Ha]; [apply Hb; lia|].
      assert (Hall : forall q, min_val2 q = None -> forall a, In a q -> a = 0%Z).
      { clear. induction q as [|c q IH]; intros H a Ha; [destruct Ha|].
        cbn [min_val2] in H. destruct (Z.eqb_spec c 0) as [E|E].
        - destruct Ha as [<-|Ha]; [exact E|]. apply IH; assumption.
        - destruct (min_val2 q); discriminate. }
      rewrite (Hall p Ep a Ha). exists 0%Z. reflexivity.
Qed.

Lemma strip2_eval : forall p, exists l, 0 < l /\ forall x, zeval p x = l * zeval (strip2 p) x.
Proof.
  intros p. unfold strip2. destruct (min_val2 p) as [v|] eqn:E.
  - exists (pw2 (Z.of_nat v)). split; [apply pw2_pos|]. intros x.
    pose proof (min_val2_spec p v E) as H. clear E.
    induction p as [|a p IH]; [unfold zeval; simpl; ring|].
    cbn [map]. rewrite !zeval_cons, IH by (intros b Hb; apply H; right; exact Hb).
    destruct (H a (or_introl eq_refl)) as [m Hm]. rewrite Hm at 2.
    rewrite Z.div_mul by (apply Z.pow_nonzero; lia).
    rewrite Hm at 1. rewrite mult_IZR, pw2_IZR by lia. ring.
  - exists 1. split; [lra|]. intros; ring.
Qed.

(** Scaling: p(2^k x) up to a positive factor. *)
Lemma scale2_eval : forall k p, exists l, 0 < l /\ forall x, zeval p (pw2 k * x) = l * zeval (scale2 k p) x.
Proof.
  intros k p. unfold scale2.
  destruct (strip2_eval (if (0 <=? k)%Z then zpows (2 ^ k) 1 p else rev (zpows (2 ^ - k) 1 (rev p)))) as (l & Hl & Hs).
  destruct (Z.leb_spec 0 k) as [Hk|Hk].
  - exists l. split; [exact Hl|]. intros x. rewrite <- Hs, zeval_zpows, pw2_IZR by exact Hk. ring.
  - assert (Hb : (0 < 2 ^ - k)%Z) by (apply Z.pow_pos_nonneg; lia).
    exists (l * (IZR (2 ^ - k) * / IZR (2 ^ - k) ^ length p)).
    assert (HB : 0 < IZR (2 ^ - k)) by (apply IZR_lt; exact Hb).
    assert (HBp : 0 < IZR (2 ^ - k) ^ length p) by (apply pow_lt; exact HB).
    split.
    + apply Rmult_lt_0_compat; [exact Hl|]. apply Rmult_lt_0_compat; [exact HB|].
      apply Rinv_0_lt_compat. exact HBp.
    + intros x. destruct (zeval_zpows_rev p (2 ^ - k) x Hb) as (_ & _ & E).
      replace (pw2 k * x) with (x / IZR (2 ^ - k)).
      * apply Rmult_eq_reg_l with (IZR (2 ^ - k) ^ length p); [|lra].
        rewrite <- E, Hs. field. lra.
      * rewrite pw2_IZR by lia. pose proof (pw2_inv k) as Hi.
        unfold Rdiv. replace (/ pw2 (- k)) with (pw2 k); [ring|].
        apply Rmult_eq_reg_l with (pw2 (- k)); [|apply pw2_neq].
        rewrite Hi, Rinv_r; [reflexivity|apply pw2_neq].
Qed.

Lemma nonzero_iff : forall p, nonzero p <-> exists x, zeval p x <> 0.
Proof.
  intros p. unfold nonzero. rewrite zeval_nonzero_pzero. split.
  - intros H. destruct (sign_near_zero _ H) as (d & Hd & Hs).
    exists (d / 2). intros H0. specialize (Hs (d / 2) ltac:(lra)).
    unfold zeval in H0. rewrite H0, sgnR_0 in Hs.
    assert (Hf : forall l, fsign l = 0%Z -> pzero l).
    { induction l as [|a l IH]; intros Hl; [constructor|]. cbn [fsign] in Hl.
      destruct (sgnR_cases a) as [[Ha E]|[[Ha E]|[Ha E]]]; rewrite E in Hl; cbn [Z.eqb] in Hl; try lia.
      constructor; [exact Ha|]. apply IH. exact Hl. }
    apply H. apply Hf. symmetry. exact Hs.
  - intros [x Hx] Hz. apply Hx. unfold zeval. apply peval_pzero. exact Hz.
Qed.

(** * Loop invariant of the isolation *)

(** Point of the node [c/2^k, (c+1)/2^k] with local coordinate [x]. *)
Definition npt (c k : Z) (x : R) : R := (IZR c + x) * pw2 (- k).

Lemma npt_lt : forall c k x y, x < y -> npt c k x < npt c k y.
Proof. intros. unfold npt. pose proof (pw2_pos (- k)). nra. Qed.
Lemma npt_inj : forall c k x y, npt c k x = npt c k y -> x = y.
Proof.
  intros c k x y H. destruct (Rtotal_order x y) as [L|[E|L]]; [|exact E|];
    apply (npt_lt c k) in L; lra.
Qed.
Definition nloc (c k : Z) (y : R) : R := y * pw2 k - IZR c.
Lemma npt_nloc : forall c k y, npt c k (nloc c k y) = y.
Proof.
  intros. unfold npt, nloc. replace ((IZR c + (y * pw2 k - IZR c)) * pw2 (- k)) with (y * (pw2 (- k) * pw2 k)) by ring.
  rewrite pw2_inv. ring.
Qed.
Lemma nloc_npt : forall c k x, nloc c k (npt c k x) = x.
Proof. intros. apply (npt_inj c k). apply npt_nloc. Qed.
Lemma nloc_lt : forall c k x y, x < y -> nloc c k x < nloc c k y.
Proof. intros. unfold nloc. pose proof (pw2_pos k). nra. Qed.
Lemma dyv_npt : forall c k, dyv (c, (- k)%Z) = npt c k 0.
Proof. intros. unfold dyv, npt. simpl. ring. Qed.

Definition node (P : list Z) (ex : list dyadic) (c k : Z) (p : list Z) : Prop :=
  exists l, 0 < l /\ forall x,
    zeval P (npt c k x) = l * linprod (map dyv ex) (npt c k x) * zeval p x.

Record Inv (P : list Z) (c k : Z) (p : list Z) (ex ints : list dyadic) : Prop := {
  inv_k : (0 <= k)%Z;
  inv_c : (0 <= c < 2 ^ k)%Z;
  inv_node : node P ex c k p;
  inv_ex_le : forall d, In d ex -> 0 <= dyv d <= npt c k 0;
  inv_ex_nv : forall d, In d ex -> dyv d < npt c k 0 -> zeval p (nloc c k (dyv d)) <> 0;
  inv_ex_sorted : StronglySorted (fun d e => dyv d <= dyv e) ex;
  inv_int_in : forall d, In d ints -> 0 <= ilo d /\ ihi d <= npt c k 0;
  inv_int_root : forall d, In d ints -> exists! x, in_int d x /\ zeval P x = 0;
  inv_int_sorted : StronglySorted (fun d e => ihi d <= ilo e) ints;
  inv_cover : forall x, 0 <= x < npt c k 0 -> zeval P x = 0 ->
      (exists d, In d ex /\ dyv d = x) \/ (exists d, In d ints /\ in_int d x);
  inv_excl : forall d e, In d ex -> In e ints -> ~ in_int e (dyv d)
}.

Lemma StronglySorted_snoc : forall (A : Type) (Rr : A -> A -> Prop) l a,
  StronglySorted Rr l -> (forall b, In b l -> Rr b a) -> StronglySorted Rr (l ++ [a]).
Proof.
  intros A Rr l a H Hl. induction H as [|b l Hb IH HF]; simpl.
  - constructor; constructor.
  - constructor.
    + apply IH. intros c Hc. apply Hl. right. exact Hc.
    + apply Forall_app. split; [exact HF|]. constructor; [|constructor]. apply Hl. left. reflexivity.
Qed.

Lemma npt_0_lt1 : forall c k, (0 <= k)%Z -> (0 <= c < 2 ^ k)%Z -> 0 <= npt c k 0 /\ npt c k 1 <= 1.
Proof.
  intros c k Hk [Hc0 Hc1]. unfold npt. pose proof (pw2_pos (- k)) as Hp.
  assert (H0 : 0 <= IZR c) by (apply IZR_le; exact Hc0).
  assert (H1 : IZR c + 1 <= pw2 k).
  { rewrite <- pw2_IZR by exact Hk. rewrite <- plus_IZR. apply IZR_le. lia. }
  pose proof (pw2_inv k). split; nra.
Qed.

(** Stripping zero coefficients. *)
Lemma vca_strip_inv : forall p P c k ex ints p' ex',
  Inv P c k p ex ints -> nonzero P -> vca_strip c k p ex = (p', ex') ->
  Inv P c k p' ex' ints /\ p' <> [] /\ zeval p' 0 <> 0.
Proof.
  induction p as [|a p IH]; intros P c k ex ints p' ex' HI HP HS.
  - exfalso. destruct (inv_node _ _ _ _ _ _ HI) as (l & Hl & E).
    apply nonzero_iff in HP. destruct HP as [x Hx]. apply Hx.
    rewrite <- (npt_nloc c k x), E. unfold zeval at 1; simpl. ring.
  - cbn [vca_strip] in HS. destruct (Z.eqb_spec a 0) as [Ea|Ea].
    + subst a. apply (IH P c k (ex ++ [(c, (- k)%Z)]) ints p' ex'); [|exact HP|exact HS].
      destruct HI as [Hk Hc Hn Hle Hnv Hs Hii Hir His Hcov Hexc].
      assert (Hp0 : zeval (0%Z :: p) 0 = 0) by (rewrite zeval_cons; ring).
      constructor; try assumption.
      * destruct Hn as (l & Hl & E). exists (l * pw2 k).
        split; [apply Rmult_lt_0_compat; [exact Hl|apply pw2_pos]|].
        intros x. rewrite E, map_app, linprod_app, zeval_cons. cbn [map linprod].
        rewrite dyv_npt.
        replace (npt c k x - npt c k 0) with (x * pw2 (- k)) by (unfold npt; ring).
        transitivity (l * linprod (map dyv ex) (npt c k x) * (x * zeval p x) * (pw2 (- k) * pw2 k)); [|ring].
        rewrite pw2_inv. ring.
      * intros d Hd. apply in_app_or in Hd. destruct Hd as [Hd|[<-|[]]]; [apply Hle; exact Hd|].
        rewrite dyv_npt. destruct (npt_0_lt1 c k Hk Hc). lra.
      * intros d Hd Hlt. apply in_app_or in Hd. destruct Hd as [Hd|[<-|[]]].
        -- specialize (Hnv d Hd Hlt). rewrite zeval_cons in Hnv. intros H0. apply Hnv. rewrite H0. ring.
        -- rewrite dyv_npt in Hlt. lra.
      * apply StronglySorted_snoc; [exact Hs|]. intros d Hd. rewrite dyv_npt. apply Hle. exact Hd.
      * intros x Hx H0. destruct (Hcov x Hx H0) as [(d & Hd & Ed)|H]; [left|right; exact H].
        exists d. split; [apply in_or_app; left; exact Hd|exact Ed].
      * intros d e Hd He. apply in_app_or in Hd. destruct Hd as [Hd|[<-|[]]]; [apply Hexc; assumption|].
        rewrite dyv_npt. destruct (Hii e He) as [_ H1]. unfold in_int. lra.
    + injection HS as <- <-. split; [exact HI|]. split; [discriminate|].
      rewrite zeval_cons. replace (IZR a + 0 * zeval p 0) with (IZR a) by ring.
      apply not_0_IZR. exact Ea.
Qed.

Lemma node_nonzero : forall P ex c k p, node P ex c k p -> nonzero P -> nonzero p.
Proof.
  intros P ex c k p (l & Hl & E) HP. apply nonzero_iff in HP. destruct HP as [x Hx].
  apply nonzero_iff. exists (nloc c k x). intros H0. apply Hx.
  rewrite <- (npt_nloc c k x), E, H0. ring.
Qed.

(** Roots of P in the open node are the roots of p in (0,1). *)
Lemma node_roots : forall P c k p ex ints x, Inv P c k p ex ints -> 0 < x ->
  (zeval P (npt c k x) = 0 <-> zeval p x = 0).
Proof.
  intros P c k p ex ints x HI Hx. destruct (inv_node _ _ _ _ _ _ HI) as (l & Hl & E).
  rewrite E. split; intros H0; [|rewrite H0; ring].
  apply Rmult_integral in H0. destruct H0 as [H0|H0]; [|exact H0].
  apply Rmult_integral in H0. destruct H0 as [H0|H0]; [lra|].
  apply linprod_zero in H0. apply in_map_iff in H0. destruct H0 as (d & Ed & Hd).
  apply (inv_ex_le _ _ _ _ _ _ HI) in Hd. pose proof (npt_lt c k 0 x Hx). lra.
Qed.

(** After stripping, a root at the left end of the node is listed. *)
Lemma node_left : forall P c k p ex ints, Inv P c k p ex ints -> zeval p 0 <> 0 ->
  zeval P (npt c k 0) = 0 -> exists d, In d ex /\ dyv d = npt c k 0.
Proof.
  intros P c k p ex ints HI Hp H0. destruct (inv_node _ _ _ _ _ _ HI) as (l & Hl & E).
  rewrite E in H0. apply Rmult_integral in H0. destruct H0 as [H0|H0]; [|contradiction].
  apply Rmult_integral in H0. destruct H0 as [H0|H0]; [lra|].
  apply linprod_zero in H0. apply in_map_iff in H0. destruct H0 as (d & Ed & Hd). eauto.
Qed.

Lemma npt_double : forall c k x, npt (2 * c) (k + 1) x = npt c k (x / 2).
Proof.
  intros. unfold npt. replace (- (k + 1))%Z with (- k + - (1))%Z by lia.
  rewrite pw2_add, mult_IZR. replace (pw2 (- (1))) with (/ 2); [field|].
  unfold pw2; simpl; field.
Qed.

(** Going down to the left half. *)
Lemma inv_down : forall P c k p ex ints, Inv P c k p ex ints ->
  Inv P (2 * c) (k + 1) (scale2 (-1) p) ex ints.
Proof.
  intros P c k p ex ints [Hk Hc Hn Hle Hnv Hs Hii Hir His Hcov Hexc].
  assert (E0 : npt (2 * c) (k + 1) 0 = npt c k 0).
  { rewrite npt_double. f_equal. lra. }
  destruct (scale2_eval (-1) p) as (l & Hl & E).
  assert (E' : forall x, zeval p (x / 2) = l * zeval (scale2 (-1) p) x).
  { intros x. rewrite <- E. f_equal. unfold pw2; simpl; field. }
  constructor; try assumption; try (rewrite ?E0; assumption).
  - lia.
  - rewrite Z.pow_add_r by lia. simpl (2 ^ 1)%Z. lia.
  - destruct Hn as (l0 & Hl0 & E1). exists (l0 * l). split; [apply Rmult_lt_0_compat; assumption|].
    intros x. rewrite npt_double, E1, E'. ring.
  - intros d Hd Hlt H0. rewrite E0 in Hlt. apply (Hnv d Hd Hlt).
    replace (nloc c k (dyv d)) with (nloc (2 * c) (k + 1) (dyv d) / 2).
    + rewrite E', H0. ring.
    + unfold nloc. rewrite pw2_add, pw2_1, mult_IZR. field.
Qed.

(** Moving to the right neighbour, at the same depth. *)
Lemma inv_right : forall P c k p ex ints, Inv P c k p ex ints -> (c + 1 < 2 ^ k)%Z ->
  zeval p 0 <> 0 ->
  (forall x, npt c k 0 < x < npt c k 1 -> zeval P x = 0 -> exists d, In d ints /\ in_int d x) ->
  Inv P (c + 1) k (tshift 1 p) ex ints.
Proof.
  intros P c k p ex ints HI Hck Hp0 Hopen. pose proof HI as [Hk Hc Hn Hle Hnv Hs Hii Hir His Hcov Hexc].
  assert (E0 : forall x, npt (c + 1) k x = npt c k (x + 1)).
  { intros x. unfold npt. rewrite plus_IZR. ring. }
  assert (Hlt01 : npt c k 0 < npt c k 1) by (apply npt_lt; lra).
  assert (E00 : npt (c + 1) k 0 = npt c k 1) by (rewrite E0; f_equal; ring).
  constructor; try assumption.
  - lia.
  - destruct Hn as (l & Hl & E). exists l. split; [exact Hl|].
    intros x. rewrite E0, E, zeval_tshift. reflexivity.
  - intros d Hd. specialize (Hle d Hd). rewrite E00. lra.
  - intros d Hd _. rewrite zeval_tshift.
    replace (nloc (c + 1) k (dyv d) + 1) with (nloc c k (dyv d)) by (unfold nloc; rewrite plus_IZR; ring).
    destruct (Hle d Hd) as [_ [Hl|He]]; [apply Hnv; assumption|].
    rewrite He, nloc_npt. exact Hp0.
  - intros d Hd. specialize (Hii d Hd). rewrite E00. lra.
  - intros x Hx H0. rewrite E00 in Hx.
    destruct (Rtotal_order x (npt c k 0)) as [L|[E|L]].
    + apply Hcov; [lra|exact H0].
    + left. subst x. apply (node_left P c k p ex ints HI Hp0 H0).
    + right. apply Hopen; [lra|exact H0].
Qed.

(** Going up [i] levels at a position divisible by 2^i. *)
Lemma inv_up : forall P c k p ex ints i m, Inv P (m * 2 ^ i) k p ex ints -> (0 <= i <= k)%Z ->
  c = (m * 2 ^ i)%Z ->
  Inv P (c / 2 ^ i) (k - i) (scale2 i p) ex ints.
Proof.
  intros P c k p ex ints i m HI Hi ->.
  assert (H2i : (0 < 2 ^ i)%Z) by (apply Z.pow_pos_nonneg; lia).
  rewrite Z.div_mul by lia.
  destruct HI as [Hk Hc Hn Hle Hnv Hs Hii Hir His Hcov Hexc].
  assert (E0 : forall x, npt m (k - i) x = npt (m * 2 ^ i) k (pw2 i * x)).
  { intros x. unfold npt. replace (- (k - i))%Z with (- k + i)%Z by lia.
    rewrite pw2_add, mult_IZR, pw2_IZR by lia. ring. }
  assert (E00 : npt m (k - i) 0 = npt (m * 2 ^ i) k 0) by (rewrite E0; f_equal; ring).
  destruct (scale2_eval i p) as (l & Hl & E).
  constructor; try assumption; rewrite ?E00; try assumption.
  - lia.
  - replace k with ((k - i) + i)%Z in Hc by lia. rewrite Z.pow_add_r in Hc by lia. nia.
  - destruct Hn as (l0 & Hl0 & E1). exists (l0 * l). split; [apply Rmult_lt_0_compat; assumption|].
    intros x. rewrite E0, E1, E. ring.
  - intros d Hd Hlt H0. apply (Hnv d Hd Hlt).
    replace (nloc (m * 2 ^ i) k (dyv d)) with (pw2 i * nloc m (k - i) (dyv d)).
    + rewrite E, H0. ring.
    + unfold nloc. rewrite mult_IZR, pw2_IZR by lia.
      replace k with ((k - i) + i)%Z at 2 by lia. rewrite pw2_add. ring.
Qed.

(** Composition with an affine map is a polynomial. *)
Lemma compose_affine : forall (p : list R) a b, exists q, forall x, peval q x = peval p (a * x + b).
Proof.
  induction p as [|c p IH]; intros a b.
  - exists []. reflexivity.
  - destruct (IH a b) as [q Hq]. exists (padd [c] (pmul [b; a] q)).
    intros x. rewrite peval_padd, peval_pmul, Hq. simpl. ring.
Qed.

(** End of the loop. *)
Lemma inv_done : forall P c k p ex ints, Inv P c k p ex ints -> (c + 1 = 2 ^ k)%Z ->
  zeval p 0 <> 0 ->
  (forall x, npt c k 0 < x < npt c k 1 -> zeval P x = 0 -> exists d, In d ints /\ in_int d x) ->
  isolates P unit_co ex ints.
Proof.
  intros P c k p ex ints HI Hck Hp0 Hopen. pose proof HI as [Hk Hc Hn Hle Hnv Hs Hii Hir His Hcov Hexc].
  assert (E1 : npt c k 1 = 1).
  { unfold npt. rewrite <- plus_IZR, Hck, pw2_IZR by exact Hk. rewrite Rmult_comm. apply pw2_inv. }
  assert (Hlt01 : npt c k 0 < npt c k 1) by (apply npt_lt; lra).
  destruct Hn as (l & Hl & E).
  constructor; try assumption.
  - intros d Hd. specialize (Hle d Hd). unfold unit_co. split; [lra|].
    rewrite <- (npt_nloc c k (dyv d)), E, npt_nloc.
    assert (linprod (map dyv ex) (dyv d) = 0) as ->.
    { apply linprod_zero. apply in_map. exact Hd. }
    ring.
  - destruct (compose_affine (map IZR p) (pw2 k) (- IZR c)) as [q Hq].
    exists (pscal l q). split.
    + intros x. rewrite peval_pscal, Hq. rewrite <- (npt_nloc c k x) at 1. rewrite E.
      rewrite npt_nloc. replace (pw2 k * x + - IZR c) with (nloc c k x) by (unfold nloc; ring).
      unfold zeval. ring.
    + intros d Hd. rewrite peval_pscal, Hq.
      replace (pw2 k * dyv d + - IZR c) with (nloc c k (dyv d)) by (unfold nloc; ring).
      apply Rmult_integral_contrapositive_currified; [lra|].
      destruct (Hle d Hd) as [_ [HL|HE]]; [apply Hnv; assumption|].
      rewrite HE, nloc_npt. exact Hp0.
  - intros d x Hd Hx. destruct (Hii d Hd). unfold in_int in Hx. unfold unit_co. lra.
  - intros x [Hx0 Hx1] H0.
    destruct (Rtotal_order x (npt c k 0)) as [L|[Ex|L]].
    + apply Hcov; [lra|exact H0].
    + left. subst x. apply (node_left P c k p ex ints HI Hp0 H0).
    + right. apply Hopen; [lra|exact H0].
Qed.

(** Adding the node as an isolating interval. *)
Lemma inv_add : forall P c k p ex ints, Inv P c k p ex ints -> 
  (exists! x, 0 < x < 1 /\ zeval p x = 0) ->
  exists! x, in_int (c, (- k)%Z) x /\ zeval P x = 0.
Proof.
  intros P c k p ex ints HI (x & [Hx H0] & Hu).
  assert (Hin : forall y, in_int (c, (- k)%Z) y <-> npt c k 0 < y < npt c k 1).
  { intros y. unfold in_int, ilo, ihi, npt. simpl. rewrite Rplus_0_r. reflexivity. }
  exists (npt c k x). split.
  - split; [apply Hin; split; apply npt_lt; lra|].
    apply (node_roots P c k p ex ints x HI); [lra|exact H0].
  - intros y [Hy Hy0]. apply Hin in Hy.
    assert (HL : 0 < nloc c k y < 1).
    { rewrite <- (nloc_npt c k 0) at 1. rewrite <- (nloc_npt c k 1). split; apply nloc_lt; lra. }
    rewrite <- (npt_nloc c k y). f_equal. apply Hu. split; [exact HL|].
    apply (node_roots P c k p ex ints (nloc c k y) HI); [lra|]. rewrite npt_nloc. exact Hy0.
Qed.

(** Descartes test outcomes used by the loop. *)
Lemma descartes01_cases : forall p, nonzero p ->
  (descartes01 p 2 = DCount 0 /\ forall x, 0 < x < 1 -> zeval p x <> 0) \/
  (descartes01 p 2 = DCount 1 /\ exists! x, 0 < x < 1 /\ zeval p x = 0) \/
  ((descartes01 p 2 = DCount 2 \/ descartes01 p 2 = DTooMany) /\ (2 <= var (tc (length p) p))%nat).
Proof.
  intros p Hp. assert (Hne : p <> []) by (intros ->; apply Hp; constructor).
  rewrite (descartes01_var p 2 Hne) by lia.
  destruct (var (tc (length p) p)) as [|[|[|v]]] eqn:Ev.
  - left. split; [reflexivity|]. apply tc_var0; assumption.
  - right; left. split; [reflexivity|]. apply tc_var1; assumption.
  - right; right. split; [left; reflexivity|lia].
  - right; right. split; [right|lia]. apply capped_over. lia.
Qed.

(** One step of the loop, as a relation. *)
Definition next_state (c k : Z) (p : list Z) : option (Z * Z * list Z) :=
  let c := (c + 1)%Z in
  let i := Z.of_nat (val2 c) in
  if (k =? i)%Z then None
  else
    let p := tshift 1 p in
    if (i =? 0)%Z then Some (c, k, p) else Some ((c / 2 ^ i)%Z, (k - i)%Z, scale2 i p).

Lemma vca_loop_eq : forall f c k p ex ints,
  vca_loop (S f) c k p ex ints =
  let '(p, ex) := vca_strip c k p ex in
  match descartes01 p 2 with
  | DUndef => VUndef
  | DTooMany | DCount 2 => vca_loop f (2 * c) (k + 1) (scale2 (-1) p) ex ints
  | DCount 1 =>
      match next_state c k p with
      | None => VDone ex (ints ++ [(c, (- k)%Z)])
      | Some (c', k', p') => vca_loop f c' k' p' ex (ints ++ [(c, (- k)%Z)])
      end
  | DCount 0 =>
      match next_state c k p with
      | None => VDone ex ints
      | Some (c', k', p') => vca_loop f c' k' p' ex ints
      end
  | DCount _ => VAbort
  end.
Proof.
  intros. cbn [vca_loop]. destruct (vca_strip c k p ex) as [p1 ex1].
  destruct (descartes01 p1 2) as [[|[|[|v]]]| |]; try reflexivity;
    unfold next_state; destruct (k =? Z.of_nat (val2 (c + 1)))%Z; try reflexivity;
    destruct (Z.of_nat (val2 (c + 1)) =? 0)%Z; reflexivity.
Qed.

Lemma val2_pow_le : forall c k, (0 <= k)%Z -> (0 < c <= 2 ^ k)%Z ->
  (Z.of_nat (val2 c) <= k)%Z /\ (Z.of_nat (val2 c) = k <-> c = 2 ^ k)%Z.
Proof.
  intros c k Hk [H0 H1]. destruct (val2_spec c) as (m & E & Ho); [lia|].
  set (v := Z.of_nat (val2 c)) in *.
  assert (Hv : (0 <= v)%Z) by (unfold v; lia).
  assert (Hpv : (0 < 2 ^ v)%Z) by (apply Z.pow_pos_nonneg; lia).
  assert (Hm : (1 <= m)%Z) by nia.
  assert (Hle : (v <= k)%Z).
  { apply (Z.pow_le_mono_r_iff 2); [lia|lia|]. nia. }
  split; [exact Hle|]. split; intros Hvk.
  - rewrite Hvk in E. rewrite Hvk in Hpv. assert (m = 1)%Z by nia. subst m. lia.
  - rewrite Hvk in E. replace k with ((k - v) + v)%Z in E at 1 by lia.
    rewrite Z.pow_add_r in E by lia. apply Z.mul_reg_r in E; [|lia].
    destruct (Z.eq_dec (k - v) 0) as [Z0|Z0]; [lia|exfalso].
    subst m. replace (k - v)%Z with (1 + (k - v - 1))%Z in Ho by lia.
    rewrite Z.pow_add_r in Ho by lia. rewrite Z.odd_mul in Ho. simpl in Ho. discriminate.
Qed.

Lemma inv_next : forall P c k p ex ints, Inv P c k p ex ints -> zeval p 0 <> 0 ->
  (forall x, npt c k 0 < x < npt c k 1 -> zeval P x = 0 -> exists d, In d ints /\ in_int d x) ->
  match next_state c k p with
  | None => isolates P unit_co ex ints
  | Some (c', k', p') => Inv P c' k' p' ex ints
  end.
Proof.
  intros P c k p ex ints HI Hp0 Hopen. unfold next_state.
  pose proof (inv_k _ _ _ _ _ _ HI) as Hk. pose proof (inv_c _ _ _ _ _ _ HI) as Hc.
  destruct (val2_pow_le (c + 1) k Hk) as [Hle Hiff]; [lia|].
  destruct (Z.eqb_spec k (Z.of_nat (val2 (c + 1)))) as [E|E].
  - apply (inv_done P c k p ex ints HI); [|exact Hp0|exact Hopen].
    apply Hiff. lia.
  - assert (Hlt : (c + 1 < 2 ^ k)%Z).
    { destruct (Z.eq_dec (c + 1) (2 ^ k)) as [E'|E']; [|lia]. apply Hiff in E'. lia. }
    pose proof (inv_right P c k p ex ints HI Hlt Hp0 Hopen) as HR.
    destruct (Z.eqb_spec (Z.of_nat (val2 (c + 1))) 0) as [E0|E0]; [exact HR|].
    destruct (val2_spec (c + 1)) as (m & Em & _); [lia|].
    apply (inv_up P (c + 1) k (tshift 1 p) ex ints _ m); [|lia|exact Em].
    rewrite <- Em. exact HR.
Qed.

Lemma inv_snoc : forall P c k p ex ints, Inv P c k p ex ints -> nonzero P ->
  (exists! x, 0 < x < 1 /\ zeval p x = 0) -> zeval p 0 <> 0 ->
  match next_state c k p with
  | None => isolates P unit_co ex (ints ++ [(c, (- k)%Z)])
  | Some (c', k', p') => Inv P c' k' p' ex (ints ++ [(c, (- k)%Z)])
  end.
Proof.
  intros P c k p ex ints HI HP H1 Hp0.
  pose proof (inv_add P c k p ex ints HI H1) as Hadd.
  pose proof (inv_k _ _ _ _ _ _ HI) as Hk. pose proof (inv_c _ _ _ _ _ _ HI) as Hc.
  assert (Hilo : ilo (c, (- k)%Z) = npt c k 0) by (unfold ilo, npt; simpl; ring).
  assert (Hihi : ihi (c, (- k)%Z) = npt c k 1) by (unfold ihi, npt; simpl; ring).
  (* conclusions of a step with the extra interval; the invariant only fails at
     [ihi <= npt c k 0], so redo the step by hand *)
  unfold next_state.
  destruct (val2_pow_le (c + 1) k Hk) as [Hle Hiff]; [lia|].
  pose proof (npt_lt c k 0 1 ltac:(lra)) as H01.
  assert (Hexc : forall d e, In d ex -> In e (ints ++ [(c, (- k)%Z)]) -> ~ in_int e (dyv d)).
  { intros d e Hd He. apply in_app_or in He. destruct He as [He|[<-|[]]].
    - apply (inv_excl _ _ _ _ _ _ HI); assumption.
    - apply (inv_ex_le _ _ _ _ _ _ HI) in Hd. unfold in_int. rewrite Hilo. lra. }
  assert (Hsort : StronglySorted (fun d e => ihi d <= ilo e) (ints ++ [(c, (- k)%Z)])).
  { apply StronglySorted_snoc; [apply (inv_int_sorted _ _ _ _ _ _ HI)|].
    intros b Hb. apply (inv_int_in _ _ _ _ _ _ HI) in Hb. rewrite Hilo. lra. }
  assert (Hroot : forall d, In d (ints ++ [(c, (- k)%Z)]) -> exists! x, in_int d x /\ zeval P x = 0).
  { intros d Hd. apply in_app_or in Hd. destruct Hd as [Hd|[<-|[]]]; [|exact Hadd].
    apply (inv_int_root _ _ _ _ _ _ HI). exact Hd. }
  assert (Hin1 : forall d, In d (ints ++ [(c, (- k)%Z)]) -> 0 <= ilo d /\ ihi d <= npt c k 1).
  { destruct (npt_0_lt1 c k Hk Hc). intros d Hd. apply in_app_or in Hd. destruct Hd as [Hd|[<-|[]]].
    - apply (inv_int_in _ _ _ _ _ _ HI) in Hd. lra.
    - rewrite Hilo, Hihi. lra. }
  assert (Hcov1 : forall x, 0 <= x < npt c k 1 -> zeval P x = 0 ->
     (exists d, In d ex /\ dyv d = x) \/ (exists d, In d (ints ++ [(c, (- k)%Z)]) /\ in_int d x)).
  { intros x Hx H0. destruct (Rtotal_order x (npt c k 0)) as [L|[Ex|L]].
    - destruct (inv_cover _ _ _ _ _ _ HI x ltac:(lra) H0) as [H|(d & Hd & Hx')]; [left; exact H|right].
      exists d. split; [apply in_or_app; left; exact Hd|exact Hx'].
    - left. subst x. apply (node_left P c k p ex ints HI Hp0 H0).
    - right. exists (c, (- k)%Z). split; [apply in_or_app; right; left; reflexivity|].
      unfold in_int. rewrite Hilo, Hihi. lra. }
  destruct (Z.eqb_spec k (Z.of_nat (val2 (c + 1)))) as [E|E].
  - assert (Hck : (c + 1 = 2 ^ k)%Z) by (apply Hiff; lia).
    assert (E1 : npt c k 1 = 1).
    { unfold npt. rewrite <- plus_IZR, Hck, pw2_IZR by exact Hk. rewrite Rmult_comm. apply pw2_inv. }
    (* reuse inv_done for the exact roots: apply it to the part without the interval *)
    destruct HI as [_ _ Hn Hlex Hnv Hs Hii Hir His Hcov _].
    destruct Hn as (l & Hl & En).
    constructor; try assumption.
    + intros d Hd. specialize (Hlex d Hd). unfold unit_co. split; [lra|].
      rewrite <- (npt_nloc c k (dyv d)), En, npt_nloc.
      assert (linprod (map dyv ex) (dyv d) = 0) as ->.
      { apply linprod_zero. apply in_map. exact Hd. }
      ring.
    + destruct (compose_affine (map IZR p) (pw2 k) (- IZR c)) as [q Hq].
      exists (pscal l q). split.
      * intros x. rewrite peval_pscal, Hq. rewrite <- (npt_nloc c k x) at 1. rewrite En.
        rewrite npt_nloc. replace (pw2 k * x + - IZR c) with (nloc c k x) by (unfold nloc; ring).
        unfold zeval. ring.
      * intros d Hd. rewrite peval_pscal, Hq.
        replace (pw2 k * dyv d + - IZR c) with (nloc c k (dyv d)) by (unfold nloc; ring).
        apply Rmult_integral_contrapositive_currified; [lra|].
        destruct (Hlex d Hd) as [_ [HL|HE]]; [apply Hnv; assumption|].
        rewrite HE, nloc_npt. exact Hp0.
    + intros d x Hd Hx. destruct (Hin1 d Hd). unfold in_int in Hx. unfold unit_co. lra.
    + intros x [Hx0 Hx1] H0. apply Hcov1; [lra|exact H0].
  - assert (Hlt : (c + 1 < 2 ^ k)%Z).
    { destruct (Z.eq_dec (c + 1) (2 ^ k)) as [E'|E']; [|lia]. apply Hiff in E'. lia. }
    assert (HR : Inv P (c + 1) k (tshift 1 p) ex (ints ++ [(c, (- k)%Z)])).
    { assert (E0 : forall x, npt (c + 1) k x = npt c k (x + 1)).
      { intros x. unfold npt. rewrite plus_IZR. ring. }
      assert (E00 : npt (c + 1) k 0 = npt c k 1) by (rewrite E0; f_equal; ring).
      destruct HI as [_ _ Hn Hlex Hnv Hs Hii Hir His Hcov _].
      constructor; try assumption; rewrite ?E00; try assumption.
      - lia.
      - destruct Hn as (l & Hl & En). exists l. split; [exact Hl|].
        intros x. rewrite E0, En, zeval_tshift. reflexivity.
      - intros d Hd. specialize (Hlex d Hd). lra.
      - intros d Hd _. rewrite zeval_tshift.
        replace (nloc (c + 1) k (dyv d) + 1) with (nloc c k (dyv d)) by (unfold nloc; rewrite plus_IZR; ring).
        destruct (Hlex d Hd) as [_ [Hl|He]]; [apply Hnv; assumption|].
        rewrite He, nloc_npt. exact Hp0. }
    destruct (Z.eqb_spec (Z.of_nat (val2 (c + 1))) 0) as [E0|E0]; [exact HR|].
    destruct (val2_spec (c + 1)) as (m & Em & _); [lia|].
    apply (inv_up P (c + 1) k (tshift 1 p) ex _ _ m); [|lia|exact Em].
    rewrite <- Em. exact HR.
Qed.

(** Partial correctness of the loop from any invariant state, and absence of
    undefined behaviour and of abort(). *)
Lemma vca_loop_ok : forall f P c k p ex ints, nonzero P -> Inv P c k p ex ints ->
  match vca_loop f c k p ex ints with
  | VDone ex' ints' => isolates P unit_co ex' ints'
  | VFuel => True
  | VUndef | VAbort => False
  end.
Proof.
  induction f as [|f IH]; intros P c k p ex ints HP HI; [exact I|].
  rewrite vca_loop_eq. destruct (vca_strip c k p ex) as [p1 ex1] eqn:ES.
  destruct (vca_strip_inv p P c k ex ints p1 ex1 HI HP ES) as (HI1 & Hne & Hp0).
  assert (Hnz : nonzero p1) by (apply (node_nonzero P ex1 c k p1 (inv_node _ _ _ _ _ _ HI1) HP)).
  destruct (descartes01_cases p1 Hnz) as [[E H0]|[[E H1]|[[E|E] _]]]; rewrite E.
  - pose proof (inv_next P c k p1 ex1 ints HI1 Hp0) as HN.
    assert (Hopen : forall x, npt c k 0 < x < npt c k 1 -> zeval P x = 0 -> exists d, In d ints /\ in_int d x).
    { intros x Hx Hx0. exfalso.
      assert (HL : 0 < nloc c k x < 1).
      { rewrite <- (nloc_npt c k 0) at 1. rewrite <- (nloc_npt c k 1). split; apply nloc_lt; lra. }
      apply (H0 _ HL). apply (node_roots P c k p1 ex1 ints _ HI1); [lra|]. rewrite npt_nloc. exact Hx0. }
    specialize (HN Hopen). destruct (next_state c k p1) as [[[c' k'] p']|]; [|exact HN].
    apply IH; assumption.
  - pose proof (inv_snoc P c k p1 ex1 ints HI1 HP H1 Hp0) as HN.
    destruct (next_state c k p1) as [[[c' k'] p']|]; [|exact HN].
    apply IH; assumption.
  - apply IH; [exact HP|]. apply inv_down. exact HI1.
  - apply IH; [exact HP|]. apply inv_down. exact HI1.
Qed.

Lemma inv_init : forall P, Inv P 0 0 P [] [].
Proof.
  intros P.
  assert (E : forall x, npt 0 0 x = x) by (intros; unfold npt, pw2; simpl; ring).
  constructor.
  - lia.
  - simpl. lia.
  - exists 1. split; [lra|]. intros x. rewrite E. simpl. ring.
  - intros d [].
  - intros d [].
  - constructor.
  - intros d [].
  - intros d [].
  - constructor.
  - intros x Hx. rewrite E in Hx. lra.
  - intros d e [].
Qed.

Theorem vca_correct : forall f P, nonzero P ->
  match vca f P [] [] with
  | VDone ex ints => isolates P unit_co ex ints
  | VFuel => True
  | VUndef | VAbort => False
  end.
Proof. intros f P HP. apply vca_loop_ok; [exact HP|apply inv_init]. Qed.
