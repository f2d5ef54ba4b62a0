(** Sign variations and Descartes' rule of signs (mathematics only). *)
Require Import Reals List Lra Lia ZArith.
From Verif Require Import PolyR.
Import ListNotations.
Open Scope R_scope.

(** Sign of a real number as -1, 0, 1. *)
Definition sgnR (x : R) : Z :=
  match total_order_T x 0 with
  | inleft (left _) => (-1)%Z
  | inleft (right _) => 0%Z
  | inright _ => 1%Z
  end.

(** Number of sign changes in a list, zeros ignored; [s] is the sign of the
    last nonzero entry met before ([0] if none). *)
Fixpoint varf (s : Z) (l : list Z) : nat :=
  match l with
  | [] => 0%nat
  | a :: l' =>
      if (Z.sgn a =? 0)%Z then varf s l'
      else if (Z.sgn a =? - s)%Z then S (varf (Z.sgn a) l')
      else varf (Z.sgn a) l'
  end.
Definition var (l : list Z) : nat := varf 0 l.

(** Sign variations of a real coefficient list. *)
Definition varR (l : list R) : nat := var (map sgnR l).

Lemma sgnR_cases : forall x,
  (x < 0 /\ sgnR x = (-1)%Z) \/ (x = 0 /\ sgnR x = 0%Z) \/ (0 < x /\ sgnR x = 1%Z).
Proof.
  intros x; unfold sgnR. destruct (total_order_T x 0) as [[H|H]|H]; auto.
Qed.

Lemma sgnR_IZR : forall z, sgnR (IZR z) = Z.sgn z.
Proof.
  intros z. destruct (sgnR_cases (IZR z)) as [[H E]|[[H E]|[H E]]]; rewrite E; symmetry.
  - apply Z.sgn_neg. apply lt_IZR. exact H.
  - apply eq_IZR in H. subst. reflexivity.
  - apply Z.sgn_pos. apply lt_IZR. exact H.
Qed.

Lemma sgnR_sgn : forall x, Z.sgn (sgnR x) = sgnR x.
Proof. intros x; destruct (sgnR_cases x) as [[_ E]|[[_ E]|[_ E]]]; rewrite E; reflexivity. Qed.

Lemma sgnR_pos : forall x, 0 < x -> sgnR x = 1%Z.
Proof. intros x H; destruct (sgnR_cases x) as [[? E]|[[? E]|[? E]]]; rewrite E; lra || reflexivity. Qed.
Lemma sgnR_neg : forall x, x < 0 -> sgnR x = (-1)%Z.
Proof. intros x H; destruct (sgnR_cases x) as [[? E]|[[? E]|[? E]]]; rewrite E; lra || reflexivity. Qed.
Lemma sgnR_0 : sgnR 0 = 0%Z.
Proof. destruct (sgnR_cases 0) as [[? E]|[[? E]|[? E]]]; rewrite E; lra || reflexivity. Qed.

Lemma varf_sgn_map : forall l s, varf s (map Z.sgn l) = varf s l.
Proof.
  induction l as [|a l IH]; intros s; simpl; [reflexivity|].
  rewrite Z.sgn_sgn, !IH. reflexivity.
Qed.

Lemma varR_IZR : forall p, varR (map IZR p) = var p.
Proof.
  intros p. unfold varR, var. rewrite map_map.
  rewrite (map_ext _ Z.sgn sgnR_IZR). apply varf_sgn_map.
Qed.

Definition vR (s : Z) (l : list R) : nat := varf s (map sgnR l).

Lemma vR_cons : forall s a l,
  vR s (a :: l) =
    (if (sgnR a =? 0)%Z then vR s l
     else if (sgnR a =? - s)%Z then S (vR (sgnR a) l) else vR (sgnR a) l).
Proof. intros; unfold vR; simpl; rewrite sgnR_sgn; reflexivity. Qed.

Lemma vR_zero : forall s a l, a = 0 -> vR s (a :: l) = vR s l.
Proof. intros s a l H. rewrite vR_cons, H, sgnR_0. reflexivity. Qed.
Lemma vR_pos : forall s a l, 0 < a ->
  vR s (a :: l) = if (s =? -1)%Z then S (vR 1 l) else vR 1 l.
Proof.
  intros s a l H. rewrite vR_cons, (sgnR_pos a H). simpl (1 =? 0)%Z. cbv iota.
  destruct (Z.eqb_spec s (-1)); destruct (Z.eqb_spec 1 (-s)); try reflexivity; lia.
Qed.
Lemma vR_neg : forall s a l, a < 0 ->
  vR s (a :: l) = if (s =? 1)%Z then S (vR (-1) l) else vR (-1) l.
Proof.
  intros s a l H. rewrite vR_cons, (sgnR_neg a H). simpl (-1 =? 0)%Z. cbv iota.
  destruct (Z.eqb_spec s 1); destruct (Z.eqb_spec (-1) (-s)); try reflexivity; lia.
Qed.

Ltac vstep :=
  repeat first
    [ rewrite vR_zero by lra
    | rewrite vR_pos by lra
    | rewrite vR_neg by lra ]; cbn [Z.eqb Z.opp Pos.eqb].

(** Multiplying by [x - a] with [a > 0] adds at least one sign change.
    Carry invariant: [b] is the previous coefficient of the factor; [s] the last
    nonzero sign of the product. *)
Lemma plin_go_var : forall l a, 0 < a ->
  (forall b, 0 < b -> (vR 1 (plin_go a b l) >= vR 1 l)%nat /\ (vR (-1) (plin_go a b l) >= S (vR 1 l))%nat) /\
  (forall b, b < 0 -> (vR (-1) (plin_go a b l) >= vR (-1) l)%nat /\ (vR 1 (plin_go a b l) >= S (vR (-1) l))%nat) /\
  (vR 1 (plin_go a 0 l) >= vR 1 l)%nat /\ (vR (-1) (plin_go a 0 l) >= vR (-1) l)%nat.
Proof.
  induction l as [|c l IH]; intros a Ha.
  - cbn [plin_go]. repeat split; intros; vstep; unfold vR; simpl; lia.
  - destruct (IH a Ha) as (IHp & IHn & IH01 & IH02).
    cbn [plin_go].
    destruct (Rtotal_order c 0) as [Hc|[Hc|Hc]].
    + pose proof (IHn c Hc) as [I1 I2].
      repeat split; intros.
      * assert (0 < b - a * c) by nra. vstep. lia.
      * assert (0 < b - a * c) by nra. vstep. lia.
      * destruct (Rtotal_order (b - a * c) 0) as [Hd|[Hd|Hd]]; vstep; lia.
      * destruct (Rtotal_order (b - a * c) 0) as [Hd|[Hd|Hd]]; vstep; lia.
      * assert (0 < 0 - a * c) by nra. vstep. lia.
      * assert (0 < 0 - a * c) by nra. vstep. lia.
    + subst c.
      repeat split; intros.
      * assert (0 < b - a * 0) by nra. vstep. lia.
      * assert (0 < b - a * 0) by nra. vstep. lia.
      * assert (b - a * 0 < 0) by nra. vstep. lia.
      * assert (b - a * 0 < 0) by nra. vstep. lia.
      * assert (0 - a * 0 = 0) by ring. vstep. lia.
      * assert (0 - a * 0 = 0) by ring. vstep. lia.
    + pose proof (IHp c Hc) as [I1 I2].
      repeat split; intros.
      * destruct (Rtotal_order (b - a * c) 0) as [Hd|[Hd|Hd]]; vstep; lia.
      * destruct (Rtotal_order (b - a * c) 0) as [Hd|[Hd|Hd]]; vstep; lia.
      * assert (b - a * c < 0) by nra. vstep. lia.
      * assert (b - a * c < 0) by nra. vstep. lia.
      * assert (0 - a * c < 0) by nra. vstep. lia.
      * assert (0 - a * c < 0) by nra. vstep. lia.
Qed.

Lemma plin_var : forall q a, 0 < a -> ~ pzero q -> (varR (plin a q) >= S (varR q))%nat.
Proof.
  unfold plin. change varR with (vR 0).
  induction q as [|c q IH]; intros a Ha Hz.
  - exfalso; apply Hz; constructor.
  - cbn [plin_go].
    destruct (plin_go_var q a Ha) as (Hp & Hn & _).
    destruct (Rtotal_order c 0) as [Hc|[Hc|Hc]].
    + assert (0 < 0 - a * c) by nra. vstep. apply Hn. exact Hc.
    + subst c. assert (0 - a * 0 = 0) by ring. vstep. apply IH; [exact Ha|].
      intros Hq. apply Hz. constructor; [reflexivity|exact Hq].
    + assert (0 - a * c < 0) by nra. vstep. apply Hp. exact Hc.
Qed.

Lemma varf_ext_zeros : forall l z s, Forall (fun a => a = 0%Z) z -> varf s (l ++ z) = varf s l.
Proof.
  induction l as [|a l IH]; intros z s Hz; simpl.
  - induction Hz as [|b z Hb Hz IHz]; simpl; [reflexivity|]. rewrite Hb. simpl. exact IHz.
  - rewrite !IH by exact Hz. reflexivity.
Qed.

(** Lists with equal values (on an interval) have the same coefficients up to
    trailing zeros, hence the same sign variations. *)
Lemma peval_ext_var : forall p q lo hi, lo < hi ->
  (forall x, lo < x < hi -> peval p x = peval q x) -> forall s, vR s p = vR s q.
Proof.
  intros p q lo hi Hlt H.
  assert (Hd : pzero (padd p (pscal (-1) q))).
  { apply (peval_zero_interval _ lo hi Hlt). intros x Hx.
    rewrite peval_padd, peval_pscal, (H x Hx). ring. }
  clear H Hlt. revert q Hd.
  assert (Hq : forall q, pzero (pscal (-1) q) -> forall s, vR s q = 0%nat).
  { induction q as [|b q IH]; intros Hz s; [reflexivity|].
    inversion Hz; subst. rewrite vR_zero by lra. apply IH. assumption. }
  induction p as [|a p IH]; intros q Hd s.
  - simpl in Hd. rewrite (Hq q Hd). reflexivity.
  - destruct q as [|b q].
    + simpl in Hd. clear IH. revert s.
      assert (Hpz : forall p s, pzero p -> vR s p = 0%nat).
      { induction p0 as [|c p0 IH]; intros s Hz; [reflexivity|].
        inversion Hz; subst. rewrite vR_zero by reflexivity. apply IH. assumption. }
      intros s. apply Hpz. exact Hd.
    + simpl in Hd. inversion Hd as [|? ? Hab Hrest]; subst.
      assert (a = b) by lra. subst b.
      rewrite !vR_cons. rewrite !(IH q Hrest). reflexivity.
Qed.

(** * Descartes' rule: positive roots, with multiplicity, are bounded by the
    number of sign variations. *)
Theorem descartes_mult : forall rs p q, ~ pzero p ->
  (forall r, In r rs -> 0 < r) ->
  (exists lo hi, lo < hi /\ forall x, lo < x < hi -> peval p x = linprod rs x * peval q x) ->
  (length rs <= varR p)%nat.
Proof.
  induction rs as [|r rs IH]; intros p q Hp Hpos Hf; [simpl; lia|].
  destruct Hf as (lo & hi & Hlt & Hf).
  (* [rs] applied to q gives a list p' with p = (x - r) p' *)
  set (lp := fold_right (fun r acc => plin r acc) q rs).
  assert (Hlp : forall x, peval lp x = linprod rs x * peval q x).
  { intros x. unfold lp. clear. induction rs as [|a rs IH]; simpl; [ring|].
    rewrite peval_plin, IH. ring. }
  assert (Hv : varR p = varR (plin r lp)).
  { apply (peval_ext_var p (plin r lp) lo hi Hlt). intros x Hx.
    rewrite (Hf x Hx), peval_plin, Hlp. simpl. ring. }
  assert (Hlz : ~ pzero lp).
  { intros Hz. apply Hp. apply (peval_zero_interval p lo hi Hlt).
    intros x Hx. rewrite (Hf x Hx). simpl.
    replace ((x - r) * linprod rs x * peval q x) with ((x - r) * peval lp x) by (rewrite Hlp; ring).
    rewrite (peval_pzero lp x Hz). ring. }
  rewrite Hv.
  assert (H1 := plin_var lp r (Hpos r (or_introl eq_refl)) Hlz).
  assert (H2 : (length rs <= varR lp)%nat).
  { apply (IH lp q Hlz).
    - intros r' Hr'. apply Hpos. right. exact Hr'.
    - exists lo, hi. split; [exact Hlt|]. intros x _. apply Hlp. }
  simpl. lia.
Qed.

(** * Signs near zero and near infinity *)

(** Last and first nonzero sign. *)
Fixpoint fsign (l : list R) : Z :=
  match l with
  | [] => 0%Z
  | a :: l' => if (sgnR a =? 0)%Z then fsign l' else sgnR a
  end.
Definition lsign (l : list R) : Z := fsign (rev l).

Lemma peval_bound : forall p, exists M, 0 < M /\ forall x, -1 <= x <= 1 -> Rabs (peval p x) <= M.
Proof.
  induction p as [|a p [M [HM IH]]].
  - exists 1. split; [lra|]. intros x _. simpl. rewrite Rabs_R0. lra.
  - exists (Rabs a + M). split; [pose proof (Rabs_pos a); lra|].
    intros x Hx. simpl. eapply Rle_trans; [apply Rabs_triang|].
    apply Rplus_le_compat_l. rewrite Rabs_mult.
    assert (Rabs x <= 1) by (apply Rabs_le; lra).
    pose proof (IH x Hx). pose proof (Rabs_pos x). pose proof (Rabs_pos (peval p x)). nra.
Qed.

Lemma sign_near_zero : forall p, ~ pzero p -> exists d, 0 < d <= 1 /\
  forall x, 0 < x < d -> sgnR (peval p x) = fsign p.
Proof.
  induction p as [|a p IH]; intros Hz; [exfalso; apply Hz; constructor|].
  destruct (Req_dec a 0) as [Ha|Ha].
  - destruct IH as [d [Hd H]].
    { intros H. apply Hz. constructor; assumption. }
    exists d. split; [exact Hd|]. intros x Hx.
    cbn [fsign peval]. rewrite Ha, sgnR_0. simpl (0 =? 0)%Z. cbv iota.
    rewrite <- (H x Hx).
    destruct (sgnR_cases (peval p x)) as [[H1 E]|[[H1 E]|[H1 E]]]; rewrite E.
    + apply sgnR_neg. nra.
    + rewrite H1. replace (0 + x * 0) with 0 by ring. apply sgnR_0.
    + apply sgnR_pos. nra.
  - destruct (peval_bound p) as [M [HM HB]].
    assert (Habs : 0 < Rabs a) by (apply Rabs_pos_lt; exact Ha).
    exists (Rmin 1 (Rabs a / (2 * M))).
    assert (Hq : 0 < Rabs a / (2 * M)) by (apply Rdiv_lt_0_compat; lra).
    split; [split; [apply Rmin_glb_lt; lra|apply Rmin_l]|].
    intros x [Hx0 Hx1].
    assert (Hx2 : x < 1) by (eapply Rlt_le_trans; [exact Hx1|apply Rmin_l]).
    assert (Hx3 : x < Rabs a / (2 * M)) by (eapply Rlt_le_trans; [exact Hx1|apply Rmin_r]).
    assert (Hx4 : x * M < Rabs a).
    { apply Rmult_lt_compat_r with (r := M) in Hx3; [|lra].
      replace (Rabs a / (2 * M) * M) with (Rabs a / 2) in Hx3 by (field; lra). lra. }
    pose proof (HB x ltac:(lra)) as HBx.
    assert (Hxm : Rabs (x * peval p x) < Rabs a).
    { rewrite Rabs_mult, (Rabs_pos_eq x) by lra.
      pose proof (Rabs_pos (peval p x)). nra. }
    cbn [fsign peval].
    destruct (sgnR_cases a) as [[H1 E]|[[H1 E]|[H1 E]]]; rewrite E; cbn [Z.eqb].
    + apply sgnR_neg. rewrite (Rabs_left a H1) in Hxm.
      apply Rabs_def2 in Hxm. lra.
    + contradiction.
    + apply sgnR_pos. rewrite (Rabs_pos_eq a) in Hxm by lra. apply Rabs_def2 in Hxm. lra.
Qed.

(** Value of the reversed list. *)
Lemma peval_rev : forall p x, x <> 0 -> peval (rev p) x * x = x ^ length p * peval p (/ x).
Proof.
  induction p as [|a p IH]; intros x Hx; simpl; [ring|].
  rewrite peval_app, rev_length. simpl.
  replace ((peval (rev p) x + x ^ length p * (a + x * 0)) * x)
    with (peval (rev p) x * x + x ^ length p * a * x) by ring.
  rewrite (IH x Hx). field. exact Hx.
Qed.

Lemma pzero_rev : forall p, pzero (rev p) -> pzero p.
Proof.
  intros p H. rewrite <- (rev_involutive p). apply Forall_rev. exact H.
Qed.

Lemma sign_near_infinity : forall p, ~ pzero p -> exists B, 1 <= B /\
  forall x, B < x -> sgnR (peval p x) = lsign p.
Proof.
  intros p Hz.
  destruct (sign_near_zero (rev p)) as [d [Hd H]].
  { intros H. apply Hz. apply pzero_rev. exact H. }
  exists (/ d). split.
  - rewrite <- Rinv_1. apply Rinv_le_contravar; lra.
  - intros x Hx.
    assert (Hd0 : 0 < / d) by (apply Rinv_0_lt_compat; lra).
    assert (Hix : 0 < / x < d).
    { split; [apply Rinv_0_lt_compat; lra|].
      rewrite <- (Rinv_inv d). apply Rinv_lt_contravar; [nra|exact Hx]. }
    specialize (H (/ x) Hix). unfold lsign. rewrite <- H.
    pose proof (peval_rev p (/ x) ltac:(lra)) as E.
    rewrite Rinv_inv in E.
    assert (Hpw : 0 < (/ x) ^ length p) by (apply pow_lt; lra).
    destruct (sgnR_cases (peval p x)) as [[H1 E1]|[[H1 E1]|[H1 E1]]]; rewrite E1; symmetry.
    + apply sgnR_neg. nra.
    + assert (peval (rev p) (/ x) = 0) as ->; [|apply sgnR_0].
      rewrite H1, Rmult_0_r in E. apply Rmult_integral in E. lra.
    + apply sgnR_pos. nra.
Qed.

(** Opposite extreme signs force a positive root. *)
Lemma positive_root_exists : forall p, ~ pzero p -> (fsign p * lsign p < 0)%Z ->
  exists x, 0 < x /\ peval p x = 0.
Proof.
  intros p Hz Hs.
  destruct (sign_near_zero p Hz) as [d [Hd H0]].
  destruct (sign_near_infinity p Hz) as [B [HB H1]].
  specialize (H0 (d / 2) ltac:(lra)). specialize (H1 (B + 1) ltac:(lra)).
  destruct (peval_ivt p (d / 2) (B + 1)) as [x [Hx Hr]]; [lra| |exists x; split; [lra|exact Hr]].
  rewrite <- H0, <- H1 in Hs.
  destruct (sgnR_cases (peval p (d/2))) as [[? E]|[[? E]|[? E]]];
  destruct (sgnR_cases (peval p (B+1))) as [[? E']|[[? E']|[? E']]]; rewrite E, E' in Hs; try lia; nra.
Qed.

(** Parity of the variations is decided by the extreme signs. *)
Lemma fsign_range : forall p, fsign p = (-1)%Z \/ fsign p = 0%Z \/ fsign p = 1%Z.
Proof.
  induction p as [|a p IH]; simpl; [auto|].
  destruct (sgnR_cases a) as [[_ E]|[[_ E]|[_ E]]]; rewrite E; simpl; auto.
Qed.

Lemma fsign_app : forall p q, fsign (p ++ q) = if (fsign p =? 0)%Z then fsign q else fsign p.
Proof.
  induction p as [|a p IH]; intros q; simpl; [reflexivity|].
  destruct (sgnR_cases a) as [[_ E]|[[_ E]|[_ E]]]; rewrite E; simpl; try reflexivity. apply IH.
Qed.

Lemma lsign_cons : forall a p, lsign (a :: p) = if (lsign p =? 0)%Z then sgnR a else lsign p.
Proof.
  intros a p. unfold lsign. simpl. rewrite fsign_app. destruct (fsign (rev p) =? 0)%Z; [|reflexivity].
  simpl. destruct (sgnR_cases a) as [[_ E]|[[_ E]|[_ E]]]; rewrite E; reflexivity.
Qed.

Lemma vR_parity : forall p s, (s = 1 \/ s = -1)%Z ->
  Nat.odd (vR s p) = ((lsign p * s <? 0)%Z).
Proof.
  induction p as [|a p IH]; intros s Hs.
  - reflexivity.
  - rewrite lsign_cons, vR_cons.
    assert (Hl : (lsign p = -1 \/ lsign p = 0 \/ lsign p = 1)%Z) by (apply fsign_range).
    destruct (sgnR_cases a) as [[_ E]|[[_ E]|[_ E]]]; rewrite E; destruct Hs as [Hs|Hs]; subst s;
      cbn [Z.eqb Z.opp Pos.eqb];
      rewrite ?Nat.odd_succ, <- ?Nat.negb_odd, ?(IH (-1)%Z), ?(IH 1%Z) by auto;
      destruct Hl as [Hl|[Hl|Hl]]; rewrite Hl; reflexivity.
Qed.

Lemma varR_parity : forall p, ~ pzero p -> Nat.odd (varR p) = (fsign p * lsign p <? 0)%Z.
Proof.
  change varR with (vR 0).
  induction p as [|a p IH]; intros Hz; [exfalso; apply Hz; constructor|].
  rewrite vR_cons, lsign_cons. cbn [fsign].
  destruct (sgnR_cases a) as [[Ha E]|[[Ha E]|[Ha E]]]; rewrite E; cbn [Z.eqb Z.opp].
  - rewrite vR_parity by auto.
    pose proof (fsign_range (rev p)) as Hl. fold (lsign p) in Hl.
    destruct Hl as [Hl|[Hl|Hl]]; rewrite Hl; reflexivity.
  - rewrite IH.
    + pose proof (fsign_range (rev p)) as Hl. fold (lsign p) in Hl.
      destruct Hl as [Hl|[Hl|Hl]]; rewrite Hl; reflexivity.
    + intros Hp. apply Hz. constructor; assumption.
  - rewrite vR_parity by auto.
    pose proof (fsign_range (rev p)) as Hl. fold (lsign p) in Hl.
    destruct Hl as [Hl|[Hl|Hl]]; rewrite Hl; reflexivity.
Qed.

(** Descartes with one variation: exactly one positive root. *)
Lemma descartes_one : forall p, varR p = 1%nat -> exists! x, 0 < x /\ peval p x = 0.
Proof.
  intros p H.
  assert (Hz : ~ pzero p).
  { intros Hz. assert (varR p = 0%nat); [|lia].
    clear H. change varR with (vR 0). generalize 0%Z.
    induction Hz as [|a p Ha Hp IH]; intros s; [reflexivity|]. rewrite vR_zero by exact Ha. apply IH. }
  destruct (positive_root_exists p Hz) as [x [Hx Hr]].
  { pose proof (varR_parity p Hz) as Hpar. rewrite H in Hpar. symmetry in Hpar.
    apply Z.ltb_lt in Hpar. exact Hpar. }
  exists x. split; [tauto|].
  intros y [Hy Hyr].
  destruct (Req_dec x y) as [E|E]; [exact E|exfalso].
  (* two distinct roots give two factors *)
  assert (Hlen : (2 <= length p)%nat).
  { destruct p as [|a [|b p]]; [exfalso; apply Hz; constructor| |simpl; lia].
    simpl in Hr. exfalso; apply Hz. constructor; [lra|constructor]. }
  pose proof (factor_list p x Hlen Hr) as Hf.
  assert (Hqy : peval (pquot x p) y = 0).
  { rewrite <- Hf, peval_plin in Hyr. apply Rmult_integral in Hyr. destruct Hyr; [lra|assumption]. }
  assert (Hlen2 : (2 <= length (pquot x p))%nat).
  { destruct (pquot x p) as [|a [|b q]] eqn:Eq; [| |simpl; lia].
    - rewrite <- Hf in Hz. exfalso; apply Hz. apply plin_go_pzero. constructor.
    - simpl in Hqy. rewrite <- Hf in Hz. exfalso; apply Hz. apply plin_go_pzero. constructor; [lra|constructor]. }
  pose proof (factor_list (pquot x p) y Hlen2 Hqy) as Hf2.
  assert (2 <= varR p)%nat; [|lia].
  apply (descartes_mult [x; y] p (pquot y (pquot x p)) Hz).
  - intros r [Hr'|[Hr'|[]]]; subst; assumption.
  - exists 0, 1. split; [lra|]. intros t _.
    rewrite <- Hf at 1. rewrite peval_plin. rewrite <- Hf2 at 1. rewrite peval_plin. simpl. ring.
Qed.

Lemma descartes_zero : forall p, ~ pzero p -> varR p = 0%nat -> forall x, 0 < x -> peval p x <> 0.
Proof.
  intros p Hz H x Hx Hr.
  assert (Hlen : (2 <= length p)%nat).
  { destruct p as [|a [|b p]]; [exfalso; apply Hz; constructor| |simpl; lia].
    simpl in Hr. exfalso; apply Hz. constructor; [lra|constructor]. }
  pose proof (factor_list p x Hlen Hr) as Hf.
  assert (1 <= varR p)%nat; [|lia].
  apply (descartes_mult [x] p (pquot x p) Hz).
  - intros r [Hr'|[]]; subst; assumption.
  - exists 0, 1. split; [lra|]. intros t _. rewrite <- Hf at 1. rewrite peval_plin. simpl. ring.
Qed.
