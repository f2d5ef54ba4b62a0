(** How wrong the local max root bound can be: a factor of two, or four with zero
    coefficients (C05). *)
Require Import Reals List Lra Lia ZArith Bool.
From Verif Require Import PolyR SignVar RootModel DescartesProofs RootSpec VcaProofs VcaTerm IsoAll BoundProofs DyadicProofs.
Import ListNotations.
Open Scope R_scope.

Lemma charge_u : forall flog0 pi c pj d k x U, (0 < d)%Z -> pi <> 0%Z -> pw2 (flog2 flog0 pj) <= U ->
  (bval flog0 pi c pj d <= k)%Z -> pw2 k <= x ->
  pw2 c * IZR (Z.abs pi) * x <= pw2 k * (U * x ^ Z.to_nat d).
Proof.
  intros flog0 pi c pj d k x U Hd Hpi H2 Hb Hx.
  assert (H1 : IZR (Z.abs pi) <= pw2 (clog2 pi)).
  { unfold clog2. rewrite <- pw2_IZR by apply Z.log2_up_nonneg. apply IZR_le.
    destruct (Z.eq_dec (Z.abs pi) 1) as [E|E]; [rewrite E; simpl; lia|].
    pose proof (Z.log2_up_spec (Z.abs pi) ltac:(lia)). lia. }
  pose proof (quot_ceil (c + clog2 pi - flog2 flog0 pj) d Hd) as Hq. fold (bval flog0 pi c pj d) in Hq.
  assert (Hmono : forall a b, (a <= b)%Z -> pw2 a <= pw2 b).
  { intros a b Hab. replace b with (a + (b - a))%Z by lia. rewrite pw2_add.
    assert (1 <= pw2 (b - a)).
    { rewrite <- pw2_IZR by lia. apply IZR_le. assert (0 < 2 ^ (b - a))%Z by (apply Z.pow_pos_nonneg; lia). lia. }
    pose proof (pw2_pos a). nra. }
  assert (H3 : pw2 (c + clog2 pi - flog2 flog0 pj) <= pw2 (d * k)) by (apply Hmono; nia).
  replace (c + clog2 pi - flog2 flog0 pj)%Z with (c + clog2 pi + - flog2 flog0 pj)%Z in H3 by lia.
  rewrite !pw2_add in H3.
  set (fl := flog2 flog0 pj) in *. pose proof (pw2_inv fl) as Hinv. pose proof (pw2_pos fl).
  pose proof (pw2_pos (- fl)). pose proof (pw2_pos c) as Hc. pose proof (pw2_pos k) as Hk.
  (* 2^c 2^clog <= 2^(dk) 2^fl *)
  assert (H4 : pw2 c * pw2 (clog2 pi) <= pw2 (d * k) * pw2 fl).
  { replace (pw2 c * pw2 (clog2 pi)) with (pw2 c * pw2 (clog2 pi) * pw2 (- fl) * pw2 fl).
    - apply Rmult_le_compat_r; [lra|exact H3].
    - replace (pw2 c * pw2 (clog2 pi) * pw2 (- fl) * pw2 fl) with (pw2 c * pw2 (clog2 pi) * (pw2 (- fl) * pw2 fl)) by ring.
      rewrite Hinv. ring. }
  assert (H5 : pw2 (d * k) * x <= pw2 k * x ^ Z.to_nat d).
  { replace d with (Z.of_nat (Z.to_nat d)) at 1 by lia.
    assert (Hn : exists m, Z.to_nat d = S m) by (exists (Z.to_nat d - 1)%nat; lia).
    destruct Hn as [m ->].
    assert (Hpw : pw2 (Z.of_nat (S m) * k) = pw2 k * pw2 k ^ m).
    { clear. induction m as [|m IH]; [simpl (pw2 k ^ 0); rewrite Rmult_1_r; f_equal; lia|].
      replace (Z.of_nat (S (S m)) * k)%Z with (Z.of_nat (S m) * k + k)%Z by lia. rewrite pw2_add, IH. simpl. ring. }
    rewrite Hpw. assert (pw2 k ^ m <= x ^ m) by (apply pow_incr; lra).
    assert (0 < x) by lra. simpl. 
    replace (pw2 k * pw2 k ^ m * x) with ((pw2 k * x) * pw2 k ^ m) by ring.
    replace (pw2 k * (x * x ^ m)) with ((pw2 k * x) * x ^ m) by ring.
    apply Rmult_le_compat_l; [nra|assumption]. }
  assert (0 < x) by lra. pose proof (pw2_pos (d * k)) as Hdk.
  apply Rle_trans with (pw2 c * pw2 (clog2 pi) * x).
  { apply Rmult_le_compat_r; [lra|]. apply Rmult_le_compat_l; lra. }
  apply Rle_trans with (pw2 (d * k) * pw2 fl * x).
  { apply Rmult_le_compat_r; lra. }
  apply Rle_trans with (pw2 (d * k) * U * x).
  { apply Rmult_le_compat_r; [lra|]. apply Rmult_le_compat_l; lra. }
  assert (0 <= U) by lra.
  replace (pw2 (d * k) * U * x) with (U * (pw2 (d * k) * x)) by ring.
  replace (pw2 k * (U * x ^ Z.to_nat d)) with (U * (pw2 k * x ^ Z.to_nat d)) by ring.
  apply Rmult_le_compat_l; lra.
Qed.

Lemma lsum_ext : forall f h l, (forall j, In j l -> f j = h j) -> lsum f l = lsum h l.
Proof.
  intros f h l. induction l as [|a l IH]; intros H; [reflexivity|]. cbn [lsum].
  rewrite (H a (or_introl eq_refl)), IH; [reflexivity|]. intros j Hj. apply H. right. exact Hj.
Qed.
Lemma lsum_plus : forall f h l, lsum (fun j => f j + h j) l = lsum f l + lsum h l.
Proof. intros f h l. induction l as [|a l IH]; cbn [lsum]; [ring|]. rewrite IH. ring. Qed.
Lemma lsum_scale : forall c f l, lsum (fun j => c * f j) l = c * lsum f l.
Proof. intros c f l. induction l as [|a l IH]; cbn [lsum]; [ring|]. rewrite IH. ring. Qed.
Lemma lsum_le : forall f h l, (forall j, In j l -> f j <= h j) -> lsum f l <= lsum h l.
Proof.
  intros f h l. induction l as [|a l IH]; intros H; [cbn; lra|]. cbn [lsum].
  pose proof (H a (or_introl eq_refl)). assert (lsum f l <= lsum h l) by (apply IH; intros; apply H; right; assumption). lra.
Qed.
Lemma lsum_lt : forall f h i l, In i l -> f i < h i -> (forall j, In j l -> f j <= h j) -> lsum f l < lsum h l.
Proof.
  intros f h i l. induction l as [|a l IH]; intros Hi Hlt H; [destruct Hi|]. cbn [lsum].
  pose proof (H a (or_introl eq_refl)). destruct Hi as [->|Hi].
  - assert (lsum f l <= lsum h l) by (apply lsum_le; intros; apply H; right; assumption). lra.
  - assert (lsum f l < lsum h l) by (apply IH; [exact Hi|exact Hlt|intros; apply H; right; assumption]). lra.
Qed.
(** A term that is nonzero at one index. *)
Lemma lsum_one : forall v i n, (i < n)%nat -> lsum (fun j => if Nat.eqb j i then v else 0) (seq 0 n) = v.
Proof.
  intros v i n Hi.
  assert (H : forall l, NoDup l -> lsum (fun j => if Nat.eqb j i then v else 0) l = if in_dec Nat.eq_dec i l then v else 0).
  { induction l as [|a l IH]; intros Hn; [reflexivity|]. inversion Hn as [|? ? Ha Hl]; subst. cbn [lsum]. rewrite (IH Hl).
    destruct (Nat.eqb_spec a i) as [->|E]; destruct (in_dec Nat.eq_dec i l) as [H|H]; destruct (in_dec Nat.eq_dec i (_ :: l)) as [H'|H']; try contradiction; try ring.
    - exfalso. apply H'. left. reflexivity.
    - exfalso. apply H'. right. exact H.
    - destruct H' as [H'|H']; [congruence|contradiction]. }
  rewrite (H _ (seq_NoDup _ _)). destruct (in_dec Nat.eq_dec i (seq 0 n)) as [_|H']; [reflexivity|].
  exfalso. apply H'. apply in_seq. lia.
Qed.

Section Loop.
Variables (flog0 : Z) (p : list Z) (s k : Z) (x T : R) (u : nat -> R).
Hypothesis Hx : T * pw2 k <= x.
Hypothesis HT : 1 <= T.
Hypothesis Hs : s = (-1)%Z \/ s = 1%Z.
Hypothesis Hlead : Z.sgn (last p 0%Z) = s.
Hypothesis Hu : forall j, 0 <= u j.
(** The weight of a coefficient that may be chosen. *)
Hypothesis Hch : forall i j c d, (j < length p)%nat -> (1 <= c)%Z -> (0 < d)%Z -> nth i p 0%Z <> 0%Z ->
  (bval flog0 (nth i p 0%Z) c (nth j p 0%Z) d <= k)%Z -> pw2 (flog2 flog0 (nth j p 0%Z)) <= u j.
Hypothesis Hneg : forall j, Z.sgn (nth j p 0%Z) = (- s)%Z -> u j = IZR (Z.abs (nth j p 0%Z)).

Let w (j : nat) : R := u j * x ^ j.
Let neg (i j : nat) : R := if Nat.leb i j && (Z.sgn (nth j p 0) =? - s)%Z then w j else 0.
Let used (cs : list Z) (j : nat) : R := w j * (1 - 2 * pw2 (- nth j cs 0%Z)).
Let all := seq 0 (length p).

Lemma fx0 : 0 < x. Proof. pose proof (pw2_pos k). nra. Qed.
Lemma fxk : pw2 k <= x. Proof. pose proof (pw2_pos k). nra. Qed.
Lemma w_nonneg : forall j, 0 <= w j.
Proof. intros j. unfold w. apply Rmult_le_pos; [apply Hu|]. apply pow_le. pose proof fx0. lra. Qed.

Definition FInv (i : nat) (cs : list Z) : Prop :=
  length cs = length p /\ (forall j, (j < length p)%nat -> (1 <= nth j cs 0)%Z) /\
  T * lsum (neg i) all <= lsum (used cs) all.

Lemma finv_step : forall i cs j b, FInv (S i) cs -> (i < j < length p)%nat -> Z.sgn (nth i p 0%Z) = (- s)%Z ->
  b = bval flog0 (nth i p 0%Z) (nth j cs 0%Z) (nth j p 0%Z) (Z.of_nat j - Z.of_nat i) -> (b <= k)%Z ->
  FInv i (incr j cs).
Proof.
  intros i cs j b (HL & Hc & HI) Hij Hsi Eb Hbk. pose proof fx0 as Hxp.
  assert (Ni : nth i p 0%Z <> 0%Z) by (intros E; rewrite E in Hsi; simpl in Hsi; lia).
  set (c := nth j cs 0%Z) in *. pose proof (Hc j ltac:(lia)) as Hcj. fold c in Hcj.
  rewrite Eb in Hbk.
  pose proof (Hch i j c (Z.of_nat j - Z.of_nat i) ltac:(lia) Hcj ltac:(lia) Ni Hbk) as HU.
  pose proof (charge_u flog0 (nth i p 0%Z) c (nth j p 0%Z) (Z.of_nat j - Z.of_nat i) k x (u j) ltac:(lia) Ni HU Hbk fxk) as H.
  replace (Z.to_nat (Z.of_nat j - Z.of_nat i)) with (j - i)%nat in H by lia.
  assert (Hw : T * w i <= w j * pw2 (- c)).
  { unfold w. rewrite (Hneg i Hsi). replace (x ^ j) with (x ^ i * x ^ (j - i)) by (rewrite <- pow_add; f_equal; lia).
    set (A := IZR (Z.abs (nth i p 0%Z))) in *. set (y := x ^ (j - i)) in *.
    assert (0 <= A) by (apply IZR_le; lia). assert (Hxi : 0 < x ^ i) by (apply pow_lt; exact Hxp).
    pose proof (pw2_pos c) as Pc. pose proof (pw2_inv c) as Ic. pose proof (pw2_pos k) as Pk. pose proof (Hu j) as Pu.
    assert (Py : 0 < y) by (apply pow_lt; exact Hxp).
    assert (H1 : pw2 c * (T * A) <= u j * y).
    { apply (Rmult_le_reg_r (pw2 k)); [exact Pk|].
      replace (pw2 c * (T * A) * pw2 k) with (pw2 c * A * (T * pw2 k)) by ring.
      apply Rle_trans with (pw2 c * A * x); [apply Rmult_le_compat_l; [nra|exact Hx]|]. lra. }
    assert (H2 : T * A <= u j * y * pw2 (- c)).
    { apply (Rmult_le_reg_l (pw2 c)); [exact Pc|].
      replace (pw2 c * (u j * y * pw2 (- c))) with (u j * y * (pw2 (- c) * pw2 c)) by ring. rewrite Ic. lra. }
    replace (T * (A * x ^ i)) with (x ^ i * (T * A)) by ring.
    replace (u j * (x ^ i * y) * pw2 (- c)) with (x ^ i * (u j * y * pw2 (- c))) by ring.
    apply Rmult_le_compat_l; lra. }
  split; [rewrite incr_length; exact HL|]. split.
  { intros j' Hj'. rewrite incr_nth by lia. pose proof (Hc j' Hj'). destruct (Nat.eq_dec j' j); lia. }
  assert (E1 : lsum (neg i) all = lsum (neg (S i)) all + w i).
  { rewrite <- (lsum_one (w i) i (length p)) at 1 by lia. fold all. rewrite <- lsum_plus. apply lsum_ext. intros j' _.
    unfold neg. destruct (Nat.eqb_spec j' i) as [->|E].
    - rewrite Nat.leb_refl. rewrite (proj2 (Nat.leb_gt (S i) i)) by lia. rewrite (proj2 (Z.eqb_eq _ _) Hsi). simpl. ring.
    - assert (Nat.leb i j' = Nat.leb (S i) j') as ->.
      { destruct (Nat.leb_spec i j'), (Nat.leb_spec (S i) j'); try reflexivity; lia. }
      ring. }
  assert (E2 : lsum (used (incr j cs)) all = lsum (used cs) all + w j * pw2 (- c)).
  { rewrite <- (lsum_one (w j * pw2 (- c)) j (length p)) at 1 by lia. fold all. rewrite <- lsum_plus. apply lsum_ext. intros j' _.
    unfold used. rewrite incr_nth by lia. destruct (Nat.eqb_spec j' j) as [->|E]; destruct (Nat.eq_dec _ j) as [E'|E']; try congruence.
    - fold c. replace (- (c + 1))%Z with (- c + -1)%Z by lia. rewrite pw2_add. replace (pw2 (-1)) with (/ 2).
      + field.
      + assert (Q := pw2_inv 1). replace (pw2 1) with 2 in Q by (rewrite <- pw2_IZR by lia; reflexivity). change (- (1))%Z with (-1)%Z in Q. lra.
    - rewrite Z.add_0_r. ring. }
  rewrite E1, E2. lra.
Qed.

Lemma lm_outer_finv : forall n cs b0 jm, (n < length p)%nat -> FInv n cs ->
  lm_outer flog0 n p s cs b0 jm = Some k -> exists cs', FInv 0 cs'.
Proof.
  induction n as [|i IH]; intros cs b0 jm Hn HI E.
  - exists cs. exact HI.
  - cbn [lm_outer] in E. cbv zeta in E.
    destruct ((Z.sgn (nth i p 0%Z) =? 0)%Z || (Z.sgn (nth i p 0%Z) =? s)%Z) eqn:Eb.
    + apply (IH cs b0 jm ltac:(lia)); [|exact E].
      assert (Hsi : Z.sgn (nth i p 0%Z) <> (- s)%Z).
      { apply orb_true_iff in Eb. destruct Eb as [Eb|Eb]; apply Z.eqb_eq in Eb; rewrite Eb; lia. }
      destruct HI as (HL & Hc & HI). split; [exact HL|]. split; [exact Hc|].
      replace (lsum (neg i) all) with (lsum (neg (S i)) all); [exact HI|]. apply lsum_ext. intros j _. unfold neg.
      destruct (Nat.eq_dec i j) as [->|Hne].
      * rewrite (proj2 (Z.eqb_neq _ _) Hsi), !andb_false_r. reflexivity.
      * assert (Nat.leb i j = Nat.leb (S i) j) as ->; [|reflexivity].
        destruct (Nat.leb_spec i j), (Nat.leb_spec (S i) j); try reflexivity; lia.
    + apply orb_false_iff in Eb. destruct Eb as [Eb1 Eb2]. apply Z.eqb_neq in Eb1. apply Z.eqb_neq in Eb2.
      assert (Hsi : Z.sgn (nth i p 0%Z) = (- s)%Z) by (pose proof (Z.sgn_spec (nth i p 0%Z)); lia).
      destruct (lm_inner flog0 (nth i p 0%Z) b0 1 (S i) (skipn (S i) p) (skipn (S i) cs) None jm) as [bmin j] eqn:EI.
      apply lm_inner_spec in EI; [|rewrite !skipn_length, (proj1 HI); reflexivity].
      destruct EI as [(_ & _ & [H|H])|(t & Ht & Ej & Ebm)].
      * exfalso. apply (f_equal (@length Z)) in H. rewrite skipn_length in H. simpl in H. lia.
      * congruence.
      * rewrite skipn_length in Ht.
        assert (Hnth : forall (A : Type) (l : list A) a t d, nth t (skipn a l) d = nth (a + t) l d).
        { clear. intros A l a t d. revert l. induction a as [|a IHa]; intros l; [reflexivity|].
          destruct l as [|y l]; [destruct t; reflexivity|]. simpl. apply IHa. }
        rewrite !Hnth in Ebm. rewrite <- Ej in Ebm.
        assert (Hk : exists b, bmin = Some b /\ (b <= k)%Z).
        { rewrite Ebm in E |- *. eexists; split; [reflexivity|].
          pose proof (lm_outer_ge flog0 p s Hs Hlead _ _ _ _ _ E) as H. destruct b0 as [b|]; cbn [max_b0] in H.
          - destruct H as (b' & Eb' & H). inversion Eb'; subst. lia.
          - destruct H as (b' & Eb' & H). inversion Eb'; subst. lia. }
        destruct Hk as (b & Eb & Hbk). rewrite Eb in Ebm.
        replace (1 + Z.of_nat t)%Z with (Z.of_nat j - Z.of_nat i)%Z in Ebm by lia. injection Ebm as Ebv.
        apply (IH _ _ _ ltac:(lia) (finv_step i cs j b HI ltac:(lia) Hsi Ebv Hbk) E).
Qed.

Lemma finv_init : (1 <= length p)%nat -> FInv (length p - 1) (map (fun _ => 1%Z) p).
Proof.
  intros Hl. assert (Hone : forall j, (j < length p)%nat -> nth j (map (fun _ => 1%Z) p) 0%Z = 1%Z).
  { intros j Hj. assert (Hin : In (nth j (map (fun _ => 1%Z) p) 0%Z) (map (fun _ => 1%Z) p)) by (apply nth_In; rewrite map_length; exact Hj).
    apply in_map_iff in Hin. destruct Hin as (? & <- & _). reflexivity. }
  split; [apply map_length|]. split; [intros j Hj; rewrite (Hone j Hj); lia|].
  assert (E1 : lsum (neg (length p - 1)) all = 0).
  { rewrite (lsum_ext _ (fun _ => 0 * 0)); [rewrite lsum_scale; ring|]. intros j Hj. apply in_seq in Hj. unfold neg.
    destruct (Nat.leb_spec (length p - 1) j) as [H|H]; [|simpl; ring]. assert (j = length p - 1)%nat as -> by lia.
    assert (Elast : nth (length p - 1) p 0%Z = last p 0%Z).
    { clear - Hl. induction p as [|a [|b q] IHp]; simpl in *; try lia; try reflexivity.
      rewrite <- IHp by lia. rewrite Nat.sub_0_r. reflexivity. }
    rewrite Elast, Hlead. destruct (Z.eqb_spec s (- s)) as [E|E]; [lia|]. simpl. ring. }
  assert (E2 : lsum (used (map (fun _ => 1%Z) p)) all = 0).
  { rewrite (lsum_ext _ (fun _ => 0 * 0)); [rewrite lsum_scale; ring|]. intros j Hj. apply in_seq in Hj. unfold used.
    rewrite (Hone j ltac:(lia)).
    assert (Q := pw2_inv 1). replace (pw2 1) with 2 in Q by (rewrite <- pw2_IZR by lia; reflexivity).
    replace (pw2 (- (1))) with (/ 2) by lra. field. }
  rewrite E1, E2. lra.
Qed.

(** The monomials of the wrong sign against all weights. *)
Lemma root_bound_weights : (1 <= length p)%nat -> 0 < u (length p - 1) -> root_bound flog0 p = Some k ->
  T * lsum (fun j => if (Z.sgn (nth j p 0) =? - s)%Z then u j * x ^ j else 0) (seq 0 (length p)) <
  lsum (fun j => u j * x ^ j) (seq 0 (length p)).
Proof.
  intros Hl Hul E. unfold root_bound in E. rewrite Hlead in E.
  destruct (lm_outer_finv (length p - 1) _ _ _ ltac:(lia) (finv_init Hl) E) as (cs & _ & _ & H).
  apply Rle_lt_trans with (1 := H).
  apply lsum_lt with (length p - 1)%nat; [apply in_seq; lia| |].
  - assert (0 < x ^ (length p - 1)) by (apply pow_lt; exact fx0).
    unfold used, w. pose proof (pw2_pos (- nth (length p - 1) cs 0%Z)). assert (0 < u (length p - 1)%nat * x ^ (length p - 1)) by (apply Rmult_lt_0_compat; assumption). nra.
  - intros j _. unfold used. pose proof (w_nonneg j). pose proof (pw2_pos (- nth j cs 0%Z)). unfold w in *. nra.
Qed.
End Loop.

(** Positive, negative and phantom weights. *)
Lemma split_weights : forall p s x u, (s = (-1)%Z \/ s = 1%Z) ->
  (forall j, nth j p 0%Z <> 0%Z -> u j = IZR (Z.abs (nth j p 0%Z))) ->
  lsum (fun j => u j * x ^ j) (seq 0 (length p)) =
  IZR s * zeval p x +
  2 * lsum (fun j => if (Z.sgn (nth j p 0) =? - s)%Z then u j * x ^ j else 0) (seq 0 (length p)) +
  lsum (fun j => if (nth j p 0 =? 0)%Z then u j * x ^ j else 0) (seq 0 (length p)).
Proof.
  intros p s x u Hs Hu. rewrite zeval_lsum, <- !lsum_scale, <- !lsum_plus. apply lsum_ext. intros j _.
  destruct (Z.eqb_spec (nth j p 0%Z) 0) as [E|E].
  - rewrite E. cbn [Z.sgn]. rewrite (proj2 (Z.eqb_neq _ _)) by lia. ring.
  - rewrite (Hu j E). pose proof (Z.sgn_abs (nth j p 0%Z)) as Es.
    destruct (Z.eqb_spec (Z.sgn (nth j p 0%Z)) (- s)) as [Ej|Ej].
    + assert (nth j p 0%Z = - s * Z.abs (nth j p 0%Z))%Z as H by (pose proof (Z.sgn_spec (nth j p 0%Z)); destruct Hs; nia).
      rewrite H at 2. rewrite mult_IZR, opp_IZR. destruct Hs as [Hs|Hs]; rewrite Hs; cbn; ring.
    + assert (nth j p 0%Z = s * Z.abs (nth j p 0%Z))%Z as H by (pose proof (Z.sgn_spec (nth j p 0%Z)); destruct Hs; nia).
      rewrite H at 2. rewrite mult_IZR. destruct Hs as [Hs|Hs]; rewrite Hs; cbn; ring.
Qed.

Lemma last_nth : forall (p : list Z), nth (length p - 1) p 0%Z = last p 0%Z.
Proof.
  induction p as [|a [|b q] IHp]; simpl in *; try reflexivity. rewrite <- IHp. rewrite Nat.sub_0_r. reflexivity.
Qed.

Lemma root_bound_two : forall flog0 p k x, p <> [] -> (forall a, In a p -> a <> 0%Z) ->
  root_bound flog0 p = Some k -> 2 * pw2 k <= x -> zeval p x <> 0.
Proof.
  intros flog0 p k x Hp Hnz E Hx H0.
  assert (Hl : (1 <= length p)%nat) by (destruct p; [congruence|simpl; lia]).
  set (s := Z.sgn (last p 0%Z)).
  pose proof (Hnz _ (last_In p Hp)) as Hln.
  assert (Hs : s = (-1)%Z \/ s = 1%Z) by (unfold s; pose proof (Z.sgn_spec (last p 0%Z)); lia).
  set (u := fun j => IZR (Z.abs (nth j p 0%Z))).
  assert (W : 2 * lsum (fun j => if (Z.sgn (nth j p 0) =? - s)%Z then u j * x ^ j else 0) (seq 0 (length p)) <
    lsum (fun j => u j * x ^ j) (seq 0 (length p))).
  { apply (root_bound_weights flog0 p s k x 2 u Hx); auto; try lra.
    - intros j. apply IZR_le. lia.
    - intros i j c d Hj _ _ _ _. assert (Nj : nth j p 0%Z <> 0%Z) by (apply Hnz, nth_In; exact Hj).
      unfold flog2, u. rewrite (proj2 (Z.eqb_neq _ _) Nj). rewrite <- pw2_IZR by apply Z.log2_nonneg. apply IZR_le.
      apply Z.log2_spec. lia.
    - unfold u. rewrite last_nth. apply IZR_lt. lia. }
  rewrite (split_weights p s x u Hs) in W by reflexivity. rewrite H0 in W.
  assert (Z0 : lsum (fun j => if (nth j p 0 =? 0)%Z then u j * x ^ j else 0) (seq 0 (length p)) = 0).
  { rewrite (lsum_ext _ (fun _ => 0 * 0)); [rewrite lsum_scale; ring|]. intros j _. unfold u.
    destruct (Z.eqb_spec (nth j p 0%Z) 0) as [->|_]; cbn; ring. }
  lra.
Qed.

(** The sum of the lower powers. *)
Lemma geo : forall n x, 5 <= x -> 4 * lsum (fun j => x ^ j) (seq 0 n) < x ^ n.
Proof.
  intros n x Hx. induction n as [|n IH]; [cbn; lra|]. rewrite seq_S, lsum_app. cbn [lsum plus pow].
  assert (0 < x ^ n) by (apply pow_lt; lra). nra.
Qed.

Lemma root_bound_zeros : forall flog0 p k x, (flog0 <= 0)%Z -> p <> [] -> last p 0%Z <> 0%Z ->
  root_bound flog0 p = Some k -> 5 / 2 * pw2 k <= x -> zeval p x <> 0.
Proof.
  intros flog0 p k x Hf Hp Hln E Hx H0.
  assert (Hl : (1 <= length p)%nat) by (destruct p; [congruence|simpl; lia]).
  set (s := Z.sgn (last p 0%Z)).
  assert (Hs : s = (-1)%Z \/ s = 1%Z) by (unfold s; pose proof (Z.sgn_spec (last p 0%Z)); lia).
  set (v := if (k <=? 0)%Z then 0 else 1).
  set (u := fun j => if (nth j p 0 =? 0)%Z then v else IZR (Z.abs (nth j p 0%Z))).
  assert (Hv : 0 <= v) by (unfold v; destruct (k <=? 0)%Z; lra).
  assert (Hun : forall j, nth j p 0%Z <> 0%Z -> u j = IZR (Z.abs (nth j p 0%Z))).
  { intros j Hj. unfold u. rewrite (proj2 (Z.eqb_neq _ _) Hj). reflexivity. }
  assert (Hu0 : forall j, 0 <= u j).
  { intros j. unfold u. destruct (Z.eqb_spec (nth j p 0%Z) 0); [exact Hv|]. apply IZR_le. lia. }
  assert (Hxp : 0 < x) by (pose proof (pw2_pos k); lra).
  set (N := lsum (fun j => if (Z.sgn (nth j p 0) =? - s)%Z then u j * x ^ j else 0) (seq 0 (length p))).
  assert (HN : 0 <= N).
  { apply Rle_trans with (lsum (fun _ => 0 * 0) (seq 0 (length p))); [rewrite lsum_scale; lra|].
    apply lsum_le. intros j _. destruct (Z.sgn (nth j p 0) =? - s)%Z; [|lra].
    assert (0 <= u j * x ^ j) by (apply Rmult_le_pos; [apply Hu0|apply pow_le; lra]). lra. }
  assert (W : 5 / 2 * N < lsum (fun j => u j * x ^ j) (seq 0 (length p))).
  { apply (root_bound_weights flog0 p s k x (5 / 2) u Hx); auto; try lra.
    - intros i j c d Hj Hc Hd Hi Hb. unfold u, flog2. destruct (Z.eqb_spec (nth j p 0%Z) 0) as [Ej|Ej].
      + unfold v. destruct (Z.leb_spec k 0) as [Hk|Hk].
        * exfalso. unfold bval, flog2, clog2 in Hb. rewrite Ej in Hb. cbn [Z.eqb] in Hb.
          pose proof (Z.log2_up_nonneg (Z.abs (nth i p 0%Z))).
          assert (1 <= Z.quot (c + Z.log2_up (Z.abs (nth i p 0%Z)) - flog0 + d - 1) d)%Z; [|lia].
          apply Z.quot_le_lower_bound; lia.
        * assert (Q : pw2 flog0 <= pw2 0) by (apply pw2_le; lia). rewrite <- (pw2_IZR 0) in Q by lia. exact Q.
      + rewrite <- pw2_IZR by apply Z.log2_nonneg. apply IZR_le. apply Z.log2_spec. lia.
    - intros j Hj. apply Hun. intros Ej. rewrite Ej in Hj. cbn in Hj. lia.
    - rewrite Hun; rewrite last_nth; [apply IZR_lt; lia|exact Hln]. }
  assert (Hlow : 4 * lsum (fun j => if (nth j p 0 =? 0)%Z then u j * x ^ j else 0) (seq 0 (length p)) <=
    x ^ (length p - 1) * v).
  { assert (Hb : lsum (fun j => if (nth j p 0 =? 0)%Z then u j * x ^ j else 0) (seq 0 (length p)) <=
      v * lsum (fun j => x ^ j) (seq 0 (length p - 1))).
    { replace (seq 0 (length p)) with (seq 0 (length p - 1) ++ [length p - 1])%nat.
      2:{ replace (length p) with (S (length p - 1)) at 3 by lia. rewrite seq_S. reflexivity. }
      rewrite lsum_app, <- lsum_scale. cbn [lsum]. rewrite last_nth, (proj2 (Z.eqb_neq _ _) Hln).
      assert (lsum (fun j => if (nth j p 0 =? 0)%Z then u j * x ^ j else 0) (seq 0 (length p - 1)) <=
        lsum (fun j => v * x ^ j) (seq 0 (length p - 1))); [|lra].
      apply lsum_le. intros j _. unfold u. assert (0 <= x ^ j) by (apply pow_le; lra).
      destruct (nth j p 0 =? 0)%Z; [lra|]. apply Rmult_le_pos; assumption. }
    unfold v in *. destruct (Z.leb_spec k 0) as [Hk|Hk]; [lra|].
    assert (2 <= pw2 k).
    { replace 2 with (pw2 1) by (rewrite <- pw2_IZR by lia; reflexivity). apply pw2_le. lia. }
    pose proof (geo (length p - 1) x ltac:(lra)). lra. }
  assert (Hlead : x ^ (length p - 1) * v <= lsum (fun j => u j * x ^ j) (seq 0 (length p)) - N -
    lsum (fun j => if (nth j p 0 =? 0)%Z then u j * x ^ j else 0) (seq 0 (length p))).
  { set (h := fun j => if (Z.sgn (nth j p 0) =? s)%Z then u j * x ^ j else 0).
    assert (Eh : lsum (fun j => u j * x ^ j) (seq 0 (length p)) = lsum h (seq 0 (length p)) + N +
      lsum (fun j => if (nth j p 0 =? 0)%Z then u j * x ^ j else 0) (seq 0 (length p))).
    { unfold N. rewrite <- !lsum_plus. apply lsum_ext. intros j _. unfold h. pose proof (Z.sgn_spec (nth j p 0%Z)) as Q.
      destruct (Z.eqb_spec (Z.sgn (nth j p 0%Z)) s); destruct (Z.eqb_spec (Z.sgn (nth j p 0%Z)) (- s));
      destruct (Z.eqb_spec (nth j p 0%Z) 0); try lia; ring. }
    rewrite Eh. assert (lsum h [(length p - 1)%nat] <= lsum h (seq 0 (length p))).
    { apply lsum_lower; [repeat constructor; intros []|intros j [<-|[]]; lia|]. intros j _ _. unfold h.
      destruct (Z.sgn (nth j p 0) =? s)%Z; [|lra]. apply Rmult_le_pos; [apply Hu0|apply pow_le; lra]. }
    cbn [lsum] in H. unfold h at 1 in H. rewrite last_nth in H. fold s in H. rewrite Z.eqb_refl in H.
    rewrite Hun in H by (rewrite last_nth; exact Hln). rewrite last_nth in H.
    assert (v <= IZR (Z.abs (last p 0%Z))).
    { apply Rle_trans with 1; [unfold v; destruct (k <=? 0)%Z; lra|]. apply IZR_le. lia. }
    assert (0 <= x ^ (length p - 1)) by (apply pow_le; lra). nra. }
  rewrite (split_weights p s x u Hs Hun) in W, Hlead. rewrite H0 in W, Hlead. fold N in W, Hlead. lra.
Qed.

Theorem bound_two : forall flog0 p k x, p <> [] -> (forall a, In a p -> a <> 0%Z) ->
  positive_root_upper_bound flog0 p = Some k -> 0 < x -> zeval p x = 0 -> x < 2 * pw2 k.
Proof.
  intros flog0 p k x Hp Hnz E Hx H0. unfold positive_root_upper_bound in E.
  destruct p as [|a q]; [congruence|].
  assert (Ha : a <> 0%Z) by (apply Hnz; left; reflexivity).
  cbn [forallb low_zeros] in E. destruct (Z.eqb_spec 0 a) as [Q|_]; [congruence|]. cbn [andb] in E.
  destruct (Z.eqb_spec a 0) as [Q|_]; [congruence|]. cbn [snd] in E.
  apply Rnot_le_lt. intros H. exact (root_bound_two flog0 _ k x Hp Hnz E H H0).
Qed.

Theorem bound_zeros : forall flog0 p k x, (flog0 <= 0)%Z -> nonzero p -> last p 0%Z <> 0%Z ->
  positive_root_upper_bound flog0 p = Some k -> 0 < x -> zeval p x = 0 -> x < 5 / 2 * pw2 k.
Proof.
  intros flog0 p k x Hf Hp Hl E Hx H0. unfold positive_root_upper_bound in E.
  destruct (forallb (Z.eqb 0) p) eqn:Ef.
  { exfalso. apply Hp. rewrite forallb_forall in Ef. apply Forall_forall. intros a Ha. specialize (Ef a Ha). apply Z.eqb_eq in Ef. congruence. }
  destruct (low_zeros p) as [n r] eqn:EL. cbn [snd] in E.
  destruct (low_zeros_spec p n r EL) as (Ev & Hne & _). destruct (Hne Hp) as [Hr _].
  assert (Hlast : last r 0%Z <> 0%Z).
  { clear - EL Hr Hl. revert n r EL Hr Hl. induction p as [|a q IH]; intros n r EL Hr Hl; simpl in EL; [congruence|].
    destruct (Z.eqb_spec a 0) as [Ea|Ea]; [|injection EL as _ <-; exact Hl].
    destruct (low_zeros q) as [m r'] eqn:E'. injection EL as _ <-.
    destruct q as [|b q]; [simpl in E'; congruence|]. apply (IH m r' eq_refl Hr). exact Hl. }
  rewrite Ev in H0. apply Rmult_integral in H0. destruct H0 as [H0|H0].
  - exfalso. revert H0. apply pow_nonzero. lra.
  - apply Rnot_le_lt. intros H. exact (root_bound_zeros flog0 r k x Hf Hr Hlast E H H0).
Qed.
