(** What the local max root bound guarantees (C05). *)
Require Import Reals List Lra Lia ZArith Bool Permutation.
From Verif Require Import PolyR SignVar RootModel DescartesProofs RootSpec VcaProofs VcaTerm IsoAll.
Import ListNotations.
Open Scope R_scope.

(** * Sums over index lists *)
Fixpoint lsum (f : nat -> R) (l : list nat) : R := match l with [] => 0 | j :: q => f j + lsum f q end.
Lemma lsum_app : forall f l m, lsum f (l ++ m) = lsum f l + lsum f m.
Proof. induction l as [|a l IH]; intros m; simpl; [ring|]. rewrite IH. ring. Qed.
Lemma lsum_perm : forall f l m, Permutation l m -> lsum f l = lsum f m.
Proof. intros f l m H. induction H; simpl; lra. Qed.
Lemma lsum_nonneg : forall f l, (forall j, In j l -> 0 <= f j) -> 0 <= lsum f l.
Proof.
  induction l as [|a l IH]; intros H; simpl; [lra|].
  pose proof (H a (or_introl eq_refl)). assert (0 <= lsum f l) by (apply IH; intros; apply H; right; assumption). lra.
Qed.
Lemma lsum_lower : forall f n D, NoDup D -> (forall j, In j D -> (j < n)%nat) ->
  (forall j, (j < n)%nat -> ~ In j D -> 0 <= f j) -> lsum f D <= lsum f (seq 0 n).
Proof.
  intros f n D Hnd Hin Hpos.
  set (inD := fun j => if in_dec Nat.eq_dec j D then true else false).
  assert (HP : Permutation (seq 0 n) (D ++ filter (fun j => negb (inD j)) (seq 0 n))).
  { apply NoDup_Permutation.
    - apply seq_NoDup.
    - assert (Hd : forall j, In j D -> ~ In j (filter (fun j => negb (inD j)) (seq 0 n))).
      { intros j Hj Hf. apply filter_In in Hf. destruct Hf as [_ Hf]. unfold inD in Hf.
        destruct (in_dec Nat.eq_dec j D); [discriminate|contradiction]. }
      assert (Hn : NoDup (filter (fun j => negb (inD j)) (seq 0 n))) by (apply NoDup_filter, seq_NoDup).
      generalize dependent (filter (fun j => negb (inD j)) (seq 0 n)). intros m Hd Hn. clear - Hnd Hd Hn.
      induction Hnd as [|a l Ha Hl IH]; [exact Hn|]. simpl. constructor.
      + intros H. apply in_app_or in H. destruct H as [H|H]; [contradiction|]. apply (Hd a); [left; reflexivity|exact H].
      + apply IH. intros j Hj. apply Hd. right. exact Hj.
    - intros j. split.
      + intros Hj. apply in_or_app. destruct (in_dec Nat.eq_dec j D) as [i|i]; [left; exact i|right].
        apply filter_In. split; [exact Hj|]. unfold inD. destruct (in_dec Nat.eq_dec j D); [contradiction|reflexivity].
      + intros H. apply in_app_or in H. destruct H as [H|H].
        * apply in_seq. pose proof (Hin j H). lia.
        * apply filter_In in H. apply H. }
  rewrite (lsum_perm f _ _ HP), lsum_app.
  assert (0 <= lsum f (filter (fun j => negb (inD j)) (seq 0 n))); [|lra].
  apply lsum_nonneg. intros j Hj. apply filter_In in Hj. destruct Hj as [H1 H2]. apply in_seq in H1.
  apply Hpos; [lia|]. unfold inD in H2. destruct (in_dec Nat.eq_dec j D); [discriminate|assumption].
Qed.

Lemma zeval_lsum : forall p x, zeval p x = lsum (fun j => IZR (nth j p 0%Z) * x ^ j) (seq 0 (length p)).
Proof.
  intros p x.
  assert (H : forall p a, x ^ a * zeval p x = lsum (fun j => IZR (nth (j - a) p 0%Z) * x ^ j) (seq a (length p))).
  { induction p0 as [|c p0 IH]; intros a; [unfold zeval; simpl; ring|].
    rewrite zeval_cons.
    specialize (IH (S a)).
    assert (E : lsum (fun j => IZR (nth (j - a) (c :: p0) 0%Z) * x ^ j) (seq (S a) (length p0)) =
                lsum (fun j => IZR (nth (j - S a) p0 0%Z) * x ^ j) (seq (S a) (length p0))).
    { assert (Hext : forall l, (forall j, In j l -> (S a <= j)%nat) ->
        lsum (fun j => IZR (nth (j - a) (c :: p0) 0%Z) * x ^ j) l = lsum (fun j => IZR (nth (j - S a) p0 0%Z) * x ^ j) l).
      { induction l as [|j l IHl]; intros Hl; [reflexivity|]. cbn [lsum]. rewrite IHl by (intros; apply Hl; right; assumption).
        f_equal. f_equal. f_equal. pose proof (Hl j (or_introl eq_refl)).
        replace (j - a)%nat with (S (j - S a)) by lia. reflexivity. }
      apply Hext. intros j Hj. apply in_seq in Hj. lia. }
    cbn [length seq lsum]. rewrite Nat.sub_diag. change (nth 0 (c :: p0) 0%Z) with c. rewrite E, <- IH. simpl. ring. }
  specialize (H p 0%nat). simpl in H. rewrite Rmult_1_l in H. rewrite H.
  assert (Hext : forall l, lsum (fun j => IZR (nth (j - 0) p 0%Z) * x ^ j) l = lsum (fun j => IZR (nth j p 0%Z) * x ^ j) l).
  { induction l as [|j l IHl]; [reflexivity|]. cbn [lsum]. rewrite IHl. rewrite Nat.sub_0_r. reflexivity. }
  apply Hext.
Qed.

(** * The choice made by the inner loop *)
Lemma quot_ceil : forall b d, (0 < d)%Z -> (b <= d * Z.quot (b + d - 1) d)%Z.
Proof.
  intros b d Hd. set (a := (b + d - 1)%Z). pose proof (Z.quot_rem' a d) as E.
  assert (Hr : (Z.rem a d < d)%Z).
  { destruct (Z.le_gt_cases 0 a) as [H|H].
    - apply (Z.rem_bound_pos a d H Hd).
    - pose proof (Z.rem_bound_pos_neg a d Hd ltac:(lia)) as H2. lia. }
  unfold a in E at 1. set (q := Z.quot a d) in *. set (r := Z.rem a d) in *. lia.
Qed.

Section FL.
Variable flog0 : Z.
Definition bval (pi c pj d : Z) : Z := Z.quot (c + clog2 pi - flog2 flog0 pj + d - 1) d.

Lemma lm_inner_spec : forall ps cs pi b0 d j bmin jmin b' j',
  length cs = length ps ->
  lm_inner flog0 pi b0 d j ps cs bmin jmin = (b', j') ->
  (b' = bmin /\ j' = jmin /\ (ps = [] \/ bmin <> None)) \/
  (exists t, (t < length ps)%nat /\ j' = (j + t)%nat /\
     b' = Some (bval pi (nth t cs 0%Z) (nth t ps 0%Z) (d + Z.of_nat t))).
Proof.
  induction ps as [|pj ps IH]; intros cs pi b0 d j bmin jmin b' j' Hl E.
  - destruct cs; [|discriminate]. simpl in E. inversion E; subst. left. auto.
  - destruct cs as [|cj cs]; [discriminate|]. simpl in Hl. cbn [lm_inner] in E.
    set (b := Z.quot (cj + clog2 pi - flog2 flog0 pj + d - 1) d) in *.
    destruct (lt_bmin b bmin) eqn:E1.
    + destruct (lt_b0 b b0).
      * inversion E; subst. right. exists 0%nat. simpl. rewrite Nat.add_0_r, Z.add_0_r. repeat split; lia.
      * destruct (IH cs pi b0 (d + 1)%Z (S j) (Some b) j b' j' ltac:(lia) E) as [(H1 & H2 & H3)|(t & Ht & H1 & H2)].
        -- subst. right. exists 0%nat. simpl. rewrite Nat.add_0_r, Z.add_0_r. repeat split; lia.
        -- right. exists (S t). simpl. split; [lia|]. split; [lia|]. rewrite H2.
           replace (d + 1 + Z.of_nat t)%Z with (d + Z.pos (Pos.of_succ_nat t))%Z by lia. reflexivity.
    + assert (Hb : bmin <> None) by (destruct bmin; [discriminate|discriminate E1]).
      destruct (IH cs pi b0 (d + 1)%Z (S j) bmin jmin b' j' ltac:(lia) E) as [(H1 & H2 & H3)|(t & Ht & H1 & H2)].
      * subst. left. auto.
      * right. exists (S t). simpl. split; [lia|]. split; [lia|]. rewrite H2.
        replace (d + 1 + Z.of_nat t)%Z with (d + Z.pos (Pos.of_succ_nat t))%Z by lia. reflexivity.
Qed.

Lemma incr_length : forall cs j, length (incr j cs) = length cs.
Proof. induction cs as [|c cs IH]; intros [|j]; simpl; auto. Qed.
Lemma incr_nth : forall cs j i, (j < length cs)%nat ->
  nth i (incr j cs) 0%Z = (nth i cs 0 + (if Nat.eq_dec i j then 1 else 0))%Z.
Proof.
  induction cs as [|c cs IH]; intros [|j] [|i] H; cbn [incr nth length] in *; try lia.
  - destruct (Nat.eq_dec 0 0); lia.
  - destruct (Nat.eq_dec (S i) 0); lia.
  - destruct (Nat.eq_dec 0 (S j)); lia.
  - rewrite IH by lia. destruct (Nat.eq_dec i j), (Nat.eq_dec (S i) (S j)); lia.
Qed.

(** Comparison of the two monomials once x is beyond 2^b. *)
Lemma charge : forall pi c pj d k x, (0 < d)%Z -> pi <> 0%Z -> pj <> 0%Z ->
  (bval pi c pj d <= k)%Z -> pw2 k <= x ->
  pw2 c * IZR (Z.abs pi) * x <= pw2 k * (IZR (Z.abs pj) * x ^ Z.to_nat d).
Proof.
  intros pi c pj d k x Hd Hpi Hpj Hb Hx.
  assert (H1 : IZR (Z.abs pi) <= pw2 (clog2 pi)).
  { unfold clog2. rewrite <- pw2_IZR by apply Z.log2_up_nonneg. apply IZR_le.
    destruct (Z.eq_dec (Z.abs pi) 1) as [E|E]; [rewrite E; simpl; lia|].
    pose proof (Z.log2_up_spec (Z.abs pi) ltac:(lia)). lia. }
  assert (H2 : pw2 (flog2 flog0 pj) <= IZR (Z.abs pj)).
  { unfold flog2. destruct (Z.eqb_spec pj 0); [contradiction|].
    rewrite <- pw2_IZR by apply Z.log2_nonneg. apply IZR_le.
    pose proof (Z.log2_spec (Z.abs pj) ltac:(lia)). lia. }
  pose proof (quot_ceil (c + clog2 pi - flog2 flog0 pj) d Hd) as Hq. fold (bval pi c pj d) in Hq.
  assert (Hmono : forall a b, (a <= b)%Z -> pw2 a <= pw2 b).
  { intros a b Hab. replace b with (a + (b - a))%Z by lia. rewrite pw2_add.
    assert (1 <= pw2 (b - a)).
    { rewrite <- pw2_IZR by lia. apply IZR_le. assert (0 < 2 ^ (b - a))%Z by (apply Z.pow_pos_nonneg; lia). lia. }
    pose proof (pw2_pos a). nra. }
  assert (H3 : pw2 (c + clog2 pi - flog2 flog0 pj) <= pw2 (d * k)) by (apply Hmono; nia).
  replace (c + clog2 pi - flog2 flog0 pj)%Z with (c + clog2 pi + - flog2 flog0 pj)%Z in H3 by lia.
  rewrite !pw2_add in H3.
  set (fl := flog2 flog0 pj) in *. pose proof (pw2_inv fl) as Hinv. pose proof (pw2_pos fl).
  pose proof (pw2_pos (- fl)). pose proof (pw2_pos c) as Hc. pose proof (pw2_pos k) as Hk.
  (* 2^c 2^clog <= 2^(dk) 2^fl *)
  assert (H4 : pw2 c * pw2 (clog2 pi) <= pw2 (d * k) * pw2 fl).
  { replace (pw2 c * pw2 (clog2 pi)) with (pw2 c * pw2 (clog2 pi) * pw2 (- fl) * pw2 fl).
    - apply Rmult_le_compat_r; [lra|exact H3].
    - replace (pw2 c * pw2 (clog2 pi) * pw2 (- fl) * pw2 fl) with (pw2 c * pw2 (clog2 pi) * (pw2 (- fl) * pw2 fl)) by ring.
      rewrite Hinv. ring. }
  assert (H5 : pw2 (d * k) * x <= pw2 k * x ^ Z.to_nat d).
  { replace d with (Z.of_nat (Z.to_nat d)) at 1 by lia.
    assert (Hn : exists m, Z.to_nat d = S m) by (exists (Z.to_nat d - 1)%nat; lia).
    destruct Hn as [m ->].
    assert (Hpw : pw2 (Z.of_nat (S m) * k) = pw2 k * pw2 k ^ m).
    { clear. induction m as [|m IH]; [simpl (pw2 k ^ 0); rewrite Rmult_1_r; f_equal; lia|].
      replace (Z.of_nat (S (S m)) * k)%Z with (Z.of_nat (S m) * k + k)%Z by lia. rewrite pw2_add, IH. simpl. ring. }
    rewrite Hpw. assert (pw2 k ^ m <= x ^ m) by (apply pow_incr; lra).
    assert (0 < x) by lra. simpl. 
    replace (pw2 k * pw2 k ^ m * x) with ((pw2 k * x) * pw2 k ^ m) by ring.
    replace (pw2 k * (x * x ^ m)) with ((pw2 k * x) * x ^ m) by ring.
    apply Rmult_le_compat_l; [nra|assumption]. }
  assert (0 < x) by lra. pose proof (pw2_pos (d * k)) as Hdk.
  apply Rle_trans with (pw2 c * pw2 (clog2 pi) * x).
  { apply Rmult_le_compat_r; [lra|]. apply Rmult_le_compat_l; lra. }
  apply Rle_trans with (pw2 (d * k) * pw2 fl * x).
  { apply Rmult_le_compat_r; lra. }
  apply Rle_trans with (pw2 (d * k) * IZR (Z.abs pj) * x).
  { apply Rmult_le_compat_r; [lra|]. apply Rmult_le_compat_l; lra. }
  assert (0 <= IZR (Z.abs pj)) by (apply IZR_le; lia).
  replace (pw2 (d * k) * IZR (Z.abs pj) * x) with (IZR (Z.abs pj) * (pw2 (d * k) * x)) by ring.
  replace (pw2 k * (IZR (Z.abs pj) * x ^ Z.to_nat d)) with (IZR (Z.abs pj) * (pw2 k * x ^ Z.to_nat d)) by ring.
  apply Rmult_le_compat_l; lra.
Qed.

(** * Invariant of the outer loop *)
Section Loop.
Variables (p : list Z) (s : Z) (k : Z) (x : R).
Hypothesis Hx : pw2 k <= x.
Hypothesis Hs : s = (-1)%Z \/ s = 1%Z.
Hypothesis Hlead : Z.sgn (last p 0%Z) = s.
Hypothesis Hnz : forall a, In a p -> a <> 0%Z.

Definition m (j : nat) : R := IZR (Z.abs (nth j p 0%Z)) * x ^ j.
Definition g : R := pw2 k / x.

Lemma Hx0 : 0 < x. Proof. pose proof (pw2_pos k). lra. Qed.
Lemma g_range : 0 < g <= 1.
Proof.
  unfold g. pose proof (pw2_pos k). pose proof Hx0. split; [apply Rdiv_lt_0_compat; lra|].
  apply (Rmult_le_reg_r x); [lra|]. unfold Rdiv. rewrite Rmult_assoc, Rinv_l by lra. lra.
Qed.
Lemma m_nonneg : forall j, 0 <= m j.
Proof. intros j. unfold m. apply Rmult_le_pos; [apply IZR_le; lia|]. apply pow_le. pose proof Hx0. lra. Qed.
Lemma nth_nz : forall j, (j < length p)%nat -> nth j p 0%Z <> 0%Z.
Proof. intros j Hj. apply Hnz. apply nth_In. exact Hj. Qed.

(** [L] lists the processed negative indices with their root. *)
Record BInv (i : nat) (cs : list Z) (L : list (nat * nat)) : Prop := {
  bi_len : length cs = length p;
  bi_c1 : forall j, (j < length p)%nat -> (1 <= nth j cs 0)%Z;
  bi_c2 : forall r, In r (map snd L) -> (2 <= nth r cs 0)%Z;
  bi_range : forall j r, In (j, r) L -> (i <= j < length p)%nat /\ (r < length p)%nat /\
      Z.sgn (nth j p 0%Z) = (- s)%Z /\ Z.sgn (nth r p 0%Z) = s;
  bi_all : forall j, (i <= j < length p)%nat -> Z.sgn (nth j p 0%Z) = (- s)%Z -> In j (map fst L);
  bi_nodup : NoDup (map fst L);
  (* most recent first *)
  bi_half : forall L1 j r L2, L = L1 ++ (j, r) :: L2 ->
      m j <= g * (m r / 2) /\ (In r (map snd L2) -> m j <= g * (m r / 4))
}.

Lemma binv_step : forall i cs L j b,
  BInv (S i) cs L -> (i < j < length p)%nat -> Z.sgn (nth i p 0%Z) = (- s)%Z ->
  b = bval (nth i p 0%Z) (nth j cs 0%Z) (nth j p 0%Z) (Z.of_nat j - Z.of_nat i) -> (b <= k)%Z ->
  exists r, BInv i (incr j cs) ((i, r) :: L).
Proof.
  intros i cs L j b HI Hij Hsi Eb Hbk.
  pose proof Hx0 as Hxp. pose proof g_range as Hg.
  pose proof (nth_nz i ltac:(lia)) as Ni. pose proof (nth_nz j ltac:(lia)) as Nj.
  set (c := nth j cs 0%Z) in *.
  assert (Hch : pw2 c * m i <= g * m j).
  { rewrite Eb in Hbk.
    pose proof (charge (nth i p 0%Z) c (nth j p 0%Z) (Z.of_nat j - Z.of_nat i) k x ltac:(lia) Ni Nj Hbk Hx) as H.
    replace (Z.to_nat (Z.of_nat j - Z.of_nat i)) with (j - i)%nat in H by lia.
    unfold m, g. replace (x ^ j) with (x ^ i * x ^ (j - i)) by (rewrite <- pow_add; f_equal; lia).
    apply (Rmult_le_reg_r x); [exact Hxp|].
    replace (pw2 c * (IZR (Z.abs (nth i p 0%Z)) * x ^ i) * x) with (x ^ i * (pw2 c * IZR (Z.abs (nth i p 0%Z)) * x)) by ring.
    replace (pw2 k / x * (IZR (Z.abs (nth j p 0%Z)) * (x ^ i * x ^ (j - i))) * x)
      with (x ^ i * (pw2 k * (IZR (Z.abs (nth j p 0%Z)) * x ^ (j - i)))) by (field; lra).
    apply Rmult_le_compat_l; [apply pow_le; lra|exact H]. }
  assert (Hpw : forall a, (1 <= a)%Z -> 2 <= pw2 a).
  { intros a Ha. rewrite <- pw2_IZR by lia. apply IZR_le. change 2%Z with (2 ^ 1)%Z. apply Z.pow_le_mono_r; lia. }
  assert (Hpw4 : forall a, (2 <= a)%Z -> 4 <= pw2 a).
  { intros a Ha. rewrite <- pw2_IZR by lia. apply IZR_le. change 4%Z with (2 ^ 2)%Z. apply Z.pow_le_mono_r; lia. }
  pose proof (bi_c1 _ _ _ HI j ltac:(lia)) as Hc1. fold c in Hc1.
  pose proof (m_nonneg i) as Mi. pose proof (m_nonneg j) as Mj.
  assert (Hhalf : m i <= g * (m j / 2)) by (pose proof (Hpw c Hc1); nra).
  (* the root of the new index *)
  assert (Hr : exists r, (r < length p)%nat /\ Z.sgn (nth r p 0%Z) = s /\ m i <= g * (m r / 2) /\
             (In r (map snd L) -> m i <= g * (m r / 4)) /\ (r = j \/ In r (map snd L))).
  { destruct (Z.eq_dec (Z.sgn (nth j p 0%Z)) s) as [Es|Es].
    - exists j. split; [lia|]. split; [exact Es|]. split; [exact Hhalf|]. split; [|left; reflexivity].
      intros Hin. pose proof (bi_c2 _ _ _ HI j Hin) as Hc2. fold c in Hc2. pose proof (Hpw4 c Hc2). nra.
    - assert (Esj : Z.sgn (nth j p 0%Z) = (- s)%Z).
      { pose proof (Z.sgn_spec (nth j p 0%Z)). lia. }
      pose proof (bi_all _ _ _ HI j ltac:(lia) Esj) as Hin. apply in_map_iff in Hin.
      destruct Hin as ([j' r] & Ej & Hin). simpl in Ej. subst j'.
      destruct (bi_range _ _ _ HI j r Hin) as (_ & H2 & _ & H4).
      pose proof (in_split _ _ Hin) as (L1 & L2 & EL).
      destruct (bi_half _ _ _ HI L1 j r L2 EL) as [H5 _].
      pose proof (m_nonneg r) as Mr.
      assert (Hq : m i <= g * (m r / 4)).
      { assert (g * (m j / 2) <= g * (g * (m r / 2) / 2)) by (apply Rmult_le_compat_l; lra).
        assert (g * (g * (m r / 2) / 2) <= g * (m r / 4)) by (apply Rmult_le_compat_l; [lra|]; nra). lra. }
      exists r. split; [exact H2|]. split; [exact H4|]. split; [|split; [intros _; exact Hq|right]].
      + assert (g * (m r / 4) <= g * (m r / 2)) by (apply Rmult_le_compat_l; lra). lra.
      + apply in_map_iff. exists (j, r). split; [reflexivity|exact Hin]. }
  destruct Hr as (r & Hr1 & Hr2 & Hr3 & Hr4 & Hr5). exists r.
  constructor.
  - rewrite incr_length. exact (bi_len _ _ _ HI).
  - intros j' Hj'. rewrite incr_nth by (rewrite (bi_len _ _ _ HI); lia).
    pose proof (bi_c1 _ _ _ HI j' Hj'). destruct (Nat.eq_dec j' j); lia.
  - intros r' Hin. rewrite incr_nth by (rewrite (bi_len _ _ _ HI); lia). simpl in Hin.
    assert (Hold : In r' (map snd L) -> (2 <= nth r' cs 0 + (if Nat.eq_dec r' j then 1 else 0))%Z).
    { intros H. pose proof (bi_c2 _ _ _ HI r' H). destruct (Nat.eq_dec r' j); lia. }
    destruct Hin as [<-|Hin]; [|apply Hold; exact Hin].
    destruct Hr5 as [->|Hr5]; [|apply Hold; exact Hr5].
    fold c. destruct (Nat.eq_dec j j); [lia|contradiction].
  - intros j' r' [E|Hin].
    + inversion E; subst. repeat split; try lia; assumption.
    + destruct (bi_range _ _ _ HI j' r' Hin) as (H1 & H2 & H3 & H4). repeat split; try lia; assumption.
  - intros j' Hj' Hsj. simpl. destruct (Nat.eq_dec i j') as [->|Hne]; [left; reflexivity|right].
    apply (bi_all _ _ _ HI); [lia|exact Hsj].
  - simpl. constructor; [|exact (bi_nodup _ _ _ HI)].
    intros Hin. apply in_map_iff in Hin. destruct Hin as ([j' r'] & Ej & Hin). simpl in Ej. subst j'.
    destruct (bi_range _ _ _ HI i r' Hin) as (H1 & _). lia.
  - intros L1 j' r' L2 E. destruct L1 as [|a L1]; simpl in E; inversion E; subst.
    + split; [exact Hr3|exact Hr4].
    + apply (bi_half _ _ _ HI L1 j' r' L2). reflexivity.
Qed.

Lemma lm_outer_ge : forall n cs b0 jm r, lm_outer flog0 n p s cs b0 jm = r ->
  match b0 with Some b => exists b', r = Some b' /\ (b <= b')%Z | None => True end.
Proof.
  induction n as [|i IH]; intros cs b0 jm r E; cbn [lm_outer] in E.
  - rewrite <- E. destruct b0; [|exact I]. eexists; split; [reflexivity|lia].
  - destruct ((Z.sgn (nth i p 0%Z) =? 0)%Z || (Z.sgn (nth i p 0%Z) =? s)%Z); [apply (IH _ _ _ _ E)|].
    destruct (lm_inner _ _ _ _ _ _ _ _ _) as [bmin j].
    pose proof (IH _ _ _ _ E) as H. destruct b0 as [b|]; [|exact I].
    destruct bmin as [bm|]; simpl in H.
    + destruct H as (b' & -> & H). exists b'. split; [reflexivity|lia].
    + exact H.
Qed.

Lemma lm_outer_inv : forall n cs b0 jm L, (n < length p)%nat -> BInv n cs L ->
  lm_outer flog0 n p s cs b0 jm = Some k -> 
  exists L' cs', BInv 0 cs' L'.
Proof.
  induction n as [|i IH]; intros cs b0 jm L Hn HI E.
  - exists L, cs. exact HI.
  - cbn [lm_outer] in E. cbv zeta in E.
    destruct ((Z.sgn (nth i p 0%Z) =? 0)%Z || (Z.sgn (nth i p 0%Z) =? s)%Z) eqn:Eb.
    + apply (IH cs b0 jm L ltac:(lia)); [|exact E].
      assert (Hsi : Z.sgn (nth i p 0%Z) <> (- s)%Z).
      { apply orb_true_iff in Eb. destruct Eb as [Eb|Eb]; apply Z.eqb_eq in Eb; rewrite Eb; lia. }
      constructor.
      * exact (bi_len _ _ _ HI).
      * exact (bi_c1 _ _ _ HI).
      * exact (bi_c2 _ _ _ HI).
      * intros j r Hin. destruct (bi_range _ _ _ HI j r Hin) as (H1 & H2 & H3 & H4). repeat split; try lia; assumption.
      * intros j Hj Hsj. apply (bi_all _ _ _ HI); [|exact Hsj].
        destruct (Nat.eq_dec i j) as [->|]; [contradiction|lia].
      * exact (bi_nodup _ _ _ HI).
      * exact (bi_half _ _ _ HI).
    + apply orb_false_iff in Eb. destruct Eb as [Eb1 Eb2]. apply Z.eqb_neq in Eb1. apply Z.eqb_neq in Eb2.
      assert (Hsi : Z.sgn (nth i p 0%Z) = (- s)%Z) by (pose proof (Z.sgn_spec (nth i p 0%Z)); lia).
      destruct (lm_inner flog0 (nth i p 0%Z) b0 1 (S i) (skipn (S i) p) (skipn (S i) cs) None jm) as [bmin j] eqn:EI.
      apply lm_inner_spec in EI; [|rewrite !skipn_length, (bi_len _ _ _ HI); reflexivity].
      destruct EI as [(_ & _ & [H|H])|(t & Ht & Ej & Ebm)].
      * exfalso. apply (f_equal (@length Z)) in H. rewrite skipn_length in H. simpl in H. lia.
      * congruence.
      * rewrite skipn_length in Ht.
        assert (Hnth : forall (A : Type) (l : list A) a t d, nth t (skipn a l) d = nth (a + t) l d).
        { clear. intros A l a t d. revert l. induction a as [|a IHa]; intros l; [reflexivity|].
          destruct l as [|y l]; [destruct t; reflexivity|]. simpl. apply IHa. }
        rewrite !Hnth in Ebm. rewrite <- Ej in Ebm.
        assert (Hk : exists b, bmin = Some b /\ (b <= k)%Z).
        { rewrite Ebm in E |- *. eexists; split; [reflexivity|].
          pose proof (lm_outer_ge _ _ _ _ _ E) as H. destruct b0 as [b|]; cbn [max_b0] in H.
          - destruct H as (b' & Eb' & H). inversion Eb'; subst. lia.
          - destruct H as (b' & Eb' & H). inversion Eb'; subst. lia. }
        destruct Hk as (b & Eb & Hbk). rewrite Eb in Ebm.
        replace (1 + Z.of_nat t)%Z with (Z.of_nat j - Z.of_nat i)%Z in Ebm by lia. injection Ebm as Ebv.
        destruct (binv_step i cs L j b HI ltac:(lia) Hsi Ebv Hbk) as [r HI'].
        apply (IH _ _ _ _ ltac:(lia) HI' E).
Qed.

Lemma binv_init : (1 <= length p)%nat -> BInv (length p - 1) (map (fun _ => 1%Z) p) [].
Proof.
  intros Hl. constructor.
  - apply map_length.
  - intros j Hj. assert (Hin : In (nth j (map (fun _ => 1%Z) p) 0%Z) (map (fun _ => 1%Z) p)).
    { apply nth_In. rewrite map_length. exact Hj. }
    apply in_map_iff in Hin. destruct Hin as (? & <- & _). lia.
  - intros r [].
  - intros j r [].
  - intros j Hj Hsj. exfalso. assert (j = length p - 1)%nat by lia. subst j.
    assert (E : nth (length p - 1) p 0%Z = last p 0%Z).
    { clear - Hl. induction p as [|a [|b q] IHp]; simpl in *; try lia; try reflexivity.
      rewrite <- IHp by lia. rewrite Nat.sub_0_r. reflexivity. }
    rewrite E, Hlead in Hsj. lia.
  - constructor.
  - intros L1 j r L2 E. destruct L1; discriminate.
Qed.

(** Number of coefficients of the sign opposite to the leading one. *)
Definition opp_count : nat := length (filter (fun a => (Z.sgn a =? - s)%Z) p).

Lemma list_count : forall cs L, BInv 0 cs L -> (length L <= opp_count)%nat.
Proof.
  intros cs L HI. rewrite <- (map_length fst L).
  assert (Hgen : forall (l : list nat), NoDup l -> (forall j, In j l -> (j < length p)%nat /\ Z.sgn (nth j p 0%Z) = (- s)%Z) ->
     (length l <= opp_count)%nat).
  { unfold opp_count. clear. induction p as [|a q IH]; intros l Hnd H.
    - destruct l as [|j l]; [simpl; lia|]. destruct (H j (or_introl eq_refl)) as [H1 _]. simpl in H1. lia.
    - set (l' := map pred (filter (fun j => negb (j =? 0)%nat) l)).
      assert (Hnd' : NoDup l').
      { unfold l'. assert (Hf : NoDup (filter (fun j => negb (j =? 0)%nat) l)) by (apply NoDup_filter; exact Hnd).
        assert (Hne : forall j, In j (filter (fun j => negb (j =? 0)%nat) l) -> j <> 0%nat).
        { intros j Hj. apply filter_In in Hj. destruct Hj as [_ Hj]. intros ->. discriminate. }
        clear - Hf Hne. induction Hf as [|b m0 Hb Hm IHm]; simpl; [constructor|]. constructor.
        - intros Hin. apply in_map_iff in Hin. destruct Hin as (b' & Eb & Hin). apply Hb.
          replace b with b'; [exact Hin|]. pose proof (Hne b (or_introl eq_refl)). pose proof (Hne b' (or_intror Hin)). lia.
        - apply IHm. intros j Hj. apply Hne. right. exact Hj. }
      assert (Hl' : (length l' <= length (filter (fun a => (Z.sgn a =? - s)%Z) q))%nat).
      { apply IH; [exact Hnd'|]. intros j Hj. unfold l' in Hj. apply in_map_iff in Hj. destruct Hj as (b & Eb & Hj).
        apply filter_In in Hj. destruct Hj as [Hj Hb0]. destruct b as [|b]; [discriminate|]. simpl in Eb. subst b.
        destruct (H (S j) Hj) as [H1 H2]. simpl in H1, H2. split; [lia|exact H2]. }
      unfold l' in Hl'. rewrite map_length in Hl'.
      assert (Hc : length l = (length (filter (fun j => (j =? 0)%nat) l) + length (filter (fun j => negb (j =? 0)%nat) l))%nat).
      { clear. induction l as [|b l IH]; simpl; [reflexivity|]. destruct (b =? 0)%nat; simpl; lia. }
      assert (Hz : (length (filter (fun j => (j =? 0)%nat) l) <= if (Z.sgn a =? - s)%Z then 1 else 0)%nat).
      { assert (Hone : (length (filter (fun j => (j =? 0)%nat) l) <= 1)%nat).
        { assert (Hn0 : NoDup (filter (fun j => (j =? 0)%nat) l)) by (apply NoDup_filter; exact Hnd).
          apply (NoDup_incl_length (l' := [0%nat]) Hn0). intros j Hj. apply filter_In in Hj. destruct Hj as [_ Hj].
          apply Nat.eqb_eq in Hj. subst. left. reflexivity. }
        destruct (Z.eqb_spec (Z.sgn a) (- s)) as [E|E]; [exact Hone|].
        destruct (filter (fun j => (j =? 0)%nat) l) as [|j m0] eqn:Ef; [simpl; lia|exfalso].
        assert (Hj : In j (filter (fun j => (j =? 0)%nat) l)) by (rewrite Ef; left; reflexivity).
        apply filter_In in Hj. destruct Hj as [Hj Hj0]. apply Nat.eqb_eq in Hj0. subst j.
        destruct (H 0%nat Hj) as [_ H2]. simpl in H2. contradiction. }
      simpl. destruct (Z.sgn a =? - s)%Z; simpl; lia. }
  apply Hgen; [exact (bi_nodup _ _ _ HI)|]. intros j Hj. apply in_map_iff in Hj.
  destruct Hj as ([j' r] & Ej & Hin). simpl in Ej. subst j'.
  destruct (bi_range _ _ _ HI j r Hin) as (H1 & _ & H3 & _). split; [lia|exact H3].
Qed.

Lemma binv_value : forall cs L, BInv 0 cs L -> (1 <= length p)%nat ->
  ((length L <= 2)%nat \/ ((length L <= 3)%nat /\ g < 1)) -> 0 < IZR s * zeval p x.
Proof.
  intros cs L HI Hl HL.
  pose proof Hx0 as Hxp. pose proof g_range as Hg.
  set (f := fun j => IZR s * (IZR (nth j p 0%Z) * x ^ j)).
  assert (Hval : IZR s * zeval p x = lsum f (seq 0 (length p))).
  { rewrite zeval_lsum. unfold f. generalize (seq 0 (length p)). induction l as [|j l IH]; simpl; [ring|]. rewrite <- IH. ring. }
  rewrite Hval. clear Hval.
  assert (Hfp : forall j, Z.sgn (nth j p 0%Z) = s -> f j = m j).
  { intros j E. unfold f, m. rewrite <- Rmult_assoc, <- mult_IZR. f_equal. f_equal. rewrite <- E.
    rewrite Z.mul_comm. apply Z.sgn_abs. }
  assert (Hfn : forall j, Z.sgn (nth j p 0%Z) = (- s)%Z -> f j = - m j).
  { intros j E. unfold f, m. rewrite <- Rmult_assoc, <- mult_IZR. 
    replace (s * nth j p 0)%Z with (- Z.abs (nth j p 0))%Z; [rewrite opp_IZR; ring|].
    rewrite <- Z.sgn_abs. replace s with (- Z.sgn (nth j p 0))%Z by lia. ring. }
  assert (Hmp : forall j, (j < length p)%nat -> 0 < m j).
  { intros j Hj. unfold m. apply Rmult_lt_0_compat; [apply IZR_lt; pose proof (nth_nz j Hj); lia|apply pow_lt; exact Hxp]. }
  assert (Hothers : forall D, incl (map fst L) D -> forall j, (j < length p)%nat -> ~ In j D -> 0 <= f j).
  { intros D HD j Hj Hn. rewrite Hfp; [apply m_nonneg|].
    pose proof (nth_nz j Hj) as Hnzj. destruct (Z.eq_dec (Z.sgn (nth j p 0%Z)) s) as [E|E]; [exact E|exfalso].
    apply Hn. apply HD. apply (bi_all _ _ _ HI); [lia|]. pose proof (Z.sgn_spec (nth j p 0%Z)). lia. }
  assert (Hdif : forall j r j' r', In (j, r) L -> In (j', r') L -> j <> r').
  { intros j r j' r' H1 H2 E. subst. destruct (bi_range _ _ _ HI r' r H1) as (_ & _ & H3 & _).
    destruct (bi_range _ _ _ HI j' r' H2) as (_ & _ & _ & H4). lia. }
  destruct L as [|[j1 r1] [|[j2 r2] [|[j3 r3] [|? ?]]]]; cbn [length] in HL; try lia.
  - (* no opposite coefficient *)
    apply Rlt_le_trans with (lsum f [length p - 1]%nat).
    + simpl. rewrite Hfp; [pose proof (Hmp (length p - 1)%nat ltac:(lia)); lra|].
      destruct (Z.eq_dec (Z.sgn (nth (length p - 1) p 0%Z)) s) as [E|E]; [exact E|exfalso].
      pose proof (nth_nz (length p - 1) ltac:(lia)).
      assert (Hin : In (length p - 1)%nat (map fst (@nil (nat * nat)))); [|destruct Hin].
      apply (bi_all _ _ _ HI); [lia|]. pose proof (Z.sgn_spec (nth (length p - 1) p 0%Z)). lia.
    + apply lsum_lower; [repeat constructor; intros []| |].
      * intros j [<-|[]]. lia.
      * apply Hothers. intros j [].
  - destruct (bi_half _ _ _ HI [] j1 r1 [] eq_refl) as [A1 _].
    destruct (bi_range _ _ _ HI j1 r1 (or_introl eq_refl)) as (B1 & B2 & B3 & B4).
    pose proof (Hdif j1 r1 j1 r1 (or_introl eq_refl) (or_introl eq_refl)).
    apply Rlt_le_trans with (lsum f [j1; r1]).
    + simpl. rewrite (Hfn j1 B3), (Hfp r1 B4). pose proof (Hmp r1 B2). nra.
    + apply lsum_lower.
      * repeat constructor; simpl; intros E; repeat (destruct E as [E|E]; [congruence|]); exact E.
      * intros j [<-|[<-|[]]]; lia.
      * apply Hothers. intros j Hj. clear - Hj. simpl in Hj |- *. tauto.
  - destruct (bi_half _ _ _ HI [] j1 r1 [(j2, r2)] eq_refl) as [A1 A1'].
    destruct (bi_half _ _ _ HI [(j1, r1)] j2 r2 [] eq_refl) as [A2 _].
    destruct (bi_range _ _ _ HI j1 r1 (or_introl eq_refl)) as (B1 & B2 & B3 & B4).
    destruct (bi_range _ _ _ HI j2 r2 (or_intror (or_introl eq_refl))) as (C1 & C2 & C3 & C4).
    pose proof (bi_nodup _ _ _ HI) as Hnd. simpl in Hnd. inversion Hnd as [|? ? N1 N2]; subst. simpl in N1.
    assert (j1 <> r1) by (apply (Hdif j1 r1 j1 r1); simpl; auto).
    assert (j1 <> r2) by (apply (Hdif j1 r1 j2 r2); simpl; auto).
    assert (j2 <> r1) by (apply (Hdif j2 r2 j1 r1); simpl; auto).
    assert (j2 <> r2) by (apply (Hdif j2 r2 j2 r2); simpl; auto).
    assert (j1 <> j2) by (intros E; apply N1; left; congruence).
    pose proof (Hmp r1 B2). pose proof (Hmp r2 C2).
    destruct (Nat.eq_dec r1 r2) as [->|Hr].
    + assert (A3 : m j1 <= g * (m r2 / 4)) by (apply A1'; simpl; auto).
      apply Rlt_le_trans with (lsum f [j1; j2; r2]).
      * simpl. rewrite (Hfn j1 B3), (Hfn j2 C3), (Hfp r2 C4). nra.
      * apply lsum_lower.
        -- repeat constructor; simpl; intros E; repeat (destruct E as [E|E]; [congruence|]); exact E.
        -- intros j [<-|[<-|[<-|[]]]]; lia.
        -- apply Hothers. intros j Hj. clear - Hj. simpl in Hj |- *. tauto.
    + apply Rlt_le_trans with (lsum f [j1; j2; r1; r2]).
      * simpl. rewrite (Hfn j1 B3), (Hfn j2 C3), (Hfp r2 C4), (Hfp r1 B4). nra.
      * apply lsum_lower.
        -- repeat constructor; simpl; intros E; repeat (destruct E as [E|E]; [congruence|]); exact E.
        -- intros j [<-|[<-|[<-|[<-|[]]]]]; lia.
        -- apply Hothers. intros j Hj. clear - Hj. simpl in Hj |- *. tauto.
  - assert (Hg1 : g < 1) by (destruct HL as [HL|[_ HL]]; [lia|exact HL]).
    destruct (bi_half _ _ _ HI [] j1 r1 [(j2, r2); (j3, r3)] eq_refl) as [A1 A1'].
    destruct (bi_half _ _ _ HI [(j1, r1)] j2 r2 [(j3, r3)] eq_refl) as [A2 A2'].
    destruct (bi_half _ _ _ HI [(j1, r1); (j2, r2)] j3 r3 [] eq_refl) as [A3 _].
    destruct (bi_range _ _ _ HI j1 r1 (or_introl eq_refl)) as (B1 & B2 & B3 & B4).
    destruct (bi_range _ _ _ HI j2 r2 (or_intror (or_introl eq_refl))) as (C1 & C2 & C3 & C4).
    destruct (bi_range _ _ _ HI j3 r3 (or_intror (or_intror (or_introl eq_refl)))) as (D1 & D2 & D3 & D4).
    pose proof (bi_nodup _ _ _ HI) as Hnd. simpl in Hnd. inversion Hnd as [|? ? N1 N2]; subst. simpl in N1.
    inversion N2 as [|? ? N3 N4]; subst. simpl in N3.
    assert (Hd : forall j r, In j [j1; j2; j3] -> In r [r1; r2; r3] -> j <> r).
    { intros j r Hj Hr.
      assert (E1 : exists r', In (j, r') [(j1, r1); (j2, r2); (j3, r3)]) by (clear - Hj; simpl in Hj; destruct Hj as [<-|[<-|[<-|[]]]]; eexists; simpl; eauto).
      assert (E2 : exists j', In (j', r) [(j1, r1); (j2, r2); (j3, r3)]) by (clear - Hr; simpl in Hr; destruct Hr as [<-|[<-|[<-|[]]]]; eexists; simpl; eauto).
      destruct E1 as [r' E1]. destruct E2 as [j' E2]. apply (Hdif j r' j' r E1 E2). }
    pose proof (Hmp r1 B2). pose proof (Hmp r2 C2). pose proof (Hmp r3 D2).
    assert (Hfin : forall D, NoDup D -> incl D [r1; r2; r3] -> 0 < lsum m D - (m j1 + m j2 + m j3) ->
       0 < lsum f (seq 0 (length p))).
    { intros D HDn HDi HD0. apply Rlt_le_trans with (lsum f ([j1; j2; j3] ++ D)).
      - rewrite lsum_app. simpl. rewrite (Hfn j1 B3), (Hfn j2 C3), (Hfn j3 D3).
        assert (E : lsum f D = lsum m D).
        { clear HD0 HDn. induction D as [|r D IH]; [reflexivity|]. simpl. rewrite IH by (intros z Hz; apply HDi; right; exact Hz).
          f_equal. apply Hfp. pose proof (HDi r (or_introl eq_refl)) as Hin. simpl in Hin. destruct Hin as [<-|[<-|[<-|[]]]]; assumption. }
        rewrite E. lra.
      - apply lsum_lower.
        + assert (Hj : forall j, In j [j1; j2; j3] -> ~ In j D).
          { intros j Hj Hn. apply (Hd j j Hj); [apply HDi; exact Hn|reflexivity]. }
          simpl. constructor; [|constructor; [|constructor]]; simpl.
          * intros [E|[E|E]]; [apply N1; left; congruence|apply N1; right; left; congruence|apply (Hj j1); [simpl; auto|exact E]].
          * intros [E|E]; [apply N3; left; congruence|apply (Hj j2); [simpl; auto|exact E]].
          * apply (Hj j3). simpl; auto.
          * exact HDn.
        + intros j Hj. apply in_app_or in Hj. destruct Hj as [Hj|Hj].
          * simpl in Hj. destruct Hj as [<-|[<-|[<-|[]]]]; lia.
          * apply HDi in Hj. simpl in Hj. destruct Hj as [<-|[<-|[<-|[]]]]; assumption.
        + apply Hothers. intros j Hj. simpl in Hj. apply in_or_app. left. simpl. tauto. }
    destruct (Nat.eq_dec r1 r2) as [E12|E12].
    + subst r1. assert (A4 : m j1 <= g * (m r2 / 4)) by (apply A1'; simpl; auto).
      destruct (Nat.eq_dec r2 r3) as [E23|E23].
      * subst r2. assert (A5 : m j2 <= g * (m r3 / 4)) by (apply A2'; simpl; auto).
        apply (Hfin [r3]); [repeat constructor; intros []|intros z [<-|[]]; simpl; auto|]. simpl. nra.
      * apply (Hfin [r2; r3]); [repeat constructor; simpl; intros E; repeat (destruct E as [E|E]; [congruence|]); exact E|intros z [<-|[<-|[]]]; simpl; auto|]. simpl. nra.
    + destruct (Nat.eq_dec r2 r3) as [E23|E23].
      * subst r2. assert (A5 : m j2 <= g * (m r3 / 4)) by (apply A2'; simpl; auto).
        apply (Hfin [r1; r3]); [repeat constructor; simpl; intros E; repeat (destruct E as [E|E]; [congruence|]); exact E|intros z [<-|[<-|[]]]; simpl; auto|]. simpl. nra.
      * destruct (Nat.eq_dec r1 r3) as [E13|E13].
        -- subst r1. assert (A5 : m j1 <= g * (m r3 / 4)) by (apply A1'; simpl; auto).
           apply (Hfin [r2; r3]); [repeat constructor; simpl; intros E; repeat (destruct E as [E|E]; [congruence|]); exact E|intros z [<-|[<-|[]]]; simpl; auto|]. simpl. nra.
        -- apply (Hfin [r1; r2; r3]); [repeat constructor; simpl; intros E; repeat (destruct E as [E|E]; [congruence|]); exact E|intros z [<-|[<-|[<-|[]]]]; simpl; auto|]. simpl. nra.
Qed.
End Loop.
End FL.

(** * Results *)
Lemma last_In : forall (p : list Z), p <> [] -> In (last p 0%Z) p.
Proof.
  induction p as [|a [|b q] IH]; intros H; [congruence|left; reflexivity|].
  right. apply IH. discriminate.
Qed.

(** Coefficients of the sign opposite to the leading one. *)
Definition opposite (p : list Z) : list Z := filter (fun a => (Z.sgn a =? - Z.sgn (last p 0))%Z) p.

Lemma root_bound_few : forall flog0 p k x, p <> [] -> (forall a, In a p -> a <> 0%Z) ->
  root_bound flog0 p = Some k ->
  ((length (opposite p) <= 2)%nat /\ pw2 k <= x) \/ ((length (opposite p) <= 3)%nat /\ pw2 k < x) ->
  zeval p x <> 0.
Proof.
  intros flog0 p k x Hp Hnz E Hc.
  assert (Hl : (1 <= length p)%nat) by (destruct p; [congruence|simpl; lia]).
  set (s := Z.sgn (last p 0%Z)).
  assert (Hs : s = (-1)%Z \/ s = 1%Z).
  { pose proof (Hnz _ (last_In p Hp)) as Hln. unfold s. pose proof (Z.sgn_spec (last p 0%Z)). lia. }
  assert (Hx : pw2 k <= x) by (destruct Hc as [[_ H]|[_ H]]; lra).
  unfold root_bound in E. fold s in E.
  destruct (lm_outer_inv flog0 p s k x Hx Hs eq_refl Hnz (length p - 1) _ None 0 [] ltac:(lia)
      (binv_init p s k x Hs eq_refl Hl) E) as (L & cs & HI).
  assert (HL : (length L <= length (opposite p))%nat) by exact (list_count p s k x cs L HI).
  assert (Hpos : 0 < IZR s * zeval p x).
  { apply (binv_value p s k x Hx Hs eq_refl Hnz cs L HI Hl).
    destruct Hc as [[Hc _]|[Hc Hlt]]; [left; lia|right]. split; [lia|].
    unfold g. pose proof (pw2_pos k). apply (Rmult_lt_reg_r x); [lra|].
    unfold Rdiv. rewrite Rmult_assoc, Rinv_l by lra. lra. }
  intros H. rewrite H in Hpos. lra.
Qed.

Lemma lm_outer_none : forall flog0 p s n cs b0 jm, (s = (-1)%Z \/ s = 1%Z) -> Z.sgn (last p 0%Z) = s -> length cs = length p -> (n < length p)%nat ->
  lm_outer flog0 n p s cs b0 jm = None ->
  forall i, (i < n)%nat -> Z.sgn (nth i p 0%Z) = 0%Z \/ Z.sgn (nth i p 0%Z) = s.
Proof.
  intros flog0 p s n. induction n as [|n IH]; intros cs b0 jm Hs Hlead Hl Hn E i Hi; [lia|].
  cbn [lm_outer] in E. cbv zeta in E.
  destruct ((Z.sgn (nth n p 0%Z) =? 0)%Z || (Z.sgn (nth n p 0%Z) =? s)%Z) eqn:Eb.
  - destruct (Nat.eq_dec i n) as [->|Hne]; [|apply (IH cs b0 jm Hs Hlead Hl ltac:(lia) E); lia].
    apply orb_true_iff in Eb. destruct Eb as [Eb|Eb]; apply Z.eqb_eq in Eb; [left|right]; exact Eb.
  - exfalso.
    destruct (lm_inner flog0 (nth n p 0%Z) b0 1 (S n) (skipn (S n) p) (skipn (S n) cs) None jm) as [bmin j] eqn:EI.
    apply lm_inner_spec in EI; [|rewrite !skipn_length, Hl; reflexivity].
    destruct EI as [(_ & _ & [H|H])|(t & _ & _ & Ebm)].
    + apply (f_equal (@length Z)) in H. rewrite skipn_length in H. simpl in H. lia.
    + congruence.
    + rewrite Ebm in E. pose proof (lm_outer_ge flog0 p s Hs Hlead _ _ _ _ _ E) as H.
      destruct b0; cbn [max_b0] in H; destruct H as (b' & H & _); discriminate.
Qed.

Lemma root_bound_none : forall flog0 p, p <> [] -> last p 0%Z <> 0%Z -> root_bound flog0 p = None ->
  forall x, 0 < x -> zeval p x <> 0.
Proof.
  intros flog0 p Hp Hlast E x Hx.
  assert (Hl : (1 <= length p)%nat) by (destruct p; [congruence|simpl; lia]).
  set (s := Z.sgn (last p 0%Z)).
  assert (Hs : s = (-1)%Z \/ s = 1%Z) by (unfold s; pose proof (Z.sgn_spec (last p 0%Z)); lia).
  pose proof (lm_outer_none flog0 p s (length p - 1) _ None 0%nat Hs eq_refl (map_length _ _) ltac:(lia) E) as Hall.
  assert (Elast : nth (length p - 1) p 0%Z = last p 0%Z).
  { clear - Hl. induction p as [|a [|b q] IHp]; simpl in *; try lia; try reflexivity.
    rewrite <- IHp by lia. rewrite Nat.sub_0_r. reflexivity. }
  set (f := fun j => IZR s * (IZR (nth j p 0%Z) * x ^ j)).
  assert (Hval : IZR s * zeval p x = lsum f (seq 0 (length p))).
  { rewrite zeval_lsum. unfold f. generalize (seq 0 (length p)). induction l as [|j l IH]; simpl; [ring|]. rewrite <- IH. ring. }
  assert (Hf : forall j, (j < length p)%nat -> 0 <= f j).
  { intros j Hj. unfold f. rewrite <- Rmult_assoc, <- mult_IZR. apply Rmult_le_pos; [|apply pow_le; lra].
    apply IZR_le. destruct (Nat.eq_dec j (length p - 1)) as [->|Hne].
    - rewrite Elast. unfold s. pose proof (Z.sgn_spec (last p 0%Z)). nia.
    - destruct (Hall j ltac:(lia)) as [H|H].
      + pose proof (Z.sgn_spec (nth j p 0%Z)). assert (Hz0 : nth j p 0%Z = 0%Z) by lia. rewrite Hz0. lia.
      + pose proof (Z.sgn_spec (nth j p 0%Z)). clearbody s. nia. }
  assert (Hpos : 0 < IZR s * zeval p x).
  { rewrite Hval. apply Rlt_le_trans with (lsum f [length p - 1]%nat).
    - simpl. unfold f. rewrite Elast, <- Rmult_assoc, <- mult_IZR.
      assert (0 < IZR (s * last p 0%Z)%Z) by (apply IZR_lt; unfold s; pose proof (Z.sgn_spec (last p 0%Z)); nia).
      assert (0 < x ^ (length p - 1)) by (apply pow_lt; exact Hx). nra.
    - apply lsum_lower; [repeat constructor; intros []| |].
      + intros j [<-|[]]. lia.
      + intros j Hj _. apply Hf. exact Hj. }
  intros H. rewrite H in Hpos. lra.
Qed.
