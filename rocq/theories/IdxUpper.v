(** The bound on the number of real roots on words, see PropertiesIdx.v. *)
Require Import List ZArith Bool Arith Lia.
From Verif Require Import RootSpec RootModel DescartesProofs VcaTerm CountAll CountWithin ArbModel ArrModel ArrProofs IdxModel IdxSpec IdxProofs IdxBound.
Import ListNotations.
Open Scope Z_scope.

Lemma desc_loop_le : forall n act s V bound v, desc_loop n act s V bound = DCount v -> (v <= V + n + 1)%nat.
Proof.
  induction n as [|n IH]; intros act s V bound v; cbn [desc_loop].
  - destruct (s =? _); [destruct (Z.of_nat V =? bound); [discriminate|]|]; intros E; injection E as <-; lia.
  - destruct (tail_same s (rev act)); [intros E; injection E as <-; lia|]. destruct (s =? 0); [intros E; apply IH in E; lia|].
    destruct (s =? _); [|intros E; apply IH in E; lia]. destruct (Z.of_nat V =? bound); [discriminate|]. intros E; apply IH in E; lia.
Qed.
Lemma descartes_le : forall p bound v, descartes01 p bound = DCount v -> (v <= length p)%nat.
Proof.
  intros p bound v. destruct p as [|a [|b p]]; [discriminate| |].
  - cbn. rewrite Z.eqb_refl. intros E; injection E as <-. lia.
  - cbn [descartes01]. destruct (same_or_zero _ _); [intros E; injection E as <-; lia|]. intros E. apply desc_loop_le in E. cbn [length] in E |- *. lia.
Qed.

Lemma low_idx_ok : forall q u, forallb (Z.eqb 0) q = false ->
  low_idx (length q) (length u) (u ++ q) = Val (length u + fst (low_zeros q))%nat.
Proof.
  induction q as [|a q IH]; intros u H; [discriminate|]. cbn [length low_idx low_zeros]. rewrite rd_mid. cbn [bind]. cbn [forallb] in H. rewrite Z.eqb_sym in H.
  destruct (a =? 0).
  - cbn [andb] in H. specialize (IH (u ++ [a]) H). rewrite app_length, Nat.add_1_r, <- app_assoc in IH. cbn [app] in IH. rewrite IH.
    destruct (low_zeros q). cbn [fst]. f_equal. lia.
  - cbn [fst]. rewrite Nat.add_0_r. reflexivity.
Qed.
Lemma low_skip : forall q, skipn (fst (low_zeros q)) q = snd (low_zeros q).
Proof. induction q as [|a q IH]; [reflexivity|]. cbn. destruct (a =? 0); [|reflexivity]. destruct (low_zeros q). exact IH. Qed.

Lemma flip_len : forall p, length (flip p) = length p.
Proof. fix F 1. intros [|a [|b p]]; [reflexivity|reflexivity|]. cbn. rewrite F. reflexivity. Qed.
Lemma neg_odd_ok : forall p u, neg_odd (length p / 2) (length u + 1) (u ++ p) = Val (u ++ flip p).
Proof.
  fix F 1. intros [|a [|b p]] u; [reflexivity|reflexivity|].
  change (length (a :: b :: p)) with (S (S (length p))). replace (S (S (length p)) / 2)%nat with (S (length p / 2)).
  2:{ replace (S (S (length p))) with (length p + 1 * 2)%nat by lia. rewrite Nat.div_add by lia. lia. }
  cbn [neg_odd flip].
  pose proof (upd_mid Z.opp (u ++ [a]) b p) as U. rewrite app_length, <- !app_assoc in U. cbn [app length] in U. rewrite U. cbn [bind].
  specialize (F p (u ++ [a; - b])). rewrite app_length, <- !app_assoc in F. cbn [app length] in F.
  replace (length u + 1 + 2)%nat with (length u + 2 + 1)%nat by lia. exact F.
Qed.

Lemma handy_skip : forall flog0 p n, handy flog0 p -> handy flog0 (skipn n p).
Proof.
  intros flog0 p n [H1 [H2 H3]]. split; [rewrite skipn_length; lia|]. split; [exact H2|]. rewrite <- (firstn_skipn n p) in H3. apply Forall_app in H3. apply H3.
Qed.
Lemma handy_flip : forall flog0 p, handy flog0 p -> handy flog0 (flip p).
Proof.
  intros flog0 p [H1 [H2 H3]]. split; [rewrite flip_len; exact H1|]. split; [exact H2|]. clear - H3. revert p H3. fix F 1. intros [|a [|b p]] H; [constructor|exact H|].
  inversion_clear H as [|? ? A H']. inversion_clear H' as [|? ? B H]. cbn [flip]. constructor; [exact A|]. constructor; [rewrite Z.abs_opp; exact B|]. apply F, H.
Qed.

Lemma part_ok : forall flog0 p ret v, handy flog0 p -> p <> [] -> desc_part flog0 p = DCount v -> 0 <= ret <= 2 ^ 61 ->
  part_idx flog0 p ret = Val (ret + Z.of_nat v) /\ (v <= length p)%nat.
Proof.
  intros flog0 p ret v Hh NE D R. destruct (bound_idx_ok flog0 p [] Hh NE) as [B M]. rewrite app_nil_r in B. unfold part_idx. rewrite B. cbn [bind]. unfold desc_part in D.
  destruct (root_bound flog0 p) as [k|].
  - cbn [emin]. specialize (M k eq_refl). destruct (Z.eqb_spec k word_min) as [E|_].
    { exfalso. change word_min with (-9223372036854775808) in E. change (2 ^ 62) with 4611686018427387904 in M. lia. }
    pose proof (desc_idx_ok (scale2 k p) [] (Z.of_nat (length p))) as I0. rewrite app_nil_r, scale2_length, D in I0. rewrite I0. cbn [dopt bind].
    pose proof (descartes_le _ _ _ D) as LE. rewrite scale2_length in LE. split; [|exact LE]. apply slong_ok. destruct Hh as [H _].
    change (2 ^ 60) with 1152921504606846976 in H. change (2 ^ 61) with 2305843009213693952 in R. change (2 ^ 63) with 9223372036854775808. lia.
  - cbn [emin]. rewrite Z.eqb_refl. injection D as <-. split; [f_equal; lia|lia].
Qed.

Lemma upper_idx_ok : forall flog0 p, handy flog0 p -> nonzero p ->
  exists n, num_real_roots_upper_bound flog0 p = CVal n /\ upper_idx flog0 p = Val (Z.of_nat n).
Proof.
  intros flog0 p Hh Hp. destruct (upper_bound_within flog0 p Hp) as [n [E _]]. exists n. split; [exact E|].
  unfold num_real_roots_upper_bound in E. unfold upper_idx. destruct (forallb (Z.eqb 0) p) eqn:FZ; [discriminate|].
  pose proof (low_idx_ok p [] FZ) as L. cbn [length app Nat.add] in L. rewrite L. cbn [bind]. rewrite low_skip.
  pose proof (handy_skip flog0 p (fst (low_zeros p)) Hh) as H2. rewrite low_skip in H2.
  assert (LL : (fst (low_zeros p) + length (snd (low_zeros p)) = length p)%nat).
  { clear. induction p as [|a q IH]; [reflexivity|]. cbn. destruct (a =? 0); [|reflexivity]. destruct (low_zeros q). cbn in *. lia. }
  assert (NE : snd (low_zeros p) <> []).
  { clear - FZ. induction p as [|a q IH]; [discriminate|]. cbn [low_zeros]; cbn [forallb] in FZ; rewrite Z.eqb_sym in FZ. destruct (a =? 0); [|discriminate]. destruct (low_zeros q). apply IH, FZ. }
  destruct (low_zeros p) as [i0 q]. cbn [fst snd] in *.
  destruct (desc_part flog0 q) as [a| |] eqn:D1; try discriminate. destruct (desc_part flog0 (flip q)) as [b| |] eqn:D2; try discriminate. injection E as <-.
  destruct Hh as [Hl _]. change (2 ^ 60) with 1152921504606846976 in Hl.
  destruct (part_ok flog0 q (Z.of_nat i0) a H2 NE D1) as [-> LA]; [change (2 ^ 61) with 2305843009213693952; lia|]. cbn [bind].
  pose proof (neg_odd_ok q []) as N. cbn [length app Nat.add] in N. rewrite N. cbn [bind].
  destruct (part_ok flog0 (flip q) (Z.of_nat i0 + Z.of_nat a) b (handy_flip flog0 q H2)) as [-> _]; [|exact D2|change (2 ^ 61) with 2305843009213693952; lia|f_equal; lia].
  intros F. apply NE. apply length_zero_iff_nil. rewrite <- flip_len, F. reflexivity.
Qed.
