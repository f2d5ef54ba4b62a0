(** All embeddings, whether or not the root bounds are right (C08). *)
Require Import Reals List Lra Lia ZArith Bool Sorting.
From Verif Require Import PolyR RootSpec RootModel VcaProofs IsoAll IsoWithin ExtraModel Dyadic ArbModel ArbSpec EmbModel EmbProofs
  BoundProofs BoundFactor VcaTerm RootFacts.
Import ListNotations.
Open Scope R_scope.

Lemma ends_dyadic : forall d, (exists e, ilo d = dyv e) /\ (exists e, ihi d = dyv e).
Proof.
  intros d. split; [exists d; reflexivity|exists (fst d + 1, snd d)%Z; unfold ihi, dyv; cbn [fst snd]; rewrite plus_IZR; reflexivity].
Qed.

Lemma embeddings_within : forall o debug flog0 fuel p lim prec nfs n, nonzero p -> (1 <= prec)%Z ->
  (forall d, zeval p (dyv d) <> 0) ->
  set_embeddings o debug flog0 fuel p lim prec = Val (nfs, n) ->
  exists xs, StronglySorted Rlt xs /\ (forall x, in_bounds flog0 p x /\ zeval p x = 0 <-> In x xs) /\ n = Z.of_nat (length xs) /\
    ((forall ex ints, isolate flog0 fuel p = VDone ex ints -> forall d, In d ints -> (zbits (2 * fst d + 1) <= prec)%Z) ->
     Forall2 (fun x nf => exists b, unique_root p b /\ inb x b /\ zeval p x = 0 /\
                renf_init o debug fuel p 1 b prec = Val nf) (firstn (Z.to_nat lim) xs) nfs).
Proof.
  intros o debug flog0 fuel p lim prec nfs n Hp Hprec Hdy E. unfold set_embeddings in E.
  destruct (num_real_roots_upper_bound flog0 p); try discriminate.
  pose proof (isolate_within flog0 fuel p Hp) as I.
  destruct (isolate flog0 fuel p) as [[|? ?] ints| | |] eqn:Ei; try discriminate.
  destruct (embed_all o debug fuel p prec (firstn (Z.to_nat lim) ints)) as [ns| | |] eqn:Ea; try discriminate.
  cbn [bind] in E. injection E as -> <-.
  destruct (int_roots p ints (iso_int_root _ _ _ _ I)) as (xs & Hxs).
  exists xs. split; [eapply int_roots_sorted; [exact Hxs|apply (iso_int_sorted _ _ _ _ I)]|].
  split; [|split].
  - intros x. split.
    + intros [Bx Zx]. destruct (iso_complete _ _ _ _ I x Bx Zx) as [(e & [] & _)|(d & Hd & Hxd)].
      destruct (iso_int_root _ _ _ _ I d Hd) as (z & _ & Hz).
      assert (exists y, In y xs /\ in_int d y /\ zeval p y = 0) as (y & Hy & Hyd & Zy).
      { clear - Hxs Hd. induction Hxs as [|d' y l xs H Hl IH]; [contradiction|].
        destruct Hd as [->|Hd]; [exists y; split; [left; reflexivity|exact H]|].
        destruct (IH Hd) as (z & Hz & H'). exists z. split; [right; exact Hz|exact H']. }
      rewrite <- (Hz x) by (split; assumption). rewrite (Hz y) by (split; assumption). exact Hy.
    + intros Hx. assert (exists d, In d ints /\ in_int d x /\ zeval p x = 0) as (d & Hd & Hxd & Zx).
      { clear - Hxs Hx. induction Hxs as [|d' y l xs H Hl IH]; [contradiction|].
        destruct Hx as [->|Hx]; [exists d'; split; [left; reflexivity|exact H]|].
        destruct (IH Hx) as (z & Hz & H'). exists z. split; [right; exact Hz|exact H']. }
      split; [apply (iso_int_dom _ _ _ _ I d x Hd Hxd)|exact Zx].
  - f_equal. clear - Hxs; induction Hxs; simpl; congruence.
  - intros Hbits. specialize (Hbits [] ints eq_refl).
    apply embed_all_spec in Ea.
    refine (Forall2_join _ _ _ _ _ _ _ _ _ (Forall2_firstn _ _ _ (Z.to_nat lim) _ _ Hxs) Ea _).
    intros d x nf Hd [Hdx Zx] Hnf. apply firstn_In in Hd. exists (embed_ball prec d).
    assert (Hin : inb x (embed_ball prec d)).
    { apply embed_ball_in; [exact Hprec|apply Hbits; exact Hd|]. unfold in_int in Hdx. lra. }
    split; [|split; [exact Hin|split; [exact Zx|exact Hnf]]].
    exists x. split; [split; assumption|]. intros y [Hy Zy].
    apply embed_ball_in in Hy; [|exact Hprec|apply Hbits; exact Hd].
    destruct (ends_dyadic d) as [(e1 & E1) (e2 & E2)].
    assert (ilo d <> y) by (intros <-; rewrite E1 in Zy; exact (Hdy _ Zy)).
    assert (y <> ihi d) by (intros ->; rewrite E2 in Zy; exact (Hdy _ Zy)).
    destruct (iso_int_root _ _ _ _ I d Hd) as (z & _ & Hz).
    rewrite <- (Hz x), <- (Hz y); [reflexivity| |]; split; try assumption. split; lra.
Qed.

(** A root that is not found is between the bound and 5/2 times the bound. *)
Lemma flip_last : forall p, last (flip p) 0%Z = last p 0%Z \/ last (flip p) 0%Z = (- last p 0)%Z.
Proof.
  fix IH 1. intros [|a [|b q]]; [left; reflexivity|left; reflexivity|]. specialize (IH q). destruct q as [|c q]; [right; reflexivity|].
  destruct q as [|d q]; exact IH.
Qed.
Lemma low_zeros_last : forall p n r, low_zeros p = (n, r) -> r <> [] -> last r 0%Z = last p 0%Z.
Proof.
  induction p as [|a q IH]; intros n r EL Hr; simpl in EL; [congruence|].
  destruct (Z.eqb_spec a 0) as [Ea|Ea]; [|injection EL as _ <-; reflexivity].
  destruct (low_zeros q) as [m r'] eqn:E'. injection EL as _ <-.
  destruct q as [|b q]; [simpl in E'; congruence|]. apply (IH m r' eq_refl Hr).
Qed.

Lemma missed_roots : forall flog0 p x, (flog0 <= 0)%Z -> nonzero p -> last p 0%Z <> 0%Z -> zeval p x = 0 -> ~ in_bounds flog0 p x ->
  exists k, pw2 k <= Rabs x < 5 / 2 * pw2 k /\
    ((0 < x /\ root_bound flog0 (snd (low_zeros p)) = Some k) \/ (x < 0 /\ root_bound flog0 (flip (snd (low_zeros p))) = Some k)).
Proof.
  intros flog0 p x Hf Hp Hl Zx Hn. unfold in_bounds in Hn. destruct (low_zeros p) as [n r] eqn:EL. cbn [snd] in *.
  destruct (low_zeros_spec p n r EL) as (Ev & Hne & _). destruct (Hne Hp) as [Hr H0].
  pose proof (low_zeros_last p n r EL Hr) as Hlast. destruct (flip_spec r) as [Hfl Hfe].
  assert (Hnz : x <> 0 -> zeval r x = 0).
  { intros Hx. rewrite Ev in Zx. apply Rmult_integral in Zx. destruct Zx as [Zx|Zx]; [|exact Zx].
    exfalso. revert Zx. apply pow_nonzero. exact Hx. }
  destruct (Rtotal_order x 0) as [Hx|[Hx|Hx]].
  - specialize (Hnz ltac:(lra)).
    assert (Z1 : zeval (flip r) (- x) = 0) by (rewrite Hfe, Ropp_involutive; exact Hnz).
    assert (L1 : last (flip r) 0%Z <> 0%Z) by (destruct (flip_last r) as [->| ->]; rewrite Hlast; lia).
    assert (N1 : flip r <> []) by (intros E; rewrite E in L1; apply L1; reflexivity).
    destruct (root_bound flog0 (flip r)) as [k|] eqn:Ek.
    + exists k. rewrite Rabs_left by exact Hx. split; [|right; auto]. cbn [below] in Hn. split.
      * apply Rnot_lt_le. intros H. apply Hn. split; intros; lra.
      * apply Rnot_le_lt. intros H. exact (root_bound_zeros flog0 _ k (- x) Hf N1 L1 Ek H Z1).
    + exfalso. exact (root_bound_none flog0 _ N1 L1 Ek (- x) ltac:(lra) Z1).
  - exfalso. apply Hn. split; intros; lra.
  - specialize (Hnz ltac:(lra)). assert (L1 : last r 0%Z <> 0%Z) by (rewrite Hlast; exact Hl).
    destruct (root_bound flog0 r) as [k|] eqn:Ek.
    + exists k. rewrite Rabs_pos_eq by lra. split; [|left; auto]. cbn [below] in Hn. split.
      * apply Rnot_lt_le. intros H. apply Hn. split; intros; lra.
      * apply Rnot_le_lt. intros H. exact (root_bound_zeros flog0 _ k x Hf Hr L1 Ek H Hnz).
    + exfalso. exact (root_bound_none flog0 _ Hr L1 Ek x Hx Hnz).
Qed.

(** x^4 - x^3 - x^2 - 2x - 2 has no dyadic root. *)
Lemma pbad_scaled : forall n z, (z * z * z * z - z * z * z * 2 ^ Z.of_nat n - z * z * (2 ^ Z.of_nat n * 2 ^ Z.of_nat n) - 2 * z * (2 ^ Z.of_nat n * 2 ^ Z.of_nat n * 2 ^ Z.of_nat n) - 2 * (2 ^ Z.of_nat n * 2 ^ Z.of_nat n * 2 ^ Z.of_nat n * 2 ^ Z.of_nat n) <> 0)%Z.
Proof.
  induction n as [|n IH]; intros z E.
  - change (2 ^ Z.of_nat 0)%Z with 1%Z in E. assert (D : (z | 2)%Z) by (exists (z * z * z - z * z - z - 2)%Z; lia).
    pose proof (Z.divide_pos_le z 2 ltac:(lia) D) as L1.
    assert (D' : (- z | 2)%Z) by (apply Z.divide_opp_l; exact D). pose proof (Z.divide_pos_le (- z) 2 ltac:(lia) D') as L2.
    assert (z = -2 \/ z = -1 \/ z = 0 \/ z = 1 \/ z = 2)%Z as [->|[->|[->|[->| ->]]]] by lia; discriminate.
  - rewrite Nat2Z.inj_succ, Z.pow_succ_r in E by lia. set (w := (2 ^ Z.of_nat n)%Z) in *.
    destruct (Z.Even_or_Odd z) as [[y ->]|[y ->]].
    + apply (IH y). nia.
    + assert (W : forall a b, (1 + 2 * a = 2 * b)%Z -> False) by (intros; lia).
      apply (W (8 * y * y * y * y + 16 * y * y * y + 12 * y * y + 4 * y)%Z
        ((2 * y + 1) * (2 * y + 1) * (2 * y + 1) * w + 2 * (2 * y + 1) * (2 * y + 1) * w * w + 8 * (2 * y + 1) * w * w * w + 16 * w * w * w * w)%Z). nia.
Qed.
Lemma pbad_not_dyadic : forall d, zeval pbad (dyv d) <> 0.
Proof.
  intros [m e] E. unfold zeval, pbad in E. cbn [map peval] in E.
  assert (exists n z, dyv (m, e) = IZR z / IZR (2 ^ Z.of_nat n)) as (n & z & Ev).
  { destruct (Z.le_gt_cases 0 e) as [He|He].
    - exists 0%nat, (m * 2 ^ e)%Z. unfold dyv. cbn [fst snd]. rewrite mult_IZR, pw2_IZR by exact He. cbn. field.
    - exists (Z.to_nat (- e)), m. rewrite Z2Nat.id by lia. unfold dyv. cbn [fst snd]. rewrite pw2_IZR by lia.
      pose proof (pw2_inv e). pose proof (pw2_pos (- e)). apply (Rmult_eq_reg_r (pw2 (- e))); [|lra]. unfold Rdiv. rewrite !Rmult_assoc, Rinv_l, (Rmult_comm (pw2 e)), H by lra. reflexivity. }
  rewrite Ev in E. set (w := (2 ^ Z.of_nat n)%Z) in *. assert (Hw : IZR w <> 0) by (apply not_0_IZR; unfold w; lia).
  apply (pbad_scaled n z). fold w. apply eq_IZR. rewrite !minus_IZR, !mult_IZR.
  replace 0 with ((-2 + IZR z / IZR w * (-2 + IZR z / IZR w * (-1 + IZR z / IZR w * (-1 + IZR z / IZR w * (1 + IZR z / IZR w * 0))))) * (IZR w * IZR w * IZR w * IZR w)) by (rewrite E; ring).
  field. exact Hw.
Qed.
