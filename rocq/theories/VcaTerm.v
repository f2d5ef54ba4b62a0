(** Termination of the bisection isolation when there is no multiple root (C03). *)
Require Import Reals List Lra Lia ZArith Bool Sorting.
From Verif Require Import PolyR SignVar RootModel DescartesProofs RootSpec VcaProofs.
Import ListNotations.
Open Scope R_scope.

(** * Coefficients are determined by the values *)
Definition nthR (i : nat) (p : list R) : R := nth i p 0.

Lemma nthR_padd : forall p q i, nthR i (padd p q) = nthR i p + nthR i q.
Proof.
  unfold nthR. induction p as [|a p IH]; intros [|b q] i; simpl; try (destruct i; simpl; lra).
  destruct i; simpl; [lra|]. apply IH.
Qed.
Lemma nthR_pscal : forall c p i, nthR i (pscal c p) = c * nthR i p.
Proof.
  unfold nthR, pscal. intros c p. induction p as [|a p IH]; intros [|i]; simpl; try lra. apply IH.
Qed.
Lemma nthR_pzero : forall p i, pzero p -> nthR i p = 0.
Proof.
  unfold nthR. intros p i H. revert i. induction H as [|a p Ha Hp IH]; intros [|i]; simpl; auto.
Qed.
Lemma peval_ext_nth : forall p q, (forall x, 0 < x < 1 -> peval p x = peval q x) -> forall i, nthR i p = nthR i q.
Proof.
  intros p q H i.
  assert (Hz : pzero (padd p (pscal (-1) q))).
  { apply (peval_zero_interval _ 0 1); [lra|]. intros x Hx.
    rewrite peval_padd, peval_pscal, (H x Hx). ring. }
  pose proof (nthR_pzero _ i Hz) as E. rewrite nthR_padd, nthR_pscal in E. lra.
Qed.

Lemma nthR_pderiv_go : forall p n i, nthR i (pderiv_go n p) = INR (n + i) * nthR i p.
Proof.
  unfold nthR. induction p as [|a p IH]; intros n [|i]; simpl; try ring.
  - rewrite Nat.add_0_r. reflexivity.
  - rewrite IH. replace (S n + i)%nat with (n + S i)%nat by lia. reflexivity.
Qed.
Lemma nthR_pderiv : forall p i, nthR i (pderiv p) = INR (S i) * nthR (S i) p.
Proof.
  intros [|a p] i.
  - unfold nthR. destruct i; simpl; ring.
  - simpl (pderiv (a :: p)). rewrite nthR_pderiv_go. reflexivity.
Qed.

(** * Sums of absolute values *)
Fixpoint sumabs (l : list R) : R := match l with [] => 0 | a :: q => Rabs a + sumabs q end.

Lemma sumabs_pos : forall l, 0 <= sumabs l.
Proof. induction l; simpl; [lra|]. pose proof (Rabs_pos a); lra. Qed.

Lemma sumabs_ext : forall p q, (forall i, nthR i p = nthR i q) -> sumabs p = sumabs q.
Proof.
  assert (Hz : forall q, (forall i, nthR i q = 0) -> sumabs q = 0).
  { induction q as [|b q IH]; intros H; simpl; [reflexivity|].
    pose proof (H 0%nat) as H0. unfold nthR in H0; simpl in H0. rewrite H0, Rabs_R0, IH; [lra|].
    intros i. apply (H (S i)). }
  induction p as [|a p IH]; intros q H.
  - rewrite (Hz q); [reflexivity|]. intros i. rewrite <- H. unfold nthR. destruct i; reflexivity.
  - destruct q as [|b q].
    + rewrite (Hz (a :: p)); [reflexivity|]. intros i. rewrite H. unfold nthR. destruct i; reflexivity.
    + simpl. rewrite (IH q).
      * pose proof (H 0%nat) as H0. unfold nthR in H0; simpl in H0. rewrite H0. reflexivity.
      * intros i. apply (H (S i)).
Qed.

Lemma sumabs_padd : forall p q, sumabs (padd p q) <= sumabs p + sumabs q.
Proof.
  induction p as [|a p IH]; intros [|b q]; simpl; try (pose proof (sumabs_pos p)); try lra.
  pose proof (Rabs_triang a b). pose proof (IH q). lra.
Qed.
Lemma sumabs_pscal : forall c p, sumabs (pscal c p) = Rabs c * sumabs p.
Proof.
  intros c p. unfold pscal. induction p as [|a p IH]; simpl; [ring|]. rewrite IH, Rabs_mult. ring.
Qed.

(** Coefficients multiplied by powers of [w]. *)
Fixpoint sc (w : R) (l : list R) : list R :=
  match l with [] => [] | a :: q => a :: pscal w (sc w q) end.
Lemma peval_sc : forall l w x, peval (sc w l) x = peval l (w * x).
Proof.
  induction l as [|a l IH]; intros w x; simpl; [reflexivity|]. rewrite peval_pscal, IH. ring.
Qed.
Lemma sumabs_sc : forall l w, 0 <= w <= 1 -> sumabs (sc w l) <= sumabs l.
Proof.
  induction l as [|a l IH]; intros w Hw; simpl; [lra|].
  rewrite sumabs_pscal, (Rabs_pos_eq w) by lra. pose proof (IH w Hw). pose proof (sumabs_pos (sc w l)). nra.
Qed.
Lemma sumabs_tl_sc : forall l w, 0 <= w <= 1 -> sumabs (tl (sc w l)) <= w * sumabs l.
Proof.
  intros [|a l] w Hw; simpl; [lra|].
  rewrite sumabs_pscal, (Rabs_pos_eq w) by lra. pose proof (sumabs_sc l w Hw).
  pose proof (sumabs_pos (sc w l)). pose proof (Rabs_pos a). nra.
Qed.
Lemma nthR_sc : forall l w i, nthR i (sc w l) = w ^ i * nthR i l.
Proof.
  induction l as [|a l IH]; intros w [|i]; try (unfold nthR; simpl; ring).
  change (nthR (S i) (sc w (a :: l))) with (nthR i (pscal w (sc w l))).
  rewrite nthR_pscal, IH. unfold nthR; simpl. ring.
Qed.

(** Taylor coefficients at [a], with a uniform bound on [0,1]. *)
Fixpoint tay (a : R) (q : list R) : list R :=
  match q with [] => [] | b :: q' => padd [b] (padd (pscal a (tay a q')) (0 :: tay a q')) end.
Lemma peval_tay : forall q a x, peval (tay a q) x = peval q (a + x).
Proof.
  induction q as [|b q IH]; intros a x; [reflexivity|].
  change (tay a (b :: q)) with (padd [b] (padd (pscal a (tay a q)) (0 :: tay a q))).
  rewrite !peval_padd, peval_pscal. cbn [peval]. rewrite !IH. ring.
Qed.
Lemma tay_bound : forall q, exists M, 0 < M /\ forall a, 0 <= a <= 1 -> sumabs (tay a q) <= M.
Proof.
  induction q as [|b q [M [HM IH]]].
  - exists 1. split; [lra|]. intros; simpl; lra.
  - exists (Rabs b + 2 * M). split; [pose proof (Rabs_pos b); lra|].
    intros a Ha. change (tay a (b :: q)) with (padd [b] (padd (pscal a (tay a q)) (0 :: tay a q))).
    eapply Rle_trans; [apply sumabs_padd|]. pose proof (sumabs_padd (pscal a (tay a q)) (0 :: tay a q)) as H.
    rewrite sumabs_pscal, (Rabs_pos_eq a) in H by lra. cbn [sumabs] in H |- *. rewrite Rabs_R0 in H.
    pose proof (IH a Ha). pose proof (sumabs_pos (tay a q)). nra.
Qed.

Lemma sumabs_pderiv_go : forall l n, sumabs (pderiv_go n l) <= INR (n + length l) * sumabs l.
Proof.
  induction l as [|a l IH]; intros n; simpl; [lra|].
  rewrite Rabs_mult, (Rabs_pos_eq (INR n)) by apply pos_INR.
  pose proof (IH (S n)) as H. replace (S n + length l)%nat with (n + S (length l))%nat in H by lia.
  pose proof (Rabs_pos a). pose proof (sumabs_pos l).
  assert (INR n <= INR (n + S (length l))) by (apply le_INR; lia). nra.
Qed.
Lemma sumabs_pderiv : forall l, sumabs (pderiv l) <= INR (length l) * sumabs l.
Proof.
  intros [|a l]; simpl (pderiv _).
  - simpl. lra.
  - pose proof (sumabs_pderiv_go l 1) as H. replace (1 + length l)%nat with (length (a :: l)) in H by reflexivity.
    cbn [sumabs]. pose proof (Rabs_pos a). pose proof (pos_INR (length (a :: l))). nra.
Qed.
Lemma tay_length : forall q a, (length (tay a q) <= length q)%nat.
Proof.
  assert (Hp : forall p q, length (padd p q) = Nat.max (length p) (length q)).
  { induction p as [|a p IH]; intros [|b q]; simpl; auto. }
  induction q as [|b q IH]; intros a; [simpl; lia|].
  change (tay a (b :: q)) with (padd [b] (padd (pscal a (tay a q)) (0 :: tay a q))).
  rewrite !Hp. unfold pscal. rewrite map_length. cbn [length]. specialize (IH a). lia.
Qed.

(** * The transform with real coefficients and dominance *)

(** (1+y)^n *)
Fixpoint op (n : nat) : list R := match n with O => [1] | S n' => padd (op n') (0 :: op n') end.
Lemma peval_op : forall n y, peval (op n) y = (1 + y) ^ n.
Proof.
  induction n as [|n IH]; intros y; [simpl; ring|].
  change (op (S n)) with (padd (op n) (0 :: op n)). rewrite peval_padd. cbn [peval]. rewrite IH. simpl. ring.
Qed.
Lemma op_nonneg : forall n i, 0 <= nthR i (op n).
Proof.
  induction n as [|n IH]; intros i.
  - unfold nthR. destruct i as [|[|i]]; simpl; lra.
  - change (op (S n)) with (padd (op n) (0 :: op n)). rewrite nthR_padd. pose proof (IH i).
    destruct i; [unfold nthR at 2; simpl; lra|]. pose proof (IH i).
    change (nthR (S i) (0 :: op n)) with (nthR i (op n)). lra.
Qed.
Lemma op_pos : forall n i, (i <= n)%nat -> 0 < nthR i (op n).
Proof.
  induction n as [|n IH]; intros i Hi.
  - assert (i = 0)%nat by lia. subst. unfold nthR; simpl; lra.
  - change (op (S n)) with (padd (op n) (0 :: op n)). rewrite nthR_padd.
    destruct i as [|i].
    + pose proof (IH 0%nat ltac:(lia)). unfold nthR at 2; simpl; lra.
    + change (nthR (S i) (0 :: op n)) with (nthR i (op n)).
      pose proof (IH i ltac:(lia)). pose proof (op_nonneg n (S i)). lra.
Qed.
Lemma op_mono : forall n i, nthR i (op n) <= nthR i (op (S n)).
Proof.
  intros n i. change (op (S n)) with (padd (op n) (0 :: op n)). rewrite nthR_padd.
  destruct i; [unfold nthR at 3; simpl; lra|].
  change (nthR (S i) (0 :: op n)) with (nthR i (op n)). pose proof (op_nonneg n i). lra.
Qed.

(** (1+y)^n q(1/(1+y)) for n >= deg q *)
Fixpoint tr (n : nat) (q : list R) : list R :=
  match q with [] => [] | a :: q' => padd (pscal a (op n)) (tr (pred n) q') end.
Lemma peval_tr : forall q n y, (length q <= S n)%nat -> -1 < y ->
  peval (tr n q) y = (1 + y) ^ n * peval q (/ (1 + y)).
Proof.
  induction q as [|a q IH]; intros n y Hn Hy; [simpl; ring|].
  cbn [tr peval]. rewrite peval_padd, peval_pscal, peval_op.
  simpl in Hn. destruct q as [|b q].
  - simpl. ring.
  - simpl in Hn. destruct n as [|n]; [lia|]. cbn [pred].
    rewrite IH by (simpl; lia || exact Hy). simpl. field. lra.
Qed.
Lemma tr_bound : forall q n i, Rabs (nthR i (tr n q)) <= sumabs q * nthR i (op n).
Proof.
  induction q as [|a q IH]; intros n i.
  - simpl. unfold nthR at 1. destruct i; simpl; rewrite Rabs_R0; rewrite Rmult_0_l; lra.
  - cbn [tr sumabs]. rewrite nthR_padd, nthR_pscal.
    eapply Rle_trans; [apply Rabs_triang|]. rewrite Rabs_mult, (Rabs_pos_eq (nthR i (op n))) by apply op_nonneg.
    pose proof (IH (pred n) i) as H.
    assert (Hm : nthR i (op (pred n)) <= nthR i (op n)) by (destruct n; [apply Rle_refl|apply op_mono]).
    pose proof (sumabs_pos q). pose proof (op_nonneg (pred n) i).
    assert (sumabs q * nthR i (op (pred n)) <= sumabs q * nthR i (op n)) by nra. nra.
Qed.
Lemma tr_dominant : forall a q n i, sumabs q < a -> (i <= n)%nat -> 0 < nthR i (tr n (a :: q)).
Proof.
  intros a q n i Hd Hi. cbn [tr]. rewrite nthR_padd, nthR_pscal.
  pose proof (tr_bound q (pred n) i) as H.
  assert (Hm : nthR i (op (pred n)) <= nthR i (op n)) by (destruct n; [apply Rle_refl|apply op_mono]).
  pose proof (op_pos n i Hi). pose proof (sumabs_pos q). pose proof (op_nonneg (pred n) i).
  assert (- nthR i (tr (pred n) q) <= sumabs q * nthR i (op (pred n))).
  { pose proof (Rle_abs (- nthR i (tr (pred n) q))) as H'. rewrite Rabs_Ropp in H'. lra. }
  assert (sumabs q * nthR i (op (pred n)) <= sumabs q * nthR i (op n)) by nra.
  nra.
Qed.

(** * Sign patterns with at most one change *)
Definition down (t : list R) (n : nat) : Prop :=
  forall i, (i < n)%nat -> nthR i t <= 0 -> nthR (S i) t < 0.

Lemma down_var : forall t, down t (pred (length t)) ->
  (vR 0 t <= 1)%nat /\ (vR 1 t <= 1)%nat /\ (nthR 0 t <= 0 -> vR (-1) t = 0%nat /\ vR 0 t = 0%nat).
Proof.
  induction t as [|a t IH]; intros Hd.
  - split; [cbn; lia|]. split; [cbn; lia|]. intros; split; reflexivity.
  - assert (Hd' : down t (pred (length t))).
    { intros i Hi H. apply (Hd (S i)); [simpl; lia|exact H]. }
    destruct (IH Hd') as (I0 & I1 & I2).
    assert (Hnext : a <= 0 -> nthR 0 t <= 0).
    { intros Ha. destruct t as [|b t]; [unfold nthR; simpl; lra|].
      pose proof (Hd 0%nat ltac:(simpl; lia) Ha) as H.
      change (nthR 1 (a :: b :: t)) with (nthR 0 (b :: t)) in H. lra. }
    destruct (Rtotal_order a 0) as [Ha|[Ha|Ha]].
    + destruct (I2 (Hnext ltac:(lra))) as [J1 J2].
      repeat split; try (rewrite vR_neg by exact Ha; cbn [Z.eqb Z.opp Pos.eqb]; lia).
    + destruct (I2 (Hnext ltac:(lra))) as [J1 J2].
      repeat split; rewrite vR_zero by exact Ha; try lia.
    + split; [|split].
      * rewrite vR_pos by exact Ha; cbn [Z.eqb Z.opp Pos.eqb]; lia.
      * rewrite vR_pos by exact Ha; cbn [Z.eqb Z.opp Pos.eqb]; lia.
      * intros H. unfold nthR in H; simpl in H. lra.
Qed.

Lemma vR_opp : forall t s, vR s (pscal (-1) t) = vR (- s) t.
Proof.
  unfold pscal. induction t as [|a t IH]; intros s; [reflexivity|]. simpl (map _ (a :: t)).
  destruct (Rtotal_order a 0) as [Ha|[Ha|Ha]].
  - rewrite vR_pos by lra. rewrite vR_neg by exact Ha. rewrite !IH.
    destruct (Z.eqb_spec s (-1)); destruct (Z.eqb_spec (- s) 1); try lia; reflexivity.
  - rewrite !vR_zero by lra. apply IH.
  - rewrite vR_neg by lra. rewrite vR_pos by exact Ha. rewrite !IH.
    destruct (Z.eqb_spec s 1); destruct (Z.eqb_spec (- s) (-1)); try lia; reflexivity.
Qed.

Lemma deriv_1p : forall y, derivable_pt_lim (fun z => 1 + z) y 1.
Proof.
  intros y eps He. exists (mkposreal 1 Rlt_0_1). intros h Hh _.
  replace ((1 + (y + h) - (1 + y)) / h - 1) with 0 by (field; exact Hh). rewrite Rabs_R0. exact He.
Qed.

(** Recurrence between the transform of [p] and of its derivative. *)
Lemma tr_recurrence : forall p n i, (length p <= S n)%nat ->
  INR (S i) * nthR (S i) (tr n p) = (INR n - INR i) * nthR i (tr n p) - nthR i (tr (pred n) (pderiv p)).
Proof.
  intros p n i Hn.
  set (t := tr n p). set (d := tr (pred n) (pderiv p)).
  assert (Hf : forall y, 0 < y < 1 ->
    peval (padd (pderiv t) (padd (0 :: pderiv t) d)) y = peval (pscal (INR n) t) y).
  { intros y Hy. rewrite !peval_padd, peval_pscal. cbn [peval].
    (* derivative of y -> (1+y)^n p(1/(1+y)) *)
    assert (D1 : derivable_pt_lim (peval t) y (peval (pderiv t) y)) by apply peval_derivable_lim.
    assert (D2 : derivable_pt_lim (fun z => (1 + z) ^ n * peval p (/ (1 + z))) y
       (INR n * (1 + y) ^ pred n * peval p (/ (1 + y)) +
        (1 + y) ^ n * (peval (pderiv p) (/ (1 + y)) * (- 1 / (1 + y)²)))).
    { apply derivable_pt_lim_mult with (f1 := fun z => (1 + z) ^ n) (f2 := fun z => peval p (/ (1 + z))).
      - pose proof (derivable_pt_lim_comp (fun z => 1 + z) (fun z => z ^ n) y (0 + 1) (INR n * (1 + y) ^ pred n)) as H.
        rewrite Rplus_0_l, Rmult_1_r in H. apply H.
        + apply deriv_1p.
        + apply derivable_pt_lim_pow.
      - apply (derivable_pt_lim_comp (fun z => / (1 + z)) (peval p) y).
        + pose proof (derivable_pt_lim_div (fun _ => 1) (fun z => 1 + z) y 0 1) as H.
          replace (- 1 / (1 + y)²) with ((0 * (1 + y) - 1 * 1) / (1 + y)²) by (unfold Rdiv; f_equal; ring).
          assert (H' : derivable_pt_lim (div_fct (fun _ : R => 1) (fun z : R => 1 + z)) y ((0 * (1 + y) - 1 * 1) / (1 + y)²)).
          { apply H; [apply derivable_pt_lim_const|apply deriv_1p|lra]. }
          intros eps Heps. destruct (H' eps Heps) as [delta Hdelta]. exists delta.
          intros h Hh Hhd. specialize (Hdelta h Hh Hhd). unfold div_fct in Hdelta.
          unfold Rdiv in Hdelta |- *. rewrite !Rmult_1_l in Hdelta. rewrite ?Rmult_1_l. exact Hdelta.
        + apply peval_derivable_lim. }
    assert (D3 : derivable_pt_lim (peval t) y
       (INR n * (1 + y) ^ pred n * peval p (/ (1 + y)) +
        (1 + y) ^ n * (peval (pderiv p) (/ (1 + y)) * (- 1 / (1 + y)²)))).
    { intros eps Heps. destruct (D2 eps Heps) as [delta Hdelta].
      assert (Hd0 : 0 < Rmin delta (y / 2)).
      { apply Rmin_glb_lt; [apply cond_pos|lra]. }
      exists (mkposreal _ Hd0). intros h Hh Hhd. simpl in Hhd.
      assert (Hh1 : Rabs h < delta) by (eapply Rlt_le_trans; [exact Hhd|apply Rmin_l]).
      assert (Hh2 : Rabs h < y / 2) by (eapply Rlt_le_trans; [exact Hhd|apply Rmin_r]).
      specialize (Hdelta h Hh Hh1). apply Rabs_def2 in Hh2.
      unfold t. rewrite !peval_tr by (exact Hn || lra). exact Hdelta. }
    pose proof (uniqueness_limite _ _ _ _ D1 D3) as E. rewrite E.
    unfold d, t. rewrite (peval_tr p) by (exact Hn || lra).
    destruct n as [|n].
    - destruct p as [|a [|b p]]; simpl in Hn; try lia; simpl; ring.
    - cbn [pred]. rewrite (peval_tr (pderiv p)); [|destruct p; simpl in *; try lia|lra].
      + rewrite S_INR. simpl ((1 + y) ^ S n). unfold Rsqr. field. lra.
      + assert (Hl : forall l m, length (pderiv_go m l) = length l).
        { induction l; intros; simpl; auto. }
        rewrite Hl. lia. }
  pose proof (peval_ext_nth _ _ Hf i) as E.
  rewrite !nthR_padd, nthR_pscal, nthR_pderiv in E.
  destruct i as [|i].
  - unfold nthR at 2 in E. simpl (nth 0 (0 :: pderiv t) 0) in E. simpl (INR 0). lra.
  - change (nthR (S i) (0 :: pderiv t)) with (nthR i (pderiv t)) in E. rewrite nthR_pderiv in E. lra.
Qed.

Lemma tr_length : forall q n, (length q <= S n)%nat -> q <> [] -> length (tr n q) = S n.
Proof.
  assert (Hp : forall p q, length (padd p q) = Nat.max (length p) (length q)).
  { induction p as [|a p IH]; intros [|b q]; simpl; auto. }
  assert (Ho : forall n, length (op n) = S n).
  { induction n as [|n IH]; [reflexivity|]. change (op (S n)) with (padd (op n) (0 :: op n)).
    rewrite Hp. cbn [length]. rewrite IH. lia. }
  assert (Hle : forall q n, (length q <= S n)%nat -> (length (tr n q) <= S n)%nat).
  { induction q as [|a q IH]; intros n Hn; [simpl; lia|]. cbn [tr]. rewrite Hp. unfold pscal.
    rewrite map_length, Ho. simpl in Hn. destruct q as [|b q]; [simpl; lia|].
    specialize (IH (pred n) ltac:(simpl in *; lia)). lia. }
  intros [|a q] n Hn Hq; [congruence|]. cbn [tr]. rewrite Hp. unfold pscal. rewrite map_length, Ho.
  simpl in Hn. destruct q as [|b q]; [simpl; lia|].
  specialize (Hle (b :: q) (pred n) ltac:(simpl in *; lia)). lia.
Qed.

(** A dominant derivative gives at most one variation, a dominant value none. *)
Lemma tr_deriv_dominant : forall p n, (length p <= S n)%nat -> p <> [] ->
  (exists a q, pderiv p = a :: q /\ sumabs q < a) -> (vR 0 (tr n p) <= 1)%nat.
Proof.
  intros p n Hn Hp (a & q & Ed & Hdom).
  apply down_var. intros i Hi Hle. rewrite (tr_length p n Hn Hp) in Hi. simpl in Hi.
  pose proof (tr_recurrence p n i Hn) as E.
  assert (Hn1 : (1 <= n)%nat) by lia.
  pose proof (tr_dominant a q (pred n) i Hdom ltac:(lia)) as Hpos. rewrite <- Ed in Hpos.
  assert (HI : 0 <= INR n - INR i) by (rewrite <- minus_INR by lia; apply pos_INR).
  assert (HS : 0 < INR (S i)) by (apply lt_0_INR; lia).
  assert (INR (S i) * nthR (S i) (tr n p) < 0) by nra.
  nra.
Qed.

Lemma tr_value_dominant : forall a q n, (length (a :: q) <= S n)%nat -> sumabs q < a -> vR 0 (tr n (a :: q)) = 0%nat.
Proof.
  intros a q n Hn Hdom.
  assert (Hall : forall l s, (s = 0 \/ s = 1)%Z -> (forall i, (i < length l)%nat -> 0 < nthR i l) -> vR s l = 0%nat).
  { induction l as [|b l IH]; intros s Hs H; [reflexivity|].
    assert (Hb : 0 < b) by (apply (H 0%nat); simpl; lia).
    rewrite vR_pos by exact Hb. destruct (Z.eqb_spec s (-1)); [lia|].
    apply IH; [right; reflexivity|]. intros i Hi. apply (H (S i)). simpl. lia. }
  apply Hall; [left; reflexivity|]. intros i Hi.
  rewrite (tr_length (a :: q) n Hn) in Hi by discriminate. apply tr_dominant; [exact Hdom|lia].
Qed.

(** The integer transform agrees. *)
Lemma tc_tr_var : forall p l, p <> [] -> 0 < l ->
  var (tc (length p) p) = vR 0 (tr (length p - 1) (pscal l (map IZR p))).
Proof.
  intros p l Hp Hl.
  assert (Hlen : length (pscal l (map IZR p)) = length p) by (unfold pscal; rewrite !map_length; reflexivity).
  rewrite <- varR_IZR. change varR with (vR 0).
  assert (Hs : forall (t : list R) s, vR s t = vR s (pscal l t)).
  { unfold pscal. induction t as [|a t IH]; intros s; [reflexivity|]. simpl (map _ (a :: t)).
    destruct (Rtotal_order a 0) as [Ha|[Ha|Ha]].
    - rewrite !vR_neg by (exact Ha || nra). rewrite IH. reflexivity.
    - rewrite !vR_zero by (exact Ha || nra). apply IH.
    - rewrite !vR_pos by (exact Ha || nra). rewrite IH. reflexivity. }
  rewrite Hs. apply (peval_ext_var _ _ 0 1); [lra|].
  intros y Hy. rewrite peval_pscal. rewrite peval_tr; [|rewrite Hlen; destruct p; [congruence|simpl; lia]|lra].
  rewrite peval_pscal. fold (zeval p (/ (1 + y))).
  fold (zeval (tc (length p) p) y). rewrite tc_transform by (exact Hp || lra). ring.
Qed.

Lemma dominance_var : forall p S w l, p <> [] -> 0 < l -> 0 < w ->
  (forall x, zeval p x * l = peval S (w * x)) ->
  (sumabs (tl (sc w S)) < Rabs (nthR 0 S) \/
   sumabs (tl (pderiv (sc w S))) < Rabs (w * nthR 1 S)) ->
  (var (tc (length p) p) <= 1)%nat.
Proof.
  intros p S w l Hp Hl Hw Heq Hdom.
  (* choose the sign that makes the dominant term positive *)
  assert (Hgen : forall e, (e = 1 \/ e = -1) ->
     (sumabs (tl (sc w S)) < e * nthR 0 S \/ sumabs (tl (pderiv (sc w S))) < e * (w * nthR 1 S)) ->
     (var (tc (length p) p) <= 1)%nat).
  { intros e He Hd.
    rewrite (tc_tr_var p l Hp Hl).
    set (q := pscal l (map IZR p)).
    assert (Hlen : length q = length p) by (unfold q, pscal; rewrite !map_length; reflexivity).
    assert (Hq : q <> []) by (intros E; rewrite E in Hlen; destruct p; [congruence|discriminate]).
    assert (Hqn : (length q <= Datatypes.S (length p - 1))%nat) by (rewrite Hlen; destruct p; [congruence|simpl; lia]).
    (* e * q *)
    assert (Hvar : vR 0 (tr (length p - 1) q) = vR 0 (tr (length p - 1) (pscal e q))).
    { destruct He as [-> | ->].
      - apply (peval_ext_var _ _ 0 1); [lra|]. intros y Hy.
        rewrite !peval_tr; try lra; try exact Hqn; [rewrite peval_pscal; ring|].
        unfold pscal at 1. rewrite map_length. exact Hqn.
      - transitivity (vR 0 (pscal (-1) (tr (length p - 1) q))); [rewrite vR_opp; reflexivity|].
        apply (peval_ext_var _ _ 0 1); [lra|]. intros y Hy. rewrite peval_pscal.
        rewrite !peval_tr; try lra; try exact Hqn; [rewrite peval_pscal; ring|].
        unfold pscal at 1. rewrite map_length. exact Hqn. }
    rewrite Hvar.
    assert (Hlen' : (length (pscal e q) <= Datatypes.S (length p - 1))%nat) by (unfold pscal at 1; rewrite map_length; exact Hqn).
    assert (Hn : forall i, nthR i (pscal e q) = e * nthR i (sc w S)).
    { intros i. rewrite nthR_pscal. f_equal. apply peval_ext_nth. intros x _.
      unfold q. rewrite peval_pscal, peval_sc, <- Heq. unfold zeval. ring. }
    assert (He1 : Rabs e = 1) by (destruct He as [-> | ->]; [apply Rabs_R1|rewrite Rabs_left by lra; lra]).
    destruct Hd as [Hd|Hd].
    - destruct (pscal e q) as [|b r] eqn:Eq; [destruct q; [congruence|discriminate]|].
      rewrite tr_value_dominant; [lia|exact Hlen'|].
      assert (Hb : b = e * nthR 0 S).
      { specialize (Hn 0%nat). change (nthR 0 (b :: r)) with b in Hn. rewrite Hn, nthR_sc. simpl. ring. }
      rewrite Hb.
      assert (sumabs r = sumabs (tl (sc w S))) as ->; [|exact Hd].
      transitivity (sumabs (pscal e (tl (sc w S)))); [|rewrite sumabs_pscal, He1; ring].
      apply sumabs_ext. intros i. rewrite nthR_pscal.
      specialize (Hn (Datatypes.S i)). change (nthR (Datatypes.S i) (b :: r)) with (nthR i r) in Hn. rewrite Hn.
      f_equal. destruct (sc w S); [unfold nthR; destruct i; reflexivity|reflexivity].
    - apply tr_deriv_dominant; [exact Hlen'|intros E; destruct q; [congruence|discriminate]|].
      assert (HnD : forall i, nthR i (pderiv (pscal e q)) = e * nthR i (pderiv (sc w S))).
      { intros i. rewrite !nthR_pderiv, Hn. ring. }
      destruct (pderiv (pscal e q)) as [|b r] eqn:Eq.
      + exfalso.
        pose proof (sumabs_pos (tl (pderiv (sc w S)))) as Hp0.
        specialize (HnD 0%nat). unfold nthR at 1 in HnD. simpl (nth 0 [] 0) in HnD.
        rewrite nthR_pderiv, nthR_sc in HnD. simpl in HnD. rewrite !Rmult_1_r, Rmult_1_l in HnD.
        lra.
      + exists b, r. split; [reflexivity|].
        assert (Hb : b = e * (w * nthR 1 S)).
        { specialize (HnD 0%nat). change (nthR 0 (b :: r)) with b in HnD.
          rewrite HnD, nthR_pderiv, nthR_sc. simpl. ring. }
        rewrite Hb.
        assert (sumabs r = sumabs (tl (pderiv (sc w S)))) as ->; [|exact Hd].
        transitivity (sumabs (pscal e (tl (pderiv (sc w S))))); [|rewrite sumabs_pscal, He1; ring].
        apply sumabs_ext. intros i. rewrite nthR_pscal.
        specialize (HnD (Datatypes.S i)). change (nthR (Datatypes.S i) (b :: r)) with (nthR i r) in HnD. rewrite HnD.
        f_equal. destruct (pderiv (sc w S)); [unfold nthR; destruct i; reflexivity|reflexivity]. }
  assert (Habs : forall z, exists e, (e = 1 \/ e = -1) /\ Rabs z = e * z).
  { intros z. destruct (Rle_dec 0 z) as [H|H].
    - exists 1. split; [left; reflexivity|]. rewrite Rabs_pos_eq by exact H. ring.
    - exists (-1). split; [right; reflexivity|]. rewrite Rabs_left by lra. ring. }
  destruct Hdom as [Hd|Hd].
  - destruct (Habs (nthR 0 S)) as (e & He & E). apply (Hgen e He). left. rewrite <- E. exact Hd.
  - destruct (Habs (w * nthR 1 S)) as (e & He & E). apply (Hgen e He). right. rewrite <- E. exact Hd.
Qed.

(** * Deep nodes have at most one variation *)
Lemma lower_bound_on_unit : forall Q : list R,
  (forall x, 0 <= x <= 1 -> peval Q x = 0 -> peval (pderiv Q) x <> 0) ->
  exists mu, 0 < mu /\ forall x, 0 <= x <= 1 -> mu <= Rabs (peval Q x) \/ mu <= Rabs (peval (pderiv Q) x).
Proof.
  intros Q HQ.
  set (F := padd (pmul Q Q) (pmul (pderiv Q) (pderiv Q))).
  assert (HF : forall x, peval F x = peval Q x * peval Q x + peval (pderiv Q) x * peval (pderiv Q) x).
  { intros x. unfold F. rewrite peval_padd, !peval_pmul. reflexivity. }
  destruct (continuity_ab_min (peval F) 0 1) as (m & Hm & Hm01); [lra|intros; apply peval_continuity|].
  assert (Hpos : 0 < peval F m).
  { rewrite HF. destruct (Req_dec (peval Q m) 0) as [E|E].
    - pose proof (HQ m Hm01 E). nra.
    - nra. }
  set (d := peval F m) in *.
  exists (Rmin 1 (d / 2)).
  assert (H0 : 0 < Rmin 1 (d / 2)) by (apply Rmin_glb_lt; lra).
  split; [exact H0|].
  intros x Hx. pose proof (Hm x Hx) as H. fold d in H. rewrite HF in H.
  pose proof (Rmin_l 1 (d / 2)). pose proof (Rmin_r 1 (d / 2)).
  set (mu := Rmin 1 (d / 2)) in *.
  assert (Hmu : mu * mu <= d / 2) by nra.
  destruct (Rle_lt_dec mu (Rabs (peval Q x))) as [A|A]; [left; exact A|].
  destruct (Rle_lt_dec mu (Rabs (peval (pderiv Q) x))) as [B|B]; [right; exact B|].
  exfalso.
  assert (Ha : Rabs (peval Q x) * Rabs (peval Q x) = peval Q x * peval Q x).
  { rewrite <- Rabs_mult. apply Rabs_pos_eq. nra. }
  assert (Hb : Rabs (peval (pderiv Q) x) * Rabs (peval (pderiv Q) x) = peval (pderiv Q) x * peval (pderiv Q) x).
  { rewrite <- Rabs_mult. apply Rabs_pos_eq. nra. }
  pose proof (Rabs_pos (peval Q x)). pose proof (Rabs_pos (peval (pderiv Q) x)). nra.
Qed.

Lemma pw2_small : forall eps, 0 < eps -> exists K, (0 <= K)%Z /\ forall k, (K <= k)%Z -> pw2 (- k) < eps.
Proof.
  intros eps He.
  pose proof (archimed (/ eps)) as [Ha _].
  assert (Hi : 0 < / eps) by (apply Rinv_0_lt_compat; exact He).
  set (z := up (/ eps)) in *.
  assert (Hz : (0 < z)%Z) by (apply lt_IZR; lra).
  exists z. split; [lia|]. intros k Hk.
  assert (Hlt : (z < 2 ^ k)%Z).
  { apply Z.le_lt_trans with k; [exact Hk|]. apply Z.pow_gt_lin_r; lia. }
  apply IZR_lt in Hlt. rewrite pw2_IZR in Hlt by lia.
  pose proof (pw2_inv k). pose proof (pw2_pos (- k)). pose proof (pw2_pos k).
  assert (/ eps < pw2 k) by lra.
  apply (Rmult_lt_reg_r (pw2 k)); [lra|]. rewrite H.
  apply (Rmult_lt_reg_l (/ eps)); [lra|]. rewrite Rmult_1_r. rewrite <- Rmult_assoc, Rinv_l by lra. lra.
Qed.

Lemma deep_var : forall Q : list R,
  (forall x, 0 <= x <= 1 -> peval Q x = 0 -> peval (pderiv Q) x <> 0) ->
  exists K, (0 <= K)%Z /\ forall k c p l, (K <= k)%Z -> (0 <= c < 2 ^ k)%Z -> p <> [] -> 0 < l ->
    (forall x, zeval p x * l = peval Q (npt c k x)) -> (var (tc (length p) p) <= 1)%nat.
Proof.
  intros Q HQ.
  destruct (lower_bound_on_unit Q HQ) as (mu & Hmu & Hlow).
  destruct (tay_bound Q) as (M & HM & HMb).
  set (M2 := (INR (length Q) + 1) * M).
  assert (HL : 0 <= INR (length Q)) by apply pos_INR.
  assert (HM2 : 0 < M2) by (unfold M2; nra).
  assert (HM12 : M <= M2) by (unfold M2; nra).
  destruct (pw2_small (mu / M2)) as (K & HK & HKs); [apply Rdiv_lt_0_compat; lra|].
  exists K. split; [exact HK|]. intros k c p l Hk Hc Hp Hl Heq.
  set (w := pw2 (- k)). set (a := npt c k 0).
  assert (Hw : 0 < w) by apply pw2_pos.
  assert (Hw1 : w <= 1).
  { pose proof (pw2_inv k) as E. fold w in E. assert (1 <= pw2 k); [|nra].
    rewrite <- pw2_IZR by lia. apply IZR_le. assert (0 < 2 ^ k)%Z by (apply Z.pow_pos_nonneg; lia). lia. }
  assert (Ha : 0 <= a <= 1).
  { destruct (npt_0_lt1 c k ltac:(lia) Hc) as [H1 H2]. fold a in H1. split; [exact H1|].
    pose proof (npt_lt c k 0 1 ltac:(lra)) as H3. fold a in H3. lra. }
  assert (HwM : w * M2 < mu).
  { pose proof (HKs k Hk) as H. fold w in H. apply (Rmult_lt_compat_r M2) in H; [|exact HM2].
    replace (mu / M2 * M2) with mu in H by (field; lra). exact H. }
  pose proof (HMb a Ha) as HS. set (S := tay a Q) in *.
  assert (HpS : forall x, peval S x = peval Q (a + x)) by (intros; apply peval_tay).
  assert (HS0 : nthR 0 S = peval Q a).
  { replace a with (a + 0) by ring. rewrite <- HpS. unfold nthR. destruct S; simpl; ring. }
  assert (HS1 : nthR 1 S = peval (pderiv Q) a).
  { assert (E1 : nthR 1 S = peval (pderiv S) 0).
    { transitivity (nthR 0 (pderiv S)); [rewrite nthR_pderiv; simpl; ring|].
      unfold nthR. destruct (pderiv S); simpl; ring. }
    rewrite E1.
    pose proof (peval_derivable_lim S 0) as D1.
    pose proof (peval_derivable_lim Q a) as D2.
    apply (uniqueness_limite (peval S) 0); [exact D1|].
    intros eps Heps. destruct (D2 eps Heps) as [d Hd]. exists d. intros h Hh Hhd.
    rewrite !HpS. replace (a + (0 + h)) with (a + h) by ring. replace (a + 0) with a by ring. apply Hd; assumption. }
  apply (dominance_var p S w l Hp Hl Hw).
  - intros x. rewrite Heq, HpS. f_equal. unfold a, w, npt. ring.
  - destruct (Hlow a Ha) as [H|H]; [left|right].
    + rewrite HS0. pose proof (sumabs_tl_sc S w ltac:(lra)). nra.
    + rewrite Rabs_mult, (Rabs_pos_eq w), HS1 by lra.
      assert (E : sumabs (tl (pderiv (sc w S))) = sumabs (tl (pscal w (sc w (pderiv S))))).
      { apply sumabs_ext. intros i.
        assert (Htl : forall (t : list R), nthR i (tl t) = nthR (Datatypes.S i) t).
        { intros [|? ?]; [unfold nthR; destruct i; reflexivity|reflexivity]. }
        rewrite !Htl, nthR_pderiv, nthR_pscal, !nthR_sc, nthR_pderiv. simpl. ring. }
      rewrite E.
      assert (E2 : tl (pscal w (sc w (pderiv S))) = pscal w (tl (sc w (pderiv S)))).
      { destruct (sc w (pderiv S)); reflexivity. }
      rewrite E2, sumabs_pscal, (Rabs_pos_eq w) by lra.
      pose proof (sumabs_tl_sc (pderiv S) w ltac:(lra)) as H1.
      pose proof (sumabs_pderiv S) as H2.
      assert (H3 : sumabs (pderiv S) <= M2).
      { assert (INR (length S) <= INR (length Q)) by (apply le_INR; apply tay_length).
        pose proof (sumabs_pos S). pose proof (pos_INR (length S)). unfold M2. nra. }
      assert (H4 : w * sumabs (pderiv S) <= w * M2) by nra.
      assert (H5 : sumabs (tl (sc w (pderiv S))) < mu) by lra.
      nra.
Qed.

(** * The measure *)
Definition meas (D c k : Z) : Z := ((D + 1) * (2 ^ D - c * 2 ^ (D - k)) + (D - k))%Z.

Lemma tshift_length : forall p c, length (tshift c p) = length p.
Proof.
  assert (H : forall r c prev, length (zlin_go c prev r) = S (length r)).
  { induction r as [|b r IH]; intros; [reflexivity|]. simpl. rewrite IH. reflexivity. }
  induction p as [|a p IH]; intros c; [reflexivity|].
  cbn [tshift]. rewrite H, IH. reflexivity.
Qed.
Lemma zpows_length : forall p b acc, length (zpows b acc p) = length p.
Proof. induction p; intros; simpl; auto. Qed.
Lemma strip2_length : forall p, length (strip2 p) = length p.
Proof. intros p. unfold strip2. destruct (min_val2 p) as [[|v]|]; try rewrite map_length; reflexivity. Qed.
Lemma scale2_length : forall k p, length (scale2 k p) = length p.
Proof.
  intros k p. unfold scale2.
  repeat match goal with |- context [if ?b then _ else _] => destruct b end;
    repeat first [rewrite strip2_length | rewrite rev_length | rewrite zpows_length]; reflexivity.
Qed.

Lemma vca_strip_idem : forall p c k ex p1 ex1, vca_strip c k p ex = (p1, ex1) ->
  vca_strip c k p1 ex1 = (p1, ex1) /\ ((p1 = p /\ ex1 = ex) \/ (length p1 < length p)%nat).
Proof.
  induction p as [|a p IH]; intros c k ex p1 ex1 E; simpl in E.
  - inversion E; subst. split; [reflexivity|left; split; reflexivity].
  - destruct (Z.eqb_spec a 0) as [Ha|Ha].
    + destruct (IH c k _ p1 ex1 E) as [H1 [[H2 H3]|H2]]; split; auto; right; subst; simpl; lia.
    + inversion E; subst. split; [|left; split; reflexivity]. simpl.
      destruct (Z.eqb_spec a 0); [contradiction|reflexivity].
Qed.

Lemma linprod_list : forall rs, exists q, forall x, peval q x = linprod rs x.
Proof.
  induction rs as [|r rs [q Hq]]; [exists [1]; intros; simpl; ring|].
  exists (plin r q). intros x. rewrite peval_plin, Hq. reflexivity.
Qed.

(** A state of the loop: the polynomial without the exact roots. *)
Lemma node_quotient : forall P ex c k p, node P ex c k p ->
  exists Q l, 0 < l /\ (forall x, zeval P x = linprod (map dyv ex) x * peval Q x) /\
    (forall x, zeval p x * l = peval Q (npt c k x)).
Proof.
  intros P ex c k p (l & Hl & E).
  destruct (compose_affine (map IZR p) (pw2 k) (- IZR c)) as (q & Hq).
  exists (pscal l q), l. split; [exact Hl|].
  assert (Hv : forall x, peval (pscal l q) (npt c k x) = zeval p x * l).
  { intros x. rewrite peval_pscal, Hq. unfold zeval.
    replace (pw2 k * npt c k x + - IZR c) with (nloc c k (npt c k x)) by (unfold nloc; ring).
    rewrite nloc_npt. ring. }
  split; [|intros; symmetry; apply Hv].
  intros x. rewrite <- (npt_nloc c k x). rewrite E, Hv. ring.
Qed.

Lemma quotient_simple : forall P L Q,
  (forall x, zeval P x = peval L x * peval Q x) -> simple_roots P unit_cc ->
  forall x, 0 <= x <= 1 -> peval Q x = 0 -> peval (pderiv Q) x <> 0.
Proof.
  intros P L Q E HS x Hx H0 H1.
  apply (HS x Hx); [rewrite E, H0; ring|].
  assert (D1 : derivable_pt_lim (fun z => peval L z * peval Q z) x
             (peval (pderiv L) x * peval Q x + peval L x * peval (pderiv Q) x)).
  { apply derivable_pt_lim_mult with (f1 := peval L) (f2 := peval Q); apply peval_derivable_lim. }
  pose proof (peval_derivable_lim (map IZR P) x) as D2.
  assert (D3 : derivable_pt_lim (peval (map IZR P)) x (peval (pderiv L) x * peval Q x + peval L x * peval (pderiv Q) x)).
  { intros eps He. destruct (D1 eps He) as [d Hd]. exists d. intros h Hh Hhd.
    fold (zeval P (x + h)). fold (zeval P x). rewrite !E. apply Hd; assumption. }
  rewrite (uniqueness_limite _ _ _ _ D2 D3), H0, H1. ring.
Qed.

Lemma quotient_unique : forall (Q Q' rs : list R),
  (forall x, linprod rs x * peval Q x = linprod rs x * peval Q' x) -> forall x, peval Q x = peval Q' x.
Proof.
  intros Q Q' rs E x.
  assert (HB : exists B, forall r, In r rs -> r <= B).
  { clear. induction rs as [|r rs [B HB]]; [exists 0; intros r []|].
    exists (Rmax r B). intros r' [<-|H]; [apply Rmax_l|]. eapply Rle_trans; [apply HB, H|apply Rmax_r]. }
  destruct HB as [B HB].
  assert (Hz : pzero (padd Q (pscal (-1) Q'))).
  { apply (peval_zero_interval _ B (B + 1)); [lra|]. intros y Hy.
    rewrite peval_padd, peval_pscal.
    assert (linprod rs y <> 0).
    { intros H. apply linprod_zero in H. apply HB in H. lra. }
    assert (peval Q y = peval Q' y) by (apply (Rmult_eq_reg_l (linprod rs y)); auto). lra. }
  pose proof (peval_pzero _ x Hz) as H. rewrite peval_padd, peval_pscal in H. lra.
Qed.

Lemma meas_nonneg : forall D c k, (0 <= k <= D)%Z -> (0 <= c < 2 ^ k)%Z -> (0 <= meas D c k)%Z.
Proof.
  intros D c k Hk Hc. unfold meas.
  assert (E : (2 ^ D = 2 ^ k * 2 ^ (D - k))%Z) by (rewrite <- Z.pow_add_r by lia; f_equal; lia).
  assert (0 < 2 ^ (D - k))%Z by (apply Z.pow_pos_nonneg; lia). rewrite E.
  assert (0 <= 2 ^ k * 2 ^ (D - k) - c * 2 ^ (D - k))%Z by nia.
  assert (0 <= (D + 1) * (2 ^ k * 2 ^ (D - k) - c * 2 ^ (D - k)))%Z by (apply Z.mul_nonneg_nonneg; lia). lia.
Qed.
Lemma meas_down : forall D c k, (0 <= k < D)%Z -> (meas D (2 * c) (k + 1) < meas D c k)%Z.
Proof.
  intros D c k Hk. unfold meas.
  assert (E : (2 ^ (D - k) = 2 * 2 ^ (D - (k + 1)))%Z) by (rewrite <- Z.pow_succ_r by lia; f_equal; lia).
  rewrite E. lia.
Qed.
Lemma meas_next : forall D c k p c' k' p', (0 <= k <= D)%Z -> (0 <= c < 2 ^ k)%Z ->
  next_state c k p = Some (c', k', p') ->
  (meas D c' k' < meas D c k)%Z /\ (k' <= D)%Z /\ length p' = length p.
Proof.
  intros D c k p c' k' p' Hk Hc E. unfold next_state in E.
  destruct (val2_pow_le (c + 1) k) as [Hle Hiff]; [lia|lia|].
  set (i := Z.of_nat (val2 (c + 1))) in *.
  assert (Hi : (0 <= i)%Z) by (unfold i; lia).
  destruct (Z.eqb_spec k i) as [_|Hki]; [discriminate|].
  assert (Hgen : forall c' k', (c' * 2 ^ i = c + 1)%Z -> k' = (k - i)%Z -> (meas D c' k' < meas D c k)%Z).
  { intros c1 k1 Ec ->. unfold meas.
    replace (D - (k - i))%Z with (i + (D - k))%Z by lia. rewrite Z.pow_add_r by lia.
    rewrite Z.mul_assoc, Ec.
    assert (0 < 2 ^ (D - k))%Z by (apply Z.pow_pos_nonneg; lia).
    set (T := (2 ^ (D - k))%Z) in *.
    assert (i < (D + 1) * T)%Z by nia.
    replace ((D + 1) * (2 ^ D - (c + 1) * T))%Z with ((D + 1) * (2 ^ D - c * T) - (D + 1) * T)%Z by ring. lia. }
  destruct (Z.eqb_spec i 0) as [E0|E0]; inversion E; subst c' k' p'; clear E.
  - split; [|split; [lia|apply tshift_length]]. apply Hgen; [|lia]. rewrite E0. lia.
  - split; [|split; [lia|rewrite scale2_length; apply tshift_length]]. apply Hgen; [|lia].
    destruct (val2_spec (c + 1)) as (m & Em & _); [lia|]. fold i in Em. rewrite Em at 1.
    rewrite Z.div_mul; [lia|]. assert (0 < 2 ^ i)%Z by (apply Z.pow_pos_nonneg; lia). lia.
Qed.

(** * Termination *)
Lemma vca_loop_terminates : forall P, nonzero P -> simple_roots P unit_cc ->
  forall L c k p ex ints, length p = L -> Inv P c k p ex ints ->
  exists f, vca_loop f c k p ex ints <> VFuel.
Proof.
  intros P HP HS L. induction L as [L IHL] using lt_wf_ind.
  intros c k p ex ints HL HI.
  destruct (node_quotient P ex c k p (inv_node _ _ _ _ _ _ HI)) as (Q & l0 & Hl0 & HPQ & HpQ).
  destruct (linprod_list (map dyv ex)) as (Lp & HLp).
  assert (HQs : forall x, 0 <= x <= 1 -> peval Q x = 0 -> peval (pderiv Q) x <> 0).
  { apply (quotient_simple P Lp Q); [|exact HS]. intros x. rewrite HLp. apply HPQ. }
  destruct (deep_var Q HQs) as (K & HK & Hdeep).
  set (D := Z.max K k).
  assert (HkD : (k <= D)%Z) by (unfold D; lia).
  assert (HKD : (K <= D)%Z) by (unfold D; lia).
  clearbody D. clear HpQ Hl0 l0.
  remember (Z.to_nat (meas D c k)) as m eqn:Em.
  revert c k p ints HL HI HkD Em.
  induction m as [m IHm] using lt_wf_ind. intros c k p ints HL HI HkD Em.
  pose proof (inv_k _ _ _ _ _ _ HI) as Hk. pose proof (inv_c _ _ _ _ _ _ HI) as Hc.
  destruct (vca_strip c k p ex) as [p1 ex1] eqn:ES.
  destruct (vca_strip_inv p P c k ex ints p1 ex1 HI HP ES) as (HI1 & Hne & Hp0).
  destruct (vca_strip_idem p c k ex p1 ex1 ES) as [Hid [[E1 E2]|Hlt]].
  - subst p1 ex1.
    assert (Hnz : nonzero p) by (apply (node_nonzero P ex c k p (inv_node _ _ _ _ _ _ HI) HP)).
    pose proof (meas_nonneg D c k ltac:(lia) Hc) as Hm0.
    assert (Hstep : forall f, vca_loop (S f) c k p ex ints =
      match descartes01 p 2 with
      | DUndef => VUndef
      | DTooMany | DCount 2 => vca_loop f (2 * c) (k + 1) (scale2 (-1) p) ex ints
      | DCount 1 =>
          match next_state c k p with
          | None => VDone ex (ints ++ [(c, (- k)%Z)])
          | Some (c', k', p') => vca_loop f c' k' p' ex (ints ++ [(c, (- k)%Z)])
          end
      | DCount 0 =>
          match next_state c k p with
          | None => VDone ex ints
          | Some (c', k', p') => vca_loop f c' k' p' ex ints
          end
      | DCount _ => VAbort
      end).
    { intros f. rewrite vca_loop_eq, ES. reflexivity. }
    destruct (descartes01_cases p Hnz) as [[E H0]|[[E H1]|[E H2]]].
    + pose proof (inv_next P c k p ex ints HI Hp0) as HN.
      assert (Hopen : forall x, npt c k 0 < x < npt c k 1 -> zeval P x = 0 -> exists d, In d ints /\ in_int d x).
      { intros x Hx Hx0. exfalso.
        assert (HL' : 0 < nloc c k x < 1).
        { rewrite <- (nloc_npt c k 0) at 1. rewrite <- (nloc_npt c k 1). split; apply nloc_lt; lra. }
        apply (H0 _ HL'). apply (node_roots P c k p ex ints _ HI); [lra|]. rewrite npt_nloc. exact Hx0. }
      specialize (HN Hopen).
      destruct (next_state c k p) as [[[c' k'] p']|] eqn:EN.
      * destruct (meas_next D c k p c' k' p' ltac:(lia) Hc EN) as (M1 & M2 & M3).
        pose proof (meas_nonneg D c' k' ltac:(pose proof (inv_k _ _ _ _ _ _ HN); lia) (inv_c _ _ _ _ _ _ HN)) as M4.
        destruct (IHm (Z.to_nat (meas D c' k')) ltac:(lia) c' k' p' ints ltac:(lia) HN M2 eq_refl) as [f Hf].
        exists (S f). rewrite Hstep, E. exact Hf.
      * exists 1%nat. rewrite Hstep, E. discriminate.
    + pose proof (inv_snoc P c k p ex ints HI HP H1 Hp0) as HN.
      destruct (next_state c k p) as [[[c' k'] p']|] eqn:EN.
      * destruct (meas_next D c k p c' k' p' ltac:(lia) Hc EN) as (M1 & M2 & M3).
        pose proof (meas_nonneg D c' k' ltac:(pose proof (inv_k _ _ _ _ _ _ HN); lia) (inv_c _ _ _ _ _ _ HN)) as M4.
        destruct (IHm (Z.to_nat (meas D c' k')) ltac:(lia) c' k' p' _ ltac:(lia) HN M2 eq_refl) as [f Hf].
        exists (S f). rewrite Hstep, E. exact Hf.
      * exists 1%nat. rewrite Hstep, E. discriminate.
    + assert (HkK : (k < K)%Z).
      { destruct (Z.lt_ge_cases k K) as [H|H]; [exact H|exfalso].
        destruct (node_quotient P ex c k p (inv_node _ _ _ _ _ _ HI)) as (Q' & l & Hl & HPQ' & HpQ').
        assert (HQQ : forall x, peval Q' x = peval Q x).
        { apply (quotient_unique Q' Q (map dyv ex)). intros x. rewrite <- HPQ', HPQ. reflexivity. }
        assert (Hpn : p <> []) by (intros ->; apply Hnz; constructor).
        assert ((var (tc (length p) p) <= 1)%nat); [|lia].
        apply (Hdeep k c p l H Hc Hpn Hl). intros x. rewrite HpQ', HQQ. reflexivity. }
      pose proof (inv_down P c k p ex ints HI) as HN.
      pose proof (meas_down D c k ltac:(lia)) as M1.
      pose proof (meas_nonneg D (2 * c) (k + 1) ltac:(lia) (inv_c _ _ _ _ _ _ HN)) as M4.
      destruct (IHm (Z.to_nat (meas D (2 * c) (k + 1))) ltac:(lia) (2 * c)%Z (k + 1)%Z (scale2 (-1) p) ints
         ltac:(rewrite scale2_length; exact HL) HN ltac:(lia) eq_refl) as [f Hf].
      exists (S f). rewrite Hstep. destruct E as [E|E]; rewrite E; exact Hf.
  - destruct (IHL (length p1) ltac:(lia) c k p1 ex1 ints eq_refl HI1) as [[|f] Hf].
    + exfalso. apply Hf. reflexivity.
    + exists (S f). rewrite vca_loop_eq in Hf |- *. rewrite Hid in Hf. rewrite ES. exact Hf.
Qed.

(** More fuel does not change a finished run. *)
Lemma vca_loop_mono : forall f g c k p ex ints, (f <= g)%nat -> vca_loop f c k p ex ints <> VFuel ->
  vca_loop g c k p ex ints = vca_loop f c k p ex ints.
Proof.
  induction f as [|f IH]; intros g c k p ex ints Hg H; [exfalso; apply H; reflexivity|].
  destruct g as [|g]; [lia|]. rewrite vca_loop_eq in H. rewrite !vca_loop_eq.
  destruct (vca_strip c k p ex) as [p1 ex1].
  destruct (descartes01 p1 2) as [[|[|[|v]]]| |]; try reflexivity;
    try (destruct (next_state c k p1) as [[[c' k'] p']|]; [|reflexivity]);
    apply IH; try lia; exact H.
Qed.

Theorem vca_terminates : forall P, nonzero P -> simple_roots P unit_cc ->
  exists f0, forall f, (f0 <= f)%nat -> exists ex ints, vca f P [] [] = VDone ex ints.
Proof.
  intros P HP HS.
  destruct (vca_loop_terminates P HP HS (length P) 0%Z 0%Z P [] [] eq_refl (inv_init P)) as [f0 Hf].
  exists f0. intros f Hle. unfold vca. rewrite (vca_loop_mono f0 f) by assumption.
  pose proof (vca_loop_ok f0 P 0%Z 0%Z P [] [] HP (inv_init P)) as H.
  destruct (vca_loop f0 0 0 P [] []) as [ex ints| | |]; try contradiction.
  - exists ex, ints. reflexivity.
Qed.
