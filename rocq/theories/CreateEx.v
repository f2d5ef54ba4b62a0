(** Intervals and texts for the square root of two, as small as wanted. *)
Require Import Reals List ZArith Bool Lia Lra Ascii Sorted.
From Verif Require Import PolyR RootSpec RootModel VcaProofs VcaTerm Dyadic ElemModel ElemSpec ElemRefute StrModel MakeModel MakeSpec MakeText
  RefineProofs EndsProofs EndsRefute ToolsSpec ToolsIrred CreateMain.
Import ListNotations.
Open Scope R_scope.

Lemma sqrt2_bounds : 1 < sqrt 2 < 2.
Proof. assert (H : sqrt 2 * sqrt 2 = 2) by (apply sqrt_sqrt; lra). pose proof (sqrt_pos 2). split; nra. Qed.
Lemma sq_eval : forall y, zeval [-2; 0; 1]%Z y = y * y - 2.
Proof. intros y. unfold zeval. simpl. ring. Qed.
Lemma sq_roots : forall y, zeval [-2; 0; 1]%Z y = 0 <-> y = - sqrt 2 \/ y = sqrt 2.
Proof.
  intros y. rewrite sq_eval. assert (H : sqrt 2 * sqrt 2 = 2) by (apply sqrt_sqrt; lra). split.
  - intros E. assert (E' : (y - sqrt 2) * (y + sqrt 2) = 0) by lra. apply Rmult_integral in E'. destruct E'; [right|left]; lra.
  - intros [-> | ->]; lra.
Qed.

Lemma sq_irreducible : irreducible [-2; 0; 1]%Z.
Proof. apply (minimal_irreducible _ (sqrt 2)). apply sq_minimal. apply sqrt_sqrt. lra. Qed.

Lemma floor_at : forall x, exists n, IZR n <= x < IZR n + 1.
Proof. intros x. exists (up x - 1)%Z. rewrite minus_IZR. destruct (archimed x). lra. Qed.

Lemma sq_intervals : forall w, 0 < w -> exists ints, isolates [-2; 0; 1]%Z reals [] ints /\ Forall (fun d => ihi d - ilo d <= w) ints.
Proof.
  pose proof sq_irreducible as Hi. intros w Hw. assert (W' : exists w', 0 < w' /\ w' <= w /\ w' <= 1) by (exists (Rmin w 1); split; [apply Rmin_glb_lt; lra|split; [apply Rmin_l|apply Rmin_r]]).
  destruct W' as (w' & W0 & W1 & W2). destruct (pw2_neg_small w' W0) as (k & Hk). specialize (Hk k ltac:(lia)).
  set (h := pw2 (- k)) in *. assert (H0 : 0 < h) by apply pw2_pos. pose proof sqrt2_bounds as HS.
  destruct (floor_at (sqrt 2 / h)) as (c & Hc1 & Hc2).
  assert (B1 : IZR c * h <= sqrt 2) by (apply (Rmult_le_compat_r h) in Hc1; [|lra]; unfold Rdiv in Hc1; rewrite Rmult_assoc, Rinv_l, Rmult_1_r in Hc1; lra).
  assert (B2 : sqrt 2 < (IZR c + 1) * h) by (apply (Rmult_lt_compat_r h) in Hc2; [|lra]; unfold Rdiv in Hc2; rewrite Rmult_assoc, Rinv_l, Rmult_1_r in Hc2; lra).
  assert (N : IZR c * h <> sqrt 2).
  { intros E. apply (irreducible_not_dyadic [-2; 0; 1]%Z (c, - k)%Z Hi ltac:(discriminate) ltac:(cbn; lia)). apply sq_roots. right. exact E. }
  assert (L1 : ilo (c, - k)%Z = IZR c * h) by (reflexivity).
  assert (U1 : ihi (c, - k)%Z = (IZR c + 1) * h) by (unfold ihi; cbn [fst snd]; fold h; ring).
  assert (L2 : ilo (- c - 1, - k)%Z = - (IZR c + 1) * h) by (unfold ilo; cbn [fst snd]; rewrite minus_IZR, opp_IZR; fold h; ring).
  assert (U2 : ihi (- c - 1, - k)%Z = - IZR c * h) by (unfold ihi; cbn [fst snd]; rewrite minus_IZR, opp_IZR; fold h; ring).
  exists [(- c - 1, - k)%Z; (c, - k)%Z]. split.
  - split.
    + intros d [].
    + exists (map IZR [-2; 0; 1]%Z). split; [intros x; unfold zeval; simpl; ring|intros d []].
    + intros d [<-|[<-|[]]]; unfold in_int; [rewrite L2, U2|rewrite L1, U1].
      * exists (- sqrt 2). split; [split; [lra|apply sq_roots; left; reflexivity]|]. intros y [Hy Z]. apply sq_roots in Z. destruct Z; [auto|lra].
      * exists (sqrt 2). split; [split; [lra|apply sq_roots; right; reflexivity]|]. intros y [Hy Z]. apply sq_roots in Z. destruct Z; [lra|auto].
    + intros; exact I.
    + intros x _ Z. apply sq_roots in Z. right. destruct Z as [-> | ->].
      * exists (- c - 1, - k)%Z. split; [left; reflexivity|]. unfold in_int. rewrite L2, U2. lra.
      * exists (c, - k)%Z. split; [right; left; reflexivity|]. unfold in_int. rewrite L1, U1. lra.
    + intros d e [].
    + constructor.
    + repeat constructor. rewrite U2, L1. lra.
  - apply Forall_cons; [rewrite L2, U2; lra|]. apply Forall_cons; [rewrite L1, U1; lra|constructor].
Qed.

(** Texts. *)
Lemma ten_small : forall w, 0 < w -> exists k, powerRZ 10 (- k) <= w.
Proof.
  intros w Hw. destruct (pw2_neg_small w Hw) as (k & Hk). exists (Z.max 0 k). specialize (Hk (Z.max 0 k) ltac:(lia)).
  destruct (Z_of_nat_complete (Z.max 0 k) ltac:(lia)) as (n & En). rewrite En in *. clear En.
  apply Rle_trans with (pw2 (- Z.of_nat n)); [|lra]. clear Hk. induction n as [|n IH]; [unfold pw2; simpl; lra|].
  replace (- Z.of_nat (Datatypes.S n))%Z with (- Z.of_nat n + -1)%Z by lia. rewrite ten_add, pw2_add.
  pose proof (ten_pos (- Z.of_nat n)). pose proof (pw2_pos (- Z.of_nat n)).
  replace (powerRZ 10 (-1)) with (1 / 10) by (simpl; lra). replace (pw2 (-1)) with (1 / 2) by (unfold pw2; simpl; lra). lra.
Qed.

Lemma sq_text : forall w, 0 < w -> exists emb q, ball_text emb = Some q /\ Rabs (sqrt 2 - dec10 (fst q)) < dec10 (snd q) /\ dec10 (snd q) <= w.
Proof.
  intros w Hw. destruct (ten_small w Hw) as (k & Hk). set (h := powerRZ 10 (- k)) in *. assert (H0 : 0 < h) by apply ten_pos.
  destruct (floor_at (sqrt 2 / h)) as (c & Hc1 & Hc2).
  assert (B1 : IZR c * h <= sqrt 2) by (apply (Rmult_le_compat_r h) in Hc1; [|lra]; unfold Rdiv in Hc1; rewrite Rmult_assoc, Rinv_l, Rmult_1_r in Hc1; lra).
  assert (B2 : sqrt 2 < (IZR c + 1) * h) by (apply (Rmult_lt_compat_r h) in Hc2; [|lra]; unfold Rdiv in Hc2; rewrite Rmult_assoc, Rinv_l, Rmult_1_r in Hc2; lra).
  eexists; exists ((c, - k), (1, - k))%Z. split; [apply ball_text_shown; lia|]. unfold dec10. cbn [fst snd]. fold h.
  rewrite Rabs_pos_eq by lra. split; lra.
Qed.
