(** The Sturm sequence of x^2 - 3x + 1. *)
Require Import Reals List ZArith Lia Lra.
From Verif Require Import PolyR RootSpec RootModel ExtraModel SturmSpec.
Import ListNotations.
Open Scope R_scope.

Definition golden : list Z := [1; -3; 1]%Z.

Lemma golden_deriv : forall d, last d 0%Z <> 0%Z -> (forall x, zeval d x = peval (pderiv (map IZR golden)) x) -> (length d <= 2)%nat.
Proof.
  intros d Hl Hd. destruct d as [|a [|b [|c r]]]; try (simpl; lia). exfalso.
  pose proof (peval_zero_interval (map IZR ((a + 3)%Z :: (b - 2)%Z :: c :: r)) 0 1 ltac:(lra)) as P.
  assert (Hz : forall x, 0 < x < 1 -> peval (map IZR ((a + 3)%Z :: (b - 2)%Z :: c :: r)) x = 0).
  { intros x _. specialize (Hd x). unfold zeval in Hd. cbn [map peval] in Hd |- *. rewrite plus_IZR, minus_IZR.
    unfold golden, pderiv in Hd. cbn in Hd. lra. }
  specialize (P Hz). apply Hl.
  assert (Hin : In (last (a :: b :: c :: r) 0%Z) (c :: r)).
  { change (last (a :: b :: c :: r) 0%Z) with (last (c :: r) 0%Z). destruct (exists_last (l := c :: r) ltac:(discriminate)) as (m & y & ->).
    rewrite last_last. apply in_or_app. right. left. reflexivity. }
  unfold pzero in P. cbn [map] in P. inversion P as [|? ? _ P1]; subst. inversion P1 as [|? ? _ P2]; subst.
  change (IZR c :: map IZR r) with (map IZR (c :: r)) in P2. rewrite Forall_forall in P2. apply eq_IZR. apply P2. apply in_map. exact Hin.
Qed.

Lemma golden_sequence : forall L, sturm_sequence golden L -> Forall (fun q => zeval q 0 <> 0 /\ zeval q 1 <> 0) L.
Proof.
  intros L (d & l & Hl & Hd & Hr & ->).
  constructor; [unfold zeval, golden; simpl; lra|].
  assert (H0 : zeval d 0 = -3) by (rewrite Hd; unfold golden, pderiv; cbn; lra).
  assert (H1 : zeval d 1 = -1) by (rewrite Hd; unfold golden, pderiv; cbn; lra).
  assert (H2 : zeval d (3/2) = 0) by (rewrite Hd; unfold golden, pderiv; cbn; lra).
  constructor; [lra|]. pose proof (golden_deriv d Hl Hd) as Hlen.
  inversion Hr as [|? ? c u w q l' Hu Hw Hc Lc E Hr']; subst; [constructor|].
  destruct c as [|k [|? ?]]; [elim Hc; reflexivity| |simpl in Lc; lia].
  assert (Hk : forall x, zeval [k] x = IZR k) by (intros x; unfold zeval; simpl; ring).
  assert (Hk0 : IZR k <> 0) by (intros W; apply Hc; simpl; apply eq_IZR; exact W).
  constructor; [rewrite !Hk; split; exact Hk0|].
  inversion Hr' as [|? ? c' u' w' q' l'' Hu' Hw' Hc' Lc' E' Hr'']; subst; [constructor|].
  destruct c'; [elim Hc'; reflexivity|simpl in Lc'; lia].
Qed.

Lemma golden_simple : simple_roots golden unit_cc.
Proof.
  intros r _ H H1. unfold zeval, golden in H. cbn in H. unfold golden, pderiv in H1. cbn in H1. nra.
Qed.
Lemma golden_ends : zeval golden 0 <> 0 /\ zeval golden 1 <> 0.
Proof. unfold zeval, golden; simpl; lra. Qed.
