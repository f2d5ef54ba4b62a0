(** The condition number is not too large either. *)
Require Import Reals List ZArith Lia Lra.
From Verif Require Import PolyR RootSpec Dyadic DyadicProofs ArbModel ArbSpec VcaProofs ArbProofs FieldProofs EvalProofs RefineEnds.
Import ListNotations.
Open Scope R_scope.

Lemma dround_up : forall md prec d, (1 <= prec)%Z -> 0 <= dyv d -> 0 <= dyv (dround md prec d) <= (1 + pw2 (1 - prec)) * dyv d.
Proof.
  intros md prec d Hp H. destruct (dround_spec md prec d Hp) as (_ & E & S & _). split; [apply S, H|].
  rewrite (Rabs_pos_eq (dyv d)) in E by lra. apply Rabs_le_inv2 in E. lra.
Qed.

Section Tight.
Variable prec : Z.
Hypothesis Hp : (2 <= prec)%Z.
Notation u := (1 + pw2 (1 - prec)).

Lemma u1 : 1 <= u.
Proof. pose proof (pw2_pos (1 - prec)). lra. Qed.

Lemma lead_le : forall c a, 0 <= dyv (cond_sum [c] a prec) <= u * Rabs (IZR c).
Proof.
  intros c a. cbn [cond_sum]. destruct (Z.ltb_spec 0 c) as [Hc|Hc].
  - apply IZR_lt in Hc. pose proof (dround_up RUp prec (dz c) ltac:(lia)) as H. rewrite dyv_dz in H. rewrite Rabs_pos_eq by lra. apply H. lra.
  - apply IZR_le in Hc. rewrite dyv_neg. destruct (dround_spec RDown prec (dz c) ltac:(lia)) as (_ & E & _ & S). rewrite dyv_dz in E, S.
    specialize (S Hc). rewrite (Rabs_left1 (IZR c)) in * by lra. apply Rabs_le_inv2 in E. lra.
Qed.

Lemma cond_sum_le : forall p a, 0 <= dyv a -> p <> [] -> 0 <= dyv (cond_sum p a prec) <= u ^ (2 * length p) * abs_sum p (dyv a).
Proof.
  intros p a Ha. pose proof u1 as U. induction p as [|c q IH]; intros Hn; [contradiction|].
  rewrite abs_sum_cons. destruct q as [|c' q'].
  - destruct (lead_le c a) as [L M]. split; [exact L|]. unfold abs_sum, zeval. cbn [map peval length Nat.mul Nat.add pow]. rewrite Rmult_0_r, Rplus_0_r, Rmult_1_r.
    pose proof (Rabs_pos (IZR c)). apply Rle_trans with (u * Rabs (IZR c)); [exact M|]. apply Rmult_le_compat_r; [lra|].
    rewrite <- (Rmult_1_l u) at 1. apply Rmult_le_compat_r; lra.
  - set (q := c' :: q') in *. specialize (IH ltac:(discriminate)). destruct IH as [I0 I1].
    change (cond_sum (c :: q) a prec) with
      (let res := dround RUp prec (dmul (cond_sum q a prec) a) in
       if (0 <? c)%Z then dround RUp prec (dadd res (dz c))
       else if (c <? 0)%Z then dround RUp prec (dsub res (dz c)) else res).
    cbv zeta. set (cs := cond_sum q a prec) in *.
    pose proof (dround_up RUp prec (dmul cs a) ltac:(lia)) as R. rewrite dyv_mul in R. specialize (R ltac:(apply Rmult_le_pos; lra)).
    set (res := dround RUp prec (dmul cs a)) in *.
    assert (K : dyv res <= u ^ (2 * length q + 1) * (dyv a * abs_sum q (dyv a))).
    { eapply Rle_trans; [apply R|]. rewrite Nat.add_1_r. cbn [pow]. rewrite Rmult_assoc. apply Rmult_le_compat_l; [lra|].
      rewrite (Rmult_comm (dyv a)), <- Rmult_assoc. apply Rmult_le_compat_r; lra. }
    rewrite (Rabs_pos_eq (dyv a)) by lra. set (A := dyv a * abs_sum q (dyv a)) in *.
    assert (A0 : 0 <= A) by (apply Rmult_le_pos; [lra|apply abs_sum_nonneg]).
    replace (2 * length (c :: q))%nat with (S (2 * length q + 1)) by (cbn [length]; lia). cbn [pow].
    set (w := u ^ (2 * length q + 1)) in *. assert (W : 1 <= w) by (apply pow_R1_Rle; exact U).
    assert (G : forall v, 0 <= v -> dyv res + v <= w * (v + A)).
    { intros v Hv. assert (v <= w * v) by (rewrite <- (Rmult_1_l v) at 1; apply Rmult_le_compat_r; lra). lra. }
    destruct (Z.ltb_spec 0 c) as [Hc|Hc]; [|destruct (Z.ltb_spec c 0) as [Hc'|Hc']].
    + apply IZR_lt in Hc. pose proof (dround_up RUp prec (dadd res (dz c)) ltac:(lia)) as T. rewrite dyv_add, dyv_dz in T. specialize (T ltac:(lra)).
      split; [apply T|]. eapply Rle_trans; [apply T|]. rewrite Rmult_assoc. apply Rmult_le_compat_l; [lra|]. rewrite (Rabs_pos_eq (IZR c)) by lra. apply G. lra.
    + apply IZR_lt in Hc'. pose proof (dround_up RUp prec (dsub res (dz c)) ltac:(lia)) as T. rewrite dyv_sub, dyv_dz in T. specialize (T ltac:(lra)).
      split; [apply T|]. eapply Rle_trans; [apply T|]. rewrite Rmult_assoc. apply Rmult_le_compat_l; [lra|]. rewrite (Rabs_left (IZR c)) by lra.
      replace (dyv res - IZR c) with (dyv res + - IZR c) by ring. apply G. lra.
    + assert (c = 0%Z) by lia. subst c. rewrite Rabs_R0. split; [apply R|]. pose proof (G 0 ltac:(lra)) as G0. rewrite Rplus_0_r in G0.
      rewrite Rmult_assoc. assert (0 <= w * (0 + A)) by (apply Rmult_le_pos; lra).
      apply Rle_trans with (w * (0 + A)); [exact G0|]. assert (0 <= (u - 1) * (w * (0 + A))) by (apply Rmult_le_pos; lra). lra.
Qed.

Lemma abs_sum_scale : forall p v y, 1 <= v -> 0 <= y -> abs_sum p (v * y) <= v ^ length p * abs_sum p y.
Proof.
  intros p v y Hv Hy. induction p as [|c q IH]; [unfold abs_sum, zeval; cbn; lra|].
  rewrite !abs_sum_cons. cbn [length pow]. assert (0 <= v * y) by (apply Rmult_le_pos; lra). rewrite (Rabs_pos_eq (v * y)), (Rabs_pos_eq y) by lra.
  pose proof (Rabs_pos (IZR c)). pose proof (abs_sum_nonneg q y). pose proof (pow_R1_Rle v (length q) Hv) as W.
  assert (Rabs (IZR c) <= v * v ^ length q * Rabs (IZR c)).
  { rewrite <- (Rmult_1_l (Rabs (IZR c))) at 1. apply Rmult_le_compat_r; [lra|]. rewrite <- (Rmult_1_l 1). apply Rmult_le_compat; lra. }
  assert (v * y * abs_sum q (v * y) <= v * y * (v ^ length q * abs_sum q y)) by (apply Rmult_le_compat_l; lra).
  replace (v * v ^ length q * (Rabs (IZR c) + y * abs_sum q y)) with (v * v ^ length q * Rabs (IZR c) + v * y * (v ^ length q * abs_sum q y)) by ring. lra.
Qed.

Lemma abs_sum_mono : forall p x y, Rabs x <= y -> abs_sum p x <= abs_sum p y.
Proof.
  intros p x y H. induction p as [|c q IH]; [unfold abs_sum, zeval; cbn; lra|]. rewrite !abs_sum_cons. pose proof (Rabs_pos x).
  rewrite (Rabs_pos_eq y) by lra. apply Rplus_le_compat_l, Rmult_le_compat; [lra|apply abs_sum_nonneg|lra|exact IH].
Qed.

Lemma cond_2exp_tight : forall p b, is_finite b = true -> (exists x, inb x b /\ 0 < abs_sum p x) ->
  exists x, inb x b /\ pw2 (cond_2exp p b prec - 1) <= u ^ (3 * length p) * abs_sum p x.
Proof.
  intros p [m r|] Hf (x0 & Hx & H0); [|discriminate]. pose proof (inb_rad _ _ _ Hx) as Hr. pose proof u1 as U.
  assert (Np : p <> []) by (intros ->; unfold abs_sum, zeval in H0; cbn in H0; lra).
  assert (W : exists x, inb x (Fin m r) /\ Rabs x = Rabs (dyv m) + dyv r).
  { destruct (Rle_dec 0 (dyv m)) as [P|P].
    - exists (dyv m + dyv r). split; [|rewrite !Rabs_pos_eq; lra]. unfold inb. replace (dyv m + dyv r - dyv m) with (dyv r) by ring. rewrite Rabs_pos_eq; lra.
    - exists (dyv m - dyv r). split; [|rewrite !Rabs_left1; lra]. unfold inb. replace (dyv m - dyv r - dyv m) with (- dyv r) by ring. rewrite Rabs_Ropp, Rabs_pos_eq; lra. }
  destruct W as (x & Ix & Ex). exists x. split; [exact Ix|].
  unfold cond_2exp, abs_ubound. pose proof (Rabs_pos (dyv m)) as M0.
  pose proof (dround_up RUp prec (dadd (dabs m) r) ltac:(lia)) as A. rewrite dyv_add, dyv_abs in A. specialize (A ltac:(lra)). rewrite <- Ex in A.
  pose proof (abs_ubound_spec (Fin m r) prec _ x0 ltac:(lia) eq_refl Hx) as A'. set (a := dround RUp prec (dadd (dabs m) r)) in *.
  destruct (cond_sum_le p a ltac:(lra) Np) as [C0 C1].
  pose proof (cond_sum_ge prec (/ 2) ltac:(lia) ltac:(lra) p a x0 A' (proj1 (cond_lead (last p 0%Z) a prec Hp)) Np) as Lo.
  assert (Nz : fst (cond_sum p a prec) <> 0%Z) by (intros E; apply dyv_eq0 in E; lra).
  destruct (dexp_spec _ Nz) as [D _]. rewrite Rabs_pos_eq in D by lra.
  eapply Rle_trans; [exact D|]. eapply Rle_trans; [exact C1|].
  replace (3 * length p)%nat with (2 * length p + length p)%nat by lia. rewrite pow_add, Rmult_assoc. apply Rmult_le_compat_l; [apply pow_le; lra|].
  apply Rle_trans with (abs_sum p (u * Rabs x)).
  - apply abs_sum_mono. rewrite Rabs_pos_eq by lra. lra.
  - eapply Rle_trans; [apply abs_sum_scale; [exact U|apply Rabs_pos]|]. right. f_equal. unfold abs_sum. rewrite Rabs_Rabsolu. reflexivity.
Qed.

End Tight.
