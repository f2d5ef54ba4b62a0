(** Radii of evaluated polynomials. *)
Require Import Reals List ZArith Bool Lia Lra Psatz.
From Verif Require Import PolyR RootSpec RootModel ExtraModel ElemProofs VcaProofs Dyadic DyadicProofs ArbModel ArbSpec ArbProofs FieldProofs FlSpec.
Import ListNotations.
Open Scope R_scope.

Lemma slack_pow1 : forall n, 1 <= slack ^ n.
Proof. intros n. apply pow_R1_Rle. unfold slack. lra. Qed.

Lemma made_bound : forall p v e b, (2 <= p)%Z -> made p v e b -> exists m r, b = Fin m r /\ Rabs (dyv m) <= Rabs (dyv v) /\ 0 <= dyv r /\
  dyv r <= slack * (e + Rabs (dyv v) * pw2 (1 - p)).
Proof.
  intros p v e b Hp (m & r & E & Em & R0 & R1 & _). exists m, r. split; [exact E|]. split; [|split; assumption].
  destruct (dround_spec RDown p v ltac:(lia)) as (A & _ & B & C). rewrite <- Em in A, B, C. cbn [rnd_le] in A.
  exact A.
Qed.

Lemma deriv_go_cons : forall p n X, (0 <= n)%Z -> abs_sum (zderiv_go (n + 1) p) X = abs_sum p X + abs_sum (zderiv_go n p) X.
Proof.
  intros p. induction p as [|c p IH]; intros n X Hn; cbn [zderiv_go].
  - unfold abs_sum. cbn [map]. rewrite zeval_nil. ring.
  - rewrite !abs_sum_cons, IH by lia. rewrite <- !abs_IZR, !Z.abs_mul, (Z.abs_eq n), (Z.abs_eq (n + 1)) by lia. rewrite !mult_IZR, plus_IZR. ring.
Qed.

Lemma go_zero : forall p X, abs_sum (zderiv_go 0 p) X = Rabs X * abs_sum (zderiv p) X.
Proof.
  intros [|c p] X; unfold zderiv; cbn [zderiv_go tl].
  - unfold abs_sum. cbn [map]. rewrite zeval_nil. ring.
  - rewrite abs_sum_cons, Z.mul_0_l, Rabs_R0. change (0 + 1)%Z with 1%Z. ring.
Qed.

Lemma abs_sum_deriv : forall c p X, abs_sum (zderiv (c :: p)) X = abs_sum p X + Rabs X * abs_sum (zderiv p) X.
Proof. intros c p X. unfold zderiv at 1. cbn [tl]. change 1%Z with (0 + 1)%Z. rewrite deriv_go_cons by lia. rewrite go_zero. reflexivity. Qed.

Section Eval.
Variable o : arbops.
Hypothesis Hf : arb_fl o.

Lemma eval_fine : forall p m r X q, (2 <= q)%Z -> 0 <= dyv r -> Rabs (dyv m) + dyv r <= X ->
  exists n s, eval_arb o p (Fin m r) q = Fin n s /\ Rabs (dyv n) <= abs_sum p X /\ 0 <= dyv s /\
    dyv s <= slack ^ (2 * length p) * (abs_sum (zderiv p) X * dyv r + 2 * INR (length p) * abs_sum p X * pw2 (1 - q)).
Proof.
  intros p m r X q Hq Hr HX. pose proof (Rabs_pos (dyv m)) as M0. assert (X0 : 0 <= X) by lra.
  induction p as [|c p (n & s & E & N & S0 & S1)].
  - cbn [eval_arb]. exists (dz 0), (dz 0). split; [reflexivity|]. rewrite !dyv_dz. unfold abs_sum. cbn [map length zderiv zderiv_go tl]. rewrite !zeval_nil, Rabs_R0. simpl. lra.
  - cbn [eval_arb]. rewrite E. set (t := pw2 (1 - q)) in *. assert (T0 : 0 < t) by apply pw2_pos.
    destruct (made_bound _ _ _ _ Hq (fl_mul o Hf n s m r q Hq S0 Hr)) as (n1 & s1 & -> & N1 & S2 & S3). fold t in S3.
    destruct (made_bound _ _ _ _ Hq (fl_add_z o Hf n1 s1 c q Hq S2)) as (n2 & s2 & -> & N2 & S4 & S5). fold t in S5.
    exists n2, s2. split; [reflexivity|]. rewrite dyv_mul, Rabs_mult in N1, S3. rewrite dyv_add, dyv_dz in N2, S5.
    set (S' := abs_sum p X) in *. assert (HS' : 0 <= S') by apply abs_sum_nonneg.
    set (A' := abs_sum (zderiv p) X) in *. assert (HA' : 0 <= A') by apply abs_sum_nonneg.
    set (k := INR (length p)) in *. assert (K0 : 0 <= k) by apply pos_INR.
    rewrite abs_sum_cons, abs_sum_deriv, (Rabs_pos_eq X X0). fold S' A'.
    assert (Q1 : Rabs (dyv n) * Rabs (dyv m) <= S' * X) by (apply Rmult_le_compat; try apply Rabs_pos; lra).
    assert (Q2 : Rabs (dyv n1 + IZR c) <= Rabs (IZR c) + X * S') by (eapply Rle_trans; [apply Rabs_triang|]; lra).
    split; [lra|]. split; [exact S4|].
    set (Sc := Rabs (IZR c) + X * S') in *. pose proof (Rabs_pos (IZR c)) as C0.
    assert (XS : 0 <= X * S') by (apply Rmult_le_pos; lra).
    (* the product *)
    assert (B1 : dyv s1 <= slack * (X * dyv s + S' * dyv r + X * S' * t)).
    { eapply Rle_trans; [exact S3|]. apply Rmult_le_compat_l; [unfold slack; lra|].
      assert (dyv s * dyv r + Rabs (dyv m) * dyv s <= X * dyv s) by (replace (dyv s * dyv r + Rabs (dyv m) * dyv s) with ((Rabs (dyv m) + dyv r) * dyv s) by ring; apply Rmult_le_compat_r; lra).
      assert (Rabs (dyv n) * dyv r <= S' * dyv r) by (apply Rmult_le_compat_r; lra).
      assert (Rabs (dyv n) * Rabs (dyv m) * t <= S' * X * t) by (apply Rmult_le_compat_r; lra). lra. }
    (* the sum *)
    assert (B2 : dyv s2 <= slack * (slack * (X * dyv s + S' * dyv r + X * S' * t) + Sc * t)).
    { eapply Rle_trans; [exact S5|]. apply Rmult_le_compat_l; [unfold slack; lra|]. apply Rplus_le_compat; [exact B1|]. apply Rmult_le_compat_r; lra. }
    cbn [length]. rewrite S_INR. fold k. replace (2 * S (length p))%nat with (2 + 2 * length p)%nat by lia. rewrite pow_add.
    set (L := slack ^ (2 * length p)) in *. assert (HL : 1 <= L) by apply slack_pow1.
    assert (SL : 1 <= slack) by (unfold slack; lra).
    assert (W1 : X * dyv s <= L * (X * (A' * dyv r + 2 * k * S' * t))).
    { replace (L * (X * (A' * dyv r + 2 * k * S' * t))) with (X * (L * (A' * dyv r + 2 * k * S' * t))) by ring. apply Rmult_le_compat_l; lra. }
    assert (Sr : 0 <= S' * dyv r) by (apply Rmult_le_pos; lra). assert (XSt : 0 <= X * S' * t) by (apply Rmult_le_pos; lra).
    assert (Sct : 0 <= Sc * t) by (apply Rmult_le_pos; [unfold Sc|]; lra).
    assert (W2 : X * dyv s + S' * dyv r + X * S' * t <= L * (X * (A' * dyv r + 2 * k * S' * t) + S' * dyv r + X * S' * t)).
    { assert (1 * (S' * dyv r + X * S' * t) <= L * (S' * dyv r + X * S' * t)) by (apply Rmult_le_compat_r; lra). lra. }
    assert (W3 : Sc * t <= slack * (L * (Sc * t))).
    { assert (1 * (Sc * t) <= slack * L * (Sc * t)) by (apply Rmult_le_compat_r; [exact Sct|]; rewrite <- (Rmult_1_l 1); apply Rmult_le_compat; lra). lra. }
    eapply Rle_trans; [exact B2|].
    apply Rle_trans with (slack * (slack * (L * (X * (A' * dyv r + 2 * k * S' * t) + S' * dyv r + X * S' * t)) + slack * (L * (Sc * t)))).
    { apply Rmult_le_compat_l; [lra|]. apply Rplus_le_compat; [apply Rmult_le_compat_l; lra|exact W3]. }
    replace (slack ^ 2) with (slack * slack) by ring.
    replace (slack * (slack * (L * (X * (A' * dyv r + 2 * k * S' * t) + S' * dyv r + X * S' * t)) + slack * (L * (Sc * t)))) with
      (slack * slack * L * ((S' + X * A') * dyv r + (2 * k * (X * S') + X * S' + Sc) * t)) by ring.
    apply Rmult_le_compat_l; [apply Rmult_le_pos; [apply Rmult_le_pos; lra|lra]|]. apply Rplus_le_compat_l. apply Rmult_le_compat_r; [lra|].
    assert (2 * k * (X * S') <= 2 * k * Sc) by (apply Rmult_le_compat_l; [lra|unfold Sc; lra]). unfold Sc in *. lra.
Qed.
End Eval.
