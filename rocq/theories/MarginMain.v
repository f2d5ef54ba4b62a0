(** The theorems on explicit radii, and the square root of 2. *)
Require Import Reals List ZArith Bool Lia Lra Psatz.
From Verif Require Import PolyR RootSpec RootModel ExtraModel VcaProofs Dyadic DyadicProofs ArbModel ArbSpec ArbProofs FieldProofs RefineProofs
  ElemModel ElemSpec ElemProofs EndsSpec EndsProofs EndsRefute RefineEnds EndsMain DefSpec ToolsProofs CreateSpec CreateProofs CreateMain FlSpec FineSpec Margin MarginMake.
Import ListNotations.
Open Scope R_scope.

Lemma margin_creates : forall o pol x X r0, arb_ok o -> arb_fl o -> arb_fine o -> minimal pol x -> (3 <= length pol)%nat -> margin pol x X r0 ->
  forall debug den m r mu prec, enough pol x X r0 mu prec -> mu <= x - (dyv m - dyv r) -> mu <= dyv m + dyv r - x -> dyv r <= r0 ->
  (exists f0, forall fuel, (f0 <= fuel)%nat -> check_unique o fuel pol (Fin m r) prec = Val true) /\
  answers (fun fuel => renf_init o debug fuel pol den (Fin m r) prec) (embedded pol den x prec) (word_overflow o pol (Fin m r)).
Proof.
  intros o pol x X r0 Ho Hf Hg Hm Hdeg Hmg debug den m r mu prec En H1 H2 Hr.
  destruct (margin_init o pol x X r0 Ho Hf Hg Hm Hdeg Hmg debug den m r mu prec En H1 H2 Hr) as [A B]. split; [exact A|].
  eapply answers_weaken; [exact B| |auto]. intros nf. apply made_embedded. exact (margin_apart pol x X r0 Hm Hdeg Hmg).
Qed.

Lemma margin_sets : forall o n pol x X r0, arb_ok o -> arb_fl o -> arb_fine o -> minimal pol x -> (3 <= length pol)%nat -> nf_ok pol x n ->
  margin pol x X r0 -> setting o n pol x (fun a => rad_le a r0).
Proof. intros o n pol x X r0 Ho Hf Hg Hm Hdeg Hn Hmg. exact (margin_setting o pol x X r0 Ho Hf Hg Hm Hdeg Hmg n Hn). Qed.

Lemma margin_refines : forall o pol x X r0, arb_ok o -> arb_fl o -> arb_fine o -> minimal pol x -> (3 <= length pol)%nat -> margin pol x X r0 ->
  forall debug nf prec, f_pol nf = pol -> inb x (f_emb nf) -> rad_le (f_emb nf) r0 -> (2 <= f_prec nf)%Z -> f_imm nf = 0%Z ->
  exists fuel0 r, (forall fuel, (fuel0 <= fuel)%nat -> refine o debug fuel nf prec = r) /\
    ((exists nf', r = Val nf' /\ inb x (f_emb nf') /\ rad_le (f_emb nf') r0 /\ (prec <= rel_accuracy (f_emb nf'))%Z) \/
     (r = Undef /\ word_overflow o pol (f_emb nf))).
Proof. exact margin_refine. Qed.

Lemma margin_ends : forall o n pol x X r0, arb_ok o -> arb_conv o -> arb_fl o -> arb_fine o -> minimal pol x -> (3 <= length pol)%nat -> nf_ok pol x n ->
  margin pol x X r0 -> forall debug nf m l, field_ok pol x (fun a => rad_le a r0) nf -> mem_ok pol x m -> Forall (call_ok pol) l -> Forall modest l ->
  ends (fun fuel => runs o n debug fuel nf m l).
Proof. intros o n pol x X r0 Ho Hc Hf Hg Hm Hdeg Hn Hmg debug nf m l. intros. apply (margin_histories o pol x X r0); assumption. Qed.

(** * Every field has such a radius *)
Lemma small_factor : forall a b, 0 < b -> exists r, 0 < r <= 1 /\ forall t, 0 <= t <= r -> a * t <= b.
Proof.
  intros a b Hb. pose proof (Rabs_pos a) as A. exists (b / (Rabs a + b)). assert (D : 0 < Rabs a + b) by lra. split.
  - split; [apply Rdiv_lt_0_compat; lra|]. apply Rmult_le_reg_r with (Rabs a + b); [lra|]. unfold Rdiv. rewrite Rmult_assoc, Rinv_l; lra.
  - intros t [T0 T1]. apply Rle_trans with (Rabs a * t); [apply Rmult_le_compat_r; [exact T0|apply Rle_abs]|].
    apply Rle_trans with (Rabs a * (b / (Rabs a + b))); [apply Rmult_le_compat_l; assumption|].
    replace (Rabs a * (b / (Rabs a + b))) with (b * (Rabs a / (Rabs a + b))) by (field; lra).
    apply Rle_trans with (b * 1); [|lra]. apply Rmult_le_compat_l; [lra|]. apply Rmult_le_reg_r with (Rabs a + b); [lra|]. unfold Rdiv. rewrite Rmult_assoc, Rinv_l; lra.
Qed.

Lemma margin_exists : forall pol x, minimal pol x -> (3 <= length pol)%nat -> exists X r0, margin pol x X r0 /\
  forall mu, 0 < mu -> exists P, forall prec, (P <= prec)%Z -> enough pol x X r0 mu prec.
Proof.
  intros pol x Hm Hdeg. pose proof (Rabs_pos_lt _ (D_nonzero pol x Hm)) as HD. pose proof (x_nonzero pol x Hm Hdeg) as Hx0. pose proof (Rabs_pos_lt _ Hx0) as Hx.
  set (X := Rabs x + 4). set (Dx := Rabs (zeval (zderiv pol) x)). change (0 < Dx) in HD.
  destruct (small_factor (1024 * growth pol * abs_sum (zderiv (zderiv pol)) X) Dx HD) as (r1 & R1 & H1).
  assert (Hxx : 0 < Dx * (x * x)) by (apply Rmult_lt_0_compat; [exact HD|]; nra).
  destruct (small_factor (65536 * growth pol * INR (length pol) * abs_sum pol X) (Dx * (x * x)) Hxx) as (r2 & R2 & H2).
  destruct (small_factor (INR (length pol)) (Rabs x) Hx) as (r3 & R3 & H3).
  set (r0 := Rmin r1 (Rmin r2 r3)).
  assert (A : 0 < r0 /\ r0 <= r1 /\ r0 <= r2 /\ r0 <= r3).
  { unfold r0. pose proof (Rmin_l r1 (Rmin r2 r3)). pose proof (Rmin_r r1 (Rmin r2 r3)). pose proof (Rmin_l r2 r3). pose proof (Rmin_r r2 r3).
    split; [|split; [|split]]; try lra. apply Rmin_glb_lt; [lra|]. apply Rmin_glb_lt; lra. }
  exists X, r0. split.
  - split; [lra|unfold X; lra|apply H1; lra|apply H2; lra|apply H3; lra].
  - intros mu Hmu. destruct (small_factor (X * 2) r0 ltac:(lra)) as (t1 & T1 & G1).
    destruct (small_factor (64 * growth pol * INR (length pol) * abs_sum pol X * 2) (Dx * mu) (Rmult_lt_0_compat _ _ HD Hmu)) as (t2 & T2 & G2).
    destruct (pw2_neg_small t1 ltac:(lra)) as (P1 & Q1). destruct (pw2_neg_small t2 ltac:(lra)) as (P2 & Q2).
    exists (Z.max 2 (Z.max P1 P2)). intros prec Hp. pose proof (pw2_pos (- prec)). pose proof (pw2_pos (- (2 * prec))).
    assert (E : forall q, pw2 (1 - q) = 2 * pw2 (- q)) by (intros q; replace (1 - q)%Z with (1 + - q)%Z by lia; rewrite pw2_add, pw2_1; reflexivity).
    split; [lia|exact Hmu| |]; rewrite E.
    + rewrite <- Rmult_assoc. apply G1. specialize (Q1 prec ltac:(lia)). lra.
    + rewrite <- Rmult_assoc. apply G2. specialize (Q2 (2 * prec)%Z ltac:(lia)). lra.
Qed.

(** * The square root of 2 *)
Lemma sq_margin : exists z, 0 < z /\ z * z = 2 /\ margin sq_pol z (3 / 2) (/ IZR (2 ^ 20)) /\ enough sq_pol z (3 / 2) (/ IZR (2 ^ 20)) (/ IZR (2 ^ 22)) 64.
Proof.
  destruct sq_root as (z & Hz & E). exists z. split; [lra|]. split; [exact E|].
  assert (Z0 : 1.41421356 <= z <= 1.41421357) by nra.
  assert (Az : Rabs z = z) by (apply Rabs_pos_eq; lra).
  assert (G : growth sq_pol <= 2) by (unfold growth, slack; cbn [length sq_pol Nat.mul Nat.add pow]; lra).
  assert (G0 : 0 <= growth sq_pol) by (unfold growth, slack; apply pow_le; lra).
  assert (P0 : abs_sum sq_pol (3 / 2) = 17 / 4) by (unfold abs_sum, zeval, sq_pol; rewrite (Rabs_pos_eq (3 / 2)) by lra; cbn; lra).
  assert (P2 : abs_sum (zderiv (zderiv sq_pol)) (3 / 2) = 2) by (unfold abs_sum, zeval, sq_pol; rewrite (Rabs_pos_eq (3 / 2)) by lra; cbn; lra).
  assert (P1 : Rabs (zeval (zderiv sq_pol) z) = 2 * z) by (unfold zeval, sq_pol; cbn; rewrite Rabs_pos_eq; lra).
  assert (N : INR (length sq_pol) = 3) by (simpl; lra).
  change (2 ^ 20)%Z with 1048576%Z. change (2 ^ 22)%Z with 4194304%Z. split.
  - split; rewrite ?P0, ?P1, ?P2, ?N, ?Az, ?E; lra.
  - split; rewrite ?P0, ?P1, ?N; [lia|lra| |].
    + assert (pw2 (1 - 64) <= pw2 (-30)) by (apply pw2_le; lia). assert (pw2 (-30) = / 1073741824) by (change (pw2 (-30)) with (/ (2 ^ 30)); f_equal; simpl; lra). lra.
    + assert (A : pw2 (1 - 2 * 64) <= pw2 (-60)) by (apply pw2_le; lia). assert (B : pw2 (-60) = / IZR (2 ^ 60)) by (change (pw2 (-60)) with (/ (2 ^ 60)); f_equal; simpl; lra).
      change (2 ^ 60)%Z with 1152921504606846976%Z in B. pose proof (pw2_pos (1 - 2 * 64)). 
      assert (64 * growth sq_pol * 3 * (17 / 4) * pw2 (1 - 2 * 64) <= 64 * 2 * 3 * (17 / 4) * (/ 1152921504606846976)).
      { apply Rmult_le_compat; lra. }
      lra.
Qed.

Lemma sq_creates : forall o debug, arb_ok o -> arb_fl o -> arb_fine o -> exists z, z * z = 2 /\
  answers (fun fuel => renf_init o debug fuel sq_pol 1 (Fin (1482910, -20) (1, -20))%Z 64) (embedded sq_pol 1 z 64) (word_overflow o sq_pol (Fin (1482910, -20) (1, -20))%Z).
Proof.
  intros o debug Ho Hf Hg. destruct sq_margin as (z & Hz & E & M & En). exists z. split; [exact E|].
  assert (Z0 : 1.41421356 <= z <= 1.41421357) by nra.
  assert (V : dyv (1482910, -20)%Z = 1482910 / 1048576 /\ dyv (1, -20)%Z = / 1048576) by (unfold dyv, pw2; simpl; split; lra). destruct V as [V1 V2].
  apply (margin_creates o sq_pol z (3 / 2) (/ IZR (2 ^ 20)) Ho Hf Hg (sq_minimal z E) ltac:(cbn; lia) M debug 1%Z _ _ (/ IZR (2 ^ 22)) 64%Z En); rewrite ?V1, ?V2; [lra..|].
  change (2 ^ 20)%Z with 1048576%Z. lra.
Qed.
