(** Fields of no root, see PropertiesEmb.v. *)
Require Import Reals List ZArith Bool Lia Lra.
From Verif Require Import PolyR RootSpec RootModel VcaProofs ExtraModel Dyadic DyadicProofs ArbModel ArbSpec DyBall ArbRefute EmbModel.
Import ListNotations.
Open Scope R_scope.

(** (2^67 x - 2^67 - 16)^2 - 2. *)
Definition wrong_pol : list Z := [(2 ^ 67 + 16) * (2 ^ 67 + 16) - 2; - (2 * (2 ^ 67 + 16) * 2 ^ 67); 2 ^ 67 * 2 ^ 67]%Z.

Lemma wrong_eval : forall x, zeval wrong_pol x = (IZR (2 ^ 67) * x - IZR (2 ^ 67) - 16) * (IZR (2 ^ 67) * x - IZR (2 ^ 67) - 16) - 2.
Proof.
  intros x. unfold zeval, wrong_pol. cbn [map peval]. rewrite minus_IZR, opp_IZR, !mult_IZR, plus_IZR. ring.
Qed.

Lemma square_two : forall n d, (0 < d)%Z -> (n * n = 2 * d * d)%Z -> False.
Proof.
  intros n d Hd. revert n. generalize Hd. apply (Z_lt_induction (fun d => (0 < d)%Z -> forall n, (n * n = 2 * d * d)%Z -> False)); [|lia]. clear d Hd.
  intros d IH Hd n E.
  assert (En : Z.even n = true).
  { assert (X : Z.even (n * n) = true) by (rewrite E, <- Z.mul_assoc, Z.even_mul; reflexivity). rewrite Z.even_mul in X. destruct (Z.even n); [reflexivity|discriminate X]. }
  apply Z.even_spec in En. destruct En as [m ->].
  assert (E2 : (d * d = 2 * m * m)%Z) by lia.
  assert (Ed : Z.even d = true).
  { assert (X : Z.even (d * d) = true) by (rewrite E2, <- Z.mul_assoc, Z.even_mul; reflexivity). rewrite Z.even_mul in X. destruct (Z.even d); [reflexivity|discriminate X]. }
  apply Z.even_spec in Ed. destruct Ed as [e ->].
  apply (IH e ltac:(lia) ltac:(lia) m). lia.
Qed.

Lemma wrong_irrational : forall n d, (0 < d)%Z -> zeval wrong_pol (IZR n / IZR d) <> 0.
Proof.
  intros n d Hd E. rewrite wrong_eval in E. pose proof (IZR_lt _ _ Hd) as Hd'. set (P := (2 ^ 67)%Z) in *.
  apply (square_two (P * n - P * d - 16 * d)%Z d Hd). apply eq_IZR. rewrite !mult_IZR, !minus_IZR, !mult_IZR.
  assert (X : (IZR P * (IZR n / IZR d) - IZR P - 16) * IZR d = IZR P * IZR n - IZR P * IZR d - 16 * IZR d) by (field; lra).
  rewrite <- X. transitivity ((IZR P * (IZR n / IZR d) - IZR P - 16) * (IZR P * (IZR n / IZR d) - IZR P - 16) * (IZR d * IZR d)); [ring|].
  replace ((IZR P * (IZR n / IZR d) - IZR P - 16) * (IZR P * (IZR n / IZR d) - IZR P - 16)) with 2 by lra. ring.
Qed.

Lemma embedding_wrong : exists p fuel nf, (forall n d, (0 < d)%Z -> zeval p (IZR n / IZR d) <> 0) /\ length p = 3%nat /\
  (exists ints, isolate 0 fuel p = VDone [] ints /\ length ints = 2%nat) /\
  set_embeddings dyops true 0 fuel p 1 64 = Val ([nf], 2%Z) /\ forall x, inb x (f_emb nf) -> zeval p x <> 0.
Proof.
  eexists wrong_pol, 500%nat, _. split; [exact wrong_irrational|]. split; [reflexivity|].
  split; [eexists; split; vm_compute; reflexivity|]. split; [vm_compute; reflexivity|].
  intros x H E. cbn [f_emb inb dyv] in H. rewrite wrong_eval in E. unfold dyv in H. cbn [fst snd] in H.
  change (-67)%Z with (- (67))%Z in H. rewrite pw2_neg_IZR in H by lia.
  change 147573952589676412932%Z with (2 ^ 67 + 4)%Z in H. rewrite plus_IZR in H.
  assert (Q : 0 < IZR (2 ^ 67)) by (apply IZR_lt; reflexivity). set (P := IZR (2 ^ 67)) in *. clearbody P.
  assert (B : Rabs (P * x - P - 4) <= 4).
  { replace (P * x - P - 4) with (P * (x - (P + 4) * / P)) by (field; lra). rewrite Rabs_mult, (Rabs_pos_eq P) by lra.
    apply Rmult_le_reg_r with (/ P); [apply Rinv_0_lt_compat, Q|].
    replace (P * Rabs (x - (P + 4) * / P) * / P) with (Rabs (x - (P + 4) * / P)) by (field; lra). exact H. }
  unfold Rabs in B; destruct (Rcase_abs _) in B; nra.
Qed.

(** (16 x - 19)^3 + (16 x - 19) - 1 at 4 bits. *)
Definition coarse_pol : list Z := [-6879; 17344; -14592; 4096]%Z.
Lemma coarse_eval : forall x, zeval coarse_pol x = (16 * x - 19) * (16 * x - 19) * (16 * x - 19) + (16 * x - 19) - 1.
Proof. intros x. unfold zeval, coarse_pol. cbn [map peval]. ring. Qed.

Lemma cubic_odd : forall n d, (0 < d)%Z -> (n * n * n + n * d * d = d * d * d)%Z -> False.
Proof.
  intros n d Hd. revert n. generalize Hd. apply (Z_lt_induction (fun d => (0 < d)%Z -> forall n, (n * n * n + n * d * d = d * d * d)%Z -> False)); [|lia]. clear d Hd.
  intros d IH Hd n E.
  assert (X : Z.even (n * n * n + n * d * d) = Z.even (d * d * d)) by (rewrite E; reflexivity).
  rewrite Z.even_add, !Z.even_mul in X. destruct (Z.even n) eqn:En, (Z.even d) eqn:Ed; try discriminate X.
  apply Z.even_spec in En, Ed. destruct En as [m ->], Ed as [e ->]. apply (IH e ltac:(lia) ltac:(lia) m). lia.
Qed.

Lemma coarse_irrational : forall n d, (0 < d)%Z -> zeval coarse_pol (IZR n / IZR d) <> 0.
Proof.
  intros n d Hd E. rewrite coarse_eval in E. pose proof (IZR_lt _ _ Hd) as Hd'.
  apply (cubic_odd (16 * n - 19 * d)%Z d Hd). apply eq_IZR. rewrite plus_IZR, !mult_IZR, !minus_IZR, !mult_IZR.
  set (y := 16 * (IZR n / IZR d) - 19) in *. assert (X : 16 * IZR n - 19 * IZR d = y * IZR d) by (unfold y; field; lra). rewrite X.
  transitivity ((y * y * y + y) * (IZR d * IZR d * IZR d)); [ring|]. replace (y * y * y + y) with 1 by lra. ring.
Qed.

Lemma embeddings_coarse : exists p fuel nf, (forall n d, (0 < d)%Z -> zeval p (IZR n / IZR d) <> 0) /\ length p = 4%nat /\
  set_embeddings dyops true 0 fuel p 3 4 = Val ([nf], 1%Z) /\ forall x, inb x (f_emb nf) -> zeval p x <> 0.
Proof.
  eexists coarse_pol, 200%nat, _. split; [exact coarse_irrational|]. split; [reflexivity|]. split; [vm_compute; reflexivity|].
  intros x H E. cbn [f_emb inb dyv] in H. rewrite coarse_eval in E. unfold dyv in H. cbn [fst snd] in H.
  change (-7)%Z with (- (7))%Z in H. rewrite pw2_neg_IZR in H by lia. change (2 ^ 7)%Z with 128%Z in H.
  assert (-1 <= 16 * x - 19 <= 0) by (unfold Rabs in H; destruct (Rcase_abs _) in H; lra).
  set (y := 16 * x - 19) in *. clearbody y. nra.
Qed.
