(** A refinement that never ends. *)
Require Import Reals List ZArith Bool Lia Lra.
From Verif Require Import PolyR RootSpec RootModel VcaProofs ExtraModel Dyadic DyadicProofs ArbModel ArbSpec ArbProofs DyBall DyBallProofs
  ElemModel ElemSpec ElemProofs NfArith NfArithProofs RateSpec DyRate EndsSpec EndsProofs RefineProofs RefineEnds EndsGetd.
Import ListNotations.
Open Scope R_scope.

(** * The square root of two *)
Definition sq_pol : list Z := [-2; 0; 1]%Z.

Lemma sq_descent : forall u v, (u * u = 2 * (v * v))%Z -> v = 0%Z.
Proof.
  intros u v. remember (Z.abs_nat v) as k eqn:Ek. revert u v Ek. induction k as [k IH] using lt_wf_ind. intros u v Ek E.
  destruct (Z.eq_dec v 0) as [|Nv]; [assumption|exfalso].
  assert (He : forall w, Z.even (w * w) = true -> exists w', w = (2 * w')%Z).
  { intros w Hw. rewrite Z.even_mul, orb_diag in Hw. apply Z.even_spec in Hw. destruct Hw as [w' ->]. exists w'. reflexivity. }
  destruct (He u) as (u' & ->); [rewrite E, Z.even_mul; reflexivity|].
  destruct (He v) as (v' & ->); [replace (v * v)%Z with (2 * (u' * u'))%Z by lia; rewrite Z.even_mul; reflexivity|].
  assert (v' = 0%Z); [|lia]. apply (IH (Z.abs_nat v')) with (u := u'); [lia|reflexivity|lia].
Qed.

Lemma sq_minimal : forall z, z * z = 2 -> minimal sq_pol z.
Proof.
  intros z Hz. constructor.
  - unfold zeval, sq_pol. simpl. lra.
  - cbn. lia.
  - cbn. lia.
  - intros p L E. destruct p as [|a [|b [|? ?]]]; [constructor| | |cbn in L; lia]; rewrite !zeval_cons, zeval_nil in E.
    + constructor; [apply eq_IZR; lra|constructor].
    + assert (b = 0%Z).
      { apply (sq_descent a b). apply eq_IZR. rewrite !mult_IZR. assert (Ha : IZR a = - (z * IZR b)) by lra. rewrite Ha.
        replace (- (z * IZR b) * - (z * IZR b)) with (z * z * (IZR b * IZR b)) by ring. rewrite Hz. reflexivity. }
      subst b. constructor; [apply eq_IZR; lra|constructor; [reflexivity|constructor]].
Qed.

Lemma sq_root : exists z, 1 < z < 2 /\ z * z = 2.
Proof.
  destruct (peval_ivt (map IZR sq_pol) 1 2) as (z & Hz & E); [lra|simpl; lra|]. exists z. split; [exact Hz|]. simpl in E. lra.
Qed.

(** * The ball of centre 1.41421509 and radius 2.24996948 *)
Definition stuck_ball : ball := Fin (46341, -15)%Z (603971584, -28)%Z.
Definition stuck (i : Z) : renf := {| f_pol := sq_pol; f_den := 1; f_emb := stuck_ball; f_prec := 64; f_imm := i |}%Z.

Lemma stuck_loop : forall fuel i, refine_loop dyops fuel (stuck i) 64 16 = Fuel.
Proof.
  induction fuel as [|fuel IH]; intros i; [reflexivity|]. cbn [refine_loop].
  change (rel_accuracy (f_emb (stuck i)) <? 64)%Z with true.
  change (f_pol (stuck i)) with sq_pol. change (f_emb (stuck i)) with stuck_ball.
  assert (En : newton_step dyops sq_pol (zderiv sq_pol) stuck_ball 16 = Val (false, None)) by (vm_compute; reflexivity).
  assert (Eb : bisection_step dyops sq_pol stuck_ball 16 = Val (true, Some stuck_ball)) by (vm_compute; reflexivity).
  rewrite En. cbn [bind]. rewrite Eb. cbn [bind]. change (with_emb (stuck i) stuck_ball) with (stuck i).
  assert (Ec : comp_prec (stuck i) 32 = Val 16%Z) by (vm_compute; reflexivity).
  rewrite Ec. cbn [bind]. apply IH.
Qed.

Lemma stuck_refine : forall debug fuel, refine dyops debug fuel (stuck 0) 64 = Fuel.
Proof.
  intros debug fuel. assert (Ec : forall i, comp_prec (stuck i) (Z.max (f_prec (stuck i)) 64) = Val 16%Z) by (intros i; vm_compute; reflexivity).
  unfold refine. destruct debug.
  - unfold set_immutable. change (with_imm (stuck 0) 1) with (stuck 1). change (f_imm (stuck 0) =? 0)%Z with true. cbv iota beta.
    rewrite Ec. cbn [bind]. rewrite stuck_loop. reflexivity.
  - rewrite Ec. cbn [bind]. apply stuck_loop.
Qed.

Lemma stuck_unique : forall fuel, check_unique dyops (8 + fuel) sq_pol stuck_ball 64 = Val true.
Proof. intros fuel. vm_compute. reflexivity. Qed.

Lemma stuck_init : exists pol a x, minimal pol x /\ inb x a /\ (forall y, inb y a -> zeval pol y = 0 -> y = x) /\
  forall debug fuel, (8 <= fuel)%nat -> check_unique dyops fuel pol a 64 = Val true /\ renf_init dyops debug fuel pol 1 a 64 = Fuel.
Proof.
  destruct sq_root as (z & Hz & E). exists sq_pol, stuck_ball, z. split; [apply sq_minimal, E|].
  assert (Hin : forall y, inb y stuck_ball <-> -1 * (0.83575439453125) <= y <= 3.66418457031250).
  { intros y. unfold inb, stuck_ball, dyv. cbn [fst snd]. unfold pw2. cbn [powerRZ].
    replace (2 ^ Pos.to_nat 15) with 32768 by (change (Pos.to_nat 15) with 15%nat; simpl; lra).
    replace (2 ^ Pos.to_nat 28) with 268435456 by (change (Pos.to_nat 28) with 28%nat; simpl; lra).
    split; intros H; [apply Rabs_le_inv2 in H|apply Rabs_le]; lra. }
  split; [apply Hin; lra|]. split.
  - intros y Hy Zy. apply Hin in Hy. unfold sq_pol in Zy. rewrite !zeval_cons, zeval_nil in Zy.
    assert (Q : (y - z) * (y + z) = 0) by lra. apply Rmult_integral in Q. destruct Q; lra.
  - intros debug fuel Hf. replace fuel with (8 + (fuel - 8))%nat by lia. split; [apply stuck_unique|].
    unfold renf_init. rewrite stuck_unique. cbn [bind]. change (Nat.eqb (length sq_pol) 2) with false. cbv iota. apply stuck_refine.
Qed.

(** * Small balls exist *)
Lemma small_ball_exists : forall x r0, 0 < r0 -> exists m r, inb x (Fin m r) /\ dyv r <= r0.
Proof.
  intros x r0 H0. destruct (pw2_neg_small r0 H0) as (P & HP). set (k := Z.max P 0). specialize (HP k ltac:(lia)).
  destruct (archimed (x * pw2 k)) as [A B]. set (c := up (x * pw2 k)) in *.
  exists (c, - k)%Z, (1, - k)%Z. unfold inb, dyv. cbn [fst snd]. pose proof (pw2_inv k) as I. pose proof (pw2_pos k). pose proof (pw2_pos (- k)). split; [|lra].
  replace (x - IZR c * pw2 (- k)) with (- ((IZR c - x * pw2 k) * pw2 (- k))).
  2:{ rewrite Rmult_minus_distr_r, Rmult_assoc, (Rmult_comm (pw2 k)), I. ring. }
  rewrite Rabs_Ropp, Rabs_pos_eq; [apply Rmult_le_compat_r; lra|apply Rmult_le_pos; lra].
Qed.
