(** Property C78: evaluation of polynomials in floating point numbers and balls, on
    objects in memory of which the result may be the argument.  [m i] is the value of
    the object [i], [tmp] the new object of the functions, which is cleared before they
    return. *)
Require Import Reals List ZArith Bool Lia Lra.
From Verif Require Import PolyR RootSpec RootModel VcaProofs Dyadic DyadicProofs ArbModel ArbSpec ArbProofs DyBall DyBallProofs EvalModel EvalSpec EvalProofs.
Import ListNotations.
Open Scope R_scope.

(** C78: the relative error is that of two roundings per coefficient. *)
Theorem C78_arf : forall prec tmp res a p m, (2 <= prec)%Z -> tmp <> res -> tmp <> a ->
  exists m', evaluate_arf prec tmp res a p m = Val m' /\
  Rabs (dyv (m' res) - zeval p (dyv (m a))) <= ((1 + pw2 (- prec)) ^ (2 * length p) - 1) * abs_sum p (dyv (m a)) /\
  forall j, j <> res -> j <> tmp -> m' j = m j.
Proof. exact evaluate_arf_error. Qed.
Print Assumptions C78_arf.

(** From some precision on nothing is rounded. *)
Theorem C78_arf_exact : forall p a, exists P, forall prec tmp res i m, (P <= prec)%Z -> tmp <> res -> tmp <> i -> m i = a ->
  exists m', evaluate_arf prec tmp res i p m = Val m' /\ dyv (m' res) = zeval p (dyv a).
Proof. exact evaluate_arf_exact. Qed.
Print Assumptions C78_arf_exact.

Theorem C78_arf_rational : forall div, div_near div -> forall prec tmp res a p d m, (2 <= prec)%Z -> tmp <> res -> tmp <> a -> d <> 0%Z ->
  exists m', evaluate_q_arf div prec tmp res a p d m = Val m' /\
  Rabs (dyv (m' res) - zeval p (dyv (m a)) / IZR d) <= ((1 + pw2 (- prec)) ^ (2 * length p + 1) - 1) * (abs_sum p (dyv (m a)) / Rabs (IZR d)) /\
  forall j, j <> res -> j <> tmp -> m' j = m j.
Proof. exact evaluate_q_arf_error. Qed.
Print Assumptions C78_arf_rational.

Theorem C78_arb : forall o, arb_ok o -> forall prec tmp res a p m, (2 <= prec)%Z -> tmp <> res -> tmp <> a ->
  exists m', evaluate_arb o prec tmp res a p m = Val m' /\ (forall x, inb x (m a) -> inb (zeval p x) (m' res)) /\
  forall j, j <> res -> j <> tmp -> m' j = m j.
Proof. exact evaluate_arb_ok. Qed.
Print Assumptions C78_arb.

Theorem C78_arb_rational : forall o, arb_ok o -> forall prec tmp res a p d m, (2 <= prec)%Z -> tmp <> res -> tmp <> a -> d <> 0%Z ->
  exists m', evaluate_q_arb o prec tmp res a p d m = Val m' /\ (forall x, inb x (m a) -> inb (zeval p x / IZR d) (m' res)) /\
  forall j, j <> res -> j <> tmp -> m' j = m j.
Proof. exact evaluate_q_arb_ok. Qed.
Print Assumptions C78_arb_rational.

(** The contract of the division can be met. *)
Example C78_division : div_near qdiv.
Proof. exact qdiv_near. Qed.

(** x^2 - x - 1 at 13/8 is 1/64, also when the result is the argument; with four bits
    it becomes 0. *)
Definition get {A} (r : out (nat -> A)) (i : nat) : out A := bind r (fun m => Val (m i)).
Definition fig : nat -> dy := fun i => match i with O => (13, -3)%Z | S _ => (7, 0)%Z end.
Example C78_case : get (evaluate_arf 20 9 0 0 [-1; -1; 1]%Z fig) 0 = Val (8, -9)%Z /\
  get (evaluate_arf 20 9 1 0 [-1; -1; 1]%Z fig) 1 = Val (8, -9)%Z /\ get (evaluate_arf 20 9 1 0 [-1; -1; 1]%Z fig) 0 = Val (13, -3)%Z /\
  get (evaluate_arf 4 9 1 0 [-1; -1; 1]%Z fig) 1 = Val (0, -3)%Z /\
  get (evaluate_arf 1 9 1 0 [-1; -1; 1]%Z fig) 1 = Undef /\ get (evaluate_q_arf qdiv 20 9 0 0 [-1; -1; 1]%Z 2 fig) 0 = Val (2 ^ 21, -28)%Z.
Proof. vm_compute. repeat split. Qed.
