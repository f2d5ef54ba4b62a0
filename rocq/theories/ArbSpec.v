(** What is assumed of FLINT's ball arithmetic, and the specifications of the
    routines built on it.  Only real numbers occur here. *)
Require Import Reals List ZArith.
From Verif Require Import PolyR RootSpec Dyadic ArbModel.
Import ListNotations.
Open Scope R_scope.

(** The reals in a ball. *)
Definition inb (x : R) (b : ball) : Prop :=
  match b with
  | Fin m r => Rabs (x - dyv m) <= dyv r
  | Top => True
  end.

(** Enclosure contract (documentation of arb.h): the result contains every exact
    result for operands taken from the argument balls.  The precision is at
    least 2 bits. *)
Record arb_ok (o : arbops) : Prop := {
  ok_add : forall a b x y p, (2 <= p)%Z -> inb x a -> inb y b -> inb (x + y) (o_add o a b p);
  ok_sub : forall a b x y p, (2 <= p)%Z -> inb x a -> inb y b -> inb (x - y) (o_sub o a b p);
  ok_mul : forall a b x y p, (2 <= p)%Z -> inb x a -> inb y b -> inb (x * y) (o_mul o a b p);
  ok_div : forall a b x y p, (2 <= p)%Z -> inb x a -> inb y b -> y <> 0 -> inb (x / y) (o_div o a b p);
  ok_add_z : forall a x n p, (2 <= p)%Z -> inb x a -> inb (x + IZR n) (o_add_z o a n p);
  ok_sub_z : forall a x n p, (2 <= p)%Z -> inb x a -> inb (x - IZR n) (o_sub_z o a n p);
  ok_mul_z : forall a x n p, (2 <= p)%Z -> inb x a -> inb (x * IZR n) (o_mul_z o a n p);
  ok_div_z : forall a x n p, (2 <= p)%Z -> inb x a -> n <> 0%Z -> inb (x / IZR n) (o_div_z o a n p);
  ok_inv : forall a x p, (2 <= p)%Z -> inb x a -> x <> 0 -> inb (/ x) (o_inv o a p);
  ok_pow : forall a x n p, (2 <= p)%Z -> (0 <= n)%Z -> inb x a -> inb (x ^ Z.to_nat n) (o_pow o a n p);
  ok_set_q : forall n d p, (2 <= p)%Z -> d <> 0%Z -> inb (IZR n / IZR d) (o_set_q o n d p);
  ok_round : forall a x p, (2 <= p)%Z -> inb x a -> inb x (o_round o a p);
  ok_set_interval : forall l r x p, (2 <= p)%Z -> dyv l <= x <= dyv r -> inb x (o_set_interval o l r p);
  ok_inter : forall a b x p, (2 <= p)%Z -> inb x a -> inb x b -> inb x (o_inter o a b p)
}.

(** Ball [a] is inside ball [b]. *)
Definition subset (a b : ball) : Prop := forall x, inb x a -> inb x b.

(** Sum of the absolute values of the terms of a polynomial. *)
Definition abs_sum (p : list Z) (x : R) : R := zeval (map Z.abs p) (Rabs x).

(** [b] contains exactly one root of [p]. *)
Definition unique_root (p : list Z) (b : ball) : Prop := exists! x, inb x b /\ zeval p x = 0.

(** [x] is the only root of [p] in the interval. *)
Definition only_root (p : list Z) (l r x : R) : Prop :=
  zeval p x = 0 /\ forall y, l <= y <= r -> zeval p y = 0 -> y = x.

Definition simple_root (p : list Z) (x : R) : Prop :=
  zeval p x = 0 /\ peval (pderiv (map IZR p)) x <> 0.

(** * Convergence contract, used only for statements about termination. *)

(** The ball is finite with radius at most [e]. *)
Definition rad_le (b : ball) (e : R) : Prop :=
  match b with Fin _ r => dyv r <= e | Top => False end.

(** The result of an operation at the exact operand values [x], [y] is as sharp
    as wanted if the operand balls are small and the precision is large. *)
Definition conv0 (f : Z -> ball) : Prop :=
  forall e, 0 < e -> exists P, forall p, (P <= p)%Z -> rad_le (f p) e.
Definition conv1 (f : ball -> Z -> ball) (x : R) : Prop :=
  forall e, 0 < e -> exists d P, 0 < d /\ forall a p, (P <= p)%Z ->
    inb x a -> rad_le a d -> rad_le (f a p) e.
Definition conv2 (f : ball -> ball -> Z -> ball) (x y : R) : Prop :=
  forall e, 0 < e -> exists d P, 0 < d /\ forall a b p, (P <= p)%Z ->
    inb x a -> inb y b -> rad_le a d -> rad_le b d -> rad_le (f a b p) e.

Record arb_conv (o : arbops) : Prop := {
  cv_add : forall x y, conv2 (o_add o) x y;
  cv_sub : forall x y, conv2 (o_sub o) x y;
  cv_mul : forall x y, conv2 (o_mul o) x y;
  cv_div : forall x y, y <> 0 -> conv2 (o_div o) x y;
  cv_add_z : forall x n, conv1 (fun a p => o_add_z o a n p) x;
  cv_mul_z : forall x n, conv1 (fun a p => o_mul_z o a n p) x;
  cv_div_z : forall x n, n <> 0%Z -> conv1 (fun a p => o_div_z o a n p) x;
  cv_set_q : forall n d, d <> 0%Z -> conv0 (fun p => o_set_q o n d p)
}.
