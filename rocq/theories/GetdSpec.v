(** Correct rounding of real numbers to doubles. *)
Require Import Reals ZArith Bool.
From Verif Require Import RootSpec Dyadic GetdModel.
Open Scope R_scope.

(** The real numbers that are finite doubles. *)
Definition is_double (y : R) : Prop :=
  exists m e, (Z.abs m < 2 ^ 53)%Z /\ (-1074 <= e <= 971)%Z /\ y = IZR m * pw2 e.

(** DBL_MAX, and the smallest number that the nearest rounding of IEEE 754 makes
    infinite. *)
Definition MAX : R := IZR (2 ^ 53 - 1) * pw2 971.
Definition LIM : R := pw2 1024 - pw2 970.

(** Largest double below, smallest above. *)
Definition round_floor (v : R) (d : dbl) : Prop :=
  match d with
  | DF x => is_double (dyv x) /\ dyv x <= v /\ forall y, is_double y -> y <= v -> y <= dyv x
  | DInf neg => neg = true /\ forall y, is_double y -> v < y
  end.
Definition round_ceil (v : R) (d : dbl) : Prop :=
  match d with
  | DF x => is_double (dyv x) /\ v <= dyv x /\ forall y, is_double y -> v <= y -> dyv x <= y
  | DInf neg => neg = false /\ forall y, is_double y -> y < v
  end.
(** A nearest double. *)
Definition round_near (v : R) (d : dbl) : Prop :=
  match d with
  | DF x => is_double (dyv x) /\ Rabs v < LIM /\ forall y, is_double y -> Rabs (v - dyv x) <= Rabs (v - y)
  | DInf neg => if neg then v <= - LIM else LIM <= v
  end.
Definition is_round (md : rnd) (v : R) (d : dbl) : Prop :=
  match md with
  | RFloor => round_floor v d
  | RCeil => round_ceil v d
  | RNear => round_near v d
  | RDown => (0 <= v -> round_floor v d) /\ (v <= 0 -> round_ceil v d)
  | RUp => (0 <= v -> round_ceil v d) /\ (v <= 0 -> round_floor v d)
  end.

(** Equality of doubles as values, and their order. *)
Definition dbl_eq (a b : dbl) : Prop :=
  match a, b with
  | DF x, DF y => dyv x = dyv y
  | DInf s, DInf t => s = t
  | _, _ => False
  end.
Definition dbl_le (a b : dbl) : Prop :=
  match a, b with
  | DInf true, _ | _, DInf false => True
  | DF x, DF y => dyv x <= dyv y
  | _, _ => False
  end.

(** Rational numbers. *)
Definition fraction (v : R) : Prop := exists p q, (0 < q)%Z /\ v = IZR p / IZR q.

(** The numbers for which the conversion rounds correctly: not the irrational
    ones beyond DBL_MAX, and not, to nearest, the rational ones below the smallest
    normal double. *)
Definition in_range (md : rnd) (v : R) : Prop :=
  (fraction v -> md = RNear -> v = 0 \/ pw2 (-1022) <= Rabs v) /\ (~ fraction v -> Rabs v <= MAX).
