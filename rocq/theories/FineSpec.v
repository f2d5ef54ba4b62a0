(** Subtraction and division of balls in FLINT, beside the operations of FlSpec.v:
    arb_sub rounds the midpoint towards zero, and arb_div adds an upper bound of the
    propagated error, computed with 30 bits, and a few ulps; arb_set_fmpq is right up
    to a few ulps. *)
Require Import Reals ZArith List.
From Verif Require Import RootSpec Dyadic PolyR ExtraModel ArbModel ArbSpec FlSpec.
Open Scope R_scope.

Record arb_fine (o : arbops) : Prop := {
  fi_sub : forall m r n s p, (2 <= p)%Z -> 0 <= dyv r -> 0 <= dyv s -> made p (dsub m n) (dyv r + dyv s) (o_sub o (Fin m r) (Fin n s) p);
  fi_div : forall m r n s p, (2 <= p)%Z -> 0 <= dyv r -> 0 <= dyv s < Rabs (dyv n) -> exists m' r', o_div o (Fin m r) (Fin n s) p = Fin m' r' /\
    0 <= dyv r' <= 2 * ((dyv r * Rabs (dyv n) + Rabs (dyv m) * dyv s) / ((Rabs (dyv n) - dyv s) * Rabs (dyv n)) + Rabs (dyv m / dyv n) * pw2 (3 - p));
  fi_set_q : forall n d p, (2 <= p)%Z -> (0 < d)%Z -> exists m r, o_set_q o n d p = Fin m r /\
    Rabs (dyv m - IZR n / IZR d) <= Rabs (IZR n / IZR d) * pw2 (3 - p) /\ 0 <= dyv r <= 2 * (Rabs (IZR n / IZR d) * pw2 (3 - p))
}.

(** * Radii small enough for the refinement of the embedding

    [L] bounds the growth of the radii in an evaluation; below lengths of 20000 it is
    less than 2. *)
Definition growth (pol : list Z) : R := slack ^ (2 * length pol).

(** The root [x] and its neighbourhood of radius [4 * r0] are bounded by [X]; the
    slope of the polynomial at [x] is large compared with the changes of the slope
    and with the rounding errors in this neighbourhood. *)
Record margin (pol : list Z) (x X r0 : R) : Prop := {
  mg_pos : 0 < r0;
  mg_bound : Rabs x + 4 * r0 <= X;
  mg_slope : 1024 * growth pol * abs_sum (zderiv (zderiv pol)) X * r0 <= Rabs (zeval (zderiv pol) x);
  mg_round : 65536 * growth pol * INR (length pol) * abs_sum pol X * r0 <= Rabs (zeval (zderiv pol) x) * (x * x);
  mg_terms : INR (length pol) * r0 <= Rabs x
}.

(** The precision [prec] suffices to test balls with the root at a distance of at least [mu] from their ends. *)
Record enough (pol : list Z) (x X r0 mu : R) (prec : Z) : Prop := {
  en_bits : (2 <= prec)%Z;
  en_pos : 0 < mu;
  en_ends : X * pw2 (1 - prec) <= r0;
  en_sign : 64 * growth pol * INR (length pol) * abs_sum pol X * pw2 (1 - 2 * prec) <= Rabs (zeval (zderiv pol) x) * mu
}.
