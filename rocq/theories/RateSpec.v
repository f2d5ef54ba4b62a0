(** Rates of convergence of the ball operations, used only for statements about
    the refinement of small balls. *)
Require Import Reals ZArith.
From Verif Require Import RootSpec Dyadic ArbModel ArbSpec.
Open Scope R_scope.

(** Operands bounded by [M] known up to errors [e], [d] at most 1 give a result
    known up to a multiple of these errors and of the rounding error; for a
    quotient the error of the denominator counts only as far as the numerator
    differs from zero.  Intervals and intersections become balls at most an
    eighth too large. *)
Record arb_rate (o : arbops) : Prop := {
  rt_add_z : forall M, 1 <= M -> exists C, 0 < C /\ forall a x n e p, (2 <= p)%Z -> inb x a -> Rabs x <= M -> Rabs (IZR n) <= M ->
    rad_le a e -> e <= 1 -> rad_le (o_add_z o a n p) (C * (e + pw2 (- p)));
  rt_sub : forall M, 1 <= M -> exists C, 0 < C /\ forall a b x y e d p, (2 <= p)%Z -> inb x a -> inb y b -> Rabs x <= M -> Rabs y <= M ->
    rad_le a e -> rad_le b d -> e <= 1 -> d <= 1 -> rad_le (o_sub o a b p) (C * (e + d + pw2 (- p)));
  rt_mul : forall M, 1 <= M -> exists C, 0 < C /\ forall a b x y e d p, (2 <= p)%Z -> inb x a -> inb y b -> Rabs x <= M -> Rabs y <= M ->
    rad_le a e -> rad_le b d -> e <= 1 -> d <= 1 -> rad_le (o_mul o a b p) (C * (e + d + pw2 (- p)));
  rt_div : forall M, 1 <= M -> exists C, 0 < C /\ forall a b x y e d p, (2 <= p)%Z -> inb x a -> inb y b -> Rabs x <= M -> 1 / M <= Rabs y <= M ->
    rad_le a e -> rad_le b d -> e <= 1 -> d <= 1 / (4 * M) -> rad_le (o_div o a b p) (C * (e + Rabs x * d + pw2 (- p)));
  rt_interval : forall M, 1 <= M -> exists C, 0 < C /\ forall l r p, (2 <= p)%Z -> - M <= dyv l -> dyv l <= dyv r -> dyv r <= M ->
    rad_le (o_set_interval o l r p) (9 / 8 * ((dyv r - dyv l) / 2) + C * pw2 (- p));
  rt_inter : forall M, 1 <= M -> exists C, 0 < C /\ forall a b x e p, (2 <= p)%Z -> inb x a -> inb x b -> Rabs x <= M ->
    rad_le a e -> e <= 1 -> rad_le (o_inter o a b p) (9 / 8 * e + C * pw2 (- p))
}.
