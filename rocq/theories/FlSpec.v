(** How FLINT computes with balls, as far as needed to run the routines on
    concrete inputs: arb_add_fmpz, arb_mul, arb_mul_fmpz and arb_set_interval_arf round the
    midpoint towards zero (ARB_RND) and add at most an ulp to the radius if this
    is not exact, and radii are too large by a factor of at most 1+2^-16 (mag_t
    has 30 bits); arb_div_fmpz is right up to a few ulps.  Nothing is said about the representation of the numbers. *)
Require Import Reals ZArith.
From Verif Require Import RootSpec Dyadic ArbModel ArbSpec.
Open Scope R_scope.

Definition slack : R := 65537 / 65536.

(** [b] is made from the exact midpoint [v] and the propagated error [e]. *)
Definition made (p : Z) (v : dy) (e : R) (b : ball) : Prop :=
  exists m r, b = Fin m r /\ dyv m = dyv (dround RDown p v) /\ 0 <= dyv r /\
    dyv r <= slack * (e + Rabs (dyv v) * pw2 (1 - p)) /\ (dyv m = dyv v -> dyv r <= slack * e).

Record arb_fl (o : arbops) : Prop := {
  fl_add_z : forall m r n p, (2 <= p)%Z -> 0 <= dyv r -> made p (dadd m (dz n)) (dyv r) (o_add_z o (Fin m r) n p);
  fl_mul : forall m r n s p, (2 <= p)%Z -> 0 <= dyv r -> 0 <= dyv s ->
    made p (dmul m n) (dyv r * dyv s + (Rabs (dyv m) * dyv s + Rabs (dyv n) * dyv r)) (o_mul o (Fin m r) (Fin n s) p);
  fl_mul_z : forall m r n p, (2 <= p)%Z -> 0 <= dyv r -> made p (dmul m (dz n)) (Rabs (IZR n) * dyv r) (o_mul_z o (Fin m r) n p);
  fl_interval : forall l r p, (2 <= p)%Z -> dyv l <= dyv r -> made p (d2exp (dadd l r) (-1)) ((dyv r - dyv l) / 2) (o_set_interval o l r p);
  (** A quotient of midpoints is within a few ulps. *)
  fl_div_z : forall m r n p, (2 <= p)%Z -> 0 <= dyv r -> (0 < n)%Z -> exists m' r', o_div_z o (Fin m r) n p = Fin m' r' /\
    Rabs (dyv m' - dyv m / IZR n) <= Rabs (dyv m / IZR n) * pw2 (3 - p) /\ 0 <= dyv r' <= 2 * (dyv r / IZR n + Rabs (dyv m / IZR n) * pw2 (3 - p));
  (** Only that little is added to the intersection. *)
  fl_inter : forall m r n s p lo hi, (2 <= p)%Z -> 0 <= dyv r -> 0 <= dyv s ->
    lo = Rmax (dyv m - dyv r) (dyv n - dyv s) -> hi = Rmin (dyv m + dyv r) (dyv n + dyv s) -> lo <= hi ->
    let d := (hi - lo) / 65536 + 8 * Rmax (Rabs lo) (Rabs hi) * pw2 (- p) in
    exists m' r', o_inter o (Fin m r) (Fin n s) p = Fin m' r' /\ 0 <= dyv r' /\ lo - d <= dyv m' - dyv r' /\ dyv m' + dyv r' <= hi + d
}.
