(** Specification of the division used by EvalModel.v. *)
Require Import Reals ZArith.
From Verif Require Import RootSpec Dyadic.
Open Scope R_scope.

(** arf_div_fmpz, as far as it is used here: the relative error of rounding to nearest. *)
Definition div_near (div : dy -> Z -> Z -> dy) : Prop := forall x d prec, (2 <= prec)%Z -> d <> 0%Z ->
  Rabs (dyv (div x d prec) - dyv x / IZR d) <= pw2 (- prec) * Rabs (dyv x / IZR d).
