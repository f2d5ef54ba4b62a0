(** Specification for fields made with a callback. *)
Require Import Reals List ZArith.
From Verif Require Import PolyR RootSpec Dyadic ArbModel ArbSpec StrModel CxxModel.
Open Scope R_scope.

(** The balls read at the precisions p0, 2 p0, ..., 2^k p0: all of them hold the root
    [x] and have radius at most [w] or hold another root as well; the last one has
    radius at most [w] and holds everything close to [x], as measured by [c] and the
    precision. *)
Definition closing_in (read : str -> Z -> option ball) (emb : Z -> exc str) (pol : list Z) (x w c : R) (p0 : Z) (k : nat) (balls : nat -> ball) : Prop :=
  (forall j, (j <= k)%nat -> exists s, emb (p0 * 2 ^ Z.of_nat j)%Z = Ret s /\ read s (p0 * 2 ^ Z.of_nat j)%Z = Some (balls j) /\
     is_finite (balls j) = true /\ inb x (balls j) /\ (rad_le (balls j) w \/ exists y, inb y (balls j) /\ zeval pol y = 0 /\ y <> x)) /\
  rad_le (balls k) w /\ forall y, Rabs (y - x) <= c * pw2 (- (2 * (p0 * 2 ^ Z.of_nat k))) -> inb y (balls k).
