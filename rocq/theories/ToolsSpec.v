(** Specifications for C57-C60. *)
Require Import Reals List ZArith Znumtheory.
From Verif Require Import RootSpec Dyadic ArbModel ArbSpec ElemSpec ToolsModel.
Import ListNotations.
Open Scope R_scope.

(** arb_root_ui encloses the n-th roots of the non-negative numbers of a ball, and
    its results get sharp. *)
Definition root_ok (root : ball -> nat -> Z -> ball) : Prop :=
  forall a n p y, (1 <= n)%nat -> (2 <= p)%Z -> 0 <= y -> inb (y ^ n) a -> inb y (root a n p).
Definition root_conv (root : ball -> nat -> Z -> ball) : Prop :=
  forall n y, (1 <= n)%nat -> 0 < y -> conv1 (fun a p => root a n p) (y ^ n).

(** Coefficient i of a product. *)
Definition conv_coeff (a b : list Z) (i : nat) : Z :=
  fold_right Z.add 0%Z (map (fun j => (nth j a 0 * nth (i - j) b 0)%Z) (seq 0 (S i))).

(** [q] is not the product of two polynomials of lower degree, modulo [c]. *)
Definition irreducible_mod (c : Z) (q : list Z) : Prop :=
  forall a b, (2 <= length a)%nat -> (2 <= length b)%nat -> (length a + length b = length q + 1)%nat ->
  ~ (forall i, (c | conv_coeff a b i - nth i q 0)%Z).

(** No multiple of [p] by an integer other than zero is the product of two
    polynomials of lower degree: [p] is irreducible over the rational numbers. *)
Definition irreducible (p : list Z) : Prop :=
  forall k a b, k <> 0%Z -> (2 <= length a)%nat -> (2 <= length b)%nat -> (length a + length b = length p + 1)%nat ->
  ~ (forall i, conv_coeff a b i = (k * nth i p 0)%Z).

(** A draw: a polynomial irreducible modulo a prime, its leading coefficient not
    zero; FLINT takes constants for irreducible. *)
Definition draw_ok (d : draw) : Prop :=
  prime (dr_prime d) /\ irreducible_mod (dr_prime d) (dr_pol d) /\ (0 < last (dr_pol d) 0 < dr_prime d)%Z.
