(** Property C85: absolute values of the coefficients of a polynomial. *)
Require Import Reals List ZArith Lia.
From Verif Require Import PolyR RootSpec ArbModel AbsModel AbsSpec AbsProofs.
Import ListNotations.
Open Scope R_scope.

(** fmpz_poly_abs takes every coefficient to its absolute value, also in place, and
    whatever was allocated or stored for the result before; the operand, unless it
    is the result, and all other polynomials stay as they are. *)
Theorem C85_abs : forall more h r p, poly_ok (h p) -> poly_ok (h r) ->
  exists h', poly_abs more h r p = Val h' /\ poly_ok (h' r) /\ (forall j, j <> r -> h' j = h j) /\
  length (coeffs (h' r)) = length (coeffs (h p)) /\ forall i, nth i (coeffs (h' r)) 0%Z = Z.abs (nth i (coeffs (h p)) 0%Z).
Proof. exact poly_abs_ok. Qed.
Print Assumptions C85_abs.

(** The result bounds the values of the operand. *)
Theorem C85_bound : forall more h r p h', poly_ok (h p) -> poly_ok (h r) -> poly_abs more h r p = Val h' ->
  forall y, Rabs (zeval (coeffs (h p)) y) <= zeval (coeffs (h' r)) (Rabs y).
Proof. exact poly_abs_bound. Qed.
Print Assumptions C85_bound.

(** 3x^2 - 2, a constant with one coefficient allocated, and a longer polynomial. *)
Definition abs_heap : heap := fun i =>
  match i with
  | 0%nat => {| p_cells := [-2; 0; 3; 9]; p_len := 3 |}
  | 1%nat => {| p_cells := [-5]; p_len := 1 |}
  | _ => {| p_cells := [1; -1; 1; - 2 ^ 70; -7]; p_len := 5 |}
  end%Z.
Definition abs_cells (r p : nat) : out (list Z * nat) :=
  bind (poly_abs (fun _ n => repeat 4%Z n) abs_heap r p) (fun h => Val (p_cells (h r), p_len (h r))).

Example C85_case : poly_ok (abs_heap 0%nat) /\ poly_ok (abs_heap 1%nat) /\ poly_ok (abs_heap 2%nat) /\
  abs_cells 0%nat 0%nat = Val ([2; 0; 3; 9]%Z, 3%nat) /\ abs_cells 1%nat 0%nat = Val ([2; 0; 3; 4; 4; 4]%Z, 3%nat) /\
  abs_cells 2%nat 0%nat = Val ([2; 0; 3; 0; -7]%Z, 3%nat).
Proof.
  assert (K : forall i, poly_ok (abs_heap i)) by (intros [|[|i]]; split; cbn; try lia; discriminate).
  split; [apply K|]. split; [apply K|]. split; [apply K|]. repeat split; reflexivity.
Qed.
