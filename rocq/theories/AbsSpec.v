(** Polynomials in memory (C85). *)
Require Import List ZArith.
From Verif Require Import AbsModel.

(** The coefficients, and FLINT's invariant: enough is allocated and the leading
    coefficient is not zero. *)
Definition coeffs (q : fpoly) : list Z := firstn (p_len q) (p_cells q).
Definition poly_ok (q : fpoly) : Prop :=
  (p_len q <= length (p_cells q))%nat /\ (p_len q <> 0%nat -> nth (p_len q - 1) (p_cells q) 0%Z <> 0%Z).
