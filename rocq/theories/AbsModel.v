(** Model of fmpz_poly_abs, /repo/libeantic/src/fmpz_poly_extra/abs.c:16-33.

    A polynomial in memory is its allocated coefficients and its length; what is
    stored beyond the length means nothing.  Reading or writing beyond the
    allocated coefficients is undefined.  Objects are told apart by their
    addresses, so that result and operand may be the same object.  Allocation
    succeeds, and coefficients do not share memory. *)
Require Import List ZArith Bool Arith.
From Verif Require Import ArbModel.
Import ListNotations.

Record fpoly := { p_cells : list Z; p_len : nat }.
Definition heap := nat -> fpoly.

Section Abs.
(** FLINT allocates at least what is asked for; [more q n]: coefficients beyond. *)
Variable more : fpoly -> nat -> list Z.

(** fmpz_poly_fit_length (FLINT): new coefficients are zero. *)
Definition fit_length (q : fpoly) (n : nat) : fpoly :=
  if Nat.leb n (length (p_cells q)) then q
  else {| p_cells := p_cells q ++ repeat 0%Z (n - length (p_cells q)) ++ more q n; p_len := p_len q |}.

(** _fmpz_poly_set_length (FLINT): the coefficients dropped lose their memory, those
    that are a word keep their value. *)
Definition demote (z : Z) : Z := if (Z.abs z <? 2 ^ 62)%Z then z else 0%Z.
Definition set_length (q : fpoly) (n : nat) : fpoly :=
  {| p_cells := firstn n (p_cells q) ++ map demote (firstn (p_len q - n) (skipn n (p_cells q))) ++ skipn (Nat.max n (p_len q)) (p_cells q);
     p_len := n |}.

Definition upd_poly (h : heap) (r : nat) (q : fpoly) : heap := fun i => if Nat.eqb i r then q else h i.

(** One coefficient: lines 19-20. *)
Definition abs_at (h : heap) (r p i : nat) : out heap :=
  match nth_error (p_cells (h p)) i with
  | None => Undef
  | Some z =>
      if Nat.ltb i (length (p_cells (h r)))
      then Val (upd_poly h r {| p_cells := firstn i (p_cells (h r)) ++ Z.abs z :: skipn (S i) (p_cells (h r)); p_len := p_len (h r) |})
      else Undef
  end.

(** _fmpz_vec_abs from [i] on, [k] coefficients left: lines 16-21. *)
Fixpoint vec_abs (h : heap) (r p i k : nat) : out heap :=
  match k with
  | O => Val h
  | S k' => bind (abs_at h r p i) (fun h' => vec_abs h' r p (S i) k')
  end.

(** fmpz_poly_abs, lines 23-33. *)
Definition poly_abs (h : heap) (r p : nat) : out heap :=
  let len := p_len (h p) in
  let h := if Nat.eqb r p then h else upd_poly h r (set_length (fit_length (h r) len) len) in
  vec_abs h r p 0 len.
End Abs.
