(** Dyadic numbers m * 2^e as pairs of integers: the values of FLINT's [arf_t]
    (finite ones) and [mag_t], with the rounding modes of [arf_set_round]. *)
Require Import ZArith List Bool.
Open Scope Z_scope.

Definition dy := (Z * Z)%type.

(** Mantissa of [d] at the exponent [e <= snd d]. *)
Definition dat (d : dy) (e : Z) : Z := Z.shiftl (fst d) (snd d - e).

Definition dz (n : Z) : dy := (n, 0).
Definition dneg (a : dy) : dy := (- fst a, snd a).
Definition dabs (a : dy) : dy := (Z.abs (fst a), snd a).
Definition dadd (a b : dy) : dy :=
  let e := Z.min (snd a) (snd b) in (dat a e + dat b e, e).
Definition dsub (a b : dy) : dy := dadd a (dneg b).
Definition dmul (a b : dy) : dy := (fst a * fst b, snd a + snd b).
Definition d2exp (a : dy) (k : Z) : dy := (fst a, snd a + k).

Definition dleb (a b : dy) : bool :=
  let e := Z.min (snd a) (snd b) in dat a e <=? dat b e.
Definition dltb (a b : dy) : bool := negb (dleb b a).
Definition deqb (a b : dy) : bool := dleb a b && dleb b a.
Definition dsgn (a : dy) : Z := Z.sgn (fst a).

(** Number of bits of the mantissa. *)
Definition zbits (m : Z) : Z := if m =? 0 then 0 else Z.log2 (Z.abs m) + 1.

(** [ARF_EXP]: the [e] with 2^(e-1) <= |d| < 2^e; 0 for zero. *)
Definition dexp (d : dy) : Z := if fst d =? 0 then 0 else zbits (fst d) + snd d.

(** arf.h rounding modes. *)
Inductive rnd := RDown | RUp | RFloor | RCeil | RNear.

(** Rounding of m / 2^s to an integer, [0 < s]. *)
Definition zround (md : rnd) (m s : Z) : Z :=
  let q := Z.shiftr m s in
  let c := - Z.shiftr (- m) s in
  let r := m - Z.shiftl q s in
  match md with
  | RFloor => q
  | RCeil => c
  | RDown => if 0 <=? m then q else c
  | RUp => if 0 <=? m then c else q
  | RNear =>
      match 2 * r ?= 2 ^ s with
      | Lt => q
      | Gt => q + 1
      | Eq => if Z.even q then q else q + 1
      end
  end.

(** [arf_set_round]: rounding to [prec] bits. *)
Definition dround (md : rnd) (prec : Z) (d : dy) : dy :=
  let s := zbits (fst d) - prec in
  if s <=? 0 then d else (zround md (fst d) s, snd d + s).

(** [arf_floor] and [arf_ceil]. *)
Definition dfloor (d : dy) : Z :=
  if 0 <=? snd d then fst d * 2 ^ snd d else Z.shiftr (fst d) (- snd d).
Definition dceil (d : dy) : Z := - dfloor (dneg d).
