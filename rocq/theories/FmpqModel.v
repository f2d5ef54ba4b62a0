(** Model of the copy of FLINT's fmpq_poly_add_fmpq shipped with e-antic:
    /repo/libeantic/upstream/patched/fmpq_poly_add_fmpq.c.

    The argument may be the result itself; it is copied first (line 24) and the
    parts of it read later are not changed before.  Memory is not modelled. *)
Require Import List ZArith Bool.
From Verif Require Import ExtraModel ArbModel ElemModel.
Import ListNotations.
Open Scope Z_scope.

(** FLINT [_fmpq_add] (external): the sum of a/b and c/d in lowest terms. *)
Definition fmpq_sum (a b c d : Z) : Z * Z :=
  let n := a * d + c * b in
  let g := Z.gcd n (b * d) in
  (n / g, b * d / g).

(** fmpz_add (res->coeffs + 0, res->coeffs + 0, v), fmpz_addmul. *)
Definition add_first (p : list Z) (v : Z) : list Z :=
  match p with a :: q => a + v :: q | [] => [] end.

(** fmpq_poly_set_fmpq, and line 30: a zero constant has length 0. *)
Definition constant (a b : Z) : elem := {| e_num := if a =? 0 then [] else [a]; e_den := b |}.

(** Lines 14-102 for the fraction [n]/[d]. *)
Definition add_fmpq (p : elem) (n d : Z) : elem :=
  match e_num p with
  | [] => constant n d                                                   (* 18-22 *)
  | [c] => let '(a, b) := fmpq_sum c (e_den p) n d in constant a b       (* 26-32 *)
  | num =>
      if e_den p =? d then                                               (* 34-55 *)
        let num := add_first num n in
        if d =? 1 then {| e_num := num; e_den := d |}
        else if Z.gcd d (hd 0 num) =? 1 then {| e_num := num; e_den := d |}
        else if content num =? 1 then {| e_num := num; e_den := d |}
        else
          let g := Z.gcd (content num) d in
          {| e_num := div_content g num; e_den := d / g |}
      else
        let g := if negb (e_den p =? 1) && negb (d =? 1) then Z.gcd (e_den p) d else 1 in   (* 57-61 *)
        if g =? 1 then                                                   (* 63-68 *)
          {| e_num := add_first (map (fun c => c * d) num) (n * e_den p); e_den := e_den p * d |}
        else                                                             (* 70-99 *)
          let den11 := e_den p / g in
          let den22 := d / g in
          let num := add_first (map (fun c => c * den22) num) (n * den11) in
          let e := content num in
          let e := if e =? 1 then e else Z.gcd e g in
          if e =? 1 then {| e_num := num; e_den := e_den p * den22 |}
          else {| e_num := div_content e num; e_den := e_den p / e * den22 |}
  end.
