(** Model of the conversion of elements to double:
    /repo/libeantic/src/renf_elem/get_d.c, and of the hash of elements,
    /repo/libeantic/srcxx/renf_elem_class.cpp:1404-1407.

    Doubles are IEEE 754 binary64; the two zeros are identified, as by the
    comparison of line 138 of get_d.c and by std::hash<double>. *)
Require Import List ZArith Bool.
From Verif Require Import Dyadic ArbModel ElemModel.
Import ListNotations.
Open Scope Z_scope.

(** A finite double, or infinity with its sign ([true]: negative). *)
Inductive dbl := DF (d : dy) | DInf (neg : bool).
Definition dbl_eqb (a b : dbl) : bool :=
  match a, b with
  | DF x, DF y => deqb x y
  | DInf s, DInf t => Bool.eqb s t
  | _, _ => false
  end.

Definition dbl_max : dy := (2 ^ 53 - 1, 971).     (* DBL_MAX *)

(** Rounding of the fraction n/d, 0 < d, to an integer. *)
Definition rz (md : rnd) (n d : Z) : Z :=
  let lo := n / d in
  let hi := - ((- n) / d) in
  match md with
  | RFloor => lo
  | RCeil => hi
  | RDown => if 0 <=? n then lo else hi
  | RUp => if 0 <=? n then hi else lo
  | RNear =>
      match 2 * (n mod d) ?= d with
      | Lt => lo
      | Gt => lo + 1
      | Eq => if Z.even lo then lo else lo + 1
      end
  end.

(** Rounding of n/d to a multiple of 2^q. *)
Definition rz_at (md : rnd) (n d q : Z) : dy :=
  (if 0 <=? q then rz md n (d * 2 ^ q) else rz md (n * 2 ^ (- q)) d, q).

(** The [e] with 2^(e-1) <= |n/d| < 2^e, for n nonzero. *)
Definition q_exp (n d : Z) : Z :=
  let k := Z.log2 (Z.abs n) - Z.log2 d in
  if (if 0 <=? k then Z.abs n <? d * 2 ^ k else Z.abs n * 2 ^ (- k) <? d) then k else k + 1.

(** arf_set_fmpq: correct rounding to [prec] bits. *)
Definition round_q (md : rnd) (n d prec : Z) : dy :=
  if n =? 0 then dz 0 else rz_at md n d (q_exp n d - prec).

(** arf_get_d: correct rounding, also when underflow or overflow occurs (arf.h). *)
Definition overflow (md : rnd) (neg : bool) : dbl :=
  let big := DF (if neg then dneg dbl_max else dbl_max) in
  match md with
  | RNear | RUp => DInf neg
  | RDown => big
  | RFloor => if neg then DInf neg else big
  | RCeil => if neg then big else DInf neg
  end.
Definition arf_get_d (md : rnd) (d : dy) : dbl :=
  if fst d =? 0 then DF (dz 0)
  else
    let q := Z.max (dexp d - 53) (-1074) in
    let r := (if snd d <? q then rz md (fst d) (2 ^ (q - snd d)) else dat d q, q) in
    if dleb (dabs r) dbl_max then DF r else overflow md (fst d <? 0).

(** arf_bits: bits of the mantissa without trailing zeros; 0 for special values. *)
Definition odd_bits (m : Z) : Z := if m =? 0 then 0 else zbits m - Z.log2 (Z.land m (- m)).
Definition mid_bits (b : ball) : Z := match b with Fin m _ => odd_bits (fst m) | Top => 0 end.

Definition UINT_MAX : Z := 2 ^ 32 - 1.
Definition dbl_max_z : Z := (2 ^ 53 - 1) * 2 ^ 971.   (* fmpz_set_d (DBL_MAX) *)

Section Getd.
Variable o : arbops.
Variable n : nfops.
Variable debug : bool.

(** Lines 23-43: new field, new element, 1, -1 or 0.  [depth] bounds the
    recursion of line 39. *)
Fixpoint overflows (depth : nat) (fuel : nat) (nf : renf) (x : relem) : out (renf * relem * Z) :=
  match depth with
  | O => Fuel
  | S k =>
      bind (sgn o debug fuel nf x) (fun '(nf, b, s) =>
        let x := {| r_elem := r_elem x; r_emb := b |} in
        if 0 <=? s then
          bind (cmp_q o n debug fuel nf x UINT_MAX 1) (fun '(nf, b, c) =>
            let x := {| r_elem := r_elem x; r_emb := b |} in
            if c <=? 0 then Val (nf, x, 0)
            else
              bind (cmp_q o n debug fuel nf x dbl_max_z 1) (fun '(nf, b, c) =>
                Val (nf, {| r_elem := r_elem x; r_emb := b |}, if 0 <? c then 1 else 0)))
        else
          bind (overflows k fuel nf {| r_elem := n_neg n (r_elem x); r_emb := bneg b |}) (fun '(nf, x, v) =>
            Val (nf, {| r_elem := n_neg n (r_elem x); r_emb := bneg (r_emb x) |}, - v)))
  end.

(** Lines 74-77. *)
Definition reduce_rnd (fuel : nat) (nf : renf) (x : relem) (md : rnd) : out (renf * relem * rnd) :=
  match md with
  | RUp => bind (sgn o debug fuel nf x) (fun '(nf, b, s) =>
             Val (nf, {| r_elem := r_elem x; r_emb := b |}, if 0 <? s then RCeil else RFloor))
  | RDown => bind (sgn o debug fuel nf x) (fun '(nf, b, s) =>
             Val (nf, {| r_elem := r_elem x; r_emb := b |}, if 0 <? s then RFloor else RCeil))
  | _ => Val (nf, x, md)
  end.

(** Lines 113-118. *)
Fixpoint accuracy_loop (fuel : nat) (nf : renf) (a : elem) (b : ball) (prec : Z) : out (renf * ball) :=
  match fuel with
  | O => Fuel
  | S f =>
      if rel_accuracy b <? 55 then
        bind (refine o debug f nf (2 * prec)) (fun nf' =>
        bind (set_evaluation o nf' a (2 * prec)) (fun b' =>
        accuracy_loop f nf' a b' (2 * prec)))
      else Val (nf, b)
  end.

(** Lines 132-144.  The two ends of an infinite ball never convert to equal
    doubles. *)
Fixpoint double_loop (md : rnd) (fuel : nat) (nf : renf) (a : elem) (b : ball) (prec : Z) : out (renf * ball * dbl) :=
  match fuel with
  | O => Fuel
  | S f =>
      let again :=
        bind (refine o debug f nf (2 * prec)) (fun nf' =>
        bind (set_evaluation o nf' a (2 * prec)) (fun b' =>
        double_loop md f nf' a b' (2 * prec))) in
      match interval b prec with
      | Some (l, u) =>
          let d := arf_get_d md l in
          if dbl_eqb (arf_get_d md u) d then Val (nf, b, d) else again
      | None => again
      end
  end.

(** Lines 45-151: new field, new element (line 39 negates it twice), double. *)
Definition get_d (fuel : nat) (nf : renf) (x : relem) (md : rnd) : out (renf * relem * dbl) :=
  if is_zero (r_elem x) then Val (nf, x, DF (dz 0))
  else if is_rational (r_elem x) then
    Val (nf, x, arf_get_d md (round_q md (nth 0 (e_num (r_elem x)) 0) (e_den (r_elem x)) 53))
  else
    let prec := f_prec nf in
    bind (reduce_rnd fuel nf x md) (fun '(nf, x, md) =>
    bind (overflows 2 fuel nf x) (fun '(nf, x, v) =>
      if v =? 1 then Val (nf, x, DInf false)
      else if v =? -1 then Val (nf, x, DInf true)
      else
        let a := r_elem x in
        bind (if rel_accuracy (r_emb x) <? 55 then
                bind (if 2 * mid_bits (r_emb x) <? prec then set_evaluation o nf a prec else Val (r_emb x)) (fun b =>
                accuracy_loop fuel nf a b prec)
              else Val (nf, r_emb x)) (fun '(nf, b) =>
        bind (double_loop md fuel nf a b (Z.max (f_prec nf) (rel_accuracy b))) (fun '(nf, b, d) =>
          Val (nf, {| r_elem := a; r_emb := b |}, d))))).

(** The argument of std::hash<double>, renf_elem_class.cpp:1406 with the
    conversion of renf_elem_class.cpp:904-907 (rounding to nearest). *)
Definition hash_key (fuel : nat) (nf : renf) (x : relem) : out (renf * relem * dbl) := get_d fuel nf x RNear.
End Getd.
