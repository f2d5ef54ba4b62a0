(** Model of /repo/libeantic/src/fmpz_poly_extra/{descartes_bound_0_1,descartes_bound,
    positive_root_upper_bound_2exp,scale_0_1_fmpq}.c as they are written, with arrays,
    indices and words: an entry outside of an array is undefined, and so is a sum of words
    that is not a word.  The same functions on lists, with unbounded integers, are in
    RootModel.v and ExtraModel.v.  [fmpz] are [Z] as there; indices and counters that only
    count entries of arrays are [nat]. *)
Require Import List ZArith Bool.
From Verif Require Import RootModel ExtraModel ArbModel ArrModel.
Import ListNotations.
Open Scope Z_scope.

Definition word_max : Z := 2 ^ 63 - 1.
Definition word_min : Z := - 2 ^ 63.
(** The value of an expression of type slong. *)
Definition slong (z : Z) : out Z := if (word_min <=? z) && (z <=? word_max) then Val z else Undef.

(** * descartes_bound_0_1.c *)

(** Lines 34-35 and 63-64; the last argument and the result are j + 1. *)
Fixpoint down (t : Z) (q : list Z) (j1 : nat) : out nat :=
  match j1 with
  | O => Val O
  | S j => bind (rd q j) (fun a => if (Z.sgn a =? t) || (Z.sgn a =? 0) then down t q j else Val j1)
  end.

(** Lines 57-61. *)
Fixpoint first_sgn (t : Z) (q : list Z) (j1 : nat) : out (Z * nat) :=
  match j1 with
  | O => Val (t, O)
  | S j => if t =? 0 then bind (rd q j) (fun a => first_sgn (Z.sgn a) q j) else Val (t, j1)
  end.

(** q[j+1] += q[j], lines 46 and 74. *)
Definition add_prev (j : nat) (q : list Z) : out (list Z) := bind (rd q j) (fun a => upd (fun b => b + a) (S j) q).

(** Lines 52-102, with [n] iterations to come; WORD_MAX is [None]. *)
Fixpoint desc_idx_loop (n i deg : nat) (q : list Z) (s : Z) (V : nat) (bound : Z) : out (option nat) :=
  match n with
  | O =>
      bind (rd q 0) (fun a =>
      if s =? - Z.sgn a then if Z.of_nat V =? bound then Val None else Val (Some (S V)) else Val (Some V))
  | S n =>
      bind (first_sgn s q (S (deg - i))) (fun '(t, j1) =>
      bind (down t q j1) (fun j1 =>
      if Nat.eqb j1 0 then Val (Some V)
      else
        bind (times (deg - i) 0 add_prev q) (fun q =>
        bind (rd q (deg - i)) (fun a =>
        if s =? 0 then desc_idx_loop n (S i) deg q (Z.sgn a) V bound
        else if s =? - Z.sgn a then
          if Z.of_nat V =? bound then Val None else desc_idx_loop n (S i) deg q (- s) (S V) bound
        else desc_idx_loop n (S i) deg q s V bound))))
  end.

(** Lines 23-102. *)
Definition desc_idx (p : list Z) (len : nat) (bound : Z) : out (option nat) :=
  match len with
  | O => Undef                                      (* p[-1], line 32 *)
  | S deg =>
      bind (rd p deg) (fun a =>
      bind (down (Z.sgn a) p len) (fun j1 =>
      if Nat.eqb j1 0 then Val (Some O)
      else
        bind (rd p 0) (fun a =>
        bind (wr (repeat 0 len) 0 a) (fun q =>
        bind (times deg 0 (fun j q => bind (rd p (S j)) (fun a => bind (wr q (S j) a) (add_prev j))) q) (fun q =>
        bind (rd q deg) (fun a =>
        desc_idx_loop (deg - 1) 1 deg q (Z.sgn a) 0 bound))))))
  end.

(** * positive_root_upper_bound_2exp.c *)
Section Bound.
Variable flog0 : Z.

(** Lines 51-76 for one j. *)
Definition bound_at (p cs : list Z) (i j : nat) : out Z :=
  bind (rd cs j) (fun b =>
  bind (rd p i) (fun pi => bind (slong (b + clog2 pi)) (fun b =>
  bind (rd p j) (fun pj => bind (slong (b - flog2 flog0 pj)) (fun b =>
  bind (slong (b + Z.of_nat j)) (fun x => bind (slong (x - Z.of_nat i)) (fun x => bind (slong (x - 1)) (fun x =>
  bind (slong (Z.of_nat j - Z.of_nat i)) (fun d =>
  if d =? 0 then Undef else slong (Z.quot x d)))))))))).

(** Lines 51-76, with [n] iterations to come: bmin and jmin. *)
Fixpoint bound_inner (n j i : nat) (p cs : list Z) (b0 bmin jmin : Z) : out (Z * Z) :=
  match n with
  | O => Val (bmin, jmin)
  | S n =>
      bind (bound_at p cs i j) (fun b =>
      if b <? bmin then
        if b <? b0 then Val (b, Z.of_nat j) else bound_inner n (S j) i p cs b0 b (Z.of_nat j)
      else bound_inner n (S j) i p cs b0 bmin jmin)
  end.

(** Lines 46-82; [i1] is i + 1. *)
Fixpoint bound_outer (i1 len : nat) (p : list Z) (sgn : Z) (cs : list Z) (b0 jmin : Z) : out Z :=
  match i1 with
  | O => Val b0
  | S i =>
      bind (rd p i) (fun a =>
      if (Z.sgn a =? 0) || (Z.sgn a =? sgn) then bound_outer i len p sgn cs b0 jmin
      else
        bind (bound_inner (len - S i) (S i) i p cs b0 word_max jmin) (fun '(bmin, jmin) =>
        if jmin <? 0 then Abort
        else bind (bind (rd cs (Z.to_nat jmin)) (fun c => bind (slong (c + 1)) (wr cs (Z.to_nat jmin)))) (fun cs =>
             bound_outer i len p sgn cs (Z.max b0 bmin) jmin)))
  end.

(** Lines 31-88 and 90-93. *)
Definition bound_idx (p : list Z) (len : nat) : out Z :=
  match len with
  | O => Undef                                      (* pol[-1], line 45 *)
  | S deg => bind (rd p deg) (fun a => bound_outer deg len p (Z.sgn a) (repeat 1 len) word_min (-1))
  end.

(** * descartes_bound.c *)

(** Lines 33-34: i0; [n] entries are left. *)
Fixpoint low_idx (n i0 : nat) (p : list Z) : out nat :=
  match n with
  | O => Undef                                      (* behind the last coefficient *)
  | S n => bind (rd p i0) (fun a => if a =? 0 then low_idx n (S i0) p else Val i0)
  end.

(** Lines 44-49 and 56-61: what is added to ret; WORD_MAX is added as such. *)
Definition part_idx (p : list Z) (ret : Z) : out Z :=
  bind (bound_idx p (length p)) (fun k =>
  if k =? word_min then Val ret
  else
    bind (desc_idx (scale2 k p) (length p) (Z.of_nat (length p))) (fun v =>
    slong (ret + match v with Some v => Z.of_nat v | None => word_max end))).

(** Lines 53-54, with the iterations to come. *)
Fixpoint neg_odd (n i : nat) (p : list Z) : out (list Z) :=
  match n with O => Val p | S n => bind (upd Z.opp i p) (neg_odd n (i + 2)) end.

(** Lines 21-65. *)
Definition upper_idx (pol : list Z) : out Z :=
  if forallb (Z.eqb 0) pol then Abort
  else
    bind (low_idx (length pol) 0 pol) (fun i0 =>
    let pol2 := skipn i0 pol in
    bind (part_idx pol2 (Z.of_nat i0)) (fun ret =>
    bind (neg_odd (length pol2 / 2) 1 pol2) (fun pol2 => part_idx pol2 ret))).
End Bound.

(** * scale_0_1_fmpq.c *)

(** Lines 39-43: from i = n - 1 to 0. *)
Fixpoint scale_down (n : nat) (q c : Z) (p : list Z) : out (list Z) :=
  match n with
  | O => Val p
  | S i => let c := c * q in bind (upd (fun a => a * c) i p) (scale_down i q c)
  end.
(** Lines 48-52, with [n] iterations to come. *)
Fixpoint scale_up (n i : nat) (t c : Z) (p : list Z) : out (list Z) :=
  match n with
  | O => Val p
  | S n => let c := c * t in bind (upd (fun a => a * c) i p) (scale_up n (S i) t c)
  end.

(** Lines 16-60; [pol] may be longer than [len].  _fmpz_poly_taylor_shift and
    _fmpz_poly_primitive_part change the first [len] entries. *)
Definition scale_idx (pol : list Z) (len : nat) (a b : fmpq) : out (list Z) :=
  if Nat.leb len 1 then Val pol
  else
    let q := Z.lcm (snd a) (snd b) in
    let t := Z.gcd (snd a) (snd b) in
    let p1 := fst a * snd b in
    let p1 := p1 / t in
    let c := fst b * snd a in
    let c := c / t in
    let t := c - p1 in
    bind (scale_down (len - 1) q 1 pol) (fun pol =>
    let pol := tshift p1 (firstn len pol) ++ skipn len pol in
    bind (scale_up (len - 1) 1 t 1 pol) (fun pol =>
    Val (primitive_part (firstn len pol) ++ skipn len pol))).
