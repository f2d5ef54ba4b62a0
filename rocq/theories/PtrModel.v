(** Model of /repo/libeantic/src/fmpq_poly_extra/set_str_pretty.c as it is written, on arrays
    of characters with pointers as indices.  An access outside of an array is undefined.  The
    same functions on the characters before the terminator are in StrModel.v; the functions
    that write strings are in BufModel.v. *)
Require Import List ZArith Bool Ascii.
From Verif Require Import RootModel ArbModel ElemModel StrModel ArrModel.
Import ListNotations.
Open Scope Z_scope.

Definition nul : ascii := zero.
Definition buf := list ascii.

(** What a function of the C library reads from index [x] on, up to the terminator. *)
Fixpoint cstr_go (fuel : nat) (a : buf) (x : nat) : out str :=
  match fuel with
  | O => Undef
  | S f => bind (rd a x) (fun c => if Ascii.eqb c nul then Val [] else bind (cstr_go f a (S x)) (fun s => Val (c :: s)))
  end.
Definition cstr (a : buf) (x : nat) : out str := cstr_go (S (List.length a)) a x.
Definition strlen (a : buf) : out nat := bind (cstr a 0) (fun s => Val (List.length s)).

(** while (f( *x)) x++; every step reads a character, so that the array ends before [fuel]. *)
Fixpoint while (fuel : nat) (f : ascii -> out bool) (a : buf) (x : nat) : out nat :=
  match fuel with
  | O => Undef
  | S n => bind (rd a x) (fun c => bind (f c) (fun b => if b then while n f a (S x) else Val x))
  end.
Definition scan (f : ascii -> out bool) (a : buf) (x : nat) : out nat := while (S (List.length a)) f a x.
Definition blank (c : ascii) : out bool := Val (Ascii.eqb c cblank).

(** ** set_str_pretty.c *)

(** Lines 38-48. *)
Fixpoint signs_buf (fuel : nat) (sign : Z) (a : buf) (x : nat) : out (option (Z * nat)) :=
  match fuel with
  | O => Undef
  | S f =>
      bind (rd a x) (fun c =>
      if Ascii.eqb c nul then Val None
      else if Ascii.eqb c "-" then signs_buf f (- sign) a (S x)
      else if negb (Ascii.eqb c cblank) && negb (Ascii.eqb c "+") then Val (Some (sign, x))
      else signs_buf f sign a (S x))
  end.

(** strncmp(x, var, strlen(var)), and x + strlen(var) if it is 0. *)
Fixpoint prefix_buf (var : str) (a : buf) (x : nat) : out (option nat) :=
  match var with
  | [] => Val (Some x)
  | v :: var => bind (rd a x) (fun c => if Ascii.eqb v c then prefix_buf var a (S x) else Val None)
  end.

(** Lines 118-133. *)
Definition exponent_buf (a : buf) (x : nat) : out (option Z) :=
  bind (rd a x) (fun c =>
  if Ascii.eqb c nul then Val None
  else
    bind (isdigit c) (fun d =>
    if negb d then Val None
    else
      bind (cstr a x) (fun s =>                                   (* strtol *)
      let '(u, _) := span_digits s in
      if long_max <? numval u then Val None
      else
        bind (scan blank a (x + List.length u)) (fun y =>
        bind (rd a y) (fun c => if Ascii.eqb c nul then Val (Some (numval u)) else Val None))))).

(** Lines 98-116. *)
Definition after_var_buf (a : buf) (x : nat) : out (option Z) :=
  bind (rd a x) (fun c =>
  bind (isdigit c) (fun d =>
  if d then exponent_buf a x
  else
    bind (scan blank a x) (fun x =>
    bind (rd a x) (fun c =>
    if Ascii.eqb c nul then Val (Some 1)
    else if negb (Ascii.eqb c "^") then Val None
    else bind (scan blank a (S x)) (exponent_buf a))))).

(** Lines 79-96. *)
Definition star_var_buf (var : str) (a : buf) (x : nat) : out (option Z) :=
  let go (x : nat) := bind (prefix_buf var a x) (fun r => match r with None => Val None | Some x => after_var_buf a x end) in
  bind (rd a x) (fun c =>
  if Ascii.eqb c "*" then
    bind (scan blank a (S x)) (fun x => bind (rd a x) (fun c => if Ascii.eqb c nul then Val None else go x))
  else go x).

Section Parser.
Variable zero_den : Z -> out (option (Z * Z)).

(** Lines 24-134 on the array [w], which is written in lines 57 and 59; [var] is the string
    behind the pointer. *)
Definition monomial_buf (var : str) (w : buf) : out (option (Z * Z * Z) * buf) :=
  bind (scan blank w 0) (fun x =>
  bind (rd w x) (fun c =>
  if Ascii.eqb c nul then Val (None, w)
  else
    bind (signs_buf (S (List.length w)) 1 w x) (fun r =>
    match r with
    | None => Val (None, w)
    | Some (sign, x) =>
        bind (rd w x) (fun c =>
        bind (isdigit c) (fun d =>
        bind (if d then
                bind (scan (fun c => bind (isdigit c) (fun d => Val (d || Ascii.eqb c "/"))) w (S x)) (fun y =>
                bind (rd w y) (fun tmp =>
                bind (wr w y nul) (fun w =>
                bind (cstr w x) (fun s =>
                bind (fmpq_set_str zero_den s) (fun ans =>
                bind (wr w y tmp) (fun w =>
                Val (match ans with None => None | Some q => Some (q, y) end, w)))))))
              else Val (Some ((1, 1), x), w)) (fun '(r, w) =>
        match r with
        | None => Val (None, w)
        | Some ((p, q), x) =>
            let p := if sign =? -1 then - p else p in
            bind (scan blank w x) (fun x =>
            bind (rd w x) (fun c =>
            if Ascii.eqb c nul then Val (Some (p, q, 0), w)
            else
              bind (star_var_buf var w x) (fun k =>
              Val (match k with None => None | Some k => Some (p, q, k) end, w))))
        end)))
    end))).

(** str_is_varname, lines 136-151. *)
Fixpoint alnum_buf (fuel : nat) (v : buf) (x : nat) : out bool :=
  match fuel with
  | O => Undef
  | S f =>
      bind (rd v x) (fun c =>
      if Ascii.eqb c nul then Val true
      else bind (isalnum c) (fun b => if negb b && negb (Ascii.eqb c "_") then Val false else alnum_buf f v (S x)))
  end.
Definition varname_buf (v : buf) : out bool :=
  bind (rd v 0) (fun c => bind (isalpha c) (fun b => if b || Ascii.eqb c "_" then alnum_buf (S (List.length v)) v 1 else Val false)).

(** strncpy(z, a + x, n), from index [i] of [z] on: after a terminator the rest is filled
    with terminators. *)
Fixpoint strncpy (n : nat) (a : buf) (x i : nat) (z : buf) : out buf :=
  match n with
  | O => Val z
  | S n' =>
      bind (rd a x) (fun c =>
      if Ascii.eqb c nul then times n i (fun i z => wr z i nul) z
      else bind (wr z i c) (strncpy n' a (S x) (S i)))
  end.

(** Lines 169-198. *)
Fixpoint set_str_buf_loop (fuel : nat) (var : str) (p : elem) (a : buf) (start : nat) (z : buf) : out (option elem) :=
  match fuel with
  | O => Fuel
  | S f =>
      bind (rd a start) (fun c =>
      if Ascii.eqb c nul then Val (Some p)
      else
        bind (scan blank a start) (fun start =>
        bind (scan (fun c => Val (Ascii.eqb c "+" || Ascii.eqb c cblank || Ascii.eqb c "-")) a start) (fun e =>
        bind (scan (fun c => Val (negb (Ascii.eqb c nul) && negb (Ascii.eqb c "+") && negb (Ascii.eqb c "-"))) a e) (fun e =>
        bind (strncpy (e - start) a start 0 z) (fun z =>
        bind (wr z (e - start) nul) (fun z =>
        bind (monomial_buf var z) (fun '(r, z) =>
        match r with
        | None => Val None
        | Some (x, y, k) => set_str_buf_loop f var (add_term p x y k) a e z
        end)))))))
  end.

(** Lines 153-204; [fresh n] is what malloc finds in n characters. *)
Definition set_str_buf (fresh : nat -> buf) (v a : buf) : out (option elem) :=
  bind (varname_buf v) (fun b =>
  if b then
    bind (strlen a) (fun n =>
    bind (cstr v 0) (fun var =>
    set_str_buf_loop (S n) var {| e_num := []; e_den := 1 |} a 0 (fresh (n + 1)%nat)))
  else Val None).
End Parser.
