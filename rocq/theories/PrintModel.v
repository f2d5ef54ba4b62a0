(** Model of the printing of elements: the text is assembled from the polynomial, the
    double found for the element and its enclosure. *)
Require Import List ZArith Bool Ascii String.
From Verif Require Import RootModel ExtraModel Dyadic ArbModel ElemModel GetdModel StrModel BufModel.
Import ListNotations.

Section Print.
Variable o : arbops.
Variable n : nfops.
Variable debug : bool.
Variable pr : elem -> str.               (* nf_elem_get_str_pretty with the name of the generator *)
Variable show8 : dy -> str.              (* arb_get_str of an exact ball with 8 digits, without radius *)
Variable show : ball -> Z -> str.        (* arb_get_str with radius *)

(** get_str_pretty.c:62-86. *)
Definition double_part (d : dbl) : double_text :=
  match d with
  | DInf true => MinusInf
  | DInf false => PlusInf
  | DF v => Finite (show8 v)
  end.

(** renf_elem_get_str_pretty, get_str_pretty.c:28-105, with the text found in the block
    that is returned.  The double may refine the field and the element (line 60), the
    enclosure is printed as it is (line 98).  [digits] is the argument n. *)
Definition elem_text (fuel : nat) (nf : renf) (x : relem) (digits : Z) (alg dbl arb : bool) : out (renf * relem * str) :=
  if dbl then
    bind (get_d o n debug fuel nf x RNear) (fun '(nf', x', d) =>
    bind (elem_get_str (pr (r_elem x)) (double_part d) [] alg dbl arb) (fun t =>
    bind (text_at t) (fun s => Val (nf', x', s))))
  else
    bind (elem_get_str (pr (r_elem x)) PlusInf (show (r_emb x) digits) alg dbl arb) (fun t =>
    bind (text_at t) (fun s => Val (nf, x, s))).

(** renf_elem_class::to_string, renf_elem_class.cpp:857-871.  The flags are combinations
    of EANTIC_STR_ALG, _D and _ARB. *)
Definition to_text (fuel : nat) (nf : renf) (x : relem) (alg dbl arb : bool) : out (renf * relem * str) :=
  if debug && dbl && arb then Abort
  else
    bind (elem_text fuel nf x 10 alg dbl arb) (fun '(nf', x', s) =>
      Val (nf', x',
        if (alg && negb dbl && negb arb) || (negb alg && dbl && negb arb) || (negb alg && negb dbl && arb) then s
        else "("%char :: s ++ [")"%char])).

(** operator<<, renf_class.cpp:235-242. *)
Definition put (fuel : nat) (nf : renf) (x : relem) : out (renf * relem * str) :=
  if is_integer (r_elem x) then to_text fuel nf x true false false else to_text fuel nf x true true false.
End Print.
