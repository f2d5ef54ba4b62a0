(** Model of /repo/libeantic/src/renf_elem/get_cfrac.c with the array [c] of the caller
    and the number n, which may be negative: entries are written and read back by index,
    outside of the array this is undefined.  The same function returning a list is
    [cfrac] of ElemModel.v.  The entries of the array are initialized integers; none of
    them is part of [rem] or [a]. *)
Require Import List ZArith Bool.
From Verif Require Import RootModel ExtraModel Dyadic ArbModel ElemModel ArrModel.
Import ListNotations.
Open Scope Z_scope.

Section Cfrac.
Variable o : arbops.
Variable n : nfops.
Variable debug : bool.

(** get_cfrac.c:23-29 with [k] = n - i: field, array, returned number, remainder. *)
Fixpoint cfrac_from (fuel : nat) (k i : nat) (nf : renf) (rem : relem) (c : list Z) : out (renf * list Z * Z * relem) :=
  match k with
  | O => Val (nf, c, Z.of_nat i, rem)                                   (* return n, line 31 *)
  | S k =>
      bind (floor o debug fuel nf rem) (fun '(nf, eb, z) =>
      bind (wr c i z) (fun c =>
      bind (rd c i) (fun z =>
        let rem := {| r_elem := n_sub_q n (r_elem rem) z 1; r_emb := o_sub_z o eb z (f_prec nf) |} in
        if is_zero (r_elem rem) then Val (nf, c, Z.of_nat i + 1, rem)
        else
          cfrac_from fuel k (S i) nf {| r_elem := n_inv n (r_elem rem); r_emb := o_inv o (r_emb rem) (f_prec nf) |} c)))
  end.

(** get_cfrac.c:16-32. *)
Definition cfrac_arr (fuel : nat) (nf : renf) (a : relem) (num : Z) (c : list Z) : out (renf * list Z * Z * relem) :=
  if is_zero (r_elem a) then Val (nf, c, 0, a)
  else if num <? 0 then Val (nf, c, num, a)
  else cfrac_from fuel (Z.to_nat num) 0 nf a c.
End Cfrac.
