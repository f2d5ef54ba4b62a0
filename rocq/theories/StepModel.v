(** Model of /repo/libeantic/src/fmpz_poly_extra/newton_step_arb.c and
    /repo/libeantic/src/fmpz_poly_extra/bisection_step_arb.c on objects in memory: the
    ball to refine may be the object that receives the result. *)
Require Import List ZArith Bool.
From Verif Require Import Dyadic ArbModel EvalModel.
Open Scope Z_scope.

Section Step.
Variable o : arbops.
Variable prec : Z.

(** _fmpz_poly_evaluate_arb, fmpz_poly_extra/evaluate.c:51-56, which does not look whether
    [res] is [a]. *)
Definition eval_at (res a : nat) (p : list Z) : (nat -> ball) -> (nat -> ball) :=
  eval_in ball bzero (fun x y => o_mul o x y prec) (fun x c => o_add_z o x c prec) res a p.
Definition set_at (m : nat -> ball) (i : nat) (v : ball) : nat -> ball := put ball m i v.

(** fmpz_poly_extra/newton_step_arb.c:19-52 and 54-58; [tm] and [ty] are the new objects m
    and y.  [der] has the len - 1 coefficients. *)
Definition newton_in (pol der : list Z) (tm ty res a : nat) (m : nat -> ball) : out ((nat -> ball) * bool) :=
  if prec <=? 0 then Abort
  else if prec <? 2 then Undef
  else
    let m := eval_at res a der m in
    if contains_zero (m res) then Val (m, false)
    else
      let m := set_at m tm (bmid (m a)) in
      let m := eval_at ty tm pol m in
      let m := set_at m res (o_div o (m ty) (m res) prec) in
      let m := set_at m res (o_sub o (m res) (m tm) prec) in
      let m := set_at m res (bneg (m res)) in
      Val (m, bcontains (m a) (m res) && negb (bequal (m a) (m res))).

(** fmpz_poly_extra/bisection_step_arb.c:55-113; [tb], [tc] and [tr] are the new objects b, c
    and rres.  An infinite endpoint makes the evaluation of line 72 contain zero; what b and
    c hold then is not modelled. *)
Definition bisection_in (pol : list Z) (tb tc tr res a : nat) (m : nat -> ball) : out ((nat -> ball) * bool) :=
  if prec <? 2 then Undef
  else
    match interval (m a) prec with
    | None => Val (m, false)
    | Some (l, r) =>
        let m := set_at m tb (bexact l) in
        let m := eval_at tc tb pol m in
        if contains_zero (m tc) then Val (m, false)
        else
          let sl := msgn (m tc) in
          let m := set_at m tb (bexact r) in
          let m := eval_at tc tb pol m in
          if contains_zero (m tc) then Val (m, false)
          else
            let '(l', r') := bisection_arf o l r pol sl prec in
            let m := set_at m tr (o_set_interval o l' r' prec) in
            let m := set_at m res (o_inter o (m tr) (m a) prec) in
            Val (m, true)
    end.
End Step.
