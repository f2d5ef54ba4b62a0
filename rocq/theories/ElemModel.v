(** Model of the elements of a real embedded number field:
    /repo/libeantic/src/renf_elem/*.c.

    The exact arithmetic of antic ([nf_elem_*]) is external: a parameter [nfops]
    with the contract [nf_ok] of ElemSpec.v.  An element is stored as numerator
    coefficients without leading zero and a denominator.  antic has three
    representations, chosen by the length of the polynomial: linear (2),
    quadratic (3) and generic; reading coefficient 0 of a generic element of
    length 0 is a read beyond the length of a FLINT polynomial, the value of
    which is unspecified ([Undef]).

    Words ([slong]) are unbounded.  Temporaries are plain values. *)
Require Import List ZArith Bool.
From Verif Require Import RootModel ExtraModel Dyadic ArbModel.
Import ListNotations.
Open Scope Z_scope.

Record elem := { e_num : list Z; e_den : Z }.

Definition elem_eqb (a b : elem) : bool :=               (* nf_elem_equal *)
  zlist_eqb (e_num a) (e_num b) && (e_den a =? e_den b).
Definition is_zero (a : elem) : bool :=                  (* nf_elem_is_zero; is_zero.c *)
  match e_num a with [] => true | _ => false end.
Definition is_one (a : elem) : bool :=                   (* nf_elem_is_one; is_one.c *)
  match e_num a with [c] => (c =? 1) && (e_den a =? 1) | _ => false end.
Definition is_rational (a : elem) : bool :=              (* nf_elem_is_rational; is_rational.c *)
  match e_num a with [] | [_] => true | _ => false end.
Definition is_integer (a : elem) : bool :=               (* nf_elem_is_integer; is_integer.c *)
  is_rational a && (e_den a =? 1).
(** nf_elem_equal_fmpq, _fmpz, _si, _ui with a fraction n/d in lowest terms
    (equal_fmpq.c, equal_fmpz.c, equal_si.c, equal_ui.c). *)
Definition equal_q (a : elem) (n d : Z) : bool :=
  match e_num a with
  | [] => n =? 0
  | [c] => (c =? n) && (e_den a =? d)
  | _ => false
  end.

Definition linear (pol : list Z) : bool := Nat.leb (length pol) 2.
Definition quadratic (pol : list Z) : bool := Nat.eqb (length pol) 3.
Definition generic (pol : list Z) : bool := Nat.leb 4 (length pol).

(** Coefficient 0 read through the macro [*NF_ELEM_NUMREF]. *)
Definition coeff0 (pol : list Z) (a : elem) : out Z :=
  match e_num a with
  | [] => if generic pol then Undef else Val 0
  | c :: _ => Val c
  end.

(** Exact operations of antic.  A rational argument is [n d] for n/d. *)
Record nfops := {
  n_add : elem -> elem -> elem;             (* nf_elem_add *)
  n_sub : elem -> elem -> elem;             (* nf_elem_sub *)
  n_mul : elem -> elem -> elem;             (* nf_elem_mul *)
  n_div : elem -> elem -> elem;             (* nf_elem_div *)
  n_neg : elem -> elem;                     (* nf_elem_neg *)
  n_inv : elem -> elem;                     (* nf_elem_inv *)
  n_pow : elem -> Z -> elem;                (* nf_elem_pow *)
  n_add_q : elem -> Z -> Z -> elem;         (* nf_elem_add_fmpq, _fmpz, _si *)
  n_sub_q : elem -> Z -> Z -> elem;         (* nf_elem_sub_fmpq, _fmpz, _si *)
  n_q_sub : Z -> Z -> elem -> elem;         (* nf_elem_fmpq_sub *)
  n_mul_q : elem -> Z -> Z -> elem;         (* nf_elem_scalar_mul_fmpq, _fmpz, _si *)
  n_div_q : elem -> Z -> Z -> elem;         (* nf_elem_scalar_div_fmpq, _fmpz, _si *)
  n_set_q : Z -> Z -> elem;                 (* nf_elem_set_fmpq, _fmpz, _si *)
  n_set_poly : list Z -> Z -> elem          (* nf_elem_set_fmpq_poly *)
}.

(** [renf_elem_t]: exact element and enclosure. *)
Record relem := { r_elem : elem; r_emb : ball }.

Section Elem.
Variable o : arbops.
Variable n : nfops.
Variable debug : bool.   (* assertions compiled in *)

(** set_evaluation.c:17-33 (the same evaluation is in check_embedding.c:25-38). *)
Definition set_evaluation (nf : renf) (a : elem) (prec : Z) : out ball :=
  if prec <? 2 then Undef
  else if linear (f_pol nf) then Val (o_set_q o (nth 0 (e_num a) 0) (e_den a) prec)
  else if quadratic (f_pol nf) then
    Val (o_div_z o (o_add_z o (o_mul_z o (f_emb nf) (nth 1 (e_num a) 0) prec) (nth 0 (e_num a) 0) prec) (e_den a) prec)
  else Val (eval_arb_q o (e_num a) (e_den a) (f_emb nf) prec).

(** relative_condition_number_2exp.c:18-42. *)
Definition elem_cond (nf : renf) (a : elem) : Z :=
  if is_rational a then 0
  else cond_2exp (e_num a) (f_emb nf) (Z.max (f_prec nf) 16).

Definition start_prec (nf : renf) : Z := Z.max (f_prec nf) (rel_accuracy (f_emb nf)).

(** ** sgn.c *)

(** Lines 40-48. *)
Fixpoint sgn_loop (fuel : nat) (nf : renf) (a : elem) (b : ball) (prec cond : Z) : out (renf * ball * Z) :=
  match fuel with
  | O => Fuel
  | S f =>
      if negb (contains_zero b) then Val (nf, b, msgn b)
      else
        bind (refine o debug f nf (2 * prec)) (fun nf' =>
        bind (set_evaluation nf' a (2 * prec + cond)) (fun b' =>
        sgn_loop f nf' a b' (2 * prec) cond))
  end.

(** Lines 16-49: new field, new enclosure, sign. *)
Definition sgn (fuel : nat) (nf : renf) (x : relem) : out (renf * ball * Z) :=
  let a := r_elem x in
  match e_num a with
  | [] => Val (nf, r_emb x, 0)
  | [c] => Val (nf, r_emb x, Z.sgn c)
  | _ =>
      if negb (contains_zero (r_emb x)) then Val (nf, r_emb x, msgn (r_emb x))
      else
        let cond := elem_cond nf a in
        let prec := start_prec nf in
        bind (set_evaluation nf a (prec + cond)) (fun b => sgn_loop fuel nf a b prec cond)
  end.

(** ** cmp.c *)

(** _fmpq_cmp, as a sign. *)
Definition fmpq_cmp (n1 d1 n2 d2 : Z) : Z := Z.sgn (n1 * d2 - n2 * d1).

Definition relem_sub (nf : renf) (x y : relem) : relem :=   (* sub.c on a fresh element *)
  {| r_elem := n_sub n (r_elem x) (r_elem y); r_emb := o_sub o (r_emb x) (r_emb y) (f_prec nf) |}.

(** cmp.c:18-83: new field, new enclosures of both operands, result. *)
Definition cmp (fuel : nat) (nf : renf) (x y : relem) : out (renf * ball * ball * Z) :=
  let a := r_elem x in let b := r_elem y in
  let same (s : Z) := Val (nf, r_emb x, r_emb y, s) in
  if elem_eqb a b then same 0
  else if blt (r_emb x) (r_emb y) then same (-1)
  else if blt (r_emb y) (r_emb x) then same 1
  else if is_rational a && is_rational b then
    if is_zero a then bind (sgn fuel nf y) (fun '(nf', eb, s) => Val (nf', r_emb x, eb, - s))
    else if is_zero b then bind (sgn fuel nf x) (fun '(nf', ea, s) => Val (nf', ea, r_emb y, s))
    else same (fmpq_cmp (nth 0 (e_num a) 0) (e_den a) (nth 0 (e_num b) 0) (e_den b))
  else
    let prec := start_prec nf in
    bind (set_evaluation nf a (prec + elem_cond nf a)) (fun ea =>
    bind (set_evaluation nf b (prec + elem_cond nf b)) (fun eb =>
      if blt ea eb then Val (nf, ea, eb, -1)
      else if blt eb ea then Val (nf, ea, eb, 1)
      else
        bind (sgn fuel nf (relem_sub nf {| r_elem := a; r_emb := ea |} {| r_elem := b; r_emb := eb |}))
          (fun '(nf', _, s) => Val (nf', ea, eb, s)))).

(** ** cmp_fmpq.c:19-86, with cmp_fmpz.c, cmp_si.c, cmp_ui.c (denominator 1).
    The fraction is in lowest terms, qd > 0. *)
Definition cmp_q (fuel : nat) (nf : renf) (x : relem) (qn qd : Z) : out (renf * ball * Z) :=
  let a := r_elem x in
  let same (s : Z) := Val (nf, r_emb x, s) in
  if qn =? 0 then sgn fuel nf x
  else if is_zero a then same (- Z.sgn qn)
  else if is_rational a then same (fmpq_cmp (nth 0 (e_num a) 0) (e_den a) qn qd)
  else
    let d := o_sub o (r_emb x) (o_set_q o qn qd (f_prec nf)) (f_prec nf) in
    if negb (contains_zero d) then same (msgn d)
    else
      let cond := elem_cond nf a in
      let prec := start_prec nf in
      if debug && (prec =? - cond) then Abort
      else
        bind (set_evaluation nf a (prec + cond)) (fun ea =>
          let d := o_sub o ea (o_set_q o qn qd prec) prec in
          if negb (contains_zero d) then Val (nf, ea, msgn d)
          else
            let diff := {| r_elem := n_sub_q n a qn qd;
                           r_emb := o_sub o ea (o_set_q o qn qd (f_prec nf)) (f_prec nf) |} in
            bind (sgn fuel nf diff) (fun '(nf', _, s) => Val (nf', ea, s))).

(** ** rounding_template.h *)

(** Rounding of dyadic and rational numbers: floor or ceiling. *)
Record roundop := { rd_dy : dy -> Z; rd_q : Z -> Z -> Z }.
Definition rd_floor : roundop := {| rd_dy := dfloor; rd_q := Z.div |}.                          (* arf_floor, fmpz_fdiv_q *)
Definition rd_ceil : roundop := {| rd_dy := dceil; rd_q := fun a b => - (- a / b) |}.           (* arf_ceil, fmpz_cdiv_q *)

(** Lines 28-40: the two rounded ends, [None] for an infinite ball. *)
Definition unique_int (rd : roundop) (b : ball) (prec : Z) : option (Z * Z) :=
  match interval b prec with
  | Some (l, r) => Some (rd_dy rd l, rd_dy rd r)
  | None => None
  end.

(** Lines 67-72: make the enclosure finite. *)
Fixpoint finite_loop (fuel : nat) (nf : renf) (a : elem) (b : ball) (prec cond : Z) : out (renf * ball) :=
  match fuel with
  | O => Fuel
  | S f =>
      if is_finite b then Val (nf, b)
      else
        bind (refine o debug f nf (2 * prec)) (fun nf' =>
        bind (set_evaluation nf' a (2 * prec + cond)) (fun b' =>
        finite_loop f nf' a b' (2 * prec) cond))
  end.

(** Lines 105-116.  The result of [unique_int] is infinite only with the ball. *)
Fixpoint round_loop (rd : roundop) (fuel : nat) (nf : renf) (a : elem) (size prec cond : Z) : out (renf * ball * Z) :=
  match fuel with
  | O => Fuel
  | S f =>
      bind (set_evaluation nf a (prec + cond)) (fun b =>
        let again := bind (refine o debug f nf (2 * prec)) (fun nf' => round_loop rd f nf' a size (2 * prec) cond) in
        match unique_int rd b (Z.max size prec) with
        | Some (l, r) => if l =? r then Val (nf, b, l) else again
        | None => again
        end)
  end.

Definition rd_size (l r : Z) : Z := Z.max (Z.max (zbits l + 1) 1) (zbits r + 1).

(** Lines 42-117.  The aborts of lines 89-90 and 94-95, for exponents beyond a
    word, are left out (words are unbounded). *)
Definition round_int (rd : roundop) (fuel : nat) (nf : renf) (x : relem) : out (renf * ball * Z) :=
  let a := r_elem x in
  if is_rational a then
    bind (coeff0 (f_pol nf) a) (fun c => Val (nf, r_emb x, rd_q rd c (e_den a)))
  else
    let cond := elem_cond nf a in
    bind (if is_finite (r_emb x) then Val (nf, r_emb x)
          else
            let prec := start_prec nf in
            bind (set_evaluation nf a (prec + cond)) (fun b => finite_loop fuel nf a b prec cond))
      (fun '(nf, b) =>
        match unique_int rd b (f_prec nf) with
        | Some (l, r) =>
            if l =? r then Val (nf, b, l)
            else
              (* the condition number is computed once, before any refinement *)
              let cond := if is_finite (r_emb x) then elem_cond nf a else cond in
              round_loop rd fuel nf a (rd_size l r) (start_prec nf) cond
        | None => Undef
        end).

Definition floor := round_int rd_floor.     (* floor_ceil.c:14-20 *)
Definition ceil := round_int rd_ceil.       (* floor_ceil.c:22-28 *)

(** ** fdiv.c *)
Definition div_elem (nf : renf) (x y : relem) : relem :=    (* div.c on a fresh element *)
  {| r_elem := n_div n (r_elem x) (r_elem y); r_emb := o_div o (r_emb x) (r_emb y) (f_prec nf) |}.

(** fdiv.c:49-54: the divisor's enclosure is made to avoid zero. *)
Fixpoint nonzero_loop (fuel : nat) (nf : renf) (a : elem) (b : ball) (prec cond : Z) : out (renf * ball * Z) :=
  match fuel with
  | O => Fuel
  | S f =>
      if negb (contains_zero b) then Val (nf, b, prec)
      else
        bind (refine o debug f nf (2 * prec)) (fun nf' =>
        bind (set_evaluation nf' a (2 * prec + cond)) (fun b' =>
        nonzero_loop f nf' a b' (2 * prec) cond))
  end.

(** fdiv.c:39-44, with the precision reached. *)
Fixpoint finite_loop_p (fuel : nat) (nf : renf) (a : elem) (b : ball) (prec cond : Z) : out (renf * ball * Z) :=
  match fuel with
  | O => Fuel
  | S f =>
      if is_finite b then Val (nf, b, prec)
      else
        bind (refine o debug f nf (2 * prec)) (fun nf' =>
        bind (set_evaluation nf' a (2 * prec + cond)) (fun b' =>
        finite_loop_p f nf' a b' (2 * prec) cond))
  end.

(** mag_cmp_2exp_si (arb_radref q, -1) >= 0. *)
Definition rad_ge_half (q : ball) : bool :=
  match q with Fin _ r => dleb (1, -1) r | Top => true end.

(** fdiv.c:61-70. *)
Fixpoint quot_loop (fuel : nat) (nf : renf) (b c : elem) (eb ec q : ball) (prec bcond ccond : Z) :
    out (renf * ball * ball * ball) :=
  match fuel with
  | O => Fuel
  | S f =>
      if rad_ge_half q then
        bind (refine o debug f nf (2 * prec)) (fun nf' =>
        bind (set_evaluation nf' b (2 * prec + bcond)) (fun eb' =>
        bind (set_evaluation nf' c (2 * prec + ccond)) (fun ec' =>
        quot_loop f nf' b c eb' ec' (o_div o eb' ec' (2 * prec)) (2 * prec) bcond ccond)))
      else Val (nf, eb, ec, q)
  end.

(** fdiv.c:24-106: new field, new enclosures, quotient.  [same]: [x] and [y] are
    one object, so that writing the enclosure of one writes that of the other
    (in lines 66-67 both evaluations are then equal anyway). *)
Definition fdiv (same : bool) (fuel : nat) (nf : renf) (x y : relem) : out (renf * ball * ball * Z) :=
  let b := r_elem x in let c := r_elem y in
  if is_rational c then
    if is_zero c then Abort
    else
      bind (floor fuel nf (div_elem nf x y)) (fun '(nf', _, z) => Val (nf', r_emb x, r_emb y, z))
  else
    let prec := start_prec nf in
    let bcond := elem_cond nf b in
    let ccond := elem_cond nf c in
    bind (set_evaluation nf b (prec + bcond)) (fun eb =>
    bind (finite_loop_p fuel nf b eb prec bcond) (fun '(nf, eb, prec) =>
    bind (set_evaluation nf c (prec + ccond)) (fun ec =>
    bind (nonzero_loop fuel nf c ec prec ccond) (fun '(nf, ec, prec) =>
    let eb := if same then ec else eb in
    bind (quot_loop fuel nf b c eb ec (o_div o eb ec prec) prec bcond ccond) (fun '(nf, eb, ec, q) =>
      match q with
      | Top => Undef
      | Fin m r =>
          let l := dceil (dsub m r) in
          let h := dfloor (dadd m r) in
          if l <=? h then
            let ac := {| r_elem := n_mul_q n c l 1; r_emb := o_mul_z o ec l (f_prec nf) |} in
            bind (cmp fuel nf ac {| r_elem := b; r_emb := eb |}) (fun '(nf, _, eb, s) =>
            bind (sgn fuel nf {| r_elem := c; r_emb := if same then eb else ec |}) (fun '(nf, ec, cs) =>
              Val (nf, if same then ec else eb, ec, if s =? cs then l - 1 else l)))
          else Val (nf, eb, ec, dfloor m)
      end))))).

(** ** get_arb.c:16-46: new field, new enclosure, ball *)
Fixpoint get_arb_loop (fuel : nat) (nf : renf) (a : elem) (pprec cond prec : Z) : out (renf * ball * ball) :=
  match fuel with
  | O => Fuel
  | S f =>
      bind (set_evaluation nf a (pprec + cond)) (fun b =>
        if rel_error b <? - prec - 2 then Val (nf, b, o_round o b (prec + 2))
        else bind (refine o debug f nf (2 * pprec)) (fun nf' => get_arb_loop f nf' a (2 * pprec) cond prec))
  end.

Definition get_arb (fuel : nat) (nf : renf) (x : relem) (prec : Z) : out (renf * ball * ball) :=
  let a := r_elem x in
  if is_zero a then Val (nf, r_emb x, bzero)
  else if rel_error (r_emb x) <? - prec - 2 then Val (nf, r_emb x, o_round o (r_emb x) (prec + 2))
  else get_arb_loop fuel nf a (start_prec nf) (elem_cond nf a) prec.

(** ** get_cfrac.c:16-32: new field, quotients, remainder, for n >= 0.  [rem] is a fresh copy
    of [a]; when they are the same object the old value is gone anyway. *)
Fixpoint cfrac_loop (fuel : nat) (nf : renf) (rem : relem) (k : nat) : out (renf * list Z * relem) :=
  match k with
  | O => Val (nf, [], rem)
  | S k' =>
      bind (floor fuel nf rem) (fun '(nf, eb, c) =>
        let rem1 := {| r_elem := n_sub_q n (r_elem rem) c 1; r_emb := o_sub_z o eb c (f_prec nf) |} in
        if is_zero (r_elem rem1) then Val (nf, [c], rem1)
        else
          let rem2 := {| r_elem := n_inv n (r_elem rem1); r_emb := o_inv o (r_emb rem1) (f_prec nf) |} in
          bind (cfrac_loop fuel nf rem2 k') (fun '(nf, cs, r) => Val (nf, c :: cs, r)))
  end.

Definition cfrac (fuel : nat) (nf : renf) (x : relem) (k : nat) : out (renf * list Z * relem) :=
  if is_zero (r_elem x) then Val (nf, [], x) else cfrac_loop fuel nf x k.

(** ** gen.c:16-41 *)

(** _fmpq_canonicalise; a zero denominator is outside its domain. *)
Definition canonicalise (a b : Z) : out (Z * Z) :=
  if b =? 0 then Undef
  else
    let g := Z.gcd a b in
    Val (Z.sgn b * (a / g), Z.abs (b / g)).

Definition gen (nf : renf) : out relem :=
  match f_pol nf with
  | [c0; c1] =>
      bind (canonicalise (- c1) c0) (fun '(a, b) =>
        Val {| r_elem := {| e_num := if a =? 0 then [] else [a]; e_den := b |};
               r_emb := o_set_q o a b (f_prec nf) |})
  | _ =>
      Val {| r_elem := n_set_poly n [0; 1] 1;
             r_emb := eval_arb_q o [0; 1] 1 (f_emb nf) (f_prec nf) |}
  end.

(** * Histories

    The memory maps names to elements, so that output and operands of a call may
    be the same object; every C statement is one update. *)
Definition mem := nat -> relem.
Definition upd_elem (m : mem) (a : nat) (e : elem) : mem :=
  fun i => if Nat.eqb i a then {| r_elem := e; r_emb := r_emb (m a) |} else m i.
Definition upd_emb (m : mem) (a : nat) (b : ball) : mem :=
  fun i => if Nat.eqb i a then {| r_elem := r_elem (m a); r_emb := b |} else m i.
Definition upd (m : mem) (a : nat) (x : relem) : mem :=
  fun i => if Nat.eqb i a then x else m i.

(** inv.c, mul_fmpq.c and set.c, used again by fmpq_div.c. *)
Definition do_set (m : mem) (a b : nat) : mem :=
  let m := upd_elem m a (r_elem (m b)) in upd_emb m a (r_emb (m b)).
Definition do_inv (p : Z) (m : mem) (a b : nat) : out mem :=
  if is_zero (r_elem (m b)) then Abort
  else let m := upd_elem m a (n_inv n (r_elem (m b))) in Val (upd_emb m a (o_inv o (r_emb (m b)) p)).
Definition do_mul_q (p : Z) (m : mem) (a b : nat) (qn qd : Z) : mem :=
  let m := upd_elem m a (n_mul_q n (r_elem (m b)) qn qd) in
  upd_emb m a (o_mul o (r_emb (m b)) (o_set_q o qn qd p) p).

(** Calls of the C interface. *)
Inductive call :=
| KZero (a : nat) | KOne (a : nat) | KGen (a : nat)
| KSetZ (a : nat) (z : Z) | KSetQ (a : nat) (qn qd : Z) | KSetPoly (a : nat) (p : list Z) (d : Z)
| KSet (a b : nat) | KSetNf (a : nat) (e : elem) (prec : Z) | KSwap (a b : nat)
| KAdd (a b c : nat) | KSub (a b c : nat) | KMul (a b c : nat) | KDiv (a b c : nat)
| KAddZ (a b : nat) (z : Z) | KSubZ (a b : nat) (z : Z) | KMulZ (a b : nat) (z : Z) | KDivZ (a b : nat) (z : Z)
| KAddQ (a b : nat) (qn qd : Z) | KSubQ (a b : nat) (qn qd : Z) | KQSub (a : nat) (qn qd : Z) (b : nat)
| KMulQ (a b : nat) (qn qd : Z) | KDivQ (a b : nat) (qn qd : Z) | KQDiv (a : nat) (qn qd : Z) (c : nat)
| KNeg (a b : nat) | KInv (a b : nat) | KPow (a b : nat) (e : Z)
| KEval (a : nat) (prec : Z) | KRefine (prec : Z)
| KSgn (a : nat) | KCmp (a b : nat) | KCmpQ (a : nat) (qn qd : Z)
| KFloor (a : nat) | KCeil (a : nat) | KFdiv (b c : nat) | KGetArb (a : nat) (prec : Z)
| KCfrac (r a : nat) (k : nat).

(** Enclosures written back by a function that took the objects [a] and [b]:
    the last write wins when they are the same. *)
Definition write2 (m : mem) (a b : nat) (ea eb : ball) : mem := upd_emb (upd_emb m a ea) b eb.

(** One call on field and memory.  Division by zero aborts in FLINT. *)
Definition run (fuel : nat) (nf : renf) (m : mem) (k : call) : out (renf * mem) :=
  let p := f_prec nf in
  let el i := r_elem (m i) in
  (* elem of [a] first, then the enclosure, read after the first update *)
  let two (a : nat) (e : elem) (b : mem -> ball) := let m := upd_elem m a e in Val (nf, upd_emb m a (b m)) in
  match k with
  | KZero a => two a {| e_num := []; e_den := 1 |} (fun _ => bzero)                 (* zero.c *)
  | KOne a => two a {| e_num := [1]; e_den := 1 |} (fun _ => bint 1)                (* one.c *)
  | KGen a => bind (gen nf) (fun x => Val (nf, upd m a x))                          (* gen.c *)
  | KSetZ a z => two a (n_set_q n z 1) (fun _ => bint z)                            (* set_si.c, set_ui.c, set_fmpz.c, set_mpz.c *)
  | KSetQ a qn qd => two a (n_set_q n qn qd) (fun _ => o_set_q o qn qd p)           (* set_fmpq.c, set_mpq.c *)
  | KSetPoly a q d => two a (n_set_poly n q d) (fun _ => eval_arb_q o q d (f_emb nf) p)  (* set_fmpq_poly.c *)
  | KSet a b => Val (nf, do_set m a b)                                              (* set.c *)
  | KSetNf a e prec =>                                                              (* set_nf_elem.c *)
      let m := upd_elem m a e in
      bind (set_evaluation nf (r_elem (m a)) prec) (fun b => Val (nf, upd_emb m a b))
  | KSwap a b => let t := m a in Val (nf, upd (upd m a (m b)) b t)                  (* renf_elem.h:90-95 *)
  | KAdd a b c => two a (n_add n (el b) (el c)) (fun m => o_add o (r_emb (m b)) (r_emb (m c)) p)   (* add.c *)
  | KSub a b c => two a (n_sub n (el b) (el c)) (fun m => o_sub o (r_emb (m b)) (r_emb (m c)) p)   (* sub.c *)
  | KMul a b c => two a (n_mul n (el b) (el c)) (fun m => o_mul o (r_emb (m b)) (r_emb (m c)) p)   (* mul.c *)
  | KDiv a b c =>                                                                   (* div.c *)
      if is_zero (el c) then Abort
      else two a (n_div n (el b) (el c)) (fun m => o_div o (r_emb (m b)) (r_emb (m c)) p)
  | KAddZ a b z => two a (n_add_q n (el b) z 1) (fun m => o_add_z o (r_emb (m b)) z p)   (* add_si.c, add_ui.c, add_fmpz.c *)
  | KSubZ a b z => two a (n_sub_q n (el b) z 1) (fun m => o_sub_z o (r_emb (m b)) z p)   (* sub_si.c, sub_ui.c, sub_fmpz.c *)
  | KMulZ a b z => two a (n_mul_q n (el b) z 1) (fun m => o_mul_z o (r_emb (m b)) z p)   (* mul_si.c, mul_ui.c, mul_fmpz.c *)
  | KDivZ a b z =>                                                                  (* div_si.c, div_ui.c, div_fmpz.c *)
      if z =? 0 then Abort else two a (n_div_q n (el b) z 1) (fun m => o_div_z o (r_emb (m b)) z p)
  | KAddQ a b qn qd => two a (n_add_q n (el b) qn qd) (fun m => o_add o (r_emb (m b)) (o_set_q o qn qd p) p)   (* add_fmpq.c *)
  | KSubQ a b qn qd => two a (n_sub_q n (el b) qn qd) (fun m => o_sub o (r_emb (m b)) (o_set_q o qn qd p) p)   (* sub_fmpq.c *)
  | KQSub a qn qd b => two a (n_q_sub n qn qd (el b)) (fun m => o_sub o (o_set_q o qn qd p) (r_emb (m b)) p)   (* fmpq_sub.c *)
  | KMulQ a b qn qd => Val (nf, do_mul_q p m a b qn qd)                             (* mul_fmpq.c *)
  | KDivQ a b qn qd =>                                                              (* div_fmpq.c *)
      if qn =? 0 then Abort else two a (n_div_q n (el b) qn qd) (fun m => o_div o (r_emb (m b)) (o_set_q o qn qd p) p)
  | KQDiv a qn qd c =>                                                              (* fmpq_div.c *)
      bind (do_inv p (do_set m a c) a a) (fun m => Val (nf, do_mul_q p m a c qn qd))
  | KNeg a b => two a (n_neg n (el b)) (fun m => bneg (r_emb (m b)))                (* neg.c *)
  | KInv a b => bind (do_inv p m a b) (fun m => Val (nf, m))                        (* inv.c *)
  | KPow a b e => two a (n_pow n (el b) e) (fun m => o_pow o (r_emb (m b)) e p)     (* pow.c *)
  | KEval a prec => bind (set_evaluation nf (el a) prec) (fun b => Val (nf, upd_emb m a b))   (* set_evaluation.c *)
  | KRefine prec => bind (refine o debug fuel nf prec) (fun nf' => Val (nf', m))    (* renf/refine_embedding.c *)
  | KSgn a => bind (sgn fuel nf (m a)) (fun '(nf', b, _) => Val (nf', upd_emb m a b))
  | KCmp a b => bind (cmp fuel nf (m a) (m b)) (fun '(nf', ea, eb, _) => Val (nf', write2 m a b ea eb))
  | KCmpQ a qn qd => bind (cmp_q fuel nf (m a) qn qd) (fun '(nf', b, _) => Val (nf', upd_emb m a b))
  | KFloor a => bind (floor fuel nf (m a)) (fun '(nf', b, _) => Val (nf', upd_emb m a b))
  | KCeil a => bind (ceil fuel nf (m a)) (fun '(nf', b, _) => Val (nf', upd_emb m a b))
  | KFdiv b c => bind (fdiv (Nat.eqb b c) fuel nf (m b) (m c)) (fun '(nf', eb, ec, _) => Val (nf', write2 m b c eb ec))
  | KGetArb a prec => bind (get_arb fuel nf (m a) prec) (fun '(nf', b, _) => Val (nf', upd_emb m a b))
  | KCfrac r a k => bind (cfrac fuel nf (m a) k) (fun '(nf', _, x) => Val (nf', upd m r x))
  end.

Fixpoint runs (fuel : nat) (nf : renf) (m : mem) (l : list call) : out (renf * mem) :=
  match l with
  | [] => Val (nf, m)
  | k :: l' => bind (run fuel nf m k) (fun '(nf', m') => runs fuel nf' m' l')
  end.
End Elem.
