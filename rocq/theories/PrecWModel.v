(** Model of the precisions in /repo/libeantic/src/renf_elem/{sgn,cmp,cmp_fmpq,fdiv,get_arb}.c and
    rounding_template.h as words: every sum and every doubling is a signed word, outside
    of which it is undefined.  The functions are those of ElemModel.v otherwise.  The
    words inside of renf_refine_embedding are as in ArbModel.v. *)
Require Import List ZArith Bool.
From Verif Require Import RootModel ExtraModel Dyadic ArbModel ElemModel ArrModel IdxModel.
Import ListNotations.
Open Scope Z_scope.

Section Prec.
Variable o : arbops.
Variable n : nfops.
Variable debug : bool.

(** renf_elem_set_evaluation (a, nf, prec + cond). *)
Definition eval_w (nf : renf) (a : elem) (prec cond : Z) : out ball := bind (slong (prec + cond)) (set_evaluation o nf a).
(** prec *= 2; renf_refine_embedding (nf, prec). *)
Definition twice_w (f : nat) (nf : renf) (prec : Z) : out (renf * Z) :=
  bind (slong (prec * 2)) (fun prec => bind (refine o debug f nf prec) (fun nf => Val (nf, prec))).

(** sgn.c:40-48. *)
Fixpoint sgn_loop_w (fuel : nat) (nf : renf) (a : elem) (b : ball) (prec cond : Z) : out (renf * ball * Z) :=
  match fuel with
  | O => Fuel
  | S f =>
      if negb (contains_zero b) then Val (nf, b, msgn b)
      else bind (twice_w f nf prec) (fun '(nf, prec) => bind (eval_w nf a prec cond) (fun b => sgn_loop_w f nf a b prec cond))
  end.

(** sgn.c:16-49. *)
Definition sgn_w (fuel : nat) (nf : renf) (x : relem) : out (renf * ball * Z) :=
  let a := r_elem x in
  match e_num a with
  | [] => Val (nf, r_emb x, 0)
  | [c] => Val (nf, r_emb x, Z.sgn c)
  | _ =>
      if negb (contains_zero (r_emb x)) then Val (nf, r_emb x, msgn (r_emb x))
      else bind (eval_w nf a (start_prec nf) (elem_cond nf a)) (fun b => sgn_loop_w fuel nf a b (start_prec nf) (elem_cond nf a))
  end.

(** cmp.c:18-83. *)
Definition cmp_w (fuel : nat) (nf : renf) (x y : relem) : out (renf * ball * ball * Z) :=
  let a := r_elem x in let b := r_elem y in
  let same (s : Z) := Val (nf, r_emb x, r_emb y, s) in
  if elem_eqb a b then same 0
  else if blt (r_emb x) (r_emb y) then same (-1)
  else if blt (r_emb y) (r_emb x) then same 1
  else if is_rational a && is_rational b then
    if is_zero a then bind (sgn_w fuel nf y) (fun '(nf', eb, s) => Val (nf', r_emb x, eb, - s))
    else if is_zero b then bind (sgn_w fuel nf x) (fun '(nf', ea, s) => Val (nf', ea, r_emb y, s))
    else same (fmpq_cmp (nth 0 (e_num a) 0) (e_den a) (nth 0 (e_num b) 0) (e_den b))
  else
    bind (eval_w nf a (start_prec nf) (elem_cond nf a)) (fun ea =>
    bind (eval_w nf b (start_prec nf) (elem_cond nf b)) (fun eb =>
      if blt ea eb then Val (nf, ea, eb, -1)
      else if blt eb ea then Val (nf, ea, eb, 1)
      else
        bind (sgn_w fuel nf (relem_sub o n nf {| r_elem := a; r_emb := ea |} {| r_elem := b; r_emb := eb |}))
          (fun '(nf', _, s) => Val (nf', ea, eb, s)))).

(** cmp_fmpq.c:19-86; the assertion of line 65 negates the condition number. *)
Definition cmp_q_w (fuel : nat) (nf : renf) (x : relem) (qn qd : Z) : out (renf * ball * Z) :=
  let a := r_elem x in
  let same (s : Z) := Val (nf, r_emb x, s) in
  if qn =? 0 then sgn_w fuel nf x
  else if is_zero a then same (- Z.sgn qn)
  else if is_rational a then same (fmpq_cmp (nth 0 (e_num a) 0) (e_den a) qn qd)
  else
    let d := o_sub o (r_emb x) (o_set_q o qn qd (f_prec nf)) (f_prec nf) in
    if negb (contains_zero d) then same (msgn d)
    else
      let cond := elem_cond nf a in
      let prec := start_prec nf in
      bind (if debug then bind (slong (- cond)) (fun m => if prec =? m then Abort else Val tt) else Val tt) (fun _ =>
      bind (eval_w nf a prec cond) (fun ea =>
        let d := o_sub o ea (o_set_q o qn qd prec) prec in
        if negb (contains_zero d) then Val (nf, ea, msgn d)
        else
          let diff := {| r_elem := n_sub_q n a qn qd; r_emb := o_sub o ea (o_set_q o qn qd (f_prec nf)) (f_prec nf) |} in
          bind (sgn_w fuel nf diff) (fun '(nf', _, s) => Val (nf', ea, s)))).

(** rounding_template.h:67-72. *)
Fixpoint finite_loop_w (fuel : nat) (nf : renf) (a : elem) (b : ball) (prec cond : Z) : out (renf * ball) :=
  match fuel with
  | O => Fuel
  | S f =>
      if is_finite b then Val (nf, b)
      else bind (twice_w f nf prec) (fun '(nf, prec) => bind (eval_w nf a prec cond) (fun b => finite_loop_w f nf a b prec cond))
  end.

(** rounding_template.h:105-116. *)
Fixpoint round_loop_w (rd : roundop) (fuel : nat) (nf : renf) (a : elem) (size prec cond : Z) : out (renf * ball * Z) :=
  match fuel with
  | O => Fuel
  | S f =>
      bind (eval_w nf a prec cond) (fun b =>
        let again := bind (twice_w f nf prec) (fun '(nf, prec) => round_loop_w rd f nf a size prec cond) in
        match unique_int rd b (Z.max size prec) with
        | Some (l, r) => if l =? r then Val (nf, b, l) else again
        | None => again
        end)
  end.

(** rounding_template.h:86-96: fmpz_fits_si and the addition after it. *)
Definition size_w (z : Z) : out Z := match slong (zbits z) with Val s => slong (s + 1) | _ => Abort end.

(** rounding_template.h:42-117, where [None] stands for the mark WORD_MIN. *)
Definition round_int_w (rd : roundop) (fuel : nat) (nf : renf) (x : relem) : out (renf * ball * Z) :=
  let a := r_elem x in
  if is_rational a then bind (coeff0 (f_pol nf) a) (fun c => Val (nf, r_emb x, rd_q rd c (e_den a)))
  else
    bind (if is_finite (r_emb x) then Val (nf, r_emb x, None)
          else
            let cond := elem_cond nf a in
            bind (eval_w nf a (start_prec nf) cond) (fun b =>
            bind (finite_loop_w fuel nf a b (start_prec nf) cond) (fun '(nf, b) => Val (nf, b, Some cond))))
      (fun '(nf, b, cond) =>
        match unique_int rd b (f_prec nf) with
        | Some (l, r) =>
            if l =? r then Val (nf, b, l)
            else
              bind (size_w l) (fun s => bind (size_w r) (fun t =>
              let cond := match cond with Some c => c | None => elem_cond nf a end in
              round_loop_w rd fuel nf a (Z.max (Z.max s 1) t) (start_prec nf) cond))
        | None => Undef
        end).

(** fdiv.c:49-54, 39-44 and 61-70. *)
Fixpoint nonzero_loop_w (fuel : nat) (nf : renf) (a : elem) (b : ball) (prec cond : Z) : out (renf * ball * Z) :=
  match fuel with
  | O => Fuel
  | S f =>
      if negb (contains_zero b) then Val (nf, b, prec)
      else bind (twice_w f nf prec) (fun '(nf, prec) => bind (eval_w nf a prec cond) (fun b => nonzero_loop_w f nf a b prec cond))
  end.
Fixpoint finite_loop_p_w (fuel : nat) (nf : renf) (a : elem) (b : ball) (prec cond : Z) : out (renf * ball * Z) :=
  match fuel with
  | O => Fuel
  | S f =>
      if is_finite b then Val (nf, b, prec)
      else bind (twice_w f nf prec) (fun '(nf, prec) => bind (eval_w nf a prec cond) (fun b => finite_loop_p_w f nf a b prec cond))
  end.
Fixpoint quot_loop_w (fuel : nat) (nf : renf) (b c : elem) (eb ec q : ball) (prec bcond ccond : Z) : out (renf * ball * ball * ball) :=
  match fuel with
  | O => Fuel
  | S f =>
      if rad_ge_half q then
        bind (twice_w f nf prec) (fun '(nf, prec) =>
        bind (eval_w nf b prec bcond) (fun eb =>
        bind (eval_w nf c prec ccond) (fun ec => quot_loop_w f nf b c eb ec (o_div o eb ec prec) prec bcond ccond)))
      else Val (nf, eb, ec, q)
  end.

(** fdiv.c:24-106, see [fdiv]. *)
Definition fdiv_w (same : bool) (fuel : nat) (nf : renf) (x y : relem) : out (renf * ball * ball * Z) :=
  let b := r_elem x in let c := r_elem y in
  if is_rational c then
    if is_zero c then Abort
    else bind (round_int_w rd_floor fuel nf (div_elem o n nf x y)) (fun '(nf', _, z) => Val (nf', r_emb x, r_emb y, z))
  else
    let prec := start_prec nf in
    let bcond := elem_cond nf b in
    let ccond := elem_cond nf c in
    bind (eval_w nf b prec bcond) (fun eb =>
    bind (finite_loop_p_w fuel nf b eb prec bcond) (fun '(nf, eb, prec) =>
    bind (eval_w nf c prec ccond) (fun ec =>
    bind (nonzero_loop_w fuel nf c ec prec ccond) (fun '(nf, ec, prec) =>
    let eb := if same then ec else eb in
    bind (quot_loop_w fuel nf b c eb ec (o_div o eb ec prec) prec bcond ccond) (fun '(nf, eb, ec, q) =>
      match q with
      | Top => Undef
      | Fin m r =>
          let l := dceil (dsub m r) in
          let h := dfloor (dadd m r) in
          if l <=? h then
            let ac := {| r_elem := n_mul_q n c l 1; r_emb := o_mul_z o ec l (f_prec nf) |} in
            bind (cmp_w fuel nf ac {| r_elem := b; r_emb := eb |}) (fun '(nf, _, eb, s) =>
            bind (sgn_w fuel nf {| r_elem := c; r_emb := if same then eb else ec |}) (fun '(nf, ec, cs) =>
              Val (nf, if same then ec else eb, ec, if s =? cs then l - 1 else l)))
          else Val (nf, eb, ec, dfloor m)
      end))))).

(** get_arb.c:16-46. *)
Fixpoint get_arb_loop_w (fuel : nat) (nf : renf) (a : elem) (pprec cond prec : Z) : out (renf * ball * ball) :=
  match fuel with
  | O => Fuel
  | S f =>
      bind (eval_w nf a pprec cond) (fun b =>
      bind (slong (- prec)) (fun u => bind (slong (u - 2)) (fun u =>
        if rel_error b <? u then bind (slong (prec + 2)) (fun p => Val (nf, b, o_round o b p))
        else bind (twice_w f nf pprec) (fun '(nf, pprec) => get_arb_loop_w f nf a pprec cond prec))))
  end.
Definition get_arb_w (fuel : nat) (nf : renf) (x : relem) (prec : Z) : out (renf * ball * ball) :=
  let a := r_elem x in
  if is_zero a then Val (nf, r_emb x, bzero)
  else
    bind (slong (- prec)) (fun u => bind (slong (u - 2)) (fun u =>
    if rel_error (r_emb x) <? u then bind (slong (prec + 2)) (fun p => Val (nf, r_emb x, o_round o (r_emb x) p))
    else get_arb_loop_w fuel nf a (start_prec nf) (elem_cond nf a) prec)).
End Prec.
