(** Calls of the C interface of elements as programs of single reads and writes,
    for threads that share a field: /repo/libeantic/src/renf_elem/{sgn,cmp,
    cmp_fmpq,set_evaluation,get_arb,get_cfrac,fdiv}.c, rounding_template.h, the
    arithmetic functions of that directory and
    /repo/libeantic/src/renf/{refine_embedding,set_immutable}.c.

    A step reads or writes the exact part of an element, its enclosure, the field,
    its enclosure or its mark.  A function of FLINT reads its operands and then
    writes its result.  The exact part and the enclosure are read together; that
    is no restriction, as a program may ignore one of them and read again.  Local
    variables and temporaries belong to the thread. *)
Require Import List ZArith Bool.
From Verif Require Import RootModel ExtraModel Dyadic ArbModel ElemModel.
Import ListNotations.
Open Scope Z_scope.

Inductive prog (A : Type) : Type :=
| Fin_ (r : out A)
| Rd (i : nat) (k : relem -> prog A)
| WrE (i : nat) (e : elem) (k : prog A)
| WrB (i : nat) (b : ball) (k : prog A)
| RdF (k : renf -> prog A)
| WrImm (z : Z) (k : prog A)
| WrEmb (b : ball) (k : prog A).
Arguments Fin_ {A}. Arguments Rd {A}. Arguments WrE {A}. Arguments WrB {A}. Arguments RdF {A}.
Arguments WrImm {A}. Arguments WrEmb {A}.

Fixpoint pbind {A B} (p : prog A) (f : A -> prog B) : prog B :=
  match p with
  | Fin_ (Val a) => f a
  | Fin_ Undef => Fin_ Undef | Fin_ Abort => Fin_ Abort | Fin_ Fuel => Fin_ Fuel
  | Rd i k => Rd i (fun x => pbind (k x) f)
  | WrE i e k => WrE i e (pbind k f)
  | WrB i b k => WrB i b (pbind k f)
  | RdF k => RdF (fun nf => pbind (k nf) f)
  | WrImm z k => WrImm z (pbind k f)
  | WrEmb b k => WrEmb b (pbind k f)
  end.
Definition done {A} (a : A) : prog A := Fin_ (Val a).
(** A computation on local variables. *)
Definition local {A B} (r : out A) (f : A -> prog B) : prog B := pbind (Fin_ r) f.
Notation "'do' x <- p ; q" := (pbind p (fun x => q)) (at level 200, x name, p at level 100, q at level 200).

(** A temporary: the program has the element [d] for itself, with the value [x]
    at the start. *)
Fixpoint hide {A} (d : nat) (x : relem) (p : prog A) : prog A :=
  match p with
  | Fin_ r => Fin_ r
  | Rd i k => if Nat.eqb i d then hide d x (k x) else Rd i (fun v => hide d x (k v))
  | WrE i e k => if Nat.eqb i d then hide d {| r_elem := e; r_emb := r_emb x |} k else WrE i e (hide d x k)
  | WrB i b k => if Nat.eqb i d then hide d {| r_elem := r_elem x; r_emb := b |} k else WrB i b (hide d x k)
  | RdF k => RdF (fun nf => hide d x (k nf))
  | WrImm z k => WrImm z (hide d x k)
  | WrEmb b k => WrEmb b (hide d x k)
  end.

(** Answers of calls. *)
Inductive ans := ANone | AInt (z : Z) | ABall (b : ball) | AInts (l : list Z).

Section Conc.
Variable o : arbops.
Variable n : nfops.
Variable debug : bool.

(** ** refine_embedding.c:35-60 *)
Fixpoint p_refine_loop (fuel : nat) (prec cp : Z) : prog unit :=
  match fuel with
  | O => Fin_ Fuel
  | S f => RdF (fun nf =>
      if rel_accuracy (f_emb nf) <? prec then
        let next (t : ball) := WrEmb t (RdF (fun nf' => local (comp_prec nf' 32) (fun cp' => p_refine_loop f prec cp'))) in
        local (newton_step o (f_pol nf) (zderiv (f_pol nf)) (f_emb nf) cp) (fun nw =>
          match nw with
          | (true, Some t) => next t
          | _ =>
              local (bisection_step o (f_pol nf) (f_emb nf) cp) (fun bs =>
                match bs with
                | (true, Some t) => next t
                | _ => p_refine_loop f prec (2 * cp)
                end)
          end)
      else done tt)
  end.

(** set_immutable.c:16-21. *)
Definition p_set_immutable (i : Z) : prog Z := RdF (fun nf => WrImm i (done (f_imm nf))).

(** refine_embedding.c:20-64. *)
Definition p_refine (fuel : nat) (prec : Z) : prog unit :=
  let go := RdF (fun nf => local (comp_prec nf (Z.max (f_prec nf) 64)) (fun cp => p_refine_loop fuel prec cp)) in
  if debug then
    do old <- p_set_immutable 1;
    if old =? 0 then
      do _ <- go;
      do old2 <- p_set_immutable 0;
      if old2 =? 0 then Fin_ Abort else done tt
    else Fin_ Abort
  else go.

(** ** Evaluation in place *)

(** fmpz_poly_extra/evaluate.c:17-27. *)
Fixpoint p_horner (i : nat) (p : list Z) (prec : Z) : prog unit :=
  match p with
  | [] => WrB i bzero (done tt)
  | c :: q =>
      do _ <- p_horner i q prec;
      Rd i (fun x => RdF (fun nf => WrB i (o_mul o (r_emb x) (f_emb nf) prec) (
      Rd i (fun x => WrB i (o_add_z o (r_emb x) c prec) (done tt)))))
  end.

(** set_evaluation.c:17-33, fmpq_poly_extra/evaluate.c:42-46. *)
Definition p_eval (i : nat) (prec : Z) : prog unit :=
  if prec <? 2 then Fin_ Undef
  else RdF (fun nf => Rd i (fun x =>
    let a := r_elem x in
    if linear (f_pol nf) then WrB i (o_set_q o (nth 0 (e_num a) 0) (e_den a) prec) (done tt)
    else if quadratic (f_pol nf) then
      RdF (fun nf => WrB i (o_mul_z o (f_emb nf) (nth 1 (e_num a) 0) prec) (
      Rd i (fun x => WrB i (o_add_z o (r_emb x) (nth 0 (e_num (r_elem x)) 0) prec) (
      Rd i (fun x => WrB i (o_div_z o (r_emb x) (e_den (r_elem x)) prec) (done tt))))))
    else
      do _ <- p_horner i (e_num a) prec;
      Rd i (fun x => WrB i (o_div_z o (r_emb x) (e_den (r_elem x)) prec) (done tt)))).

(** relative_condition_number_2exp.c:18-42 and the precision to start with. *)
Definition p_cond (i : nat) : prog Z := Rd i (fun x => RdF (fun nf => done (elem_cond nf (r_elem x)))).
Definition p_start : prog Z := RdF (fun nf => done (start_prec nf)).

(** ** sgn.c *)

(** Lines 40-48. *)
Fixpoint p_sgn_loop (fuel : nat) (i : nat) (prec cond : Z) : prog Z :=
  match fuel with
  | O => Fin_ Fuel
  | S f => Rd i (fun x =>
      if negb (contains_zero (r_emb x)) then Rd i (fun x => done (msgn (r_emb x)))
      else
        do _ <- p_refine f (2 * prec);
        do _ <- p_eval i (2 * prec + cond);
        p_sgn_loop f i (2 * prec) cond)
  end.

(** Lines 16-49. *)
Definition p_sgn (fuel : nat) (i : nat) : prog Z :=
  Rd i (fun x =>
    match e_num (r_elem x) with
    | [] => done 0
    | [c] => done (Z.sgn c)
    | _ => Rd i (fun x =>
        if negb (contains_zero (r_emb x)) then Rd i (fun x => done (msgn (r_emb x)))
        else
          do cond <- p_cond i;
          do prec <- p_start;
          do _ <- p_eval i (prec + cond);
          p_sgn_loop fuel i prec cond)
    end).

(** The same on a temporary element. *)
Definition p_sgn_tmp (fuel : nat) (x : relem) : prog Z := hide 0 x (p_sgn fuel 0).

(** ** cmp.c:18-83 *)
Definition p_cmp (fuel : nat) (i j : nat) : prog Z :=
  let both {A} (f : relem -> relem -> prog A) : prog A := Rd i (fun x => Rd j (fun y => f x y)) in
  both (fun x y =>
    let a := r_elem x in let b := r_elem y in
    if elem_eqb a b then done 0
    else both (fun x y => if blt (r_emb x) (r_emb y) then done (-1)
    else both (fun x y => if blt (r_emb y) (r_emb x) then done 1
    else both (fun x y =>
      let a := r_elem x in let b := r_elem y in
      if is_rational a && is_rational b then
        if is_zero a then do s <- p_sgn fuel j; done (- s)
        else if is_zero b then p_sgn fuel i
        else done (fmpq_cmp (nth 0 (e_num a) 0) (e_den a) (nth 0 (e_num b) 0) (e_den b))
      else
        do prec <- p_start;
        do ca <- p_cond i;
        do _ <- p_eval i (prec + ca);
        do cb <- p_cond j;
        do _ <- p_eval j (prec + cb);
        both (fun x y => if blt (r_emb x) (r_emb y) then done (-1)
        else both (fun x y => if blt (r_emb y) (r_emb x) then done 1
        else both (fun x y => RdF (fun nf => p_sgn_tmp fuel (relem_sub o n nf x y)))))))) ).

(** ** cmp_fmpq.c:19-86 *)
Definition p_cmp_q (fuel : nat) (i : nat) (qn qd : Z) : prog Z :=
  if qn =? 0 then p_sgn fuel i
  else Rd i (fun x =>
    let a := r_elem x in
    if is_zero a then done (- Z.sgn qn)
    else if is_rational a then done (fmpq_cmp (nth 0 (e_num a) 0) (e_den a) qn qd)
    else RdF (fun nf => Rd i (fun x =>
      let d := o_sub o (r_emb x) (o_set_q o qn qd (f_prec nf)) (f_prec nf) in
      if negb (contains_zero d) then done (msgn d)
      else
        do cond <- p_cond i;
        do prec <- p_start;
        if debug && (prec =? - cond) then Fin_ Abort
        else
          do _ <- p_eval i (prec + cond);
          Rd i (fun x =>
            let d := o_sub o (r_emb x) (o_set_q o qn qd prec) prec in
            if negb (contains_zero d) then done (msgn d)
            else RdF (fun nf => Rd i (fun x =>
              p_sgn_tmp fuel {| r_elem := n_sub_q n (r_elem x) qn qd;
                                r_emb := o_sub o (r_emb x) (o_set_q o qn qd (f_prec nf)) (f_prec nf) |})))))).

(** ** rounding_template.h *)

(** Lines 67-72. *)
Fixpoint p_finite_loop (fuel : nat) (i : nat) (prec cond : Z) : prog unit :=
  match fuel with
  | O => Fin_ Fuel
  | S f => Rd i (fun x =>
      if is_finite (r_emb x) then done tt
      else
        do _ <- p_refine f (2 * prec);
        do _ <- p_eval i (2 * prec + cond);
        p_finite_loop f i (2 * prec) cond)
  end.

(** Lines 105-116. *)
Fixpoint p_round_loop (rd : roundop) (fuel : nat) (i : nat) (size prec cond : Z) : prog Z :=
  match fuel with
  | O => Fin_ Fuel
  | S f =>
      do _ <- p_eval i (prec + cond);
      Rd i (fun x =>
        let again := do _ <- p_refine f (2 * prec); p_round_loop rd f i size (2 * prec) cond in
        match unique_int rd (r_emb x) (Z.max size prec) with
        | Some (l, r) => if l =? r then done l else again
        | None => again
        end)
  end.

(** Lines 42-117. *)
Definition p_round (rd : roundop) (fuel : nat) (i : nat) : prog Z :=
  Rd i (fun x =>
    if is_rational (r_elem x) then
      RdF (fun nf => local (coeff0 (f_pol nf) (r_elem x)) (fun c => done (rd_q rd c (e_den (r_elem x)))))
    else Rd i (fun x =>
      do known <- (if is_finite (r_emb x) then done None
                   else
                     do cond <- p_cond i;
                     do prec <- p_start;
                     do _ <- p_eval i (prec + cond);
                     do _ <- p_finite_loop fuel i prec cond;
                     done (Some cond));
      RdF (fun nf => Rd i (fun x =>
        match unique_int rd (r_emb x) (f_prec nf) with
        | Some (l, r) =>
            if l =? r then done l
            else
              do prec <- p_start;
              do cond <- match known with Some c => done c | None => p_cond i end;
              p_round_loop rd fuel i (rd_size l r) prec cond
        | None => Fin_ Undef
        end)))).

(** ** fdiv.c:24-106 *)

(** Lines 39-44. *)
Fixpoint p_finite_loop_p (fuel : nat) (i : nat) (prec cond : Z) : prog Z :=
  match fuel with
  | O => Fin_ Fuel
  | S f => Rd i (fun x =>
      if is_finite (r_emb x) then done prec
      else
        do _ <- p_refine f (2 * prec);
        do _ <- p_eval i (2 * prec + cond);
        p_finite_loop_p f i (2 * prec) cond)
  end.

(** Lines 49-54. *)
Fixpoint p_nonzero_loop (fuel : nat) (i : nat) (prec cond : Z) : prog Z :=
  match fuel with
  | O => Fin_ Fuel
  | S f => Rd i (fun x =>
      if negb (contains_zero (r_emb x)) then done prec
      else
        do _ <- p_refine f (2 * prec);
        do _ <- p_eval i (2 * prec + cond);
        p_nonzero_loop f i (2 * prec) cond)
  end.

(** Lines 61-70. *)
Fixpoint p_quot_loop (fuel : nat) (b c : nat) (q : ball) (prec bcond ccond : Z) : prog ball :=
  match fuel with
  | O => Fin_ Fuel
  | S f =>
      if rad_ge_half q then
        do _ <- p_refine f (2 * prec);
        do _ <- p_eval b (2 * prec + bcond);
        do _ <- p_eval c (2 * prec + ccond);
        Rd b (fun x => Rd c (fun y =>
        p_quot_loop f b c (o_div o (r_emb x) (r_emb y) (2 * prec)) (2 * prec) bcond ccond))
      else done q
  end.

Definition p_fdiv (fuel : nat) (b c : nat) : prog Z :=
  Rd c (fun y =>
    if is_rational (r_elem y) then
      if is_zero (r_elem y) then Fin_ Abort
      else Rd b (fun x => Rd c (fun y => RdF (fun nf =>
        hide 0 (div_elem o n nf x y) (p_round rd_floor fuel 0))))
    else
      do prec <- p_start;
      do bcond <- p_cond b;
      do ccond <- p_cond c;
      do _ <- p_eval b (prec + bcond);
      do prec <- p_finite_loop_p fuel b prec bcond;
      do _ <- p_eval c (prec + ccond);
      do prec <- p_nonzero_loop fuel c prec ccond;
      Rd b (fun x => Rd c (fun y =>
      do q <- p_quot_loop fuel b c (o_div o (r_emb x) (r_emb y) prec) prec bcond ccond;
      match q with
      | Top => Fin_ Undef
      | Fin m r =>
          let l := dceil (dsub m r) in
          let h := dfloor (dadd m r) in
          if l <=? h then
            RdF (fun nf => Rd c (fun y =>
            let ac := {| r_elem := n_mul_q n (r_elem y) l 1; r_emb := o_mul_z o (r_emb y) l (f_prec nf) |} in
            do s <- hide (S b) ac (p_cmp fuel (S b) b);
            do cs <- p_sgn fuel c;
            done (if s =? cs then l - 1 else l)))
          else done (dfloor m)
      end))).

(** ** get_arb.c:16-46 *)
Fixpoint p_get_arb_loop (fuel : nat) (i : nat) (pprec cond prec : Z) : prog ball :=
  match fuel with
  | O => Fin_ Fuel
  | S f =>
      do _ <- p_eval i (pprec + cond);
      Rd i (fun x =>
        if rel_error (r_emb x) <? - prec - 2 then Rd i (fun x => done (o_round o (r_emb x) (prec + 2)))
        else do _ <- p_refine f (2 * pprec); p_get_arb_loop f i (2 * pprec) cond prec)
  end.
Definition p_get_arb (fuel : nat) (i : nat) (prec : Z) : prog ball :=
  Rd i (fun x =>
    if is_zero (r_elem x) then done bzero
    else Rd i (fun x =>
      if rel_error (r_emb x) <? - prec - 2 then Rd i (fun x => done (o_round o (r_emb x) (prec + 2)))
      else
        do cond <- p_cond i;
        do pprec <- p_start;
        p_get_arb_loop fuel i pprec cond prec)).

(** ** Arithmetic: the exact part first, then the enclosure *)
Definition p0 (a : nat) (e : elem) (b : renf -> ball) : prog unit := WrE a e (RdF (fun nf => WrB a (b nf) (done tt))).
Definition p1 (a b : nat) (fe : elem -> elem) (fb : ball -> Z -> ball) : prog unit :=
  Rd b (fun x => WrE a (fe (r_elem x)) (RdF (fun nf => Rd b (fun x => WrB a (fb (r_emb x) (f_prec nf)) (done tt))))).
Definition p2 (a b c : nat) (fe : elem -> elem -> elem) (fb : ball -> ball -> Z -> ball) : prog unit :=
  Rd b (fun x => Rd c (fun y => WrE a (fe (r_elem x) (r_elem y)) (
  RdF (fun nf => Rd b (fun x => Rd c (fun y => WrB a (fb (r_emb x) (r_emb y) (f_prec nf)) (done tt))))))).
Definition p_set (a b : nat) : prog unit := p1 a b (fun e => e) (fun b _ => b).        (* set.c *)
Definition p_inv (a b : nat) : prog unit :=                                             (* inv.c *)
  Rd b (fun x => if is_zero (r_elem x) then Fin_ Abort else p1 a b (n_inv n) (o_inv o)).
Definition p_mul_q (a b : nat) (qn qd : Z) : prog unit :=                               (* mul_fmpq.c *)
  p1 a b (fun e => n_mul_q n e qn qd) (fun b p => o_mul o b (o_set_q o qn qd p) p).

(** get_cfrac.c:16-32. *)
Fixpoint p_cfrac (fuel : nat) (r : nat) (k : nat) : prog (list Z) :=
  match k with
  | O => done []
  | S k' =>
      do c <- p_round rd_floor fuel r;
      do _ <- p1 r r (fun e => n_sub_q n e c 1) (fun b p => o_sub_z o b c p);
      Rd r (fun x =>
        if is_zero (r_elem x) then done [c]
        else
          do _ <- p1 r r (n_inv n) (o_inv o);
          do cs <- p_cfrac fuel r k';
          done (c :: cs))
  end.

(** Calls, as in ElemModel.v. *)
Definition p_call (fuel : nat) (k : call) : prog ans :=
  let none (p : prog unit) := do _ <- p; done ANone in
  let int (p : prog Z) := do z <- p; done (AInt z) in
  match k with
  | KZero a => none (p0 a {| e_num := []; e_den := 1 |} (fun _ => bzero))
  | KOne a => none (p0 a {| e_num := [1]; e_den := 1 |} (fun _ => bint 1))
  | KGen a => RdF (fun nf => local (gen o n nf) (fun x => WrE a (r_elem x) (WrB a (r_emb x) (done ANone))))
  | KSetZ a z => none (p0 a (n_set_q n z 1) (fun _ => bint z))
  | KSetQ a qn qd => none (p0 a (n_set_q n qn qd) (fun nf => o_set_q o qn qd (f_prec nf)))
  | KSetPoly a q d => none (p0 a (n_set_poly n q d) (fun nf => eval_arb_q o q d (f_emb nf) (f_prec nf)))
  | KSet a b => none (p_set a b)
  | KSetNf a e prec => none (WrE a e (p_eval a prec))
  | KSwap a b => Rd a (fun x => Rd b (fun y => WrE a (r_elem y) (WrB a (r_emb y) (WrE b (r_elem x) (WrB b (r_emb x) (done ANone))))))
  | KAdd a b c => none (p2 a b c (n_add n) (o_add o))
  | KSub a b c => none (p2 a b c (n_sub n) (o_sub o))
  | KMul a b c => none (p2 a b c (n_mul n) (o_mul o))
  | KDiv a b c => Rd c (fun y => if is_zero (r_elem y) then Fin_ Abort else none (p2 a b c (n_div n) (o_div o)))
  | KAddZ a b z => none (p1 a b (fun e => n_add_q n e z 1) (fun b p => o_add_z o b z p))
  | KSubZ a b z => none (p1 a b (fun e => n_sub_q n e z 1) (fun b p => o_sub_z o b z p))
  | KMulZ a b z => none (p1 a b (fun e => n_mul_q n e z 1) (fun b p => o_mul_z o b z p))
  | KDivZ a b z => if z =? 0 then Fin_ Abort else none (p1 a b (fun e => n_div_q n e z 1) (fun b p => o_div_z o b z p))
  | KAddQ a b qn qd => none (p1 a b (fun e => n_add_q n e qn qd) (fun b p => o_add o b (o_set_q o qn qd p) p))
  | KSubQ a b qn qd => none (p1 a b (fun e => n_sub_q n e qn qd) (fun b p => o_sub o b (o_set_q o qn qd p) p))
  | KQSub a qn qd b => none (p1 a b (fun e => n_q_sub n qn qd e) (fun b p => o_sub o (o_set_q o qn qd p) b p))
  | KMulQ a b qn qd => none (p_mul_q a b qn qd)
  | KDivQ a b qn qd => if qn =? 0 then Fin_ Abort else none (p1 a b (fun e => n_div_q n e qn qd) (fun b p => o_div o b (o_set_q o qn qd p) p))
  | KQDiv a qn qd c => none (do _ <- p_set a c; do _ <- p_inv a a; p_mul_q a c qn qd)
  | KNeg a b => none (p1 a b (n_neg n) (fun b _ => bneg b))
  | KInv a b => none (p_inv a b)
  | KPow a b e => none (p1 a b (fun x => n_pow n x e) (fun b p => o_pow o b e p))
  | KEval a prec => none (p_eval a prec)
  | KRefine prec => none (p_refine fuel prec)
  | KSgn a => int (p_sgn fuel a)
  | KCmp a b => int (p_cmp fuel a b)
  | KCmpQ a qn qd => int (p_cmp_q fuel a qn qd)
  | KFloor a => int (p_round rd_floor fuel a)
  | KCeil a => int (p_round rd_ceil fuel a)
  | KFdiv b c => int (p_fdiv fuel b c)
  | KGetArb a prec => do b <- p_get_arb fuel a prec; done (ABall b)
  | KCfrac r a k =>
      do _ <- p_set r a;
      Rd r (fun x => if is_zero (r_elem x) then done (AInts []) else do l <- p_cfrac fuel r k; done (AInts l))
  end.

Fixpoint p_calls (fuel : nat) (l : list call) : prog (list ans) :=
  match l with
  | [] => done []
  | k :: l' => do a <- p_call fuel k; do r <- p_calls fuel l'; done (a :: r)
  end.
End Conc.
