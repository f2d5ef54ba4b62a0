(** Model of the values seen through the C++ interface:
    /repo/libeantic/srcxx/renf_elem_class.cpp, on top of ElemModel.v.

    A [renf_elem_class] object is its field (fields are compared by address,
    renf_class.cpp:203-206) and its [renf_elem_t].  Storage and reference counts
    are in LifeModel.v; here every object is alive and has not been moved from.
    Field 0 is the rational field [renf_class::make()].  An exception is a
    normal result, [Throw]; no function modelled here changes an object before
    it throws. *)
Require Import List ZArith Bool.
From Verif Require Import Dyadic ArbModel ElemModel.
Import ListNotations.
Open Scope Z_scope.

Inductive exc (A : Type) := Ret (a : A) | Throw.
Arguments Ret {A} a.
Arguments Throw {A}.

Definition ebind {A B} (x : out (exc A)) (f : A -> out (exc B)) : out (exc B) :=
  bind x (fun e => match e with Ret a => f a | Throw => Val Throw end).

Record obj := { ob_field : nat; ob_val : relem }.
Record world := { w_fields : nat -> renf; w_objs : nat -> obj }.

Definition fld (w : world) (i : nat) : nat := ob_field (w_objs w i).
Definition val (w : world) (i : nat) : relem := ob_val (w_objs w i).
Definition num_of (w : world) (i : nat) : elem := r_elem (val w i).
Definition set_field (w : world) (f : nat) (nf : renf) : world :=
  {| w_fields := fun g => if Nat.eqb g f then nf else w_fields w g; w_objs := w_objs w |}.
Definition set_obj (w : world) (i : nat) (x : obj) : world :=
  {| w_fields := w_fields w; w_objs := fun j => if Nat.eqb j i then x else w_objs w j |}.
Definition set_val (w : world) (i : nat) (y : relem) : world := set_obj w i {| ob_field := fld w i; ob_val := y |}.
Definition set_ball (w : world) (i : nat) (b : ball) : world := set_val w i {| r_elem := num_of w i; r_emb := b |}.

(** ** Machine integers *)
Inductive ity := Short | UShort | Int | UInt | Long | ULong | LLong | ULLong.
Definition signed (t : ity) : bool := match t with Short | Int | Long | LLong => true | _ => false end.
Definition bits (t : ity) : Z := match t with Short | UShort => 16 | Int | UInt => 32 | _ => 64 end.
Definition low (t : ity) : Z := if signed t then - 2 ^ (bits t - 1) else 0.
Definition high (t : ity) : Z := if signed t then 2 ^ (bits t - 1) - 1 else 2 ^ bits t - 1.
Definition fits (t : ity) (z : Z) : bool := (low t <=? z) && (z <=? high t).
(** static_cast between integers. *)
Definition cast (t : ity) (z : Z) : Z := low t + (z - low t) mod 2 ^ bits t.

(** The integer given to the C function: lines 1022-1224 (static_cast to long or
    unsigned long) and [maybe_fmpz], lines 213-228 (numeric_cast, or through a
    string to mpz when it does not fit). *)
Definition arg (t : ity) (z : Z) : Z :=
  match t with
  | Short | Int => cast Long z
  | UShort | UInt => cast ULong z
  | Long | ULong => z
  | LLong => if fits Long z then cast Long z else z
  | ULLong => if fits ULong z then cast ULong z else z
  end.

Section Cxx.
Variable o : arbops.
Variable ops : list Z -> nfops.   (* antic's arithmetic modulo a polynomial *)
Variable debug : bool.            (* assertions compiled in *)
Variable fuel : nat.

(** renf_elem_get_fmpz, lines 36-60. *)
Definition get_fmpz (a : elem) : Z := nth 0 (e_num a) 0.

(** renf_elem_get_fmpq, lines 63-77; nf_elem_get_coeff_fmpq reduces the fraction. *)
Definition get_fmpq (pol : list Z) (a : elem) : out (Z * Z) :=
  if linear pol then Val (nth 0 (e_num a) 0, e_den a)
  else canonicalise (nth 0 (e_num a) 0) (e_den a).

(** operator mpq_class, lines 808-829. *)
Definition to_mpq (a : elem) : out (Z * Z) :=
  if is_zero a then Val (0, 1)
  else if debug && negb (is_rational a) then Abort
  else Val (nth 0 (e_num a) 0, e_den a).

(** A call of the C interface that writes to object [i], with the parent of [i]
    and [j] as a possible second operand ([j = i] if there is none). *)
Definition call_on (w : world) (i j : nat) (k : call) : out world :=
  let nf := w_fields w (fld w i) in
  let m : mem := fun h => if Nat.eqb h i then val w i else val w j in
  bind (run o (ops (f_pol nf)) debug fuel nf m k) (fun '(nf', m') =>
    Val (set_val (set_field w (fld w i) nf') i (m' i))).

(** A fresh element of field [f]: lines 326-331, zero. *)
Definition zero_in (f : nat) : obj :=
  {| ob_field := f; ob_val := {| r_elem := {| e_num := []; e_den := 1 |}; r_emb := bzero |} |}.

(** renf_elem_class(k, value), lines 439-449, written to object [i]. *)
Definition convert (w : world) (i : nat) (f : nat) (j : nat) : out (exc world) :=
  if Nat.eqb (fld w j) f then Val (Ret (set_obj w i {| ob_field := f; ob_val := val w j |}))
  else if is_rational (num_of w j) then
    bind (to_mpq (num_of w j)) (fun '(qn, qd) =>
    bind (call_on (set_obj w i (zero_in f)) i i (KSetQ i qn qd)) (fun w' => Val (Ret w')))
  else Val Throw.

(** coerce, lines 79-105. *)
Definition coerce (w : world) (i : nat) (f : nat) : out (exc world) :=
  if Nat.eqb f (fld w i) then Val (Ret w)
  else if is_zero (num_of w i) then Val (Ret (set_obj w i (zero_in f)))
  else if is_integer (num_of w i) then
    let z := get_fmpz (num_of w i) in
    bind (call_on (set_obj w i (zero_in f)) i i (KSetZ i z)) (fun w' => Val (Ret w'))
  else if is_rational (num_of w i) then convert w i f i
  else Val Throw.

(** ** Arithmetic *)
Inductive aop := Add | Sub | Mul | Div.
Definition op_elem (p : aop) (a b c : nat) : call :=
  match p with Add => KAdd a b c | Sub => KSub a b c | Mul => KMul a b c | Div => KDiv a b c end.
Definition op_z (p : aop) (a b : nat) (z : Z) : call :=
  match p with Add => KAddZ a b z | Sub => KSubZ a b z | Mul => KMulZ a b z | Div => KDivZ a b z end.
Definition op_q (p : aop) (a b : nat) (qn qd : Z) : call :=
  match p with Add => KAddQ a b qn qd | Sub => KSubQ a b qn qd | Mul => KMulQ a b qn qd | Div => KDivQ a b qn qd end.

Definition ret (w : world) : out (exc world) := Val (Ret w).

(** binop, lines 112-151.  [strict]: LIBEANTIC_STRICT_BINOP is set.  The
    recursive call of line 146 finds both operands in one field. *)
Definition binop (strict : bool) (p : aop) (w : world) (i j : nat) : out (exc world) :=
  if Nat.eqb (fld w i) (fld w j) then bind (call_on w i j (op_elem p i i j)) ret
  else if strict && negb (Nat.eqb (fld w i) 0) && negb (Nat.eqb (fld w j) 0) then Val Throw
  else if is_integer (num_of w j) then bind (call_on w i i (op_z p i i (get_fmpz (num_of w j)))) ret
  else if is_rational (num_of w j) then
    bind (get_fmpq (f_pol (w_fields w (fld w j))) (num_of w j)) (fun '(qn, qd) =>
    bind (call_on w i i (op_q p i i qn qd)) ret)
  else ebind (coerce w i (fld w j)) (fun w' => bind (call_on w' i j (op_elem p i i j)) ret).

(** Compound assignment with a machine integer, mpz or mpq: lines 1022-1348. *)
Definition binop_int (p : aop) (w : world) (i : nat) (t : ity) (z : Z) : out world := call_on w i i (op_z p i i (arg t z)).
Definition binop_mpz (p : aop) (w : world) (i : nat) (z : Z) : out world := call_on w i i (op_z p i i z).
Definition binop_mpq (p : aop) (w : world) (i : nat) (qn qd : Z) : out world := call_on w i i (op_q p i i qn qd).

(** operator-, lines 911-916: [i] receives the negative of [j]. *)
Definition negate (w : world) (i j : nat) : out world :=
  let w := set_obj w i (w_objs w j) in call_on w i i (KNeg i i).

(** pow, lines 966-981: [i] receives the power of [j] (another object).  The
    negation of INT_MIN overflows. *)
Definition pow (w : world) (i j : nat) (e : Z) : out world :=
  let w := set_obj w i (zero_in (fld w j)) in
  if e <? 0 then
    bind (call_on w i j (KInv i j)) (fun w =>
      if e =? low Int then Undef else call_on w i i (KPow i i (- e)))
  else call_on w i j (KPow i j e).

(** Assignment of integers and rationals, lines 566-680: the object moves to the
    rational field. *)
Definition assign_int (w : world) (i : nat) (t : ity) (z : Z) : out world :=
  call_on (set_obj w i (zero_in 0)) i i (KSetZ i (arg t z)).
Definition assign_mpq (w : world) (i : nat) (qn qd : Z) : out world :=
  call_on (set_obj w i (zero_in 0)) i i (KSetQ i qn qd).

(** Construction in field [f] from an integer, a rational or a vector of
    numerators over a common denominator, lines 333-399 and 451-557. *)
Definition make_int (w : world) (i f : nat) (t : ity) (z : Z) : out world :=
  call_on (set_obj w i (zero_in f)) i i (KSetZ i (arg t z)).
Definition make_mpq (w : world) (i f : nat) (qn qd : Z) : out world :=
  call_on (set_obj w i (zero_in f)) i i (KSetQ i qn qd).
Definition make_vector (w : world) (i f : nat) (v : list Z) (d : Z) : out world :=
  if debug && Nat.leb (length (f_pol (w_fields w f))) (length v) then Abort
  else call_on (set_obj w i (zero_in f)) i i (KSetPoly i v d).

(** ** Relations *)

(** The three functions below compute an answer and may refine the field and
    the enclosures: renf_elem_cmp, renf_elem_cmp_fmpq (with _fmpz, _si, _ui). *)
Definition cmp_objs (w : world) (i j : nat) : out (world * Z) :=
  let f := fld w i in
  let nf := w_fields w f in
  bind (cmp o (ops (f_pol nf)) debug fuel nf (val w i) (val w j)) (fun '(nf', bi, bj, s) =>
    Val (set_ball (set_ball (set_field w f nf') i bi) j bj, s)).
Definition cmp_num (w : world) (i : nat) (qn qd : Z) : out (world * Z) :=
  let f := fld w i in
  let nf := w_fields w f in
  bind (cmp_q o (ops (f_pol nf)) debug fuel nf (val w i) qn qd) (fun '(nf', b, s) =>
    Val (set_ball (set_field w f nf') i b, s)).

(** relop_mpq with cmp = -1 or 1, lines 192-208; boost::math::sign is the sign. *)
Definition relop_mpq (w : world) (i : nat) (qn qd : Z) (c : Z) : out (exc (world * bool)) :=
  bind (cmp_num w i qn qd) (fun '(w', s) => Val (Ret (w', Z.sgn s =? c))).

(** operator==, lines 983-1001. *)
Definition eq_objs (w : world) (i j : nat) : out (exc (world * bool)) :=
  if Nat.eqb (fld w i) (fld w j) then Val (Ret (w, elem_eqb (num_of w i) (num_of w j)))
  else if is_rational (num_of w i) then
    if negb (is_rational (num_of w j)) then Val (Ret (w, false))
    else
      bind (to_mpq (num_of w i)) (fun '(n1, d1) => bind (to_mpq (num_of w j)) (fun '(n2, d2) =>
        Val (Ret (w, (n1 =? n2) && (d1 =? d2)))))       (* mpq_equal *)
  else if is_rational (num_of w j) then Val (Ret (w, false))
  else Val Throw.

(** operator<, lines 1003-1020.  [self < rhs] with a rational self is
    [rhs > self] (boost/operators.hpp). *)
Definition lt_objs (w : world) (i j : nat) : out (exc (world * bool)) :=
  if Nat.eqb (fld w i) (fld w j) then bind (cmp_objs w i j) (fun '(w', s) => Val (Ret (w', s <? 0)))
  else if is_rational (num_of w i) then
    bind (to_mpq (num_of w i)) (fun '(qn, qd) => relop_mpq w j qn qd 1)
  else if is_rational (num_of w j) then
    bind (to_mpq (num_of w j)) (fun '(qn, qd) => relop_mpq w i qn qd (-1))
  else Val Throw.

(** The derived operators of boost/operators.hpp (less_than_comparable1 and 2,
    equality_comparable1 and 2). *)
Inductive rel := REq | RNe | RLt | RGt | RLe | RGe.
Definition flip (x : out (exc (world * bool))) : out (exc (world * bool)) :=
  ebind x (fun '(w, b) => Val (Ret (w, negb b))).
Definition rel_objs (r : rel) (w : world) (i j : nat) : out (exc (world * bool)) :=
  match r with
  | REq => eq_objs w i j
  | RNe => flip (eq_objs w i j)
  | RLt => lt_objs w i j
  | RGt => lt_objs w j i
  | RLe => flip (lt_objs w j i)
  | RGe => flip (lt_objs w i j)
  end.

(** operator==, <, > with a machine integer: lines 1042-1054, 1076-1086,
    1108-1120, 1142-1152, 1178-1188, 1214-1224, 1250-1260, 1286-1296. *)
Definition eq_int (w : world) (i : nat) (t : ity) (z : Z) : out (exc (world * bool)) :=
  let a := num_of w i in
  Val (Ret (w,
    match t with
    | Short | Int => if z =? 0 then is_zero a else equal_q a (arg t z) 1
    | LLong | ULLong => if negb (is_integer a) then false else equal_q a (arg t z) 1
    | _ => equal_q a (arg t z) 1
    end)).
Definition lt_int (w : world) (i : nat) (t : ity) (z : Z) : out (exc (world * bool)) :=
  match t with
  | LLong | ULLong => relop_mpq w i (arg t z) 1 (-1)       (* lines 262-272 *)
  | _ => bind (cmp_num w i (arg t z) 1) (fun '(w', s) => Val (Ret (w', s <? 0)))
  end.
Definition gt_int (w : world) (i : nat) (t : ity) (z : Z) : out (exc (world * bool)) :=
  match t with
  | LLong | ULLong => relop_mpq w i (arg t z) 1 1
  | _ => bind (cmp_num w i (arg t z) 1) (fun '(w', s) => Val (Ret (w', 0 <? s)))
  end.
Definition rel_int (r : rel) (w : world) (i : nat) (t : ity) (z : Z) : out (exc (world * bool)) :=
  match r with
  | REq => eq_int w i t z
  | RNe => flip (eq_int w i t z)
  | RLt => lt_int w i t z
  | RGt => gt_int w i t z
  | RLe => flip (gt_int w i t z)
  | RGe => flip (lt_int w i t z)
  end.

(** With mpz (denominator 1) and mpq, lines 163-179, 192-208, 1318-1360. *)
Definition eq_mpz (w : world) (i : nat) (z : Z) : out (exc (world * bool)) :=
  Val (Ret (w, if negb (is_integer (num_of w i)) then false else equal_q (num_of w i) z 1)).
Definition eq_mpq (w : world) (i : nat) (qn qd : Z) : out (exc (world * bool)) :=
  Val (Ret (w, if negb (is_rational (num_of w i)) then false else equal_q (num_of w i) qn qd)).
Definition rel_mpq (r : rel) (w : world) (i : nat) (qn qd : Z) : out (exc (world * bool)) :=
  match r with
  | REq => eq_mpq w i qn qd
  | RNe => flip (eq_mpq w i qn qd)
  | RLt => relop_mpq w i qn qd (-1)
  | RGt => relop_mpq w i qn qd 1
  | RLe => flip (relop_mpq w i qn qd 1)
  | RGe => flip (relop_mpq w i qn qd (-1))
  end.
Definition rel_mpz (r : rel) (w : world) (i : nat) (z : Z) : out (exc (world * bool)) :=
  match r with
  | REq => eq_mpz w i z
  | RNe => flip (eq_mpz w i z)
  | _ => rel_mpq r w i z 1
  end.

(** ** floordiv, lines 943-964 *)

(** Elements of different representation are mixed up in memory. *)
Definition kind (pol : list Z) : nat := if linear pol then 0%nat else if quadratic pol then 1%nat else 2%nat.

Definition fdiv_objs (w : world) (i j : nat) : out (exc (world * Z)) :=
  let f := fld w i in
  let nf := w_fields w f in
  if negb (Nat.eqb (kind (f_pol nf)) (kind (f_pol (w_fields w (fld w j))))) then Undef
  else
    bind (fdiv o (ops (f_pol nf)) debug (Nat.eqb i j) fuel nf (val w i) (val w j)) (fun '(nf', bi, bj, z) =>
      Val (Ret (set_ball (set_ball (set_field w f nf') i bi) j bj, z))).

(** The objects of [w] with the fields of [v], after a temporary is gone. *)
Definition restore (w v : world) : world := {| w_fields := w_fields v; w_objs := w_objs w |}.

Definition floordiv (strict : bool) (w : world) (i j : nat) : out (exc (world * Z)) :=
  if Nat.eqb (fld w i) (fld w j) then fdiv_objs w i j
  else if is_rational (num_of w j) then
    (* ( *this / rhs).floor() on a copy of [i] *)
    ebind (binop strict Div w i j) (fun v =>
      let nf := w_fields v (fld v i) in
      bind (floor o debug fuel nf (val v i)) (fun '(nf', _, z) =>
        Val (Ret (restore w (set_field v (fld v i) nf'), z))))
  else if is_rational (num_of w i) then
    bind (to_mpq (num_of w i)) (fun '(qn, qd) =>
    bind (make_mpq w i (fld w j) qn qd) (fun v =>
      (* the temporary is destroyed, the divisor keeps its new enclosure *)
      ebind (fdiv_objs v i j) (fun '(v', z) => Val (Ret (set_obj v' i (w_objs w i), z)))))
  else fdiv_objs w i j.

(** ** Numerator and denominator *)

(** num, lines 732-754. *)
Definition num (pol : list Z) (a : elem) : out Z :=
  if linear pol then Val (nth 0 (e_num a) 0)
  else if quadratic pol then
    if debug && negb (nth 1 (e_num a) 0 =? 0) then Abort else Val (nth 0 (e_num a) 0)
  else
    match e_num a with
    | [] => Val 0
    | c :: l => if debug && negb (Nat.eqb (length (e_num a)) 1) then Abort else Val c
    end.

(** num_content, lines 756-783; _fmpz_poly_content is the non-negative gcd. *)
Definition num_content (pol : list Z) (a : elem) : Z :=
  if linear pol then (if nth 0 (e_num a) 0 <? 0 then - nth 0 (e_num a) 0 else nth 0 (e_num a) 0)
  else if quadratic pol then Z.gcd (nth 0 (e_num a) 0) (nth 1 (e_num a) 0)
  else fold_right Z.gcd 0 (e_num a).

(** den, lines 785-795. *)
Definition den (a : elem) : Z := e_den a.

(** operator mpz_class, lines 797-806. *)
Definition to_mpz (a : elem) : out Z :=
  if debug && negb (is_integer a) then Abort else Val (get_fmpz a).

(** num_vector, lines 831-850. *)
Definition num_vector (pol : list Z) (a : elem) : list Z :=
  e_num a ++ repeat 0 (length pol - 1 - length (e_num a)).

(** ** Histories *)

Definition floor_obj (rd : roundop) (w : world) (i : nat) : out (world * Z) :=     (* lines 873-897 *)
  let f := fld w i in
  bind (round_int o debug rd fuel (w_fields w f) (val w i)) (fun '(nf', b, z) => Val (set_ball (set_field w f nf') i b, z)).
Definition sgn_obj (w : world) (i : nat) : out (world * Z) :=                      (* lines 899-902 *)
  let f := fld w i in
  bind (sgn o debug fuel (w_fields w f) (val w i)) (fun '(nf', b, z) => Val (set_ball (set_field w f nf') i b, z)).

Inductive xcall :=
| XBin (p : aop) (i j : nat) | XBinInt (p : aop) (i : nat) (t : ity) (z : Z)
| XBinMpz (p : aop) (i : nat) (z : Z) | XBinMpq (p : aop) (i : nat) (qn qd : Z)
| XNeg (i j : nat) | XPow (i j : nat) (e : Z)
| XCopy (i j : nat) | XConvert (i f j : nat) | XZero (i f : nat) | XGen (i f : nat)
| XAssignInt (i : nat) (t : ity) (z : Z) | XAssignMpq (i : nat) (qn qd : Z)
| XMakeInt (i f : nat) (t : ity) (z : Z) | XMakeMpq (i f : nat) (qn qd : Z) | XMakeVector (i f : nat) (v : list Z) (d : Z)
| XRel (r : rel) (i j : nat) | XRelInt (r : rel) (i : nat) (t : ity) (z : Z)
| XRelMpz (r : rel) (i : nat) (z : Z) | XRelMpq (r : rel) (i : nat) (qn qd : Z)
| XFloordiv (i j : nat) | XFloor (i : nat) | XCeil (i : nat) | XSgn (i : nat) | XRefine (f : nat) (prec : Z).

Definition done {A} (x : out (exc (world * A))) : out (exc world) := ebind x (fun '(w, _) => Val (Ret w)).
Definition xrun (strict : bool) (w : world) (c : xcall) : out (exc world) :=
  match c with
  | XBin p i j => binop strict p w i j
  | XBinInt p i t z => bind (binop_int p w i t z) ret
  | XBinMpz p i z => bind (binop_mpz p w i z) ret
  | XBinMpq p i qn qd => bind (binop_mpq p w i qn qd) ret
  | XNeg i j => bind (negate w i j) ret
  | XPow i j e => bind (pow w i j e) ret
  | XCopy i j => ret (set_obj w i (w_objs w j))                                      (* lines 281-282, 682-692 *)
  | XConvert i f j => convert w i f j
  | XZero i f => ret (set_obj w i (zero_in f))
  | XGen i f => bind (call_on (set_obj w i (zero_in f)) i i (KGen i)) ret              (* renf_class.cpp:72-78; later uses copy it *)
  | XAssignInt i t z => bind (assign_int w i t z) ret
  | XAssignMpq i qn qd => bind (assign_mpq w i qn qd) ret
  | XMakeInt i f t z => bind (make_int w i f t z) ret
  | XMakeMpq i f qn qd => bind (make_mpq w i f qn qd) ret
  | XMakeVector i f v d => bind (make_vector w i f v d) ret
  | XRel r i j => done (rel_objs r w i j)
  | XRelInt r i t z => done (rel_int r w i t z)
  | XRelMpz r i z => done (rel_mpz r w i z)
  | XRelMpq r i qn qd => done (rel_mpq r w i qn qd)
  | XFloordiv i j => done (floordiv strict w i j)
  | XFloor i => bind (floor_obj rd_floor w i) (fun r => ret (fst r))
  | XCeil i => bind (floor_obj rd_ceil w i) (fun r => ret (fst r))
  | XSgn i => bind (sgn_obj w i) (fun r => ret (fst r))
  | XRefine f prec =>                                       (* renf_refine_embedding on renf_t(), renf_class.hpp:254 *)
      bind (refine o debug fuel (w_fields w f) prec) (fun nf' => ret (set_field w f nf'))
  end.

(** A program goes on with the old objects after an exception. *)
Fixpoint xruns (strict : bool) (w : world) (l : list xcall) : out world :=
  match l with
  | [] => Val w
  | c :: l' => bind (xrun strict w c) (fun e => xruns strict (match e with Ret w' => w' | Throw => w end) l')
  end.

End Cxx.
