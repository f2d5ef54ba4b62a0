(** Model of the operators that boost/operators.hpp derives for [renf_elem_class]
    (/repo/libeantic/e-antic/renf_elem_class.hpp:60-71,
    boost::ordered_field_operators with one and with two types), and of the unary
    operators of /repo/libeantic/srcxx/renf_elem_class.cpp.

    The result of an operator is a new object [k].  boost/operators.hpp is not in
    /repo; the definitions below are those of every version since 1.33. *)
Require Import List ZArith Bool.
From Verif Require Import Dyadic ArbModel ElemModel CxxModel.
Import ListNotations.
Open Scope Z_scope.

(** The second type of the operators: the ten types of renf_elem_class.hpp:61-70. *)
Inductive scal := SInt (t : ity) (z : Z) | SMpz (z : Z) | SMpq (qn qd : Z).

Section Op.
Variable o : arbops.
Variable ops : list Z -> nfops.
Variable debug : bool.
Variable fuel : nat.

(** The copy constructor, renf_elem_class.cpp:281-282. *)
Definition copy_obj (w : world) (k i : nat) : world := set_obj w k (w_objs w i).

(** The converting constructors, renf_elem_class.cpp:333-399, in the rational field. *)
Definition make_scal (w : world) (k : nat) (s : scal) : out world :=
  match s with
  | SInt t z => make_int o ops debug fuel w k 0 t z
  | SMpz z => call_on o ops debug fuel (set_obj w k (zero_in 0)) k k (KSetZ k z)
  | SMpq qn qd => make_mpq o ops debug fuel w k 0 qn qd
  end.

(** The compound assignments, renf_elem_class.cpp:1022-1348. *)
Definition assign_scal (p : aop) (w : world) (k : nat) (s : scal) : out world :=
  match s with
  | SInt t z => binop_int o ops debug fuel p w k t z
  | SMpz z => binop_mpz o ops debug fuel p w k z
  | SMpq qn qd => binop_mpq o ops debug fuel p w k qn qd
  end.

(** [lhs @ rhs] for two elements: a copy of [lhs], then [@=].  For [+] and [*] with
    an rvalue on the right ([swapped]), [rhs @= lhs] and the result is moved. *)
Definition op_objs (strict swapped : bool) (p : aop) (w : world) (k i j : nat) : out (exc world) :=
  match p, swapped with
  | Add, true | Mul, true => binop o ops debug fuel strict p (copy_obj w k j) k i
  | _, _ => binop o ops debug fuel strict p (copy_obj w k i) k j
  end.

(** [lhs @ rhs] with the second type on the right. *)
Definition op_right (p : aop) (w : world) (k i : nat) (s : scal) : out (exc world) :=
  bind (assign_scal p (copy_obj w k i) k s) (fun w' => Val (Ret w')).

(** [lhs @ rhs] with the second type on the left: [+] and [*] are computed on a copy
    of [rhs] (addable2, multipliable2), [-] and [/] on [T nrv(lhs)]
    (subtractable2_left, dividable2_left). *)
Definition op_left (strict : bool) (p : aop) (w : world) (k : nat) (s : scal) (j : nat) : out (exc world) :=
  match p with
  | Add | Mul => op_right p w k j s
  | Sub | Div => bind (make_scal w k s) (fun w' => binop o ops debug fuel strict p w' k j)
  end.

(** Relations with the second type on the right (as in CxxModel.v) and on the left
    (less_than_comparable2, equality_comparable2). *)
Definition rel_right (r : rel) (w : world) (i : nat) (s : scal) : out (exc (world * bool)) :=
  match s with
  | SInt t z => rel_int o ops debug fuel r w i t z
  | SMpz z => rel_mpz o ops debug fuel r w i z
  | SMpq qn qd => rel_mpq o ops debug fuel r w i qn qd
  end.
Definition rel_left (r : rel) (w : world) (s : scal) (j : nat) : out (exc (world * bool)) :=
  match r with
  | REq => rel_right REq w j s
  | RNe => flip (rel_right REq w j s)
  | RLt => rel_right RGt w j s
  | RGt => rel_right RLt w j s
  | RLe => flip (rel_right RLt w j s)
  | RGe => flip (rel_right RGt w j s)
  end.

(** operator+(), line 909. *)
Definition plus (w : world) (k i : nat) : world := copy_obj w k i.

(** operator bool, lines 918-921. *)
Definition to_bool (w : world) (i : nat) : out (exc (world * bool)) := rel_right RNe w i (SInt Int 0).

End Op.
