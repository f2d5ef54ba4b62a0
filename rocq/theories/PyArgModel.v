(** Model of the arguments that pyeantic takes from Python,
    /repo/pyeantic/src/pyeantic/cppyy_eantic.py: [for_eantic] (lines 160-197), the
    operators (lines 74-95) and [make_renf_elem_class] (lines 203-225); and of
    realalg_nf_elem_to_eantic, realalg_conversion.py:75-96.

    cppyy is not in /repo: which C++ constructor it picks for a Python integer is a
    parameter.  Not modelled: keyword arguments, null pointers, subclasses of the
    types below (a bool is an int). *)
Require Import List ZArith Bool Ascii.
From Verif Require Import Dyadic ArbModel ElemModel StrModel StrMore MakeText CxxModel CxxOpModel PyModel.
Import ListNotations.
Open Scope Z_scope.

(** Python objects. *)
Inductive pyv :=
| VInt (z : Z)                          (* int *)
| VElem (i : nat)                       (* eantic.renf_elem_class, the C++ object *)
| VMpz (z : Z) | VMpq (q : Z * Z)       (* the C++ numbers *)
| VVec (l : list (Z * Z))               (* std::vector<mpq_class> *)
| VSeq (l : list pyv)                   (* tuple, list *)
| VGmpz (z : Z) | VGmpq (q : Z * Z)     (* numbers of gmpy2 *)
| VStr (s : str)
| VNone
| VField (f : nat)                      (* renf_class, or a pointer to one *)
| VObj (n : nat).                       (* any other object *)

(** ** GMP: mpz_set_str and mpq_set_str with base 0, as called by the constructors of
    mpz_class and mpq_class from a std::string *)
Definition digit_value (c : ascii) : Z :=
  if digitb c then code c - 48
  else if (65 <=? code c) && (code c <=? 90) then code c - 55
  else if (97 <=? code c) && (code c <=? 122) then code c - 87
  else 255.
Fixpoint gmp_digits (base acc : Z) (s : str) : option Z :=
  match s with
  | [] => Some acc
  | c :: s' =>
      if isspaceb c then gmp_digits base acc s'
      else if base <=? digit_value c then None else gmp_digits base (base * acc + digit_value c) s'
  end.
(** A leading 0 means octal, 0x hexadecimal, 0b binary. *)
Definition gmp_abs (s : str) : option Z :=
  match s with
  | [] => None
  | c :: s' =>
      if 10 <=? digit_value c then None
      else if Ascii.eqb c "0" then
        match s' with
        | d :: s'' =>
            if Ascii.eqb d "x" || Ascii.eqb d "X" then gmp_digits 16 0 s''
            else if Ascii.eqb d "b" || Ascii.eqb d "B" then gmp_digits 2 0 s''
            else gmp_digits 8 0 s'
        | [] => Some 0
        end
      else gmp_digits 10 0 s
  end.
Definition gmp_z (s : str) : option Z :=
  match skip_space s with
  | c :: s' => if Ascii.eqb c "-" then option_map Z.opp (gmp_abs s') else gmp_abs (c :: s')
  | [] => None
  end.
Definition gmp_q (s : str) : option (Z * Z) :=
  match upto "/" s with
  | (u, []) => option_map (fun n => (n, 1)) (gmp_z u)
  | (u, _ :: v) =>
      match gmp_z u, gmp_z v with
      | Some n, Some d => Some (n, d)
      | _, _ => None
      end
  end.

Definition eret {A} (x : option A) : exc A := match x with Some a => Ret a | None => Throw end.
Definition emap {A B} (f : A -> B) (x : exc A) : exc B := match x with Ret a => Ret (f a) | Throw => Throw end.
Definition ethen {A B} (x : exc A) (f : A -> exc B) : exc B := match x with Ret a => f a | Throw => Throw end.
Definition lift {A B} (x : exc A) (f : A -> out (exc B)) : out (exc B) := match x with Ret a => f a | Throw => Val Throw end.

(** What cppyy makes of a Python integer: for a constructor of renf_elem_class, for a
    helper that was instantiated with the Python type int (lines 83 and 86), for the
    constructor of mpq_class. *)
Record cppyy := { cy_make : Z -> exc scal; cy_op : Z -> exc scal; cy_mpq : Z -> exc (Z * Z) }.

Section Args.
Variable cy : cppyy.
Variable gmpy2 : bool.                     (* gmpy2 is installed *)
Variables as_mpq as_mpz : nat -> option pyv.  (* the methods __mpq__ and __mpz__ of other objects *)

Definition mpq_method (v : pyv) : option pyv := match v with VObj n => as_mpq n | _ => None end.
Definition mpz_method (v : pyv) : option pyv := match v with VObj n => as_mpz n | _ => None end.

(** Lines 178-197. *)
Definition through_gmpy (v : pyv) : exc pyv :=
  let v := match mpq_method v with Some u => u | None => v end in
  let v := match mpz_method v with Some u => u | None => v end in
  if gmpy2 then
    match v with
    | VGmpz z => emap VMpz (eret (gmp_z (sdec z)))
    | VGmpq q => emap VMpq (eret (gmp_q (q_text q)))
    | _ => Ret v
    end
  else Ret v.

(** Lines 174-176, for one coefficient. *)
Definition coefficient (v : pyv) : exc (Z * Z) :=
  match v with
  | VInt z => cy_mpq cy z
  | VMpz z => Ret (z, 1)
  | VMpq q => Ret q
  | _ => Throw
  end.
Fixpoint all {A B} (f : A -> exc B) (l : list A) : exc (list B) :=
  match l with
  | [] => Ret []
  | a :: l' => ethen (f a) (fun b => emap (cons b) (all f l'))
  end.

(** for_eantic. *)
Fixpoint for_eantic (v : pyv) : exc pyv :=
  match v with
  | VInt _ | VElem _ | VMpz _ | VMpq _ => Ret v
  | VSeq l =>
      ethen ((fix go (l : list pyv) : exc (list pyv) :=
        match l with [] => Ret [] | a :: l' => ethen (for_eantic a) (fun b => emap (cons b) (go l')) end) l) (fun l =>
      ethen (all coefficient l) (fun l => through_gmpy (VVec l)))
  | _ => through_gmpy v
  end.

Variable o : arbops.
Variable ops : list Z -> nfops.
Variable debug : bool.
Variable fuel : nat.
Variable old : bool.                       (* FLINT before version 3, see [of_sage] *)
Variable zero_den : Z -> out (option (Z * Z)).
Variable gen_name : nat -> str.            (* the names of the generators *)

Definition make_z (w : world) (k f : nat) (z : Z) : out world := call_on o ops debug fuel (set_obj w k (zero_in f)) k k (KSetZ k z).

(** renf_elem_class(K, v), /repo/libeantic/e-antic/renf_elem_class.hpp:81-153, for a
    converted [v]; the new object is [k]. *)
Definition make_scal_in (w : world) (k f : nat) (s : scal) : out (exc world) :=
  bind (match s with
        | SInt t z => make_int o ops debug fuel w k f t z
        | SMpz z => make_z w k f z
        | SMpq qn qd => make_mpq o ops debug fuel w k f qn qd
        end) (fun w => Val (Ret w)).
Definition construct_in (w : world) (k f : nat) (v : pyv) : out (exc world) :=
  match v with
  | VInt z => lift (cy_make cy z) (make_scal_in w k f)
  | VMpz z => make_scal_in w k f (SMpz z)
  | VMpq q => make_scal_in w k f (SMpq (fst q) (snd q))
  | VElem j => convert o ops debug fuel w k f j
  | VVec l =>                             (* /repo/libeantic/srcxx/renf_elem_class.cpp:535-557 *)
      if debug && Nat.leb (length (f_pol (w_fields w f))) (length l) then Abort
      else if old && Nat.eqb (length l) 0 then Undef
      else bind (make_vector o ops debug fuel w k f (numerators l) (common_den l)) (fun w => Val (Ret w))
  | VStr s =>                             (* renf_elem_class.cpp:401-437 *)
      bind (set_str zero_den (gen_name f) (cut_tilde s)) (fun r =>
        match r with
        | Some p => bind (call_on o ops debug fuel (set_obj w k (zero_in f)) k k (KSetPoly k (e_num p) (e_den p))) (fun w => Val (Ret w))
        | None => Val Throw
        end)
  | _ => Val Throw
  end.
(** renf_elem_class(v): there is no such constructor for vectors and strings. *)
Definition construct (w : world) (k : nat) (v : pyv) : out (exc world) :=
  match v with
  | VInt _ | VMpz _ | VMpq _ => construct_in w k 0 v
  | VElem j => Val (Ret (copy_obj w k j))
  | _ => Val Throw
  end.

(** make_renf_elem_class. *)
Definition renf_elem (w : world) (k : nat) (args : list pyv) : out (exc world) :=
  match args with
  | [] => Val (Ret (set_obj w k (zero_in 0)))
  | [VField f] => Val (Ret (set_obj w k (zero_in f)))
  | [v] | [VNone; v] => lift (for_eantic v) (construct w k)
  | [VField f; v] => lift (for_eantic v) (construct_in w k f)
  | _ => Val Throw
  end.

(** The operators, lines 74-95, with the helpers of
    /repo/libeantic/e-antic/cppyy.hpp:29-36.  [i]: the element whose method is called;
    [other]: the other operand, on the right or (reflected) on the left. *)
Definition scalar (v : pyv) : exc scal :=
  match v with
  | VInt z => cy_op cy z
  | VMpz z => Ret (SMpz z)
  | VMpq q => Ret (SMpq (fst q) (snd q))
  | _ => Throw
  end.
Definition binary (strict : bool) (p : aop) (w : world) (k i : nat) (other : pyv) : out (exc world) :=
  lift (for_eantic other) (fun v =>
    match v with
    | VElem j => op_objs o ops debug fuel strict false p w k i j
    | _ => lift (scalar v) (op_right o ops debug fuel p w k i)
    end).
Definition rbinary (strict : bool) (p : aop) (w : world) (k i : nat) (other : pyv) : out (exc world) :=
  lift (for_eantic other) (fun v =>
    match v with
    | VElem j => op_objs o ops debug fuel strict false p w k j i
    | _ => lift (scalar v) (fun s => op_left o ops debug fuel strict p w k s i)
    end).

(** realalg_nf_elem_to_eantic: an integer, a string, an algebraic number with its
    coefficients; anything else by the text str gives. *)
Inductive ralg := RInt (z : Z) | RText (s : str) | RAlg (l : list (Z * Z)).
Definition realalg_elem (w : world) (k f : nat) (a : ralg) : out (exc world) :=
  lift (match a with
        | RInt z => Ret (VInt z)
        | RText s => Ret (VStr s)
        | RAlg l => emap VStr (poly_string l (gen_name f))
        end) (fun v => renf_elem w k [VField f; v]).
End Args.
