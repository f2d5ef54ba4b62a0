(** Model of the arithmetic and the comparison of elements in SageMath
    (/repo/pyeantic/src/pyeantic/real_embedded_number_field.py,
    RealEmbeddedNumberFieldElement) with the helpers of
    /repo/libeantic/e-antic/cppyy.hpp:29-44.

    An element of a RealEmbeddedNumberField wraps a C++ object.  SageMath brings
    both operands of an operator into one parent before the methods are called. *)
Require Import List ZArith Bool.
From Verif Require Import Dyadic ArbModel ElemModel CxxModel CxxOpModel PyModel.
Import ListNotations.
Open Scope Z_scope.

(** [s_parent]: the C++ field of the parent, [s_obj]: the C++ object. *)
Record sage := { s_parent : nat; s_obj : nat }.

(** __init__, lines 121-122: a C++ element is taken as it is, whatever its field. *)
Definition wrap (parent i : nat) : sage := {| s_parent := parent; s_obj := i |}.

Section Sage.
Variable o : arbops.
Variable ops : list Z -> nfops.
Variable debug : bool.
Variable fuel : nat.
Variable strict : bool.

(** _add_, _sub_, _mul_ and _div_, lines 134-192: [k] is the new C++ object. *)
Definition s_op (p : aop) (w : world) (k : nat) (a b : sage) : out (exc (world * sage)) :=
  ebind (op_objs o ops debug fuel strict false p w k (s_obj a) (s_obj b)) (fun w' => Val (Ret (w', wrap (s_parent a) k))).

(** _neg_, lines 194-206. *)
Definition s_neg (w : world) (k : nat) (a : sage) : out (exc (world * sage)) :=
  bind (negate o ops debug fuel w k (s_obj a)) (fun w' => Val (Ret (w', wrap (s_parent a) k))).

(** rich_to_bool of SageMath. *)
Definition rich (r : rel) (c : Z) : bool :=
  match r with
  | RLt => c <? 0 | RLe => c <=? 0 | REq => c =? 0 | RNe => negb (c =? 0) | RGt => 0 <? c | RGe => 0 <=? c
  end.
(** _richcmp_, lines 222-243. *)
Definition s_cmp (r : rel) (w : world) (a b : sage) : out (exc (world * bool)) :=
  ebind (rel_objs o ops debug fuel RLt w (s_obj a) (s_obj b)) (fun '(w1, lt) =>
    if lt then Val (Ret (w1, rich r (-1)))
    else
      ebind (rel_objs o ops debug fuel REq w1 (s_obj a) (s_obj b)) (fun '(w2, eq) =>
        Val (Ret (w2, rich r (if eq then 0 else 1))))).

(** CoercionNumberFieldRenf._call_, lines 770-773: the vector has the length of the
    degree of the field of the C++ object; SageMath refuses lists longer than the
    degree of the number field. *)
Definition to_number_field (w : world) (a : sage) : exc (list (Z * Z)) :=
  let e := num_of w (s_obj a) in
  let d := (length (f_pol (w_fields w (s_parent a))) - 1)%nat in
  let v := map (fun c => reduced c (den e)) (num_vector (f_pol (w_fields w (fld w (s_obj a)))) e) in
  let v' := v ++ repeat (0, 1) (d - length v) in
  if Nat.eqb (length v') d then Ret v' else Throw.
End Sage.
