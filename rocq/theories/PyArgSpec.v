(** Numbers in Python, and what is asked of cppyy and of other objects. *)
Require Import Reals List ZArith Bool.
From Verif Require Import CxxModel CxxSpec CxxOpModel PyModel PySpec PyArgModel.
Import ListNotations.
Open Scope R_scope.

Definition qreal (q : Z * Z) : R := IZR (fst q) / IZR (snd q).

(** The rational number that an object is.  [obj_value]: for objects of other
    libraries, such as integers and rational numbers of SageMath. *)
Section Numbers.
Variable obj_value : nat -> option (Z * Z).
Inductive number : pyv -> Z * Z -> Prop :=
| nu_int : forall z, number (VInt z) (z, 1%Z)
| nu_mpz : forall z, number (VMpz z) (z, 1%Z)
| nu_mpq : forall q, lowest q -> number (VMpq q) q
| nu_gmpz : forall z, number (VGmpz z) (z, 1%Z)
| nu_gmpq : forall q, lowest q -> number (VGmpq q) q
| nu_obj : forall n q, obj_value n = Some q -> number (VObj n) q.

(** Objects that are no numbers. *)
Inductive strange : pyv -> Prop :=
| st_vec : forall l, strange (VVec l)
| st_seq : forall l, strange (VSeq l)
| st_str : forall s, strange (VStr s)
| st_none : strange VNone
| st_field : forall f, strange (VField f)
| st_obj : forall n, obj_value n = None -> strange (VObj n).

(** Other objects are numbers if and only if they have one of the methods, which give
    their values. *)
Record objects_ok (as_mpq as_mpz : nat -> option pyv) : Prop := {
  ob_mpq : forall n v, as_mpq n = Some v -> exists q, lowest q /\ v = VGmpq q /\ obj_value n = Some q;
  ob_mpz : forall n v, as_mpz n = Some v -> exists z, v = VGmpz z /\ obj_value n = Some (z, 1%Z);
  ob_has : forall n q, obj_value n = Some q -> as_mpq n <> None \/ as_mpz n <> None
}.
End Numbers.

(** cppyy passes integers that fit: a long for constructors, an int for the helpers of
    the operators, where it raises an exception otherwise. *)
Record cppyy_ok (cy : cppyy) : Prop := {
  ck_make : forall z, in_range Long z -> exists t, cy_make cy z = Ret (SInt t z) /\ in_range t z;
  ck_op : forall z, in_range Int z -> cy_op cy z <> Throw;
  ck_exact : forall z s, cy_op cy z = Ret s -> exists t, s = SInt t z /\ in_range t z;
  ck_mpq : forall z, in_range Long z -> cy_mpq cy z = Ret (z, 1%Z)
}.

(** Python integers of type [t]. *)
Definition int_in (t : ity) (v : pyv) : Prop := match v with VInt z => in_range t z | _ => True end.
