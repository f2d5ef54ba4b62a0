(** Subfields of the real numbers. *)
Require Import Reals.
Open Scope R_scope.

Record subfield (F : R -> Prop) : Prop := {
  sub_one : F 1;
  sub_minus : forall a b, F a -> F b -> F (a - b);
  sub_mult : forall a b, F a -> F b -> F (a * b);
  sub_div : forall a b, F a -> F b -> b <> 0 -> F (a / b)
}.

(** The smallest one that contains [x]. *)
Definition generated (x y : R) : Prop := forall F, subfield F -> F x -> F y.
Definition same_subfield (x x' : R) : Prop := forall y, generated x y <-> generated x' y.
