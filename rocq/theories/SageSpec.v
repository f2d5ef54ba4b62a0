(** Specification for elements in SageMath. *)
Require Import Reals List ZArith.
From Verif Require Import PolyR ElemModel ElemSpec CxxModel CxxSpec PySpec SageModel.
Import ListNotations.
Open Scope R_scope.

(** An element of the field [f], or a rational number in a field of at most its
    degree. *)
Definition belongs (pol : nat -> list Z) (x : nat -> R) (w : world) (f i : nat) : Prop :=
  fld w i = f \/ rational (value x w i) /\ (length (pol (fld w i)) <= length (pol f))%nat.

(** The vector [v] stands for the number [y] in the field with the generator [x]. *)
Definition stands_for (x : R) (d : nat) (v : list (Z * Z)) (y : R) : Prop :=
  length v = d /\ Forall lowest v /\ rational_poly v x = y.
