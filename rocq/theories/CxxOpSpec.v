(** The numbers on the other side of an operator. *)
Require Import Reals ZArith.
From Verif Require Import CxxModel CxxSpec CxxOpModel.
Open Scope R_scope.

Definition scal_val (s : scal) : R := match s with SInt _ z | SMpz z => IZR z | SMpq qn qd => IZR qn / IZR qd end.
(** Integers within their type, fractions in lowest terms. *)
Definition scal_ok (s : scal) : Prop :=
  match s with SInt t z => in_range t z | SMpz _ => True | SMpq qn qd => (0 < qd)%Z /\ Z.gcd qn qd = 1%Z end.
