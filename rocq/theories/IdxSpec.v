(** Polynomials whose loops do not leave the words. *)
Require Import List ZArith.
Import ListNotations.
Open Scope Z_scope.

(** At most 2^60 coefficients of at most 2^60 bits; [flog0] as in RootModel.v. *)
Definition handy (flog0 : Z) (p : list Z) : Prop :=
  Z.of_nat (length p) <= 2 ^ 60 /\ Z.abs flog0 <= 2 ^ 60 /\ Forall (fun a => Z.log2_up (Z.abs a) <= 2 ^ 60) p.
