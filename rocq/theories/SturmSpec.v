(** Sturm sequences. *)
Require Import Reals List ZArith.
From Verif Require Import PolyR RootSpec.
Import ListNotations.
Open Scope R_scope.

(** [l] is what follows [a], [b] in a sequence in which each entry is a positive
    multiple of the negative remainder of the two before. *)
Inductive remainders : list Z -> list Z -> list (list Z) -> Prop :=
| rem_end : forall a b u q, 0 < u -> (forall x, u * zeval a x = peval q x * zeval b x) -> remainders a b []
| rem_next : forall a b c u w q l, 0 < u -> 0 < w -> last c 0%Z <> 0%Z -> (length c < length b)%nat ->
    (forall x, u * zeval a x = peval q x * zeval b x - w * zeval c x) -> remainders b c l -> remainders a b (c :: l).

(** The sequence of [p] and its derivative. *)
Definition sturm_sequence (p : list Z) (L : list (list Z)) : Prop :=
  exists d l, last d 0%Z <> 0%Z /\ (forall x, zeval d x = peval (pderiv (map IZR p)) x) /\ remainders p d l /\ L = p :: d :: l.

(** [n] members of [l] vanish at 0. *)
Inductive vanishing : list (list Z) -> nat -> Prop :=
| va_nil : vanishing [] 0
| va_zero : forall a l n, zeval a 0 = 0 -> vanishing l n -> vanishing (a :: l) (S n)
| va_other : forall a l n, zeval a 0 <> 0 -> vanishing l n -> vanishing (a :: l) n.
