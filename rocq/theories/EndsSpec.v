(** Loops that end. *)
Require Import Reals List ZArith.
From Verif Require Import Dyadic ArbModel ExtraModel ElemModel ElemSpec ArbSpec.

(** With enough fuel the result is always the same, and not that of a loop cut
    short. *)
Definition ends {A : Type} (F : nat -> out A) : Prop :=
  exists f0 r, r <> Fuel /\ forall f, (f0 <= f)%nat -> F f = r.

(** The refinement of the field ends for every precision. *)
Definition refines_end (o : arbops) (debug : bool) (pol : list Z) (x : R) (N : ball -> Prop) : Prop :=
  forall nf p, field_ok pol x N nf -> ends (fun f => refine o debug f nf p).

(** Calls asking for no absurd precision: [renf_elem_get_arb] compares the relative error with
    -prec - 2, which no error undercuts when prec + 2 reaches the largest word. *)
Definition modest (k : call) : Prop := match k with KGetArb _ p => (p + 2 < WORD_MAX)%Z | _ => True end.

(** The enclosures that steps of the refinement make of an enclosure. *)
Inductive sharpened (o : arbops) (pol : list Z) (a : ball) : ball -> Prop :=
| sharp_start : sharpened o pol a a
| sharp_newton : forall b p t, sharpened o pol a b -> newton_step o pol (zderiv pol) b p = Val (true, Some t) -> sharpened o pol a t
| sharp_bisect : forall b p t, sharpened o pol a b -> bisection_step o pol b p = Val (true, Some t) -> sharpened o pol a t.

(** One of them is so sharp that twice its accuracy in bits overflows a word. *)
Definition word_overflow (o : arbops) (pol : list Z) (a : ball) : Prop :=
  exists t, sharpened o pol a t /\ (WORD_MAX < 2 * Z.abs (rel_accuracy t))%Z.

(** One of them is that sharp, or has no point. *)
Definition overflow_or_empty (o : arbops) (pol : list Z) (a : ball) : Prop :=
  exists t, sharpened o pol a t /\ ((WORD_MAX < 2 * Z.abs (rel_accuracy t))%Z \/ forall y, ~ inb y t).
