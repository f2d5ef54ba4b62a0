(** Calls that return. *)
Require Import Reals List ZArith.
From Verif Require Import RootSpec Dyadic ArbModel ArbSpec ElemModel ElemSpec RateSpec.
Import ListNotations.
Open Scope R_scope.

(** No abort, and undefined behaviour only under a condition. *)
Definition defined (S : Prop) {A : Type} (r : out A) : Prop :=
  match r with Undef => S | Abort => False | _ => True end.

(** What a call asks of the numbers stored: no division by zero, precisions of at
    least two bits.  The floor, ceiling and quotient of zero are left out in
    fields of degree three or more (C26_zero_refuted). *)
Definition allowed (pol : list Z) (v : nat -> R) (k : call) : Prop :=
  match k with
  | KDiv _ _ c | KQDiv _ _ _ c | KInv _ c => v c <> 0
  | KDivZ _ _ z => z <> 0%Z
  | KDivQ _ _ qn _ => qn <> 0%Z
  | KFloor a | KCeil a => v a <> 0 \/ (length pol <= 3)%nat
  | KFdiv b c => v c <> 0 /\ (v b <> 0 \/ (length pol <= 3)%nat)
  | KEval _ p | KSetNf _ _ p => (2 <= p)%Z
  | _ => True
  end.

(** A program all of whose calls are allowed, the numbers stored being those of exact arithmetic. *)
Inductive legal (pol : list Z) (x : R) : (nat -> R) -> list call -> Prop :=
| legal_nil : forall v, legal pol x v []
| legal_cons : forall v k l, allowed pol v k -> (forall v', effect x v k v' -> legal pol x v' l) -> legal pol x v (k :: l).

(** The numbers after a program in exact arithmetic. *)
Inductive effects (x : R) : (nat -> R) -> list call -> (nat -> R) -> Prop :=
| effects_nil : forall v, effects x v [] v
| effects_cons : forall v k v' l v'', effect x v k v' -> effects x v' l v'' -> effects x v (k :: l) v''.

(** A function returns an answer of a kind, unless it meets undefined behaviour under a condition. *)
Definition answers {A : Type} (F : nat -> out A) (Q : A -> Prop) (S : Prop) : Prop :=
  exists f0 r, (forall f, (f0 <= f)%nat -> F f = r) /\ match r with Val v => Q v | Undef => S | _ => False end.

(** The contracts of the libraries, and a number field of degree at least two. *)
Record library (o : arbops) (n : nfops) (pol : list Z) (x : R) : Prop := {
  lb_ok : arb_ok o;
  lb_conv : arb_conv o;
  lb_rate : arb_rate o;
  lb_min : minimal pol x;
  lb_deg : (3 <= length pol)%nat;
  lb_nf : nf_ok pol x n
}.

(** A field with an enclosure of at most the given radius, unmarked, whose
    precision is not too small for the size of the generator: at the usual 64 bits
    the generator to the degree minus one is at least 2^-62. *)
Definition ready (pol : list Z) (x r0 : R) (nf : renf) : Prop :=
  field_ok pol x (fun a => rad_le a r0) nf /\ f_imm nf = 0%Z /\ pw2 (2 - f_prec nf) <= Rabs x ^ (length pol - 2).
