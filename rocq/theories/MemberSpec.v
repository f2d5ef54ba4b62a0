(** What clients may do with fields and elements, without members: which fields and
    elements exist, with the length of the polynomial. *)
Require Import List Arith.
From Verif Require Import MemberModel.
Import ListNotations.
Open Scope nat_scope.

Record alive := { fields : nat -> option nat; elems : nat -> option nat }.
Definition with_field (f : nat) (v : option nat) (a : alive) : alive :=
  {| fields := fun g => if f =? g then v else fields a g; elems := elems a |}.
Definition with_elem (e : nat) (v : option nat) (a : alive) : alive :=
  {| fields := fields a; elems := fun g => if e =? g then v else elems a g |}.

(** Fields and elements are initialized when they do not exist and released or used when
    they do, elements together with some field of the same polynomial. *)
Inductive allowed : alive -> mcall -> alive -> Prop :=
| al_init : forall a f l, fields a f = None -> allowed a (MInit f l true) (with_field f (Some l) a)
| al_copy : forall a f g l, fields a f = None -> fields a g = Some l -> allowed a (MCopy f g) (with_field f (Some l) a)
| al_clear : forall a f l, fields a f = Some l -> allowed a (MClear f) (with_field f None a)
| al_refine : forall a f l, fields a f = Some l -> allowed a (MRefine f) a
| al_elem : forall a e f l, elems a e = None -> fields a f = Some l -> allowed a (MElem e f) (with_elem e (Some l) a)
| al_eclear : forall a e f l, elems a e = Some l -> fields a f = Some l -> allowed a (MElemClear e f) (with_elem e None a)
| al_euse : forall a e f l, elems a e = Some l -> fields a f = Some l -> allowed a (MElemUse e f) a.

Inductive allows : alive -> list mcall -> alive -> Prop :=
| al_nil : forall a, allows a [] a
| al_cons : forall a c b l d, allowed a c b -> allows b l d -> allows a (c :: l) d.

Definition none : alive := {| fields := fun _ => None; elems := fun _ => None |}.
Definition nobody (a : alive) : Prop := (forall f, fields a f = None) /\ forall e, elems a e = None.

(** Polynomials of these lengths give elements of the same representation: degree at
    most one, degree two, higher degree. *)
Definition same_kind (k m : nat) : Prop := (k <= 2 /\ m <= 2) \/ (k = 3 /\ m = 3) \/ (4 <= k /\ 4 <= m).
