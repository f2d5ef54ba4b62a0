(** Which steps of threads happen before which, after the C++ standard (intro.races).
    Only mutexes, signals of the program and read-modify-write operations occur, so
    that every release is followed by its release sequence as long as the object
    lives. *)
Require Import List ZArith Bool Relations.
From Verif Require Import ArbModel LifeModel ThreadModel ThreadSpec HbModel.
Import ListNotations.
Open Scope nat_scope.

(** An execution of any number of threads; finite ones go on with [Other]. *)
Record run := { st : nat -> tstate; thr : nat -> nat; does : nat -> tev }.
Definition execution (debug : bool) (r : run) : Prop :=
  st r 0 = tstart /\
  (forall i, estep debug (st r i) (thr r i) (does r i) = Some (Val (st r (S i)))) /\
  (forall i c, does r i = Recv c -> exists k, k < i /\ does r k = Send c) /\
  (forall i k c, does r i = Send c -> does r k = Send c -> i = k).
(** No field is revived, see C37. *)
Definition revives_nothing (r : run) : Prop := forall i x, does r i = Do x -> calm (st r i) (thr r i) x.

Section Before.
Variables add sub : order.
Inductive edge (r : run) (i j : nat) : Prop :=
| by_program : i < j -> thr r i = thr r j -> edge r i j
| by_mutex : i < j -> does r i = Do AUnlock -> does r j = Do ALock -> edge r i j
| by_signal : forall c, i < j -> does r i = Send c -> does r j = Recv c -> edge r i j
| by_counter : forall a p q, i < j ->
    counter add sub (st r i) (thr r i) (does r i) = Some (a, p) -> releases p = true ->
    counter add sub (st r j) (thr r j) (does r j) = Some (a, q) -> acquires q = true ->
    (forall k, i <= k <= j -> exists_at (st r k) a) -> edge r i j.
Definition before (r : run) : nat -> nat -> Prop := clos_trans nat (edge r).

(** Handle variables of the program. *)
Definition reads (e : tev) (h : nat) : Prop := e = Do (AUse h) \/ exists g, e = Do (ACopy h g).
Definition writes (e : tev) (h : nat) : Prop := e = Do (AReturn h) \/ (exists g, e = Do (ACopy g h)) \/ e = Do (ADrop h).
(** The program has no data race on its own variables. *)
Definition no_race_on_handles (r : run) : Prop :=
  forall i j h, i < j -> (writes (does r i) h /\ (reads (does r j) h \/ writes (does r j) h)) \/ (reads (does r i) h /\ writes (does r j) h) -> before r i j.
End Before.

(** Accesses to the field at [a]. *)
Definition uses (r : run) (i a : nat) : Prop :=
  exists h, get h (hands (st r i)) = Some a /\ (reads (does r i) h \/ does r i = Do (ADrop h)).
Definition constructs (r : run) (i a : nat) : Prop := ~ exists_at (st r i) a /\ exists_at (st r (S i)) a.
Definition destroys (r : run) (i a : nat) : Prop := exists_at (st r i) a /\ ~ exists_at (st r (S i)) a.
(** The same field, not another one at the same place. *)
Definition lives (r : run) (i j a : nat) : Prop := forall k, i <= k <= j -> exists_at (st r k) a.
Definition drops (r : run) (i a : nat) : Prop := exists h, does r i = Do (ADrop h) /\ get h (hands (st r i)) = Some a.
(** The registry is searched or changed. *)
Definition registry_access (e : tev) : Prop := e = Do AFind \/ e = Do AErase.
(** make looks at a field that is equal to the new one (fields_equality, renf_class.cpp:47-51). *)
Definition compares (r : run) (i a : nat) : Prop :=
  does r i = Do AFind /\ In a (known (st r i)) /\
  exists b k, at_pc (st r i) (thr r i) = InMake b /\ class_at (st r i) b k /\ class_at (st r i) a k.
(** No handle made by one thread is known to another, and there are no signals. *)
Definition exchanges_nothing (r : run) : Prop :=
  (forall i c, does r i <> Send c) /\
  forall i j h, reads (does r i) h \/ writes (does r i) h -> reads (does r j) h \/ writes (does r j) h -> thr r i = thr r j.
