(** The memory orders of the reference count of a field,
    /repo/libeantic/srcxx/renf_class.cpp:281-303, and the other synchronisation of the
    threads of ThreadModel.v.

    Executions are still interleavings; the orders only decide which steps happen
    before which (HbSpec.v).  The counting of the three cached elements, on construction
    and on destruction, is left out: it never acquires, and the thread that constructs
    or destroys releases nothing new with it. *)
Require Import List ZArith Bool.
From Verif Require Import ArbModel LifeModel ThreadModel.
Import ListNotations.
Open Scope nat_scope.

(** std::memory_order. *)
Inductive order := Relaxed | Acquire | Release | AcqRel.
Definition acquires (o : order) : bool := match o with Acquire | AcqRel => true | _ => false end.
Definition releases (o : order) : bool := match o with Release | AcqRel => true | _ => false end.

(** Lines 284 and 289. *)
Definition add_order : order := Relaxed.
Definition sub_order : order := Release.

(** What a thread does: a step of ThreadModel.v, a signal of the program itself (the
    start or the end of a thread, a mutex of the program), or something else. *)
Inductive tev := Do (x : act) | Send (c : nat) | Recv (c : nat) | Other.

Definition estep (debug : bool) (s : tstate) (t : nat) (e : tev) : option (out tstate) :=
  match e with Do x => tstep debug s t x | _ => Some (Val s) end.

(** The count that a step changes, and with which order: intrusive_ptr_add_ref when a
    handle is returned by make or copied, intrusive_ptr_release when it is dropped. *)
Definition counter (add sub : order) (s : tstate) (t : nat) (e : tev) : option (nat * order) :=
  match e with
  | Do (AReturn _) => match at_pc s t with Found b _ => Some (b, add) | _ => None end
  | Do (ACopy h _) => option_map (fun a => (a, add)) (get h (hands s))
  | Do (ADrop h) => option_map (fun a => (a, sub)) (get h (hands s))
  | _ => None
  end.
