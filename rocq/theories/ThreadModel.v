(** Threads that make, copy and drop handles of fields:
    /repo/libeantic/srcxx/renf_class.cpp:94-112 (make), 283-303 (the reference
    counts), boost::intrusive_ptr.

    Executions are interleavings of atomic steps (sequential consistency).
    Simplifications: a field is its class (polynomial, root and name), hash and
    equality compare classes; construction, find, erase and delete are one step
    each, since find and erase happen under the lock and the other two on memory no
    other thread should know; handle variables are shared by the threads, which are
    trusted not to use one while it is destroyed or assigned; the cache elements
    are part of the field.  Data races on the enclosure of a field and the memory
    orders of the counter are not modelled. *)
Require Import List ZArith Bool.
From Verif Require Import ArbModel LifeModel.
Import ListNotations.
Open Scope Z_scope.

(** Class and reference count. *)
Record tfield := { tf_cls : nat; tf_count : Z }.

(** Where a thread is. *)
Inductive pc :=
| Idle                                (* in the program *)
| Made (a : nat)                      (* make, line 96 done: the key is at [a] *)
| InMake (a : nat)                    (* line 98 done *)
| Found (b : nat) (fresh : bool)      (* lines 100-110: the field returned; whether it was inserted *)
| Leave                               (* the lock is still held *)
| Dropped (a : nat)                   (* release, line 289 done, and the old count was 4 *)
| InErase (a : nat).                  (* line 297 done *)

Record tstate := {
  heap : nat -> option tfield;
  known : list nat;                   (* the registry *)
  mutex : option nat;                 (* the thread that holds fields_mutex *)
  at_pc : nat -> pc;
  hands : list (nat * nat)            (* handle variables with the address of their field *)
}.

Definition tstart : tstate :=
  {| heap := fun _ => None; known := []; mutex := None; at_pc := fun _ => Idle; hands := [] |}.

Definition upd {A : Type} (f : nat -> A) (i : nat) (x : A) : nat -> A := fun j => if Nat.eqb j i then x else f j.
Definition set_heap (s : tstate) (a : nat) (x : option tfield) : tstate :=
  {| heap := upd (heap s) a x; known := known s; mutex := mutex s; at_pc := at_pc s; hands := hands s |}.
Definition set_known (s : tstate) (l : list nat) : tstate :=
  {| heap := heap s; known := l; mutex := mutex s; at_pc := at_pc s; hands := hands s |}.
Definition set_mutex (s : tstate) (m : option nat) : tstate :=
  {| heap := heap s; known := known s; mutex := m; at_pc := at_pc s; hands := hands s |}.
Definition set_pc (s : tstate) (t : nat) (p : pc) : tstate :=
  {| heap := heap s; known := known s; mutex := mutex s; at_pc := upd (at_pc s) t p; hands := hands s |}.
Definition set_hands (s : tstate) (l : list (nat * nat)) : tstate :=
  {| heap := heap s; known := known s; mutex := mutex s; at_pc := at_pc s; hands := l |}.

(** Adding to the count of a field that must exist. *)
Definition count_add (s : tstate) (a : nat) (d : Z) : out tstate :=
  match heap s a with
  | Some f => Val (set_heap s a (Some {| tf_cls := tf_cls f; tf_count := tf_count f + d |}))
  | None => Undef
  end.

(** fields.find: the entry of the given class, every entry being looked at. *)
Fixpoint lookup (s : tstate) (k : nat) (l : list nat) : out (option nat) :=
  match l with
  | [] => Val None
  | b :: l' =>
      match heap s b with
      | Some f => if Nat.eqb (tf_cls f) k then Val (Some b) else lookup s k l'
      | None => Undef
      end
  end.

(** delete: the three cached elements release the field one after the other; if
    one of them sees the count 4, it locks the mutex which this thread holds. *)
Definition delete (s : tstate) (a : nat) : out tstate :=
  match heap s a with
  | Some f => if (4 <=? tf_count f) && (tf_count f <=? 6) then Undef else Val (set_heap s a None)
  | None => Undef
  end.

Inductive act :=
| ANew (k a : nat)                    (* make of class [k], memory at [a] *)
| ALock
| AFind
| AReturn (h : nat)                   (* make returns a counted pointer, in the new handle [h] *)
| AUnlock
| ACopy (h g : nat)                   (* g is a copy of h, line 284 *)
| ADrop (h : nat)                     (* lines 289-290 *)
| AErase                              (* lines 299-301 *)
| AUse (h : nat).                     (* the field of h is used *)

(** [None]: the thread cannot take this step now. *)
Definition tstep (debug : bool) (s : tstate) (t : nat) (x : act) : option (out tstate) :=
  match x, at_pc s t with
  | ANew k a, Idle =>
      match heap s a with
      | None => Some (Val (set_pc (set_heap s a (Some {| tf_cls := k; tf_count := 3 |})) t (Made a)))
      | Some _ => None
      end
  | ALock, Made a => match mutex s with None => Some (Val (set_pc (set_mutex s (Some t)) t (InMake a))) | Some _ => None end
  | ALock, Dropped a => match mutex s with None => Some (Val (set_pc (set_mutex s (Some t)) t (InErase a))) | Some _ => None end
  | AFind, InMake a =>
      match heap s a with
      | None => Some Undef
      | Some f => Some (bind (lookup s (tf_cls f) (known s)) (fun r =>
          match r with
          | None => Val (set_pc (set_known s (a :: known s)) t (Found a true))
          | Some b => bind (delete s a) (fun s => Val (set_pc s t (Found b false)))
          end))
      end
  | AReturn h, Found b _ => match get h (hands s) with
      | None => Some (bind (count_add s b 1) (fun s => Val (set_pc (set_hands s (put h b (hands s))) t Leave)))
      | Some _ => None end
  | AUnlock, Leave => Some (Val (set_pc (set_mutex s None) t Idle))
  | ACopy h g, Idle =>
      match get h (hands s), get g (hands s) with
      | Some a, None => Some (bind (count_add s a 1) (fun s => Val (set_hands s (put g a (hands s)))))
      | _, _ => None
      end
  | ADrop h, Idle =>
      match get h (hands s) with
      | Some a =>
          match heap s a with
          | Some f => Some (bind (count_add (set_hands s (del h (hands s))) a (-1)) (fun s =>
              Val (if tf_count f =? 4 then set_pc s t (Dropped a) else s)))
          | None => Some Undef
          end
      | None => None
      end
  | AErase, InErase a =>
      match heap s a with
      | None => Some Undef
      | Some f => Some (bind (lookup s (tf_cls f) (known s)) (fun r =>
          match r with
          | None => if debug then Abort else bind (delete s a) (fun s => Val (set_pc s t Leave))
          | Some b => bind (delete (set_known s (remove Nat.eq_dec b (known s))) a) (fun s => Val (set_pc s t Leave))
          end))
      end
  | AUse h, Idle =>
      match get h (hands s) with
      | Some a => match heap s a with Some _ => Some (Val s) | None => Some Undef end
      | None => None
      end
  | _, _ => None
  end.

(** A schedule: steps of threads in their order; [Fuel] if a step cannot be taken. *)
Fixpoint texec (debug : bool) (s : tstate) (l : list (nat * act)) : out tstate :=
  match l with
  | [] => Val s
  | (t, x) :: l' => match tstep debug s t x with Some r => bind r (fun s => texec debug s l') | None => Fuel end
  end.
