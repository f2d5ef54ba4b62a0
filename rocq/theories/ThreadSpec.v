(** What threads may rely on. *)
Require Import List ZArith Bool.
From Verif Require Import ArbModel LifeModel ThreadModel.
Import ListNotations.

(** A handle refers to the field at [a]. *)
Definition held (s : tstate) (a : nat) : Prop := exists h, get h (hands s) = Some a.
Definition exists_at (s : tstate) (a : nat) : Prop := heap s a <> None.
Definition class_at (s : tstate) (a k : nat) : Prop := exists f, heap s a = Some f /\ tf_cls f = k.

(** All executions. *)
Inductive interleaved (debug : bool) : tstate -> Prop :=
| in_start : interleaved debug tstart
| in_step : forall s t x s', interleaved debug s -> tstep debug s t x = Some (Val s') -> interleaved debug s'.

(** A step that does not revive a field: when make returns a field that existed
    already, some handle still refers to it. *)
Definition calm (s : tstate) (t : nat) (x : act) : Prop :=
  match x, at_pc s t with
  | AReturn _, Found b false => held s b
  | _, _ => True
  end.
Inductive calmly (debug : bool) : tstate -> Prop :=
| ca_start : calmly debug tstart
| ca_step : forall s t x s', calmly debug s -> calm s t x -> tstep debug s t x = Some (Val s') -> calmly debug s'.

(** A thread waits for the lock. *)
Definition waits (s : tstate) (t : nat) : Prop :=
  match at_pc s t with Made _ | Dropped _ => mutex s <> None | _ => False end.
