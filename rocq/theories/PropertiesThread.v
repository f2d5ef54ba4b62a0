(** Property C37: handles of fields in several threads. *)
Require Import List ZArith Bool Lia.
From Verif Require Import ArbModel LifeModel ThreadModel ThreadSpec ThreadProofs ThreadRefute.
Import ListNotations.

(** A schedule of two threads that uses a destroyed field: one thread drops the
    last handle, and before it gets the lock the other one makes the field again
    and drops it.  With or without assertions. *)
Theorem C37_refuted : forall debug, exists s t x, interleaved debug s /\ tstep debug s t x = Some Undef.
Proof. exact revive_refuted. Qed.
Print Assumptions C37_refuted.

(** A schedule after which a thread holds a handle of a destroyed field. *)
Theorem C37_dangling_refuted : forall debug, exists s a, interleaved debug s /\ held s a /\ ~ exists_at s a /\ forall t, at_pc s t = Idle.
Proof. exact dangling_refuted. Qed.
Print Assumptions C37_dangling_refuted.

(** A schedule in which a thread locks the mutex that it holds. *)
Theorem C37_relock_refuted : forall debug, exists s t a f, interleaved debug s /\ at_pc s t = InErase a /\ mutex s = Some t /\
  heap s a = Some f /\ tf_count f = 4%Z /\ tstep debug s t AErase = Some Undef.
Proof. exact relock_refuted. Qed.
Print Assumptions C37_relock_refuted.

(** Any number of threads.  Missing: executions in which make returns a field
    whose last handle has been dropped. *)
Theorem C37_safe_partial : forall debug s t x, calmly debug s -> calm s t x -> tstep debug s t x <> Some Undef /\ tstep debug s t x <> Some Abort.
Proof. exact thread_safe. Qed.
Print Assumptions C37_safe_partial.
Theorem C37_held_partial : forall debug s a, calmly debug s -> held s a -> exists_at s a.
Proof. exact thread_held. Qed.
Print Assumptions C37_held_partial.
Theorem C37_unique_partial : forall debug s a b k, calmly debug s -> held s a -> held s b -> class_at s a k -> class_at s b k -> a = b.
Proof. exact thread_unique. Qed.
Print Assumptions C37_unique_partial.
Theorem C37_end_partial : forall debug s, calmly debug s -> hands s = [] -> (forall t, at_pc s t = Idle) ->
  known s = [] /\ mutex s = None /\ forall a, ~ exists_at s a.
Proof. exact thread_end. Qed.
Print Assumptions C37_end_partial.
Theorem C37_progress_partial : forall debug s t, calmly debug s -> at_pc s t <> Idle ->
  (exists x, tstep debug s t x <> None) \/
  exists u, u <> t /\ mutex s = Some u /\ exists x, tstep debug s u x <> None.
Proof. exact thread_progress. Qed.
Print Assumptions C37_progress_partial.

(** Two threads make the same field at once, one of them drops it while the other
    copies it, and a third is about to drop the last handle of another field. *)
Example C37_calm : exists s, texec true tstart race = Val s /\ calmly true s /\ at_pc s 2%nat = Dropped 30 /\
  held s 10 /\ class_at s 10 1 /\ ~ held s 20.
Proof. exact race_calm. Qed.
