(** Several threads that use the elements of one field (C71). *)
Require Import Reals List ZArith Bool.
From Verif Require Import PolyR RootSpec RootModel ExtraModel Dyadic ArbModel ArbSpec ElemModel ElemSpec NfArith DyBall DyBallProofs ConcModel ConcSpec Conc ConcRight ConcRefute.
Import ListNotations.
Open Scope R_scope.

(** ** C71

    Calls on the elements of a field marked immutable answer in every interleaving
    of threads what they answer alone.  In full this holds for threads that share
    elements they only read, as the sign. *)

(** The programs of single reads and writes are the functions of ElemModel.v: a
    thread alone does what the calls do. *)
Theorem C71_alone : forall o n debug fuel l nf m,
  (forall nf' m' r, calls o n debug fuel nf m l = Val (nf', m', r) -> alone nf m (p_calls o n debug fuel l) nf' m' (Val r)) /\
  (forall nf' m' r, alone nf m (p_calls o n debug fuel l) nf' m' r -> bind r (fun a => Val (nf', m', a)) = calls o n debug fuel nf m l).
Proof. exact calls_are. Qed.
Print Assumptions C71_alone.

(** Threads that do not share an element any of them may write, with assertions:
    the field is never written, and the answers and the elements of a thread are
    those of the thread alone.  Elements no thread writes may be operands of the
    arithmetic of all of them. *)
Theorem C71_threads_partial : forall o n nf, f_imm nf = 1%Z ->
  forall own fuel m (l : nat -> list call) nf' m' ps', (forall t, divided own t (l t)) ->
  steps (nf, m, fun t => p_calls o n true fuel (l t)) (nf', m', ps') ->
  nf' = nf /\
  forall t r, ps' t = Fin_ r ->
    match r with
    | Val a => exists ma, calls o n true fuel nf m (l t) = Val (nf, ma, a) /\ forall i, own i = Some t -> m' i = ma i
    | Undef => calls o n true fuel nf m (l t) = Undef
    | Abort => calls o n true fuel nf m (l t) = Abort
    | Fuel => calls o n true fuel nf m (l t) = Fuel
    end.
Proof. exact threads. Qed.
Print Assumptions C71_threads_partial.

(** The answers are right and the elements have the announced values and correct
    enclosures; nothing is assumed on the enclosure of the generator except that
    it contains the generator. *)
Theorem C71_right_partial : forall o n pol x, arb_ok o -> minimal pol x -> nf_ok pol x n ->
  forall nf, f_pol nf = pol -> inb x (f_emb nf) -> (2 <= f_prec nf)%Z -> f_imm nf = 1%Z ->
  forall own fuel m (l : nat -> list call) nf' m' ps', mem_ok pol x m ->
  (forall t, divided own t (l t) /\ Forall (call_ok pol) (l t) /\ Forall (sound_call pol) (l t)) ->
  steps (nf, m, fun t => p_calls o n true fuel (l t)) (nf', m', ps') ->
  forall t r, ps' t = Fin_ (Val r) ->
  exists v, history x (fun i => ev x (r_elem (m i))) (l t) v r /\
  forall i, own i = Some t -> ev x (r_elem (m' i)) = v i /\ inb (v i) (r_emb (m' i)).
Proof. exact threads_right. Qed.
Print Assumptions C71_right_partial.

(** Two threads on the square root of two, which both use; they take turns. *)
Example C71_case : arb_ok dyops /\ minimal sq (sqrt 2) /\ nf_ok sq (sqrt 2) (nfc sq) /\
  f_pol sq_field = sq /\ inb (sqrt 2) (f_emb sq_field) /\ (2 <= f_prec sq_field)%Z /\ f_imm sq_field = 1%Z /\
  mem_ok sq (sqrt 2) duo_mem /\
  (forall t, divided duo_own t (duo t) /\ Forall (call_ok sq) (duo t) /\ Forall (sound_call sq) (duo t)) /\
  exists nf' m' ps', steps (sq_field, duo_mem, fun t => p_calls dyops (nfc sq) true 50 (duo t)) (nf', m', ps') /\
  ps' 0%nat = Fin_ (Val [ANone; AInt 1; AInt 2]) /\ ps' 1%nat = Fin_ (Val [ANone; ANone; AInt (-1)]).
Proof.
  split; [exact dyops_ok|]. split; [exact sq_min|]. split; [exact sq_nf|]. split; [reflexivity|].
  split; [exact sq_field_in|]. split; [discriminate|]. split; [reflexivity|]. split; [exact duo_mem_ok|].
  split; [intros t; split; [apply duo_divided|apply duo_legal]|exact duo_end].
Qed.

(** False for threads that share an element: the sign of 408 sqrt 2 - 577 < 0 is
    asked for by two threads at the same time, one of which gets 1.  The field is
    marked and each thread alone gets -1. *)
Theorem C71_shared_refuted : exists pol x nf m nf' m' ps',
  minimal pol x /\ inb x (f_emb nf) /\ f_pol nf = pol /\ f_imm nf = 1%Z /\
  runs dyops (nfc pol) true 50 nf zeros near = Val (nf, m) /\
  ev x (r_elem (m 0%nat)) < 0 /\
  (exists nf1 m1, calls dyops (nfc pol) true 50 nf m [KSgn 0] = Val (nf1, m1, [AInt (-1)])) /\
  steps (nf, m, fun _ => p_calls dyops (nfc pol) true 50 [KSgn 0]) (nf', m', ps') /\
  ps' 1%nat = Fin_ (Val [AInt 1]).
Proof. exact shared_wrong. Qed.
Print Assumptions C71_shared_refuted.

(** False without assertions: the mark is ignored and the field is written. *)
Theorem C71_ndebug_refuted : exists nf m nf' m',
  f_imm nf = 1%Z /\ run dyops (nfc sq) false 50 nf m (KSgn 0) = Val (nf', m') /\ f_emb nf' <> f_emb nf /\
  run dyops (nfc sq) true 50 nf m (KSgn 0) = Abort.
Proof. exact unmarked. Qed.
Print Assumptions C71_ndebug_refuted.
