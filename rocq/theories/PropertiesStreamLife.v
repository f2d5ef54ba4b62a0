(** The field of a stream: C73. *)
Require Import List ZArith Bool.
From Verif Require Import ArbModel LifeModel LifeSpec LifeProofs LifeRefute StreamLifeModel StreamLifeSpec StreamLife StreamLifeRefute.
Import ListNotations.

(** ** C73

    After set_pword, elements read from a stream are elements of that field;
    reading uses no object that has been destroyed and keeps the counts.

    False as stated: the stream does not count as a user of the field. *)
Theorem C73_dangling_refuted : exists s rs k, toy_sreachable s rs /\ slegal toy_good fst s k /\ toy_srun s k = Undef.
Proof. exact gone_refuted. Qed.
Print Assumptions C73_dangling_refuted.

(** Memory that has been reused makes elements of the wrong field: the field at the
    address [a] set on the stream is of another class when the element is read. *)
Theorem C73_reused_refuted : exists s0 rs0 i h a d, toy_sreachable s0 rs0 /\ pointee (base s0) h = Some a /\ data_at (base s0) a d /\
  exists l s os, sgood (slegal toy_good fst) s0 l /\ toy_sruns s0 (SSet i h :: l) = Val (s, os) /\ (forall k, In k l -> match k with SSet _ _ | SSetOf _ _ => False | _ => True end) /\
  exists e v k s' d', k = SRead i e (TElem v) 7 1 11 12 /\ slegal toy_good fst s k /\ toy_srun s k = Val (s', Done) /\
    content (base s') e = Some (a, v) /\ data_at (base s') a d' /\ fst d' <> fst d.
Proof. exact again_refuted. Qed.
Print Assumptions C73_reused_refuted.

(** A stream without a field: a null pointer. *)
Theorem C73_unset_refuted : exists s rs i k, toy_sreachable s rs /\ get i (words s) = None /\ slegal toy_good fst s (SRead i 0 k 7 1 11 12) /\ toy_srun s (SRead i 0 k 7 1 11 12) = Undef.
Proof. exact unset_refuted. Qed.
Print Assumptions C73_unset_refuted.

(** If streams are read only while their field exists: no undefined behaviour, *)
Theorem C73_safe_partial : forall (D H V K : Type) hash heq deq zero one gen ratl conv trivial debug good cls hof,
  @registry_ok D H K good cls hof hash heq deq -> good trivial ->
  let run := srun D H V hash heq deq zero one gen ratl conv trivial debug in
  forall s rs k, sreachable (fun s k => slegal good cls s k /\ careful s k) run s rs -> slegal good cls s k -> careful s k -> run s k <> Undef /\ run s k <> Abort.
Proof. exact (@stream_safe). Qed.
Print Assumptions C73_safe_partial.

(** fields live as in C35 (a stream is no user), *)
Theorem C73_lifetime_partial : forall (D H V K : Type) hash heq deq zero one gen ratl conv trivial debug good cls hof,
  @registry_ok D H K good cls hof hash heq deq -> good trivial ->
  let run := srun D H V hash heq deq zero one gen ratl conv trivial debug in
  forall s rs, sreachable (fun s k => slegal good cls s k /\ careful s k) run s rs ->
  (forall a, field_alive (base s) a <-> referenced (base s) a) /\ (all_gone (base s) -> fields (base s) = [] /\ registry (base s) = []).
Proof. exact (@stream_lifetime). Qed.
Print Assumptions C73_lifetime_partial.

(** and what is read is an element of the field set last; when reading throws nothing
    changes. *)
Theorem C73_set : forall (D H V : Type) hash heq deq zero one gen ratl conv trivial debug,
  let run := srun D H V hash heq deq zero one gen ratl conv trivial debug in
  forall s i h s' r, run s (SSet i h) = Val (s', r) ->
  base s' = base s /\ get i (words s') = pointee (base s) h /\ forall j, j <> i -> get j (words s') = get j (words s).
Proof. exact (@stream_set). Qed.
Print Assumptions C73_set.
Theorem C73_set_of : forall (D H V : Type) hash heq deq zero one gen ratl conv trivial debug,
  let run := srun D H V hash heq deq zero one gen ratl conv trivial debug in
  forall s i e a v, content (base s) e = Some (a, v) ->
  exists s', run s (SSetOf i e) = Val (s', Done) /\
  base s' = base s /\ get i (words s') = Some a /\ forall j, j <> i -> get j (words s') = get j (words s).
Proof. exact (@stream_set_of). Qed.
Print Assumptions C73_set_of.
Theorem C73_read_partial : forall (D H V K : Type) hash heq deq zero one gen ratl conv trivial debug good cls hof,
  @registry_ok D H K good cls hof hash heq deq -> good trivial ->
  let run := srun D H V hash heq deq zero one gen ratl conv trivial debug in
  forall s rs i e v p f x t s' r a, sreachable (fun s k => slegal good cls s k /\ careful s k) run s rs -> slegal good cls s (SRead i e v p f x t) ->
  get i (words s) = Some a -> field_alive (base s) a -> run s (SRead i e v p f x t) = Val (s', r) ->
  read_effect (base s) (base s') a e v r /\ words s' = words s.
Proof. exact (@stream_read). Qed.
Print Assumptions C73_read_partial.

(** An element, something else, and the end of the stream are read; the last handle
    is dropped after the first. *)
Example C73_history : toy_careful (after reading) (Thrown :: Thrown :: repeat Done 7) /\ content (base (after reading)) 0 = Some (100%nat, 8%Z) /\
  handles (base (after reading)) = [].
Proof. split; [exact reading_careful|]. split; vm_compute; reflexivity. Qed.
