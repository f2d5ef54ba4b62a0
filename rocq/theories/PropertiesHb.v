(** Property C77: uses of a field in several threads happen after its construction and
    before its destruction. *)
Require Import List ZArith Bool.
From Verif Require Import ArbModel LifeModel ThreadModel ThreadSpec HbModel HbSpec HbProofs HbRefute.
Import ListNotations.
Open Scope nat_scope.

(** The last drop only releases (memory_order_release), so that it does not see the
    other drops: a use of the field by another thread does not happen before the
    destruction.  The program has no race of its own. *)
Theorem C77_destruction_refuted : forall debug, exists r i j a,
  execution debug r /\ revives_nothing r /\ no_race_on_handles add_order sub_order r /\
  uses r i a /\ destroys r j a /\ i < j /\ lives r i j a /\ ~ before add_order sub_order r i j.
Proof. exact destroyed_refuted. Qed.
Print Assumptions C77_destruction_refuted.

(** With memory_order_acq_rel instead it does, in all executions without revival. *)
Theorem C77_acquire : forall debug add r i j a,
  execution debug r -> revives_nothing r -> no_race_on_handles add AcqRel r ->
  uses r i a -> destroys r j a -> i < j -> lives r i j a -> before add AcqRel r i j.
Proof. exact destroyed_after. Qed.
Print Assumptions C77_acquire.

(** Two threads that exchange nothing: one uses its field, which may refine it, the other
    makes the same field, and the search in the registry looks at the first one.  Neither
    happens before the other. *)
Theorem C77_search_refuted : forall debug, exists r i j a,
  execution debug r /\ revives_nothing r /\ no_race_on_handles add_order sub_order r /\ exchanges_nothing r /\
  uses r i a /\ compares r j a /\ thr r i <> thr r j /\
  ~ before add_order sub_order r i j /\ ~ before add_order sub_order r j i.
Proof. exact search_refuted. Qed.
Print Assumptions C77_search_refuted.

(** As the code is: when the program orders the drops of the handles of the field by its
    own means.  Missing: drops that are not ordered, and revived fields (C37). *)
Theorem C77_destruction_partial : forall debug add sub r i j a,
  execution debug r -> revives_nothing r -> no_race_on_handles add sub r ->
  (forall k l, k < l < j -> drops r k a -> drops r l a -> lives r k l a -> before add sub r k l) ->
  uses r i a -> destroys r j a -> i < j -> lives r i j a -> before add sub r i j.
Proof. exact destroyed_ordered. Qed.
Print Assumptions C77_destruction_partial.

(** Construction, also when another thread gets the field from the registry.  Missing:
    revived fields. *)
Theorem C77_construction_partial : forall debug add sub r, execution debug r -> revives_nothing r -> forall i a,
  constructs r i a -> no_race_on_handles add sub r ->
  forall j, uses r j a -> i < j -> lives r (S i) j a -> before add sub r i j.
Proof. exact made_before. Qed.
Print Assumptions C77_construction_partial.

(** The registry has no race, in all executions. *)
Theorem C77_registry : forall debug add sub r, execution debug r ->
  forall m n, m < n -> registry_access (does r m) -> registry_access (does r n) -> before add sub r m n.
Proof. exact registry_before. Qed.
Print Assumptions C77_registry.

(** Thread 0 makes and uses a field, thread 1 has a copy of the handle and destroys the
    field after a signal. *)
Example C77_case : forall debug, let r := schedule debug ordered in
  execution debug r /\ revives_nothing r /\ no_race_on_handles add_order sub_order r /\
  constructs r 0 10 /\ uses r 8 10 /\ destroys r 14 10 /\ lives r 1 14 10 /\
  (forall k l, k < l < 14 -> drops r k 10 -> drops r l 10 -> lives r k l 10 -> before add_order sub_order r k l) /\
  thr r 8 <> thr r 14.
Proof. exact ordered_case. Qed.
(** For [C77_acquire]: the schedule of the refutation. *)
Example C77_acquire_case : forall debug, let r := schedule debug unordered in
  execution debug r /\ revives_nothing r /\ no_race_on_handles add_order AcqRel r /\ uses r 8 10 /\ destroys r 12 10 /\ lives r 8 12 10 /\ thr r 8 <> thr r 12.
Proof. exact unordered_case. Qed.
(** For [C77_registry]: both threads search the registry. *)
Example C77_registry_case : forall debug, let r := schedule debug ordered in
  execution debug r /\ registry_access (does r 2) /\ registry_access (does r 14) /\ thr r 2 <> thr r 14.
Proof. intros debug. split; [exact (ordered_execution debug)|]. split; [left; reflexivity|]. split; [right; reflexivity|discriminate]. Qed.
