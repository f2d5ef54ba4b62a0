(** An execution in which a use of a field does not happen before its destruction. *)
Require Import List ZArith Bool Lia Relations.
From Verif Require Import ArbModel LifeModel ThreadModel ThreadSpec HbModel HbSpec HbProofs.
Import ListNotations.
Open Scope nat_scope.

(** The execution of a schedule. *)
Fixpoint go (debug : bool) (s : tstate) (l : list (nat * tev)) (i : nat) : tstate :=
  match i, l with
  | S i', (t, e) :: l' => match estep debug s t e with Some (Val s') => go debug s' l' i' | _ => s end
  | _, _ => s
  end.
Definition schedule (debug : bool) (l : list (nat * tev)) : run :=
  {| st := go debug tstart l; thr := fun i => fst (nth i l (0, Other)); does := fun i => snd (nth i l (0, Other)) |}.

Fixpoint goes (debug : bool) (s : tstate) (l : list (nat * tev)) : bool :=
  match l with
  | [] => true
  | (t, e) :: l' => match estep debug s t e with Some (Val s') => goes debug s' l' | _ => false end
  end.
Lemma goes_steps : forall debug l s, goes debug s l = true ->
  forall i, estep debug (go debug s l i) (fst (nth i l (0, Other))) (snd (nth i l (0, Other))) = Some (Val (go debug s l (S i))).
Proof.
  intros debug l. induction l as [|[t e] l IH]; intros s G i; [destruct i; reflexivity|]. cbn [goes] in G.
  destruct (estep debug s t e) as [[s'| | |]|] eqn:E; try discriminate G. destruct i as [|i].
  - cbn [nth fst snd go]. rewrite E. destruct l as [|[u f] l]; reflexivity.
  - cbn [nth go]. rewrite E. exact (IH s' G i).
Qed.

(** Thread 0 makes a field, copies the handle and gives the copy to thread 1; then it uses
    its own handle and drops it.  Thread 1 drops the copy and destroys the field. *)
Definition first : list (nat * tev) :=
  [(0, Do (ANew 1 10)); (0, Do ALock); (0, Do AFind); (0, Do (AReturn 0)); (0, Do AUnlock); (0, Do (ACopy 0 1)); (0, Send 0); (1, Recv 0);
   (0, Do (AUse 0)); (0, Do (ADrop 0))].
Definition last : list (nat * tev) := [(1, Do (ADrop 1)); (1, Do ALock); (1, Do AErase)].
Definition unordered : list (nat * tev) := first ++ last.
(** The same, but thread 0 tells thread 1 that it is done. *)
Definition ordered : list (nat * tev) := first ++ [(0, Send 1); (1, Recv 1)] ++ last.


Lemma unordered_execution : forall debug, execution debug (schedule debug unordered).
Proof.
  intros debug. split; [reflexivity|]. split; [|split].
  - apply goes_steps. destruct debug; vm_compute; reflexivity.
  - intros i c. do 13 (try (destruct i as [|i]; [try discriminate|])).
    + intros E. injection E as <-. exists 6. split; [lia|reflexivity].
    + destruct i; discriminate.
  - intros i k c Ei Ek.
    assert (S6 : forall i c, does (schedule debug unordered) i = Send c -> i = 6).
    { clear. intros i c. do 13 (destruct i as [|i]; [try discriminate; try reflexivity|]). destruct i; discriminate. }
    rewrite (S6 _ _ Ei), (S6 _ _ Ek). reflexivity.
Qed.
Lemma ordered_execution : forall debug, execution debug (schedule debug ordered).
Proof.
  intros debug. split; [reflexivity|]. split; [|split].
  - apply goes_steps. destruct debug; vm_compute; reflexivity.
  - intros i c. do 15 (try (destruct i as [|i]; [try discriminate|])).
    + intros E. injection E as <-. exists 6. split; [lia|reflexivity].
    + intros E. injection E as <-. exists 10. split; [lia|reflexivity].
    + destruct i; discriminate.
  - intros i k c Ei Ek.
    assert (S6 : forall i c, does (schedule debug ordered) i = Send c -> i = 6 /\ c = 0 \/ i = 10 /\ c = 1).
    { clear. intros i c. do 15 (destruct i as [|i]; [try discriminate; intros E; injection E as <-; tauto|]). destruct i; discriminate. }
    destruct (S6 _ _ Ei) as [(-> & ->)|(-> & ->)], (S6 _ _ Ek) as [(-> & E)|(-> & E)]; congruence.
Qed.
Lemma unordered_calm : forall debug, revives_nothing (schedule debug unordered).
Proof.
  intros debug i x. do 13 (destruct i as [|i]; [try discriminate; intros E; injection E as <-; destruct debug; exact Logic.I|]). destruct i; discriminate.
Qed.
Lemma ordered_calm : forall debug, revives_nothing (schedule debug ordered).
Proof.
  intros debug i x. do 15 (destruct i as [|i]; [try discriminate; intros E; injection E as <-; destruct debug; exact Logic.I|]). destruct i; discriminate.
Qed.

Definition handle_event (e : tev) (h : nat) : Prop := reads e h \/ writes e h.
Lemma handle_event_of : forall e h, handle_event e h -> e = Do (AUse h) \/ (exists g, e = Do (ACopy h g)) \/ e = Do (AReturn h) \/ (exists g, e = Do (ACopy g h)) \/ e = Do (ADrop h).
Proof. intros e h [[H|H]|[H|[H|H]]]; tauto. Qed.
Ltac at_event := intros [E|[(? & E)|[E|[(? & E)|E]]]]%handle_event_of; try discriminate E; injection E; intros; subst; tauto.
Lemma unordered_handles : forall debug i h, handle_event (does (schedule debug unordered) i) h ->
  h = 0 /\ (i = 3 \/ i = 5 \/ i = 8 \/ i = 9) \/ h = 1 /\ (i = 5 \/ i = 10).
Proof.
  intros debug i h. do 13 (destruct i as [|i]; [at_event|]). destruct i; at_event.
Qed.
Lemma ordered_handles : forall debug i h, handle_event (does (schedule debug ordered) i) h ->
  h = 0 /\ (i = 3 \/ i = 5 \/ i = 8 \/ i = 9) \/ h = 1 /\ (i = 5 \/ i = 12).
Proof.
  intros debug i h. do 15 (destruct i as [|i]; [at_event|]). destruct i; at_event.
Qed.
Lemma unordered_no_race : forall debug add sub, no_race_on_handles add sub (schedule debug unordered).
Proof.
  intros debug add sub i j h L H. set (r := schedule debug unordered) in *.
  assert (Hi : handle_event (does r i) h) by (unfold handle_event; tauto). assert (Hj : handle_event (does r j) h) by (unfold handle_event; tauto).
  apply (unordered_handles debug) in Hi, Hj.
  destruct Hi as [(-> & Hi)|(-> & Hi)], Hj as [(E & Hj)|(E & Hj)]; try discriminate E.
  - apply t_step, by_program; [exact L|]. destruct Hi as [->|[->|[->| ->]]], Hj as [->|[->|[->| ->]]]; reflexivity.
  - destruct Hi as [->| ->], Hj as [->| ->]; try lia.
    apply (t_trans _ _ 5 6 10); [apply t_step, by_program; [lia|reflexivity]|]. apply (t_trans _ _ 6 7 10); [|apply t_step, by_program; [lia|reflexivity]].
    apply t_step. apply (by_signal _ _ _ _ _ 0); [lia|reflexivity|reflexivity].
Qed.
Lemma ordered_no_race : forall debug add sub, no_race_on_handles add sub (schedule debug ordered).
Proof.
  intros debug add sub i j h L H. set (r := schedule debug ordered) in *.
  assert (Hi : handle_event (does r i) h) by (unfold handle_event; tauto). assert (Hj : handle_event (does r j) h) by (unfold handle_event; tauto).
  apply (ordered_handles debug) in Hi, Hj.
  destruct Hi as [(-> & Hi)|(-> & Hi)], Hj as [(E & Hj)|(E & Hj)]; try discriminate E.
  - apply t_step, by_program; [exact L|]. destruct Hi as [->|[->|[->| ->]]], Hj as [->|[->|[->| ->]]]; reflexivity.
  - destruct Hi as [->| ->], Hj as [->| ->]; try lia.
    apply (t_trans _ _ 5 6 12); [apply t_step, by_program; [lia|reflexivity]|]. apply (t_trans _ _ 6 7 12); [|apply t_step, by_program; [lia|reflexivity]].
    apply t_step. apply (by_signal _ _ _ _ _ 0); [lia|reflexivity|reflexivity].
Qed.

(** Nothing acquires: the steps of thread 0 from the use on are not seen. *)
Lemma counter_order : forall add sub s t e a q, counter add sub s t e = Some (a, q) -> q = add \/ q = sub.
Proof.
  intros add sub s t e a q E. destruct e as [x|c|c|]; cbn [counter] in E; try discriminate E. destruct x; try discriminate E.
  - destruct (at_pc s t); try discriminate E. injection E as _ <-. left. reflexivity.
  - destruct (get h (hands s)); [|discriminate E]. injection E as _ <-. left. reflexivity.
  - destruct (get h (hands s)); [|discriminate E]. injection E as _ <-. right. reflexivity.
Qed.
Lemma use_hidden : forall debug i j, before add_order sub_order (schedule debug unordered) i j ->
  8 <= i /\ thr (schedule debug unordered) i = 0 -> 8 <= j /\ thr (schedule debug unordered) j = 0.
Proof.
  intros debug i j B. induction B as [i j E|i k j _ IH1 _ IH2]; [|intros P; exact (IH2 (IH1 P))]. intros (L & T). destruct E as [Lij E|Lij E _|c Lij E _|a p q _ _ _ Cj Aq _].
  - split; [lia|]. rewrite <- E. exact T.
  - exfalso. revert L E. do 13 (destruct i as [|i]; [intros; try discriminate; lia|]). destruct i; discriminate.
  - exfalso. revert L E. do 13 (destruct i as [|i]; [intros; try discriminate; lia|]). destruct i; discriminate.
  - exfalso. destruct (counter_order _ _ _ _ _ _ _ Cj) as [-> | ->]; discriminate Aq.
Qed.

Lemma destroyed_refuted : forall debug, exists r i j a, execution debug r /\ revives_nothing r /\ no_race_on_handles add_order sub_order r /\
  uses r i a /\ destroys r j a /\ i < j /\ lives r i j a /\ ~ before add_order sub_order r i j.
Proof.
  intros debug. exists (schedule debug unordered), 8, 12, 10.
  split; [exact (unordered_execution debug)|]. split; [exact (unordered_calm debug)|]. split; [exact (unordered_no_race debug _ _)|].
  split; [exists 0; split; [destruct debug; reflexivity|left; left; reflexivity]|].
  split; [split; [destruct debug; discriminate|intros N; apply N; destruct debug; reflexivity]|]. split; [lia|].
  split; [intros k K; assert (E : k = 8 \/ k = 9 \/ k = 10 \/ k = 11 \/ k = 12) by lia; destruct E as [->|[->|[->|[->| ->]]]]; destruct debug; discriminate|].
  intros B. destruct (use_hidden debug 8 12 B) as (_ & E); [split; [lia|reflexivity]|discriminate E].
Qed.

(** The other schedule meets the conditions of all theorems. *)
Lemma ordered_drops : forall debug k a, drops (schedule debug ordered) k a -> k = 9 \/ k = 12.
Proof.
  intros debug k a (h & E & _). revert E. do 15 (destruct k as [|k]; [try discriminate; tauto|]). destruct k; discriminate.
Qed.
Lemma ordered_case : forall debug, let r := schedule debug ordered in
  execution debug r /\ revives_nothing r /\ no_race_on_handles add_order sub_order r /\
  constructs r 0 10 /\ uses r 8 10 /\ destroys r 14 10 /\ lives r 1 14 10 /\
  (forall k l, k < l < 14 -> drops r k 10 -> drops r l 10 -> lives r k l 10 -> before add_order sub_order r k l) /\
  thr r 8 <> thr r 14.
Proof.
  intros debug r. split; [exact (ordered_execution debug)|]. split; [exact (ordered_calm debug)|]. split; [exact (ordered_no_race debug _ _)|].
  split; [split; [intros N; apply N; reflexivity|destruct debug; discriminate]|].
  split; [exists 0; split; [destruct debug; reflexivity|left; left; reflexivity]|].
  split; [split; [destruct debug; discriminate|intros N; apply N; destruct debug; reflexivity]|].
  split; [intros k K; do 15 (destruct k as [|k]; [first [lia|destruct debug; discriminate]|]); lia|].
  split; [|discriminate].
  intros k l K Dk Dl _. destruct (ordered_drops debug k 10 Dk) as [->| ->], (ordered_drops debug l 10 Dl) as [->| ->]; try lia.
  apply (t_trans _ _ 9 10 12); [apply t_step, by_program; [lia|reflexivity]|]. apply (t_trans _ _ 10 11 12); [|apply t_step, by_program; [lia|reflexivity]].
  apply t_step. apply (by_signal _ _ _ _ _ 1); [lia|reflexivity|reflexivity].
Qed.
Lemma unordered_case : forall debug, let r := schedule debug unordered in
  execution debug r /\ revives_nothing r /\ no_race_on_handles add_order AcqRel r /\ uses r 8 10 /\ destroys r 12 10 /\ lives r 8 12 10 /\ thr r 8 <> thr r 12.
Proof.
  intros debug r. split; [exact (unordered_execution debug)|]. split; [exact (unordered_calm debug)|]. split; [exact (unordered_no_race debug _ _)|].
  split; [exists 0; split; [destruct debug; reflexivity|left; left; reflexivity]|].
  split; [split; [destruct debug; discriminate|intros N; apply N; destruct debug; reflexivity]|].
  split; [|discriminate].
  intros k K; assert (E : k = 8 \/ k = 9 \/ k = 10 \/ k = 11 \/ k = 12) by lia; destruct E as [->|[->|[->|[->| ->]]]]; destruct debug; discriminate.
Qed.

(** Both threads make the same field. *)
Definition searching : list (nat * tev) :=
  [(0, Do (ANew 1 10)); (0, Do ALock); (0, Do AFind); (0, Do (AReturn 0)); (0, Do AUnlock); (1, Do (ANew 1 20)); (1, Do ALock);
   (0, Do (AUse 0)); (1, Do AFind); (1, Do (AReturn 1)); (1, Do AUnlock)].
Lemma searching_handles : forall debug i h, handle_event (does (schedule debug searching) i) h -> h = 0 /\ (i = 3 \/ i = 7) \/ h = 1 /\ i = 9.
Proof. intros debug i h. do 11 (destruct i as [|i]; [at_event|]). destruct i; at_event. Qed.
Lemma searching_sends : forall debug i c, does (schedule debug searching) i <> Send c /\ does (schedule debug searching) i <> Recv c.
Proof. intros debug i c. do 11 (destruct i as [|i]; [split; discriminate|]). destruct i; split; discriminate. Qed.
Lemma before_lt : forall add sub r i j, before add sub r i j -> i < j.
Proof. intros add sub r i j B. induction B as [i j E|i k j _ IH1 _ IH2]; [destruct E; assumption|lia]. Qed.
Lemma search_hidden : forall debug i j, before add_order sub_order (schedule debug searching) i j ->
  7 <= i /\ thr (schedule debug searching) i = 0 -> 7 <= j /\ thr (schedule debug searching) j = 0.
Proof.
  intros debug i j B. induction B as [i j E|i k j _ IH1 _ IH2]; [|intros P; exact (IH2 (IH1 P))]. intros (L & T). destruct E as [Lij E|Lij E _|c Lij E _|a p q _ _ _ Cj Aq _].
  - split; [lia|]. rewrite <- E. exact T.
  - exfalso. revert L T E. do 11 (destruct i as [|i]; [intros; try discriminate; lia|]). destruct i; discriminate.
  - exfalso. exact (proj1 (searching_sends debug i c) E).
  - exfalso. destruct (counter_order _ _ _ _ _ _ _ Cj) as [-> | ->]; discriminate Aq.
Qed.
Lemma search_refuted : forall debug, exists r i j a,
  execution debug r /\ revives_nothing r /\ no_race_on_handles add_order sub_order r /\ exchanges_nothing r /\
  uses r i a /\ compares r j a /\ thr r i <> thr r j /\
  ~ before add_order sub_order r i j /\ ~ before add_order sub_order r j i.
Proof.
  intros debug. set (r := schedule debug searching). exists r, 7, 8, 10.
  assert (T : forall i j h, handle_event (does r i) h -> handle_event (does r j) h -> thr r i = thr r j).
  { intros i j h Hi Hj. apply (searching_handles debug) in Hi, Hj.
    destruct Hi as [(-> & Hi)|(-> & ->)], Hj as [(E & Hj)|(E & ->)]; try discriminate E; [|reflexivity].
    destruct Hi as [->| ->], Hj as [->| ->]; reflexivity. }
  split; [|split; [|split; [|split; [|split; [|split; [|split; [|split]]]]]]].
  - split; [reflexivity|]. split; [|split].
    + apply goes_steps. destruct debug; vm_compute; reflexivity.
    + intros i c E. exfalso. exact (proj2 (searching_sends debug i c) E).
    + intros i k c E. exfalso. exact (proj1 (searching_sends debug i c) E).
  - intros i x. do 11 (destruct i as [|i]; [try discriminate; intros E; injection E as <-; destruct debug; first [exact Logic.I|exists 0; reflexivity]|]). destruct i; discriminate.
  - intros i j h L H. apply t_step, by_program; [exact L|]. apply (T i j h); unfold handle_event; tauto.
  - split; [intros i c; exact (proj1 (searching_sends debug i c))|exact T].
  - exists 0. split; [destruct debug; reflexivity|left; left; reflexivity].
  - split; [reflexivity|]. split; [destruct debug; left; reflexivity|]. exists 20, 1.
    split; [destruct debug; reflexivity|]. split; eexists; (split; [destruct debug; reflexivity|reflexivity]).
  - discriminate.
  - intros B. destruct (search_hidden debug 7 8 B) as (_ & E); [split; [lia|reflexivity]|discriminate E].
  - intros B. apply before_lt in B. lia.
Qed.
