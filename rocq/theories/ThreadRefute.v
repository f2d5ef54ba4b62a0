(** Schedules of threads. *)
Require Import List ZArith Bool Lia.
From Verif Require Import ArbModel LifeModel ThreadModel ThreadSpec.
Import ListNotations.
Open Scope nat_scope.

Lemma exec_interleaved : forall debug l s s', interleaved debug s -> texec debug s l = Val s' -> interleaved debug s'.
Proof.
  intros debug l. induction l as [|[t x] l IH]; intros s s' R E; cbn [texec] in E; [injection E as <-; exact R|].
  destruct (tstep debug s t x) as [[s1| | |]|] eqn:E1; cbn [bind] in E; try discriminate E. apply (IH s1 s'); [|exact E]. apply (in_step _ s t x); assumption.
Qed.

(** Thread 0 makes a field of class 1 at 10, with the handle 0. *)
Definition opening : list (nat * act) := [(0, ANew 1 10); (0, ALock); (0, AFind); (0, AReturn 0); (0, AUnlock)].
(** Thread 0 drops it and is stopped before the lock; thread 1 makes it anew. *)
Definition revival : list (nat * act) := opening ++ [(0, ADrop 0); (1, ANew 1 20); (1, ALock); (1, AFind); (1, AReturn 1); (1, AUnlock)].

Lemma revive_refuted : forall debug, exists s t x, interleaved debug s /\ tstep debug s t x = Some Undef.
Proof.
  intros debug.
  destruct (texec debug tstart (revival ++ [(1, ADrop 1); (0, ALock); (0, AErase); (0, AUnlock); (1, ALock)])) as [s| | |] eqn:E.
  2-4: destruct debug; vm_compute in E; discriminate E.
  exists s, 1, AErase. split; [exact (exec_interleaved _ _ _ _ (in_start _) E)|].
  destruct debug; vm_compute in E; injection E as <-; vm_compute; reflexivity.
Qed.

Lemma dangling_refuted : forall debug, exists s a, interleaved debug s /\ held s a /\ ~ exists_at s a /\ forall t, at_pc s t = Idle.
Proof.
  intros debug.
  destruct (texec debug tstart (revival ++ [(1, ACopy 1 2); (1, ACopy 1 3); (1, ACopy 1 4); (0, ALock); (0, AErase); (0, AUnlock)])) as [s| | |] eqn:E.
  2-4: destruct debug; vm_compute in E; discriminate E.
  exists s, 10. split; [exact (exec_interleaved _ _ _ _ (in_start _) E)|].
  destruct debug; vm_compute in E; injection E as <-; (split; [exists 1; reflexivity|]); (split; [intros X; apply X; reflexivity|]).
  all: intros [|[|t]]; reflexivity.
Qed.

Lemma relock_refuted : forall debug, exists s t a f, interleaved debug s /\ at_pc s t = InErase a /\ mutex s = Some t /\
  heap s a = Some f /\ tf_count f = 4%Z /\ tstep debug s t AErase = Some Undef.
Proof.
  intros debug. destruct (texec debug tstart (revival ++ [(0, ALock)])) as [s| | |] eqn:E.
  2-4: destruct debug; vm_compute in E; discriminate E.
  exists s, 0, 10. eexists. split; [exact (exec_interleaved _ _ _ _ (in_start _) E)|].
  destruct debug; vm_compute in E; injection E as <-; repeat (split; [reflexivity|]); vm_compute; reflexivity.
Qed.

(** A schedule without such an accident. *)
Definition race : list (nat * act) :=
  [(0, ANew 1 10); (1, ANew 1 20); (2, ANew 2 30); (0, ALock); (0, AFind); (0, AReturn 0); (0, AUnlock); (2, ALock); (3, ACopy 0 3);
   (2, AFind); (0, ADrop 0); (2, AReturn 2); (2, AUnlock); (1, ALock); (2, AUse 2); (1, AFind); (1, AReturn 1); (2, ADrop 2); (1, AUnlock)].

Fixpoint calm_list (debug : bool) (s : tstate) (l : list (nat * act)) : Prop :=
  match l with
  | [] => True
  | (t, x) :: l' => calm s t x /\ match tstep debug s t x with Some (Val s') => calm_list debug s' l' | _ => True end
  end.
Lemma exec_calmly : forall debug l s s', calmly debug s -> calm_list debug s l -> texec debug s l = Val s' -> calmly debug s'.
Proof.
  intros debug l. induction l as [|[t x] l IH]; intros s s' R C E; cbn [texec] in E; [injection E as <-; exact R|]. destruct C as [Cx Cl].
  destruct (tstep debug s t x) as [[s1| | |]|] eqn:E1; cbn [bind] in E; try discriminate E. apply (IH s1 s'); [|exact Cl|exact E]. apply (ca_step _ s t x); assumption.
Qed.

Lemma race_calm : exists s, texec true tstart race = Val s /\ calmly true s /\ at_pc s 2 = Dropped 30 /\ held s 10 /\ class_at s 10 1 /\ ~ held s 20.
Proof.
  destruct (texec true tstart race) as [s| | |] eqn:E; try (vm_compute in E; discriminate E). exists s. split; [reflexivity|]. split.
  - apply (exec_calmly true race tstart s (ca_start _)); [|exact E]. vm_compute. repeat split. exists 3. reflexivity.
  - vm_compute in E. injection E as <-. split; [reflexivity|]. split; [exists 1; reflexivity|]. split; [eexists; split; reflexivity|].
    intros (h & X). cbn in X. destruct h as [|[|[|[|h]]]]; cbn in X; discriminate X.
Qed.
