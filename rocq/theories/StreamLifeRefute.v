(** Streams whose field is gone, replaced or was never set. *)
Require Import List ZArith Bool Lia.
From Verif Require Import ArbModel LifeModel LifeSpec LifeProofs LifeRefute StreamLifeModel StreamLifeSpec.
Import ListNotations.
Open Scope Z_scope.

Definition toy_srun := srun toy nat Z toy_hash Nat.eqb toy_eq toy_zero toy_one toy_gen Z.even toy_conv (0, 0)%nat true.
Definition toy_sruns := sruns toy nat Z toy_hash Nat.eqb toy_eq toy_zero toy_one toy_gen Z.even toy_conv (0, 0)%nat true.
Definition toy_sstart : sstate toy nat Z := {| base := start toy nat Z; words := [] |}.
Definition toy_sreachable := sreachable (slegal toy_good fst) toy_srun.
Definition toy_careful := sreachable (fun s k => slegal toy_good fst s k /\ careful s k) toy_srun.

Fixpoint sgood (ok : sstate toy nat Z -> sop toy Z -> Prop) (s : sstate toy nat Z) (l : list (sop toy Z)) : Prop :=
  match l with
  | [] => True
  | k :: l' => ok s k /\ match toy_srun s k with Val (s', _) => sgood ok s' l' | _ => True end
  end.
Lemma sgood_step : forall (ok : sstate toy nat Z -> sop toy Z -> Prop) s k l s' r, ok s k -> toy_srun s k = Val (s', r) -> sgood ok s' l -> sgood ok s (k :: l).
Proof. intros ok s k l s' r L E T. split; [exact L|]. rewrite E. exact T. Qed.
Lemma sgood_reachable : forall ok l s rs, sreachable ok toy_srun s rs -> sgood ok s l -> forall s' os,
  toy_sruns s l = Val (s', os) -> sreachable ok toy_srun s' (rev os ++ rs).
Proof.
  induction l as [|k l IH]; intros s rs R L s' os E; unfold toy_sruns in E; cbn [sruns] in E; fold toy_sruns in E.
  - injection E as <- <-. exact R.
  - destruct L as [Lk Ll]. fold (toy_srun s k) in E. destruct (toy_srun s k) as [[s1 r]| | |] eqn:E1; cbn [bind] in E; try discriminate E.
    destruct (toy_sruns s1 l) as [[s2 os2]| | |] eqn:E2; cbn [bind] in E; try discriminate E.
    injection E as <- <-. cbn [rev]. rewrite <- app_assoc. cbn [app]. apply (IH s1 (r :: rs)); [|exact Ll|exact E2]. apply (sre_step _ _ s rs k); assumption.
Qed.
Ltac stream_legal := cbn;
  repeat match goal with |- _ /\ _ => split | |- exists a, Some _ = Some a /\ _ => eexists; split; [reflexivity|] | |- field_alive _ _ => discriminate | |- _ => progress easy_legal end.
Ltac swalk := lazymatch goal with
  | |- sgood _ _ [] => exact Logic.I
  | |- sgood _ _ (_ :: _) => eapply sgood_step; [stream_legal|vm_compute; reflexivity|swalk]
  end.

(** A stream for a field that no longer exists. *)
Definition gone : list (sop toy Z) :=
  [SLife (HMake 0 (1, 0) (100, (1, 2, 3))); SLife (HMake 1 (3, 0) (101, (4, 5, 6))); SLife (ENew 0 (OfHandle 1) 7%Z 10); SSet 5 0; SLife (HDrop 0)]%nat.
(** Afterwards another field gets its memory. *)
Definition again : list (sop toy Z) := (gone ++ [SLife (HMake 2 (9, 0) (100, (1, 2, 3)))])%nat.

Definition after (l : list (sop toy Z)) : sstate toy nat Z := match toy_sruns toy_sstart l with Val (s, _) => s | _ => toy_sstart end.
Lemma gone_reachable : toy_sreachable (after gone) (repeat Done 5).
Proof.
  apply (sgood_reachable _ gone toy_sstart [] (sre_start _ _)) with (os := repeat Done 5); [|vm_compute; reflexivity].
  unfold gone, toy_sstart, start. swalk.
Qed.
Lemma again_reachable : toy_sreachable (after again) (repeat Done 6).
Proof.
  apply (sgood_reachable _ again toy_sstart [] (sre_start _ _)) with (os := repeat Done 6); [|vm_compute; reflexivity].
  unfold again, gone, toy_sstart, start. cbn [app]. swalk.
Qed.

Lemma gone_refuted : exists s rs k, toy_sreachable s rs /\ slegal toy_good fst s k /\ toy_srun s k = Undef.
Proof.
  exists (after gone), (repeat Done 5), (SRead 5 0 (TElem 8) 7 1 11 12). split; [exact gone_reachable|]. split; [|vm_compute; reflexivity].
  let s := eval vm_compute in (after gone) in change (after gone) with s. stream_legal.
Qed.
(** The stream was never given a field. *)
Lemma unset_refuted : exists s rs i k, toy_sreachable s rs /\ get i (words s) = None /\ slegal toy_good fst s (SRead i 0 k 7 1 11 12) /\ toy_srun s (SRead i 0 k 7 1 11 12) = Undef.
Proof.
  exists (after gone), (repeat Done 5), 6%nat, (TElem 8). split; [exact gone_reachable|]. split; [vm_compute; reflexivity|]. split; [|vm_compute; reflexivity].
  let s := eval vm_compute in (after gone) in change (after gone) with s. stream_legal.
Qed.
Lemma again_refuted : exists s0 rs0 i h a d, toy_sreachable s0 rs0 /\ pointee (base s0) h = Some a /\ data_at (base s0) a d /\
  exists l s os, sgood (slegal toy_good fst) s0 l /\ toy_sruns s0 (SSet i h :: l) = Val (s, os) /\ (forall k, In k l -> match k with SSet _ _ | SSetOf _ _ => False | _ => True end) /\
  exists e v k s' d', k = SRead i e (TElem v) 7 1 11 12 /\ slegal toy_good fst s k /\ toy_srun s k = Val (s', Done) /\
    content (base s') e = Some (a, v) /\ data_at (base s') a d' /\ fst d' <> fst d.
Proof.
  exists (after (firstn 3 gone)), (repeat Done 3), 5%nat, 0%nat, 100%nat, (1, 1)%nat.
  split.
  { apply (sgood_reachable _ (firstn 3 gone) toy_sstart [] (sre_start _ _)) with (os := repeat Done 3); [|vm_compute; reflexivity].
    unfold gone, toy_sstart, start. cbn [firstn]. swalk. }
  split; [vm_compute; reflexivity|]. split; [eexists; split; vm_compute; reflexivity|].
  exists (skipn 4 again), (after again), (repeat Done 3).
  split; [let s := eval vm_compute in (after (firstn 3 gone)) in change (after (firstn 3 gone)) with s; unfold again, gone; cbn [app skipn]; swalk|].
  split; [vm_compute; reflexivity|]. split; [intros k [<-|[<-|[]]]; exact Logic.I|].
  exists 0%nat, 8. eexists. eexists. exists (9, 1)%nat. split; [reflexivity|].
  split; [let s := eval vm_compute in (after again) in change (after again) with s; stream_legal|].
  split; [vm_compute; reflexivity|]. split; [vm_compute; reflexivity|]. split; [eexists; split; vm_compute; reflexivity|]. cbn. discriminate.
Qed.

(** Read three times: an element of another field, junk, the end of the stream. *)
Definition reading : list (sop toy Z) :=
  [SLife (HMake 0 (1, 0) (100, (1, 2, 3))); SLife (HMake 1 (3, 0) (101, (4, 5, 6))); SLife (ENew 0 (OfHandle 1) 7%Z 10); SSet 5 0; SLife (HDrop 1);
   SRead 5 0 (TElem 8%Z) 7 1 11 12; SLife (HDrop 0); SRead 5 0 TWrong 7 1 13 14; SRead 5 0 TEnds 7 1 13 15]%nat.
Lemma reading_careful : toy_careful (after reading) (Thrown :: Thrown :: repeat Done 7).
Proof.
  apply (sgood_reachable _ reading toy_sstart [] (sre_start _ _)) with (os := repeat Done 7 ++ [Thrown; Thrown]); [|vm_compute; reflexivity].
  unfold reading, toy_sstart, start. swalk.
Qed.
