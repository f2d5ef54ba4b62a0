(** C94: the memory of fields and elements. *)
Require Import List ZArith Bool Arith.
From Verif Require Import RootModel Dyadic ArbModel MemberModel MemberSpec MemberProofs.
Import ListNotations.
Open Scope nat_scope.

(** Clients that initialize before use, do not initialize twice, and give elements only
    to fields of their polynomial do nothing undefined and lose no memory. *)
Theorem C94_defined : forall l b, allows none l b -> exists h, mrun l mempty = Val h /\ h_lost h = 0.
Proof. exact members_defined. Qed.
Print Assumptions C94_defined.

(** Once all fields and elements are released, no member is left. *)
Theorem C94_released : forall l b h, allows none l b -> nobody b -> mrun l mempty = Val h -> h_lost h = 0 /\ forall s, h_at h s = None.
Proof. exact members_released. Qed.
Print Assumptions C94_released.

(** The members of the others are all there. *)
Theorem C94_kept : forall l b h, allows none l b -> mrun l mempty = Val h ->
  (forall f, fields b f <> None <-> h_at h (FNf f) <> None /\ h_at h (FDer f) <> None /\ h_at h (FEmb f) <> None) /\
  (forall e, elems b e <> None <-> h_at h (EElem e) <> None /\ h_at h (EEmb e) <> None).
Proof. exact members_kept. Qed.
Print Assumptions C94_kept.

(** A field that does not exist cannot be released, refined, copied or used with elements. *)
Theorem C94_field : forall l b h f, allows none l b -> mrun l mempty = Val h -> fields b f = None ->
  mstep (MClear f) h = Undef /\ mstep (MRefine f) h = Undef /\ (forall g, mstep (MCopy g f) h = Undef \/ g = f) /\
  (forall e, mstep (MElem e f) h = Undef /\ mstep (MElemClear e f) h = Undef /\ mstep (MElemUse e f) h = Undef).
Proof. exact clear_again. Qed.
Print Assumptions C94_field.

(** An element that does not exist cannot be released or used. *)
Theorem C94_element : forall l b h e f, allows none l b -> mrun l mempty = Val h -> elems b e = None ->
  mstep (MElemClear e f) h = Undef /\ mstep (MElemUse e f) h = Undef.
Proof. exact elem_again. Qed.
Print Assumptions C94_element.

(** Elements work with another field exactly if that has the same representation. *)
Theorem C94_representation : forall l b h e f k m, allows none l b -> mrun l mempty = Val h -> elems b e = Some k -> fields b f = Some m ->
  (~ same_kind k m <-> mstep (MElemClear e f) h = Undef) /\ (~ same_kind k m <-> mstep (MElemUse e f) h = Undef).
Proof. exact other_kind. Qed.
Print Assumptions C94_representation.

(** Initializing a field again loses the memory of its three members. *)
Theorem C94_again : forall l b h f k m, allows none l b -> mrun l mempty = Val h -> fields b f = Some k ->
  exists h', mstep (MInit f m true) h = Val h' /\ h_lost h' = 3.
Proof. exact init_again. Qed.
Print Assumptions C94_again.

(** A field, its copy, and an element that is released with the copy after the field. *)
Example C94_case : let l := [MInit 0 3 true; MCopy 1 0; MElem 0 0; MElemUse 0 0; MClear 0; MRefine 1; MElemUse 0 1; MElemClear 0 1; MClear 1] in
  (exists b, allows none l b /\ nobody b) /\ mrun (firstn 8 l ++ [MClear 0]) mempty = Undef /\
  mrun [MInit 0 3 true; MInit 1 4 true; MElem 0 0; MElemClear 0 1] mempty = Undef /\ mrun [MInit 0 3 false] mempty = Abort.
Proof.
  cbv zeta. split; [|repeat split; reflexivity]. eexists. split.
  - repeat (eapply al_cons; [econstructor; reflexivity|]). apply al_nil.
  - split; intros x; cbn; repeat match goal with |- context [match x with O => _ | _ => _ end] => destruct x end; reflexivity.
Qed.
