(** Reading from a stream is a history of lifetimes while the field exists. *)
Require Import List ZArith Bool Lia.
From Verif Require Import ArbModel LifeModel LifeSpec LifeProofs StreamLifeModel StreamLifeSpec.
Import ListNotations.
Open Scope Z_scope.

Section Proofs.
Context {D H V K : Type}.
Variables (hash : D -> out (D * H)) (heq : H -> H -> bool) (deq : D -> D -> bool) (zero one gen : D -> V)
  (ratl : V -> bool) (conv : D -> V -> V) (trivial : D) (debug : bool) (good : D -> Prop) (cls : D -> K) (hof : K -> H -> Prop).
Hypothesis Hr : registry_ok good cls hof hash heq deq.
Hypothesis Ht : good trivial.
Notation state := (state D H V).
Notation run := (run1 D H V hash heq deq zero one gen ratl conv trivial debug).
Notation reach := (reachable good cls run).
Notation srun := (srun D H V hash heq deq zero one gen ratl conv trivial debug).

Let safe : forall s rs k, reach s rs -> legal good cls s k -> run s k <> Undef /\ run s k <> Abort := life_safe _ _ _ _ _ _ _ _ _ _ _ _ _ Hr Ht.
Let eff : forall s rs k s' r, reach s rs -> legal good cls s k -> run s k = Val (s', r) -> effect ratl conv s k s' r := life_effect _ _ _ _ _ _ _ _ _ _ _ _ _ Hr Ht.
Let alive : forall s rs a, reach s rs -> (field_alive s a <-> referenced s a) := life_field _ _ _ _ _ _ _ _ _ _ _ _ _ Hr Ht.

(** * Unused names *)
Lemma unused : forall {A} (l : list (nat * A)), exists n, forall k, (n <= k)%nat -> get k l = None.
Proof.
  intros A l. induction l as [|[j a] l [n IH]]; [exists O; reflexivity|].
  exists (Nat.max (S j) n). intros k L. cbn [get]. destruct (Nat.eqb_spec j k); [lia|]. apply IH. lia.
Qed.

(** * A counted pointer to a live field *)
Lemma static_pointer : forall s rs p a b, reach s rs -> new_handle s p -> static s = Some (Some a) -> add_ref D H V s a = Val b ->
  exists rs', reach (put_handle D H V b p (Some a)) rs'.
Proof.
  intros s rs p a b R Np E A. unfold add_ref in A. destruct (field_at D H V s a) as [fl| | |] eqn:Fa; cbn [bind] in A; try discriminate A.
  unfold field_at in Fa. destruct (get a (fields s)) as [fl'|] eqn:Ga; [|discriminate Fa]. injection Fa as ->. injection A as A.
  destruct (reachable_inv _ _ _ _ _ _ _ _ _ _ _ _ _ Hr Ht s rs R) as (ow & Po & I & _). destruct (i_field _ _ _ _ _ _ I a fl Ga) as (_ & Ct & P1 & _). unfold z0 in *.
  destruct (unused (stores s)) as [n Hn]. destruct (unused (fields s)) as [m Hm]. destruct (unused (elems s)) as [f Hf].
  pose (r := (m, (S n, S (S n), S (S (S n))))). pose (v := zero (fd_data fl)).
  pose (y := {| ob_nf := Some a; ob_st := n |}).
  pose (f1 := {| fd_data := fd_data fl; fd_count := fd_count fl + 1; fd_cache := fd_cache fl |}).
  pose (f2 := {| fd_data := fd_data fl; fd_count := fd_count fl + 1 + 1; fd_cache := fd_cache fl |}).
  pose (s1 := put_elem D H V (init D H V (put_field D H V s a f1) n v) f y).
  pose (s2 := put_handle D H V (put_field D H V s1 a f2) p (Some a)).
  assert (R1 : reach s1 (Done :: rs)).
  { apply (re_step good cls run s rs (ENew f (OfStatic r) v n)); [exact R| |].
    - split; [apply Hf; lia|]. split; [unfold running; rewrite E; discriminate|]. split; [apply Hm; cbn; lia|]. split.
      + cbn. repeat constructor; cbn; lia.
      + cbn. intros x Ix. apply Hn. lia.
    - cbn [LifeModel.run1 parent_of]. unfold rationals. rewrite E. cbn [bind]. unfold add_ref, field_at. rewrite Ga. reflexivity. }
  assert (G1 : get a (fields s1) = Some f1) by (cbn; apply get_put_same).
  assert (R2 : reach s2 (Done :: Done :: rs)).
  { apply (re_step good cls run s1 (Done :: rs) (HOf p f)); [exact R1| |].
    - split; [exact Np|]. exists y. split; [cbn; apply get_put_same|discriminate].
    - cbn [LifeModel.run1]. unfold elem_at. replace (get f (elems s1)) with (Some y) by (symmetry; cbn; apply get_put_same). cbn [bind nf_of ob_nf y].
      unfold add_ref, field_at. rewrite G1. reflexivity. }
  assert (Ge : get f (elems s2) = Some y) by (apply get_put_same).
  assert (G2 : get a (fields s2) = Some f2) by (apply get_put_same).
  assert (Gs : get n (stores s2) = Some v) by (apply get_put_same).
  exists (Done :: Done :: Done :: rs).
  apply (re_step good cls run s2 (Done :: Done :: rs) (EDrop f)); [exact R2| |].
  - unfold legal, has_elem. rewrite Ge. discriminate.
  - cbn [LifeModel.run1]. unfold elem_at. rewrite Ge. cbn [bind ob_nf y ob_st].
    unfold field_at. replace (get a (fields (set_elems D H V s2 (del f (elems s2))))) with (Some f2) by (symmetry; exact G2). cbn [bind].
    unfold clear. replace (get n (stores (set_elems D H V s2 (del f (elems s2))))) with (Some v) by (symmetry; exact Gs). cbn [bind].
    unfold release, decrement, field_at.
    match goal with |- context [get a (fields ?t)] => replace (get a (fields t)) with (Some f2) by (symmetry; exact G2) end.
    cbn [bind f2 fd_count]. destruct (Z.eqb_spec (fd_count fl + 1 + 1) 4); [lia|]. unfold done. cbn [bind]. do 2 f_equal.
    subst b. unfold s2, s1, put_handle, put_field, put_elem, init, set_fields, set_stores, set_elems, set_handles. cbn [fields stores registry handles elems static fd_data fd_cache f1 f2 y].
    f_equal.
    + rewrite !put_put. f_equal. f_equal. lia.
    + apply del_put. apply Hn. lia.
    + apply del_put. apply Hf. lia.
Qed.

Lemma pointer : forall s rs p a, reach s rs -> new_handle s p -> field_alive s a ->
  exists b rs', add_ref D H V s a = Val b /\ reach (put_handle D H V b p (Some a)) rs' /\ same_elems s (put_handle D H V b p (Some a)) [] /\
    same_handles s (put_handle D H V b p (Some a)) [p] /\ stores b = stores s.
Proof.
  intros s rs p a R Np Al. assert (A : exists b, add_ref D H V s a = Val b /\ handles b = handles s /\ elems b = elems s /\ stores b = stores s).
  { unfold add_ref, field_at. unfold field_alive in Al. destruct (get a (fields s)) as [f|]; [|congruence]. cbn [bind]. eexists. split; [reflexivity|]. repeat split. }
  destruct A as (b & A & Eh & Ee & Es). exists b.
  assert (X : exists rs', reach (put_handle D H V b p (Some a)) rs').
  { destruct (proj1 (alive s rs a R) Al) as [(h & E)|[(e & y & E & Q)|E]].
    - exists (Done :: rs). apply (re_step good cls run s rs (HCopy p h)); [exact R|split; [exact Np|unfold has_handle; congruence]|].
      cbn [LifeModel.run1]. unfold handle_at. rewrite E. cbn [bind add_opt]. rewrite A. reflexivity.
    - exists (Done :: rs). apply (re_step good cls run s rs (HOf p e)); [exact R|split; [exact Np|exists y; split; congruence]|].
      cbn [LifeModel.run1]. unfold elem_at. rewrite E. cbn [bind]. unfold nf_of. rewrite Q. cbn [bind]. rewrite A. reflexivity.
    - apply (static_pointer s rs p a b R Np E A). }
  destruct X as [rs' X]. exists rs'. split; [exact A|]. split; [exact X|]. split; [|split; [|exact Es]].
  - intros j _. unfold content. cbn. rewrite Ee, Es. split; reflexivity.
  - intros j N. cbn [put_handle set_handles handles]. rewrite get_put_other by (intros ->; apply N; left; reflexivity). rewrite Eh. reflexivity.
Qed.

Lemma step : forall s rs k, reach s rs -> legal good cls s k ->
  run s k = Fuel \/ exists s' r, run s k = Val (s', r) /\ reach s' (r :: rs) /\ effect ratl conv s k s' r.
Proof.
  intros s rs k R L. destruct (safe s rs k R L) as [U B]. destruct (run s k) as [[s' r]| | |] eqn:E; try congruence; [|left; reflexivity].
  right. exists s', r. split; [reflexivity|]. split; [apply (re_step good cls run s rs k); assumption|apply (eff s rs k s' r R L E)].
Qed.

Lemma dropped : forall (s s' t : state) p l, same_handles s t [p] -> new_handle s p -> same_handles t s' l -> (forall j, In j l -> j = p) -> ~ has_handle s' p -> same_handles s s' [].
Proof.
  intros s s' t p l A N B L P j _. destruct (Nat.eq_dec j p) as [->|Ne].
  - unfold has_handle in P. rewrite N. destruct (get p (handles s')); [exfalso; apply P; discriminate|reflexivity].
  - rewrite (B j), (A j); [reflexivity|intros [<-|[]]; congruence|intros I; apply Ne, L, I].
Qed.

Lemma read_ok : forall s rs i e v p f x t a, reach (base s) rs -> get i (words s) = Some a -> field_alive (base s) a ->
  slegal good cls s (SRead i e v p f x t) ->
  match read D H V hash heq deq zero one gen ratl conv trivial debug s i e v p f x t with
  | Val (b, r) => (exists rs', reach b rs') /\ read_effect (base s) b a e v r
  | Fuel => True
  | _ => False
  end.
Proof.
  intros s rs i e v p f x t a R W Al (He & Np & Nf & Fr). unfold read, get_pword. rewrite W.
  destruct (pointer (base s) rs p a R Np Al) as (b0 & rs0 & -> & R0 & Se0 & Sh0 & Es0). cbn [bind].
  set (b := put_handle D H V b0 p (Some a)) in *.
  assert (Pb : pointee b p = Some a) by (unfold pointee; replace (get p (handles b)) with (Some (Some a)) by (symmetry; apply get_put_same); reflexivity).
  assert (Hb : has_handle b p) by (unfold has_handle; replace (get p (handles b)) with (Some (Some a)) by (symmetry; apply get_put_same); discriminate).
  assert (Nb : new_elem b f) by (unfold new_elem; rewrite (proj1 (Se0 f (fun z => z))); exact Nf).
  assert (Eb : has_elem b e) by (unfold has_elem; rewrite (proj1 (Se0 e (fun z => z))); exact He).
  assert (Fb : free b [x; t]) by (destruct Fr as [F1 F2]; split; [exact F1|intros z Iz; replace (stores b) with (stores (base s)) by (symmetry; exact Es0); apply F2, Iz]).
  assert (Nef : e <> f) by (intros ->; apply He; exact Nf).
  destruct v as [| |u].
  - destruct (step b rs0 (HDrop p) R0 Hb) as [->|(b1 & r1 & -> & R1 & _ & Se1 & Sh1 & Nh1)]; cbn [bind]; [exact Logic.I|].
    split; [exists (r1 :: rs0); exact R1|]. split; [apply (dropped (base s) b1 b p [p] Sh0 Np Sh1); [intros j [<-|[]]; reflexivity|exact Nh1]|].
    split; [reflexivity|]. intros j Ij. rewrite (proj1 (Se1 j Ij)), (proj2 (Se1 j Ij)). apply Se0, Ij.
  - destruct (step b rs0 (EString f (OfHandle p) None x t) R0) as [->|(b1 & r1 & -> & R1 & Sh1 & Se1 & _ & Nf1)]; cbn [bind]; [|exact Logic.I|].
    { split; [exact Nb|]. split; [rewrite Pb; discriminate|exact Fb]. }
    assert (H1 : has_handle b1 p) by (unfold has_handle; rewrite (Sh1 p (fun z => z)); exact Hb).
    destruct (step b1 (r1 :: rs0) (HDrop p) R1 H1) as [->|(b2 & r2 & -> & R2 & _ & Se2 & Sh2 & Nh2)]; cbn [bind]; [exact Logic.I|].
    split; [exists (r2 :: r1 :: rs0); exact R2|]. split.
    { apply (dropped (base s) b2 b p [p] Sh0 Np); [|intros j [<-|[]]; reflexivity|exact Nh2]. intros j Nj. rewrite (Sh2 j Nj). apply Sh1. intros []. }
    split; [reflexivity|]. intros j Ij. rewrite (proj1 (Se2 j Ij)), (proj2 (Se2 j Ij)).
    destruct (Nat.eq_dec j f) as [->|Ne].
    + unfold new_elem in Nf. unfold content. rewrite Nf. unfold has_elem in Nf1. destruct (get f (elems b1)); [exfalso; apply Nf1; discriminate|]. split; reflexivity.
    + assert (Nj : ~ In j [f]) by (intros [->|[]]; congruence). rewrite (proj1 (Se1 j Nj)), (proj2 (Se1 j Nj)). apply Se0, Ij.
  - destruct (step b rs0 (EString f (OfHandle p) (Some u) x t) R0) as [->|(b1 & r1 & -> & R1 & Sh1 & Se1 & _ & a' & Pa & C1)]; cbn [bind]; [|exact Logic.I|].
    { split; [exact Nb|]. split; [rewrite Pb; discriminate|exact Fb]. }
    cbn [parent_is] in Pa. rewrite Pb in Pa. injection Pa as <-.
    assert (E1 : has_elem b1 e) by (unfold has_elem; rewrite (proj1 (Se1 e ltac:(intros [->|[]]; congruence))); exact Eb).
    assert (F1 : has_elem b1 f) by (unfold has_elem; unfold content in C1; destruct (get f (elems b1)); [discriminate|discriminate C1]).
    destruct (step b1 (r1 :: rs0) (EMoveAssign e f) R1 (conj E1 F1)) as [->|(b2 & r2 & -> & R2 & _ & Sh2 & Se2 & C2 & E2 & F2)]; cbn [bind]; [exact Logic.I|].
    destruct (step b2 (r2 :: r1 :: rs0) (EDrop f) R2 F2) as [->|(b3 & r3 & -> & R3 & _ & Sh3 & Se3 & F3)]; cbn [bind]; [exact Logic.I|].
    assert (H3 : has_handle b3 p) by (unfold has_handle; rewrite (Sh3 p (fun z => z)), (Sh2 p (fun z => z)), (Sh1 p (fun z => z)); exact Hb).
    destruct (step b3 (r3 :: r2 :: r1 :: rs0) (HDrop p) R3 H3) as [->|(b4 & r4 & -> & R4 & _ & Se4 & Sh4 & H4)]; cbn [bind]; [exact Logic.I|].
    split; [exists (r4 :: r3 :: r2 :: r1 :: rs0); exact R4|]. split.
    { apply (dropped (base s) b4 b p [p] Sh0 Np); [|intros j [<-|[]]; reflexivity|exact H4]. intros j Nj.
      rewrite (Sh4 j Nj), (Sh3 j (fun z => z)), (Sh2 j (fun z => z)). apply Sh1. intros []. }
    split; [reflexivity|]. split.
    + intros j Nj. rewrite (proj1 (Se4 j (fun z => z))), (proj2 (Se4 j (fun z => z))). destruct (Nat.eq_dec j f) as [->|Ne].
      * unfold new_elem in Nf. unfold content. rewrite Nf. unfold has_elem in F3. destruct (get f (elems b3)); [exfalso; apply F3; discriminate|]. split; reflexivity.
      * assert (N1 : ~ In j [f]) by (intros [->|[]]; congruence). assert (N2 : ~ In j [e; f]) by (intros [->|I]; [apply Nj; left; reflexivity|exact (N1 I)]).
        rewrite (proj1 (Se3 j N1)), (proj2 (Se3 j N1)), (proj1 (Se2 j N2)), (proj2 (Se2 j N2)), (proj1 (Se1 j N1)), (proj2 (Se1 j N1)). apply Se0. intros [].
    + rewrite (proj2 (Se4 e (fun z => z))), (proj2 (Se3 e ltac:(intros [->|[]]; congruence))), C2. exact C1.
Qed.

(** * Programs *)
Notation ok := (fun s k => slegal good cls s k /\ careful s k).

Lemma sstep : forall s rs k, reach (base s) rs -> slegal good cls s k -> careful s k ->
  match srun s k with Val (s', _) => exists rs', reach (base s') rs' | Fuel => True | _ => False end.
Proof.
  intros s rs k R L C. destruct k as [k|i h|i e|i e v p f x t]; cbn [StreamLifeModel.srun].
  - destruct (step (base s) rs k R L) as [->|(b & r & -> & Rb & _)]; cbn [bind]; [exact Logic.I|]. exists (r :: rs). exact Rb.
  - cbn [slegal] in L. unfold pointee in L. destruct (get h (handles (base s))) as [[a|]|]; cbn [deref bind]; try congruence. exists rs. exact R.
  - destruct L as (y & E & N). unfold elem_at, nf_of. rewrite E. cbn [bind]. destruct (ob_nf y); [|congruence]. cbn [bind]. exists rs. exact R.
  - destruct C as (a & W & Al). pose proof (read_ok s rs i e v p f x t a R W Al L) as X.
    destruct (read D H V hash heq deq zero one gen ratl conv trivial debug s i e v p f x t) as [[b r]| | |]; cbn [bind]; try exact X. apply X.
Qed.

Lemma sreach : forall s rs, sreachable ok srun s rs -> exists rs', reach (base s) rs'.
Proof.
  intros s rs S. induction S as [|s rs k s' r S (rs' & IH) [L C] E]; [exists []; constructor|].
  pose proof (sstep s rs' k IH L C) as X. rewrite E in X. exact X.
Qed.

Lemma stream_safe : forall s rs k, sreachable ok srun s rs -> slegal good cls s k -> careful s k -> srun s k <> Undef /\ srun s k <> Abort.
Proof.
  intros s rs k S L C. destruct (sreach s rs S) as (rs' & R). pose proof (sstep s rs' k R L C) as X. destruct (srun s k); try contradiction X; split; discriminate.
Qed.
Lemma stream_lifetime : forall s rs, sreachable ok srun s rs ->
  (forall a, field_alive (base s) a <-> referenced (base s) a) /\ (all_gone (base s) -> fields (base s) = [] /\ registry (base s) = []).
Proof.
  intros s rs S. destruct (sreach s rs S) as (rs' & R). split; [intros a; apply (alive (base s) rs' a R)|].
  intros G. destruct (life_end _ _ _ _ _ _ _ _ _ _ _ _ _ Hr Ht (base s) rs' R G) as (A & B & _). split; assumption.
Qed.
Lemma stream_read : forall s rs i e v p f x t s' r a, sreachable ok srun s rs -> slegal good cls s (SRead i e v p f x t) ->
  get i (words s) = Some a -> field_alive (base s) a -> srun s (SRead i e v p f x t) = Val (s', r) ->
  read_effect (base s) (base s') a e v r /\ words s' = words s.
Proof.
  intros s rs i e v p f x t s' r a S L W Al E. destruct (sreach s rs S) as (rs' & R). pose proof (read_ok s rs' i e v p f x t a R W Al L) as X.
  cbn [StreamLifeModel.srun] in E. destruct (read D H V hash heq deq zero one gen ratl conv trivial debug s i e v p f x t) as [[b q]| | |]; cbn [bind] in E; try discriminate E.
  injection E as <- <-. split; [apply X|reflexivity].
Qed.
End Proofs.

(** The field of the stream is the one it was given. *)
Lemma stream_set : forall (D H V : Type) hash heq deq zero one gen ratl conv trivial debug,
  let run := srun D H V hash heq deq zero one gen ratl conv trivial debug in
  forall s i h s' r, run s (SSet i h) = Val (s', r) ->
  base s' = base s /\ get i (words s') = pointee (base s) h /\ forall j, j <> i -> get j (words s') = get j (words s).
Proof.
  intros D H V hash heq deq zero one gen ratl conv trivial debug run s i h s' r E. unfold run in E. cbn [srun] in E. unfold pointee.
  destruct (get h (handles (base s))) as [[a|]|]; cbn [deref bind] in E; try discriminate E.
  injection E as <- _. split; [reflexivity|]. split; [apply get_put_same|]. intros j N. apply get_put_other. congruence.
Qed.
Lemma stream_set_of : forall (D H V : Type) hash heq deq zero one gen ratl conv trivial debug,
  let run := srun D H V hash heq deq zero one gen ratl conv trivial debug in
  forall s i e a v, content (base s) e = Some (a, v) ->
  exists s', run s (SSetOf i e) = Val (s', Done) /\
  base s' = base s /\ get i (words s') = Some a /\ forall j, j <> i -> get j (words s') = get j (words s).
Proof.
  intros D H V hash heq deq zero one gen ratl conv trivial debug run s i e a v C. unfold run. cbn [srun]. unfold content in C. unfold elem_at, nf_of.
  destruct (get e (elems (base s))) as [y|]; [|discriminate C]. cbn [bind]. destruct (ob_nf y) as [b|]; [|discriminate C].
  destruct (get (ob_st y) (stores (base s))); [|discriminate C]. injection C as <- _. cbn [bind]. eexists. split; [reflexivity|].
  split; [reflexivity|]. split; [apply get_put_same|]. intros j N. apply get_put_other. congruence.
Qed.
