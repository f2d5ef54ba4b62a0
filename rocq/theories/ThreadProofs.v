(** Threads: the invariant of executions in which no field is revived. *)
Require Import List ZArith Bool Lia.
From Verif Require Import ArbModel LifeModel LifeProofs ThreadModel ThreadSpec.
Import ListNotations.
Open Scope Z_scope.

Definition nrefs (s : tstate) (a : nat) : Z := total (one_at a) (hands s).
(** The thread has made the field and not yet shown it. *)
Definition keeps (p : pc) (a : nat) : Prop := p = Made a \/ p = InMake a.
(** The thread answers for a registered field without handles. *)
Definition minds (p : pc) (a : nat) : Prop := p = Dropped a \/ p = InErase a \/ p = Found a true.
Definition locked (p : pc) : Prop := match p with InMake _ | Found _ _ | Leave | InErase _ => True | _ => False end.

Record tinv (s : tstate) : Prop := {
  v_keys : NoDup (keys (hands s));
  v_count : forall a f, heap s a = Some f -> tf_count f = 3 + nrefs s a;
  v_dead : forall a, heap s a = None -> nrefs s a = 0;
  v_nodup : NoDup (known s);
  v_live : forall a, In a (known s) -> heap s a <> None;
  v_class : forall a b f g, In a (known s) -> In b (known s) -> heap s a = Some f -> heap s b = Some g -> tf_cls f = tf_cls g -> a = b;
  v_ref : forall a, 0 < nrefs s a -> In a (known s);
  v_heap : forall a, heap s a <> None -> In a (known s) \/ exists t, keeps (at_pc s t) a;
  v_keep : forall t a, keeps (at_pc s t) a -> heap s a <> None /\ ~ In a (known s);
  v_keep1 : forall t u a, keeps (at_pc s t) a -> keeps (at_pc s u) a -> t = u;
  v_none : forall a, In a (known s) -> nrefs s a = 0 -> exists t, minds (at_pc s t) a;
  v_mind : forall t a, minds (at_pc s t) a -> In a (known s) /\ nrefs s a = 0;
  v_mind1 : forall t u a, minds (at_pc s t) a -> minds (at_pc s u) a -> t = u;
  v_mutex : forall t, mutex s = Some t <-> locked (at_pc s t);
  v_found : forall t b, at_pc s t = Found b false -> In b (known s)
}.

Lemma upd_same : forall (A : Type) (f : nat -> A) i x, upd f i x i = x.
Proof. intros. unfold upd. rewrite Nat.eqb_refl. reflexivity. Qed.
Lemma upd_other : forall (A : Type) (f : nat -> A) i x j, j <> i -> upd f i x j = f j.
Proof. intros A f i x j N. unfold upd. apply Nat.eqb_neq in N. rewrite N. reflexivity. Qed.
Lemma nrefs_pos : forall s a, 0 <= nrefs s a.
Proof. intros. apply total_pos. intros. apply one_at_pos. Qed.
Lemma held_refs : forall s a, NoDup (keys (hands s)) -> (held s a <-> 0 < nrefs s a).
Proof.
  intros s a N. split.
  - intros (h & E). pose proof (total_ge (one_at a) (hands s) h a (one_at_pos a) E) as G. rewrite one_at_same in G. unfold nrefs. lia.
  - intros P. destruct (total_some _ _ (one_at_pos a) P) as (h & b & I & Q). exists h.
    unfold one_at in Q. destruct (Nat.eqb_spec b a) as [->|X]; [|destruct (Nat.eqb_spec a b); [congruence|lia]]. apply in_get; assumption.
Qed.

Lemma start_inv : tinv tstart.
Proof.
  constructor; cbn; unfold nrefs; cbn.
  all: try (intros; (discriminate || contradiction || reflexivity || lia || tauto); fail).
  all: try constructor.
  all: try (intros; match goal with H : keeps _ _ |- _ => destruct H; discriminate | H : minds _ _ |- _ => destruct H as [H|[H|H]]; discriminate end).
  all: try discriminate; try contradiction.
Qed.

(** lookup finds exactly the registered field of the class. *)
Lemma lookup_ok : forall s k l, (forall a, In a l -> heap s a <> None) ->
  match lookup s k l with
  | Val (Some b) => In b l /\ exists f, heap s b = Some f /\ tf_cls f = k
  | Val None => forall b f, In b l -> heap s b = Some f -> tf_cls f <> k
  | _ => False
  end.
Proof.
  intros s k. induction l as [|b l IH]; intros L; cbn [lookup]; [intros ? ? []|].
  destruct (heap s b) as [f|] eqn:E; [|exact (L b (or_introl eq_refl) E)].
  destruct (Nat.eqb_spec (tf_cls f) k) as [K|K]; [split; [left; reflexivity|eauto]|].
  assert (L' : forall a, In a l -> heap s a <> None) by (intros a I; apply L; right; exact I). specialize (IH L').
  destruct (lookup s k l) as [[c|]| | |]; try exact IH.
  - destruct IH as [I X]. split; [right; exact I|exact X].
  - intros c g [<-|I] G; [congruence|]. apply (IH c g I G).
Qed.

Ltac upd_case t u := destruct (Nat.eq_dec u t) as [->|?]; [rewrite ?upd_same in *|rewrite ?upd_other in * by assumption].
Ltac no_role := match goal with
  | H : keeps _ _ |- _ => destruct H as [H|H]; discriminate H
  | H : minds _ _ |- _ => destruct H as [H|[H|H]]; discriminate H
  end.

Section Steps.
Variable debug : bool.

Definition fine (r : option (out tstate)) : Prop :=
  match r with Some (Val s') => tinv s' | Some _ => False | None => True end.

Lemma new_fine : forall s t k a, tinv s -> fine (tstep debug s t (ANew k a)).
Proof.
  intros s t k a I. cbn. destruct (at_pc s t) eqn:P; try exact Logic.I. destruct (heap s a) as [f|] eqn:E; [exact Logic.I|].
  assert (K : ~ In a (known s)) by (intros X; apply (v_live _ I) in X; congruence).
  pose proof (v_dead _ I a E) as Z0.
  constructor; cbn [fine set_pc set_heap heap known mutex at_pc hands]; unfold nrefs; cbn [hands]; fold (nrefs s).
  - apply (v_keys _ I).
  - intros b f X. unfold nrefs in *. cbn [hands set_pc set_heap]. upd_case a b.
    + injection X as <-. cbn [tf_count]. lia.
    + apply (v_count _ I b f X).
  - intros b X. upd_case a b; [discriminate|]. apply (v_dead _ I b X).
  - apply (v_nodup _ I).
  - intros b X. upd_case a b; [discriminate|]. apply (v_live _ I b X).
  - intros b c f g X Y F G. assert (b <> a) by congruence. assert (c <> a) by congruence. rewrite upd_other in F, G by assumption.
    apply (v_class _ I b c f g X Y F G).
  - apply (v_ref _ I).
  - intros b X. upd_case a b; [right; exists t; rewrite upd_same; left; reflexivity|].
    destruct (v_heap _ I b X) as [Y|(u & Y)]; [left; exact Y|right; exists u]. upd_case t u; [|exact Y]. rewrite P in Y. no_role.
  - intros u b X. upd_case t u.
    + destruct X as [X|X]; [injection X as <-|discriminate X]. rewrite upd_same. split; [discriminate|exact K].
    + destruct (v_keep _ I u b X) as [Y W]. split; [|exact W]. upd_case a b; [discriminate|exact Y].
  - intros u w b X Y. upd_case t u; upd_case t w; try reflexivity.
    + destruct X as [X|X]; [injection X as <-|discriminate X]. destruct (v_keep _ I w a Y). congruence.
    + destruct Y as [Y|Y]; [injection Y as <-|discriminate Y]. destruct (v_keep _ I u a X). congruence.
    + apply (v_keep1 _ I u w b X Y).
  - intros b X Y. destruct (v_none _ I b X Y) as [u U]. exists u. upd_case t u; [|exact U]. rewrite P in U. no_role.
  - intros u b X. upd_case t u; [no_role|]. apply (v_mind _ I u b X).
  - intros u w b X Y. upd_case t u; [no_role|]. upd_case t w; [no_role|]. apply (v_mind1 _ I u w b X Y).
  - intros u. rewrite (v_mutex _ I u). upd_case t u; [rewrite P|]; cbn; tauto.
  - intros u b X. upd_case t u; [discriminate X|]. apply (v_found _ I u b X).
Qed.

Lemma pc_inv : forall s t p m, tinv s -> (forall a, keeps p a <-> keeps (at_pc s t) a) -> (forall a, minds p a <-> minds (at_pc s t) a) ->
  (forall u, m = Some u <-> locked (upd (at_pc s) t p u)) -> (forall b, p <> Found b false) -> tinv (set_pc (set_mutex s m) t p).
Proof.
  intros s t p m I Kp Mn Mx Fd.
  assert (K : forall u a, keeps (upd (at_pc s) t p u) a <-> keeps (at_pc s u) a) by (intros u a; upd_case t u; [apply Kp|reflexivity]).
  assert (M : forall u a, minds (upd (at_pc s) t p u) a <-> minds (at_pc s u) a) by (intros u a; upd_case t u; [apply Mn|reflexivity]).
  destruct I. constructor; cbn [set_pc set_mutex heap known mutex at_pc hands]; try assumption.
  - intros a X. destruct (v_heap0 a X) as [Y|(u & Y)]; [left; exact Y|right; exists u; apply K, Y].
  - intros u a X. apply K in X. apply (v_keep0 u a X).
  - intros u w a X Y. apply K in X, Y. apply (v_keep2 u w a X Y).
  - intros a X Y. destruct (v_none0 a X Y) as [u U]. exists u. apply M, U.
  - intros u a X. apply M in X. apply (v_mind0 u a X).
  - intros u w a X Y. apply M in X, Y. apply (v_mind2 u w a X Y).
  - intros u b X. upd_case t u; [destruct (Fd b X)|]. apply (v_found0 u b X).
Qed.

Lemma free_all : forall s, tinv s -> mutex s = None -> forall u, ~ locked (at_pc s u).
Proof. intros s I E u L. apply (v_mutex _ I) in L. congruence. Qed.
Lemma held_by : forall s t, tinv s -> locked (at_pc s t) -> forall u, locked (at_pc s u) -> u = t.
Proof. intros s t I L u L'. apply (v_mutex _ I) in L, L'. congruence. Qed.

Lemma lock_fine : forall s t, tinv s -> fine (tstep debug s t ALock).
Proof.
  intros s t I. cbn. destruct (at_pc s t) eqn:P; try exact Logic.I; destruct (mutex s) eqn:E; try exact Logic.I; cbn [fine]; apply pc_inv;
    try exact I; try rewrite P; try discriminate.
  all: try (intros b; unfold keeps, minds; split; intros X; repeat (destruct X as [X|X]); inversion X; subst; auto; fail).
  all: intros u; pose proof (free_all _ I E u); upd_case t u; cbn; split; intros X; try injection X; try congruence; try tauto.
Qed.
Lemma unlock_fine : forall s t, tinv s -> fine (tstep debug s t AUnlock).
Proof.
  intros s t I. cbn. destruct (at_pc s t) eqn:P; try exact Logic.I; cbn [fine]; apply pc_inv; try exact I; try rewrite P; try discriminate.
  1,2: intros b; unfold keeps, minds; split; intros X; repeat (destruct X as [X|X]); discriminate X.
  intros u. upd_case t u; cbn; split; intros X; try discriminate X; try contradiction.
  assert (u = t) by (apply (held_by s t I); [rewrite P; exact Logic.I|exact X]). congruence.
Qed.

Lemma use_fine : forall s t h, tinv s -> fine (tstep debug s t (AUse h)).
Proof.
  intros s t h I. cbn. destruct (at_pc s t); try exact Logic.I. destruct (get h (hands s)) as [a|] eqn:G; [|exact Logic.I].
  destruct (heap s a) eqn:E; [exact I|]. pose proof (v_dead _ I a E). pose proof (proj1 (held_refs s a (v_keys _ I)) (ex_intro _ h G)). lia.
Qed.

Lemma delete_ok : forall s a f, heap s a = Some f -> tf_count f = 3 -> delete s a = Val (set_heap s a None).
Proof. intros s a f E C. unfold delete. rewrite E, C. reflexivity. Qed.

Lemma find_fine : forall s t, tinv s -> fine (tstep debug s t AFind).
Proof.
  intros s t I. cbn. destruct (at_pc s t) as [| |a| | | |] eqn:P; try exact Logic.I.
  assert (Kt : keeps (at_pc s t) a) by (rewrite P; right; reflexivity).
  destruct (v_keep _ I t a Kt) as [Ha Na]. destruct (heap s a) as [f|] eqn:E; [|congruence]. cbn [fine].
  assert (Z0 : nrefs s a = 0). { pose proof (nrefs_pos s a). destruct (Z_lt_le_dec 0 (nrefs s a)) as [L|L]; [destruct (Na (v_ref _ I a L))|lia]. }
  assert (Lk : locked (at_pc s t)) by (rewrite P; exact Logic.I).
  pose proof (lookup_ok s (tf_cls f) (known s) (v_live _ I)) as L. destruct (lookup s (tf_cls f) (known s)) as [[b|]| | |]; try contradiction; cbn [bind fine].
  - destruct L as [Ib (g & Eg & Cg)]. rewrite (delete_ok s a f E) by (rewrite (v_count _ I a f E); lia). cbn [bind fine].
    assert (Nb : b <> a) by congruence.
    constructor; cbn [set_pc set_heap heap known mutex at_pc hands].
    + apply (v_keys _ I).
    + intros c g' X. upd_case a c; [discriminate X|]. apply (v_count _ I c g' X).
    + intros c X. upd_case a c; [exact Z0|]. apply (v_dead _ I c X).
    + apply (v_nodup _ I).
    + intros c X. upd_case a c; [contradiction|]. apply (v_live _ I c X).
    + intros c d g' g'' X Y F G. assert (c <> a) by congruence. assert (d <> a) by congruence. rewrite upd_other in F, G by assumption.
      apply (v_class _ I c d g' g'' X Y F G).
    + apply (v_ref _ I).
    + intros c X. upd_case a c; [congruence|]. destruct (v_heap _ I c X) as [Y|(u & Y)]; [left; exact Y|right; exists u].
      upd_case t u; [|exact Y]. rewrite P in Y. destruct Y as [Y|Y]; congruence.
    + intros u c X. upd_case t u; [no_role|]. destruct (v_keep _ I u c X) as [Y W]. split; [|exact W].
      upd_case a c; [|exact Y]. pose proof (v_keep1 _ I u t a X Kt). congruence.
    + intros u w c X Y. upd_case t u; [no_role|]. upd_case t w; [no_role|]. apply (v_keep1 _ I u w c X Y).
    + intros c X Y. destruct (v_none _ I c X Y) as [u U]. exists u. upd_case t u; [|exact U]. rewrite P in U. no_role.
    + intros u c X. upd_case t u; [no_role|]. apply (v_mind _ I u c X).
    + intros u w c X Y. upd_case t u; [no_role|]. upd_case t w; [no_role|]. apply (v_mind1 _ I u w c X Y).
    + intros u. rewrite (v_mutex _ I u). upd_case t u; [rewrite P|]; cbn; tauto.
    + intros u c X. upd_case t u; [congruence|]. apply (v_found _ I u c X).
  - constructor; cbn [set_pc set_known heap known mutex at_pc hands].
    + apply (v_keys _ I).
    + apply (v_count _ I).
    + apply (v_dead _ I).
    + constructor; [exact Na|apply (v_nodup _ I)].
    + intros c [<-|X]; [congruence|]. apply (v_live _ I c X).
    + intros c d g' g'' [<-|X] [<-|Y] F G Q; [reflexivity| | |apply (v_class _ I c d g' g'' X Y F G Q)].
      * exfalso. apply (L d g'' Y G). congruence.
      * exfalso. apply (L c g' X F). congruence.
    + intros c X. right. apply (v_ref _ I c X).
    + intros c X. destruct (v_heap _ I c X) as [Y|(u & Y)]; [left; right; exact Y|]. upd_case t u.
      * rewrite P in Y. destruct Y as [Y|Y]; [discriminate Y|]. injection Y as <-. left. left. reflexivity.
      * right. exists u. rewrite upd_other by assumption. exact Y.
    + intros u c X. upd_case t u; [no_role|]. destruct (v_keep _ I u c X) as [Y W]. split; [exact Y|].
      intros [<-|V]; [|exact (W V)]. pose proof (v_keep1 _ I u t a X Kt). congruence.
    + intros u w c X Y. upd_case t u; [no_role|]. upd_case t w; [no_role|]. apply (v_keep1 _ I u w c X Y).
    + intros c [<-|X] Y; [exists t; rewrite upd_same; right; right; reflexivity|].
      destruct (v_none _ I c X Y) as [u U]. exists u. upd_case t u; [|exact U]. rewrite P in U. no_role.
    + intros u c X. upd_case t u.
      * destruct X as [X|[X|X]]; try discriminate X. injection X as <-. split; [left; reflexivity|exact Z0].
      * destruct (v_mind _ I u c X) as [Y W]. split; [right; exact Y|exact W].
    + intros u w c X Y. upd_case t u; upd_case t w; try reflexivity.
      * destruct X as [X|[X|X]]; try discriminate X. injection X as <-. destruct (v_mind _ I w a Y). contradiction.
      * destruct Y as [Y|[Y|Y]]; try discriminate Y. injection Y as <-. destruct (v_mind _ I u a X). contradiction.
      * apply (v_mind1 _ I u w c X Y).
    + intros u. rewrite (v_mutex _ I u). upd_case t u; [rewrite P|]; cbn; tauto.
    + intros u c X. upd_case t u; [discriminate X|]. right. apply (v_found _ I u c X).
Qed.

(** One more handle of a field that is registered; thread [t] no longer minds it. *)
Lemma more_inv : forall s t h b f p, tinv s -> get h (hands s) = None -> In b (known s) -> heap s b = Some f ->
  (forall u, u <> t -> ~ minds (at_pc s u) b) -> (forall a, ~ minds p a) -> (forall a, minds (at_pc s t) a -> a = b) ->
  (forall a, keeps p a <-> keeps (at_pc s t) a) -> (locked p <-> locked (at_pc s t)) -> (forall c, p <> Found c false) ->
  tinv (set_pc (set_hands (set_heap s b (Some {| tf_cls := tf_cls f; tf_count := tf_count f + 1 |})) (put h b (hands s))) t p).
Proof.
  intros s t h b f p I Gh Ib Eb Md Mp Mt Kp Lp Fd.
  assert (N : forall a, total (one_at a) (put h b (hands s)) = nrefs s a + one_at a b).
  { intros a. rewrite total_put by apply (v_keys _ I). rewrite Gh. cbn [wo]. unfold nrefs. lia. }
  assert (K : forall u a, keeps (upd (at_pc s) t p u) a <-> keeps (at_pc s u) a) by (intros u a; upd_case t u; [apply Kp|reflexivity]).
  assert (Hp : forall a, heap s a <> None <-> upd (heap s) b (Some {| tf_cls := tf_cls f; tf_count := tf_count f + 1 |}) a <> None).
  { intros a. upd_case b a; [|reflexivity]. rewrite Eb. split; discriminate. }
  assert (Hc : forall a g, upd (heap s) b (Some {| tf_cls := tf_cls f; tf_count := tf_count f + 1 |}) a = Some g ->
    exists g', heap s a = Some g' /\ tf_cls g' = tf_cls g /\ tf_count g = tf_count g' + one_at a b).
  { intros a g X. upd_case b a.
    - injection X as <-. exists f. rewrite one_at_same. auto.
    - exists g. rewrite one_at_other by assumption. repeat split; try assumption. lia. }
  constructor; cbn [set_pc set_hands set_heap heap known mutex at_pc hands]; unfold nrefs; cbn [set_pc set_hands set_heap hands].
  - apply (keys_put (hands s) h b), (v_keys _ I).
  - intros a g X. destruct (Hc a g X) as (g' & Eg & _ & C). rewrite N, C, (v_count _ I a g' Eg). lia.
  - intros a X. rewrite N. assert (a <> b) by (intros ->; rewrite upd_same in X; discriminate X). rewrite upd_other in X by assumption.
    rewrite one_at_other, (v_dead _ I a X) by assumption. reflexivity.
  - apply (v_nodup _ I).
  - intros a X. apply Hp, (v_live _ I a X).
  - intros a c g g' X Y F G Q. destruct (Hc a g F) as (f1 & E1 & C1 & _). destruct (Hc c g' G) as (f2 & E2 & C2 & _).
    apply (v_class _ I a c f1 f2 X Y E1 E2). congruence.
  - intros a X. rewrite N in X. destruct (Nat.eq_dec a b) as [->|X']; [exact Ib|]. rewrite one_at_other in X by assumption. apply (v_ref _ I a). lia.
  - intros a X. apply Hp in X. destruct (v_heap _ I a X) as [Y|(u & Y)]; [left; exact Y|right; exists u; apply K, Y].
  - intros u a X. apply K in X. destruct (v_keep _ I u a X) as [Y W]. split; [apply Hp, Y|exact W].
  - intros u w a X Y. apply K in X, Y. apply (v_keep1 _ I u w a X Y).
  - intros a X Y. rewrite N in Y. pose proof (nrefs_pos s a). assert (a <> b) by (intros ->; rewrite one_at_same in Y; lia).
    rewrite one_at_other in Y by assumption. destruct (v_none _ I a X) as [u U]; [lia|]. exists u. upd_case t u; [|exact U].
    apply Mt in U. contradiction.
  - intros u a X. upd_case t u; [destruct (Mp a X)|]. destruct (v_mind _ I u a X) as [Y W]. split; [exact Y|]. rewrite N.
    assert (a <> b) by (intros ->; apply (Md u); assumption). rewrite one_at_other by assumption. lia.
  - intros u w a X Y. upd_case t u; [destruct (Mp a X)|]. upd_case t w; [destruct (Mp a Y)|]. apply (v_mind1 _ I u w a X Y).
  - intros u. rewrite (v_mutex _ I u). upd_case t u; [rewrite Lp|]; tauto.
  - intros u c X. upd_case t u; [destruct (Fd c X)|]. apply (v_found _ I u c X).
Qed.

Lemma same_pc_inv : forall s t p, tinv (set_pc s t p) -> at_pc s t = p -> tinv s.
Proof.
  intros s t p I P. assert (Q : forall u, at_pc (set_pc s t p) u = at_pc s u) by (intros u; cbn [set_pc at_pc]; upd_case t u; congruence).
  constructor.
  - apply (v_keys _ I).
  - apply (v_count _ I).
  - apply (v_dead _ I).
  - apply (v_nodup _ I).
  - apply (v_live _ I).
  - apply (v_class _ I).
  - apply (v_ref _ I).
  - intros a X. destruct (v_heap _ I a X) as [Y|(u & Y)]; [left; exact Y|right; exists u; rewrite <- Q; exact Y].
  - intros u a X. rewrite <- Q in X. apply (v_keep _ I u a X).
  - intros u w a X Y. rewrite <- Q in X, Y. apply (v_keep1 _ I u w a X Y).
  - intros a X Y. destruct (v_none _ I a X Y) as [u U]. exists u. rewrite <- Q. exact U.
  - intros u a X. rewrite <- Q in X. apply (v_mind _ I u a X).
  - intros u w a X Y. rewrite <- Q in X, Y. apply (v_mind1 _ I u w a X Y).
  - intros u. rewrite <- Q. apply (v_mutex _ I).
  - intros u b X. rewrite <- Q in X. apply (v_found _ I u b X).
Qed.

Lemma return_fine : forall s t h, tinv s -> calm s t (AReturn h) -> fine (tstep debug s t (AReturn h)).
Proof.
  intros s t h I C. cbn in *. destruct (at_pc s t) as [| | |b fresh| | |] eqn:P; try exact Logic.I.
  destruct (get h (hands s)) eqn:G; [exact Logic.I|]. cbn [fine].
  assert (In b (known s) /\ forall u, u <> t -> ~ minds (at_pc s u) b) as [Ib Md].
  { destruct fresh.
    - assert (M : minds (at_pc s t) b) by (rewrite P; right; right; reflexivity). split; [apply (v_mind _ I t b M)|].
      intros u N X. apply N. apply (v_mind1 _ I u t b X M).
    - split; [apply (v_found _ I t b P)|]. intros u N X. destruct (v_mind _ I u b X) as [_ Z0].
      apply (held_refs s b (v_keys _ I)) in C. lia. }
  pose proof (v_live _ I b Ib) as Hb. unfold count_add. destruct (heap s b) as [f|] eqn:E; [|congruence]. cbn [bind fine].
  apply (more_inv s t h b f Leave I G Ib E Md).
  - intros a X. no_role.
  - rewrite P. intros a X. destruct X as [X|[X|X]]; congruence.
  - intros a. rewrite P. split; intros X; no_role.
  - rewrite P. reflexivity.
  - discriminate.
Qed.

Lemma copy_fine : forall s t h g, tinv s -> fine (tstep debug s t (ACopy h g)).
Proof.
  intros s t h g I. cbn. destruct (at_pc s t) eqn:P; try exact Logic.I. destruct (get h (hands s)) as [a|] eqn:Gh; [|exact Logic.I].
  destruct (get g (hands s)) eqn:Gg; [exact Logic.I|]. cbn [fine].
  assert (R : 0 < nrefs s a) by (apply held_refs; [apply (v_keys _ I)|exists h; exact Gh]). pose proof (v_ref _ I a R) as Ia.
  pose proof (v_live _ I a Ia) as Ha. unfold count_add. destruct (heap s a) as [f|] eqn:E; [|congruence]. cbn [bind fine].
  apply (same_pc_inv _ t Idle); [|exact P]. apply (more_inv s t g a f Idle I Gg Ia E).
  - intros u _ X. destruct (v_mind _ I u a X). lia.
  - intros b X. no_role.
  - rewrite P. intros b X. no_role.
  - intros b. rewrite P. reflexivity.
  - rewrite P. reflexivity.
  - discriminate.
Qed.

Lemma drop_fine : forall s t h, tinv s -> fine (tstep debug s t (ADrop h)).
Proof.
  intros s t h I. cbn. destruct (at_pc s t) eqn:P; try exact Logic.I. destruct (get h (hands s)) as [b|] eqn:Gh; [|exact Logic.I].
  assert (R : 0 < nrefs s b) by (apply held_refs; [apply (v_keys _ I)|exists h; exact Gh]). pose proof (v_ref _ I b R) as Ib.
  pose proof (v_live _ I b Ib) as Hb. unfold count_add. destruct (heap s b) as [f|] eqn:E; [|congruence].
  cbn [set_hands heap]. rewrite E. cbn [bind fine].
  assert (N : forall a, total (one_at a) (del h (hands s)) = nrefs s a - one_at a b).
  { intros a. rewrite total_del by apply (v_keys _ I). rewrite Gh. reflexivity. }
  pose proof (v_count _ I b f E) as Cf.
  set (p := if tf_count f =? 4 then Dropped b else Idle).
  set (s' := set_heap (set_hands s (del h (hands s))) b (Some {| tf_cls := tf_cls f; tf_count := tf_count f + -1 |})).
  assert (G : tinv (set_pc s' t p)).
  { assert (Hp : forall a, heap s a <> None <-> upd (heap s) b (Some {| tf_cls := tf_cls f; tf_count := tf_count f + -1 |}) a <> None).
    { intros a. upd_case b a; [|reflexivity]. rewrite E. split; discriminate. }
    assert (Hc : forall a g, upd (heap s) b (Some {| tf_cls := tf_cls f; tf_count := tf_count f + -1 |}) a = Some g ->
      exists g', heap s a = Some g' /\ tf_cls g' = tf_cls g /\ tf_count g = tf_count g' - one_at a b).
    { intros a g X. upd_case b a.
      - injection X as <-. exists f. rewrite one_at_same. auto.
      - exists g. rewrite one_at_other by assumption. repeat split; try assumption. lia. }
    assert (K : forall u a, keeps (upd (at_pc s) t p u) a <-> keeps (at_pc s u) a).
    { intros u a. upd_case t u; [|reflexivity]. rewrite P. unfold p. destruct (tf_count f =? 4); split; intros X; no_role. }
    assert (Mp : forall a, minds p a -> a = b /\ tf_count f = 4).
    { intros a X. unfold p in X. destruct (Z.eqb_spec (tf_count f) 4) as [Q|Q]; [|no_role]. destruct X as [X|[X|X]]; inversion X; auto. }
    assert (Nb : forall u, ~ minds (at_pc s u) b) by (intros u X; destruct (v_mind _ I u b X); lia).
    constructor; unfold s'; cbn [set_pc set_hands set_heap heap known mutex at_pc hands]; unfold nrefs; cbn [set_pc set_hands set_heap hands].
    - apply keys_del, (v_keys _ I).
    - intros a g X. destruct (Hc a g X) as (g' & Eg & _ & C). rewrite N, C, (v_count _ I a g' Eg). lia.
    - intros a X. rewrite N. assert (a <> b) by (intros ->; rewrite upd_same in X; discriminate X). rewrite upd_other in X by assumption.
      rewrite one_at_other, (v_dead _ I a X) by assumption. reflexivity.
    - apply (v_nodup _ I).
    - intros a X. apply Hp, (v_live _ I a X).
    - intros a c g g' X Y F Q W. destruct (Hc a g F) as (f1 & E1 & C1 & _). destruct (Hc c g' Q) as (f2 & E2 & C2 & _).
      apply (v_class _ I a c f1 f2 X Y E1 E2). congruence.
    - intros a X. rewrite N in X. apply (v_ref _ I a). pose proof (one_at_pos a b). lia.
    - intros a X. apply Hp in X. destruct (v_heap _ I a X) as [Y|(u & Y)]; [left; exact Y|right; exists u; apply K, Y].
    - intros u a X. apply K in X. destruct (v_keep _ I u a X) as [Y W]. split; [apply Hp, Y|exact W].
    - intros u w a X Y. apply K in X, Y. apply (v_keep1 _ I u w a X Y).
    - intros a X Y. rewrite N in Y. destruct (Nat.eq_dec a b) as [->|Na].
      + exists t. rewrite upd_same. rewrite one_at_same in Y. unfold p. replace (tf_count f) with 4 by lia. left. reflexivity.
      + rewrite one_at_other in Y by assumption. destruct (v_none _ I a X) as [u U]; [lia|]. exists u. upd_case t u; [|exact U]. rewrite P in U. no_role.
    - intros u a X. rewrite N. upd_case t u.
      + destruct (Mp a X) as [-> Q]. split; [exact Ib|]. rewrite one_at_same. lia.
      + destruct (v_mind _ I u a X) as [Y W]. split; [exact Y|]. assert (a <> b) by (intros ->; apply (Nb u X)). rewrite one_at_other by assumption. lia.
    - intros u w a X Y. upd_case t u; upd_case t w; try reflexivity.
      + destruct (Mp a X) as [-> _]. destruct (Nb w Y).
      + destruct (Mp a Y) as [-> _]. destruct (Nb u X).
      + apply (v_mind1 _ I u w a X Y).
    - intros u. rewrite (v_mutex _ I u). upd_case t u; [rewrite P; unfold p; destruct (tf_count f =? 4); cbn|]; tauto.
    - intros u c X. upd_case t u; [unfold p in X; destruct (tf_count f =? 4); discriminate X|]. apply (v_found _ I u c X). }
  unfold p in G. destruct (tf_count f =? 4); [exact G|]. apply (same_pc_inv _ t Idle G). exact P.
Qed.

Lemma remove_nodup : forall a l, NoDup l -> NoDup (remove Nat.eq_dec a l).
Proof.
  intros a l. induction l as [|b l IH]; intros N; [constructor|]. inversion N as [|? ? X Y]; subst. cbn [remove].
  destruct (Nat.eq_dec a b); [apply IH, Y|]. constructor; [|apply IH, Y]. intros Z0. apply in_remove in Z0. tauto.
Qed.

Lemma erase_fine : forall s t, tinv s -> fine (tstep debug s t AErase).
Proof.
  intros s t I. cbn. destruct (at_pc s t) as [| | | | | |a] eqn:P; try exact Logic.I.
  assert (Mt : minds (at_pc s t) a) by (rewrite P; right; left; reflexivity). destruct (v_mind _ I t a Mt) as [Ia Z0].
  pose proof (v_live _ I a Ia) as Ha. destruct (heap s a) as [f|] eqn:E; [|congruence]. cbn [fine].
  pose proof (lookup_ok s (tf_cls f) (known s) (v_live _ I)) as L. destruct (lookup s (tf_cls f) (known s)) as [[b|]| | |]; try contradiction; cbn [bind fine].
  2:{ destruct (L a f Ia E). reflexivity. }
  destruct L as [Ib (g & Eg & Cg)]. assert (b = a) as -> by (apply (v_class _ I b a g f); assumption).
  rewrite (delete_ok _ a f) by (cbn [set_known heap]; rewrite ?(v_count _ I a f E); try assumption; lia). cbn [bind fine].
  assert (Rm : forall c, In c (remove Nat.eq_dec a (known s)) <-> In c (known s) /\ c <> a).
  { intros c. split; [apply in_remove|]. intros [X Y]. apply in_in_remove; assumption. }
  assert (Nk : forall u, ~ keeps (at_pc s u) a) by (intros u X; destruct (v_keep _ I u a X); contradiction).
  constructor; cbn [set_pc set_heap set_known heap known mutex at_pc hands].
  - apply (v_keys _ I).
  - intros c g' X. upd_case a c; [discriminate X|]. apply (v_count _ I c g' X).
  - intros c X. upd_case a c; [exact Z0|]. apply (v_dead _ I c X).
  - apply remove_nodup, (v_nodup _ I).
  - intros c X. apply Rm in X. destruct X as [X Y]. rewrite upd_other by exact Y. apply (v_live _ I c X).
  - intros c d g' g'' X Y F G. apply Rm in X, Y. destruct X, Y. rewrite upd_other in F, G by assumption. apply (v_class _ I c d g' g''); assumption.
  - intros c X. apply Rm. split; [apply (v_ref _ I c X)|]. intros ->. unfold nrefs in *. cbn in X. lia.
  - intros c X. upd_case a c; [congruence|]. destruct (v_heap _ I c X) as [Y|(u & Y)]; [left; apply Rm; auto|right; exists u].
    upd_case t u; [|exact Y]. rewrite P in Y. no_role.
  - intros u c X. upd_case t u; [no_role|]. destruct (v_keep _ I u c X) as [Y W]. split; [|intros V; apply Rm in V; tauto].
    upd_case a c; [destruct (Nk u X)|exact Y].
  - intros u w c X Y. upd_case t u; [no_role|]. upd_case t w; [no_role|]. apply (v_keep1 _ I u w c X Y).
  - intros c X Y. apply Rm in X. destruct X as [X X']. destruct (v_none _ I c X Y) as [u U]. exists u. upd_case t u; [|exact U]. rewrite P in U.
    destruct U as [U|[U|U]]; congruence.
  - intros u c X. upd_case t u; [no_role|]. destruct (v_mind _ I u c X) as [Y W]. split; [|exact W]. apply Rm. split; [exact Y|].
    intros ->. pose proof (v_mind1 _ I u t a X Mt). congruence.
  - intros u w c X Y. upd_case t u; [no_role|]. upd_case t w; [no_role|]. apply (v_mind1 _ I u w c X Y).
  - intros u. rewrite (v_mutex _ I u). upd_case t u; [rewrite P|]; cbn; tauto.
  - intros u c X. upd_case t u; [discriminate X|]. assert (u = t); [|congruence].
    apply (held_by s t I); [rewrite P; exact Logic.I|rewrite X; exact Logic.I].
Qed.

Lemma tstep_fine : forall s t x, tinv s -> calm s t x -> fine (tstep debug s t x).
Proof.
  intros s t x I C. destruct x.
  - apply new_fine, I.
  - apply lock_fine, I.
  - apply find_fine, I.
  - apply return_fine; assumption.
  - apply unlock_fine, I.
  - apply copy_fine, I.
  - apply drop_fine, I.
  - apply erase_fine, I.
  - apply use_fine, I.
Qed.

Lemma calmly_inv : forall s, calmly debug s -> tinv s.
Proof.
  induction 1 as [|s t x s' R I C E]; [exact start_inv|]. pose proof (tstep_fine s t x I C) as F. rewrite E in F. exact F.
Qed.

Lemma thread_safe : forall s t x, calmly debug s -> calm s t x -> tstep debug s t x <> Some Undef /\ tstep debug s t x <> Some Abort.
Proof.
  intros s t x R C. pose proof (tstep_fine s t x (calmly_inv s R) C) as F. split; intros E; rewrite E in F; exact F.
Qed.
Lemma thread_held : forall s a, calmly debug s -> held s a -> exists_at s a.
Proof.
  intros s a R H. pose proof (calmly_inv s R) as I. apply (held_refs s a (v_keys _ I)) in H. intros E. pose proof (v_dead _ I a E). lia.
Qed.
Lemma thread_unique : forall s a b k, calmly debug s -> held s a -> held s b -> class_at s a k -> class_at s b k -> a = b.
Proof.
  intros s a b k R Ha Hb (f & Ef & Cf) (g & Eg & Cg). pose proof (calmly_inv s R) as I. apply (held_refs s _ (v_keys _ I)) in Ha, Hb.
  apply (v_class _ I a b f g); try assumption; try (apply (v_ref _ I); assumption). congruence.
Qed.
Lemma thread_end : forall s, calmly debug s -> hands s = [] -> (forall t, at_pc s t = Idle) -> known s = [] /\ mutex s = None /\ forall a, ~ exists_at s a.
Proof.
  intros s R H P. pose proof (calmly_inv s R) as I.
  assert (K : known s = []).
  { destruct (known s) as [|a l] eqn:E; [reflexivity|exfalso]. assert (Ia : In a (known s)) by (rewrite E; left; reflexivity).
    destruct (v_none _ I a Ia) as [t M]; [unfold nrefs; rewrite H; reflexivity|]. rewrite P in M. no_role. }
  split; [exact K|]. split.
  - destruct (mutex s) as [t|] eqn:E; [|reflexivity]. apply (v_mutex _ I) in E. rewrite P in E. destruct E.
  - intros a X. destruct (v_heap _ I a X) as [Y|(t & Y)]; [rewrite K in Y; destruct Y|]. rewrite P in Y. no_role.
Qed.

Lemma fresh_key : forall (A : Type) (l : list (nat * A)), exists k, get k l = None.
Proof.
  intros A l. exists (S (fold_right Nat.max 0 (map fst l)))%nat. apply get_none. intros X.
  assert (B : forall m x, In x m -> (x <= fold_right Nat.max 0 m)%nat).
  { induction m as [|y m IH]; intros x Y; [destruct Y|]. cbn. destruct Y as [->|Y]; [lia|]. specialize (IH x Y). lia. }
  specialize (B _ _ X). lia.
Qed.
(** No deadlock: a thread inside a function can go on, unless another one, which
    can go on, has the lock. *)
Lemma thread_progress : forall s t, calmly debug s -> at_pc s t <> Idle ->
  (exists x, tstep debug s t x <> None) \/
  exists u, u <> t /\ mutex s = Some u /\ exists x, tstep debug s u x <> None.
Proof.
  intros s t R N. pose proof (calmly_inv s R) as I.
  assert (L : forall u, locked (at_pc s u) -> exists x, tstep debug s u x <> None).
  { intros u Lu. destruct (at_pc s u) eqn:P; try contradiction.
    - exists AFind. cbn. rewrite P. destruct (heap s a); discriminate.
    - destruct (fresh_key _ (hands s)) as [h G]. exists (AReturn h). cbn. rewrite P, G. discriminate.
    - exists AUnlock. cbn. rewrite P. discriminate.
    - exists AErase. cbn. rewrite P. destruct (heap s a); discriminate. }
  destruct (mutex s) as [u|] eqn:M.
  - assert (Lu : locked (at_pc s u)) by (apply (v_mutex _ I), M). destruct (Nat.eq_dec u t) as [->|D]; [left; apply L, Lu|].
    right. exists u. auto.
  - left. destruct (at_pc s t) eqn:P; try (apply L; rewrite P; exact Logic.I).
    + congruence.
    + exists ALock. cbn. rewrite P, M. discriminate.
    + exists ALock. cbn. rewrite P, M. discriminate.
Qed.
End Steps.
