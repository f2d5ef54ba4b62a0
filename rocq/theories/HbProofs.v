(** Uses of a field lie between its construction and its destruction. *)
Require Import List ZArith Bool Lia Relations Classical_Prop.
From Verif Require Import ArbModel LifeModel LifeProofs ThreadModel ThreadSpec ThreadProofs HbModel HbSpec.
Import ListNotations.
Open Scope nat_scope.

(** The last moment at which a property of the state came about. *)
Lemma came_about : forall (st : nat -> tstate) (P : tstate -> Prop) i j, i <= j -> ~ P (st i) -> P (st j) ->
  exists k, i <= k < j /\ ~ P (st k) /\ forall m, k < m <= j -> P (st m).
Proof.
  intros st P i j L N Y. induction j as [|j IH].
  - assert (i = 0) by lia. subst i. contradiction.
  - destruct (classic (P (st j))) as [Pj|Nj].
    + assert (L' : i <= j). { destruct (Nat.eq_dec i (S j)) as [->|]; [contradiction|lia]. }
      destruct (IH L' Pj) as (k & K & Nk & A). exists k. split; [lia|]. split; [exact Nk|]. intros m M.
      destruct (Nat.eq_dec m (S j)) as [->|]; [exact Y|apply A; lia].
    + assert (L' : i <= j). { destruct (Nat.eq_dec i (S j)) as [->|]; [contradiction|lia]. }
      exists j. split; [lia|]. split; [exact Nj|]. intros m M. assert (m = S j) by lia. subst m. exact Y.
Qed.
(** The first moment after which it no longer holds. *)
Lemma went_away : forall (st : nat -> tstate) (P : tstate -> Prop) i j, i <= j -> P (st i) -> ~ P (st j) ->
  exists k, i <= k < j /\ (forall m, i <= m <= k -> P (st m)) /\ ~ P (st (S k)).
Proof.
  intros st P i j L. replace j with (i + (j - i)) by lia. generalize (j - i) as d. clear L j. intros d. revert i.
  induction d as [|d IH]; intros i Y N; [rewrite Nat.add_0_r in N; contradiction|].
  destruct (classic (P (st (S i)))) as [Z|Z].
  - rewrite <- Nat.add_succ_comm in N. destruct (IH (S i) Z N) as (k & K & A & B). exists k. split; [lia|]. split; [|exact B].
    intros m M. destruct (Nat.eq_dec m i) as [->|]; [exact Y|apply A; lia].
  - exists i. split; [lia|]. split; [|exact Z]. intros m M. assert (m = i) by lia. subst m. exact Y.
Qed.

(** The steps that can be taken, as a relation. *)
Inductive steps (s : tstate) (t : nat) : act -> tstate -> Prop :=
| s_new : forall k a f, at_pc s t = Idle -> heap s a = None -> steps s t (ANew k a) (set_pc (set_heap s a (Some f)) t (Made a))
| s_lock_make : forall a, at_pc s t = Made a -> mutex s = None -> steps s t ALock (set_pc (set_mutex s (Some t)) t (InMake a))
| s_lock_drop : forall a, at_pc s t = Dropped a -> mutex s = None -> steps s t ALock (set_pc (set_mutex s (Some t)) t (InErase a))
| s_insert : forall a, at_pc s t = InMake a -> steps s t AFind (set_pc (set_known s (a :: known s)) t (Found a true))
| s_found : forall a b k, at_pc s t = InMake a -> lookup s k (known s) = Val (Some b) -> steps s t AFind (set_pc (set_heap s a None) t (Found b false))
| s_return : forall h b n f, at_pc s t = Found b n -> get h (hands s) = None ->
    steps s t (AReturn h) (set_pc (set_hands (set_heap s b (Some f)) (put h b (hands s))) t Leave)
| s_unlock : at_pc s t = Leave -> steps s t AUnlock (set_pc (set_mutex s None) t Idle)
| s_copy : forall h g a f, at_pc s t = Idle -> get h (hands s) = Some a -> get g (hands s) = None ->
    steps s t (ACopy h g) (set_hands (set_heap s a (Some f)) (put g a (hands s)))
| s_drop : forall h a f, at_pc s t = Idle -> get h (hands s) = Some a -> heap s a <> None ->
    steps s t (ADrop h) (set_heap (set_hands s (del h (hands s))) a (Some f))
| s_last : forall h a f, at_pc s t = Idle -> get h (hands s) = Some a -> heap s a <> None ->
    steps s t (ADrop h) (set_pc (set_heap (set_hands s (del h (hands s))) a (Some f)) t (Dropped a))
| s_erase : forall a l, at_pc s t = InErase a -> incl l (known s) -> steps s t AErase (set_pc (set_heap (set_known s l) a None) t Leave)
| s_use : forall h a, at_pc s t = Idle -> get h (hands s) = Some a -> steps s t (AUse h) s.

Lemma delete_steps : forall s a s', delete s a = Val s' -> s' = set_heap s a None.
Proof.
  intros s a s' E. unfold delete in E. destruct (heap s a) as [f|]; [|discriminate E].
  destruct ((4 <=? tf_count f)%Z && (tf_count f <=? 6)%Z); [discriminate E|]. injection E as <-. reflexivity.
Qed.
Lemma count_steps : forall s a d s', count_add s a d = Val s' -> exists f, s' = set_heap s a (Some f).
Proof. intros s a d s' E. unfold count_add in E. destruct (heap s a) as [f|]; [|discriminate E]. injection E as <-. eexists. reflexivity. Qed.

Lemma tstep_steps : forall debug s t x s', tstep debug s t x = Some (Val s') -> steps s t x s'.
Proof.
  intros debug s t x s' E. destruct x; cbn [tstep] in E.
  - destruct (at_pc s t) eqn:P; try discriminate E. destruct (heap s a) eqn:H; [discriminate E|]. injection E as <-. constructor; assumption.
  - destruct (at_pc s t) eqn:P; try discriminate E; destruct (mutex s) eqn:M; try discriminate E; injection E as <-; constructor; assumption.
  - destruct (at_pc s t) as [|a|a|b fr| |a|a] eqn:P; try discriminate E. destruct (heap s a) as [f|] eqn:H; [|discriminate E]. injection E as E.
    destruct (lookup s (tf_cls f) (known s)) as [[b|]| | |] eqn:L; cbn [bind] in E; try discriminate E.
    + destruct (delete s a) as [s1| | |] eqn:D; cbn [bind] in E; try discriminate E. apply delete_steps in D. subst s1. injection E as <-. econstructor; eassumption.
    + injection E as <-. constructor; assumption.
  - destruct (at_pc s t) as [|a|a|b fr| |a|a] eqn:P; try discriminate E. destruct (get h (hands s)) eqn:G; [discriminate E|]. injection E as E.
    destruct (count_add s b 1) as [s1| | |] eqn:D; cbn [bind] in E; try discriminate E. apply count_steps in D. destruct D as (f & ->). injection E as <-.
    econstructor; eassumption.
  - destruct (at_pc s t) eqn:P; try discriminate E. injection E as <-. constructor; assumption.
  - destruct (at_pc s t) eqn:P; try discriminate E. destruct (get h (hands s)) as [a|] eqn:G; [|discriminate E]. destruct (get g (hands s)) eqn:G'; [discriminate E|].
    injection E as E. destruct (count_add s a 1) as [s1| | |] eqn:D; cbn [bind] in E; try discriminate E. apply count_steps in D. destruct D as (f & ->). injection E as <-.
    econstructor; eassumption.
  - destruct (at_pc s t) eqn:P; try discriminate E. destruct (get h (hands s)) as [a|] eqn:G; [|discriminate E]. destruct (heap s a) as [f|] eqn:H; [|discriminate E].
    injection E as E. destruct (count_add _ a (-1)) as [s1| | |] eqn:D; cbn [bind] in E; try discriminate E. apply count_steps in D. destruct D as (f' & ->). injection E as <-.
    assert (N : heap s a <> None) by congruence.
    destruct (tf_count f =? 4)%Z; [apply s_last|apply s_drop]; assumption.
  - destruct (at_pc s t) as [|a|a|b fr| |a|a] eqn:P; try discriminate E. destruct (heap s a) as [f|] eqn:H; [|discriminate E]. injection E as E.
    destruct (lookup s (tf_cls f) (known s)) as [[b|]| | |] eqn:L; cbn [bind] in E; try discriminate E.
    + destruct (delete _ a) as [s1| | |] eqn:D; cbn [bind] in E; try discriminate E. apply delete_steps in D. subst s1. injection E as <-.
      apply s_erase; [exact P|]. intros c Ic. apply in_remove in Ic. apply Ic.
    + destruct debug; [discriminate E|]. destruct (delete s a) as [s1| | |] eqn:D; cbn [bind] in E; try discriminate E. apply delete_steps in D. subst s1. injection E as <-.
      replace (set_heap s a None) with (set_heap (set_known s (known s)) a None) by reflexivity. apply s_erase; [exact P|apply incl_refl].
  - destruct (at_pc s t) eqn:P; try discriminate E. destruct (get h (hands s)) as [a|] eqn:G; [|discriminate E]. destruct (heap s a) as [f|] eqn:H; [|discriminate E].
    injection E as <-. econstructor; eassumption.
Qed.

(** ** What a step can bring about *)
Ltac by_steps H := inversion H; subst; cbn [heap known mutex at_pc hands set_heap set_known set_mutex set_pc set_hands] in *.
Ltac own t u := destruct (Nat.eq_dec u t) as [->|?]; [rewrite ?upd_same in *|rewrite ?upd_other in * by assumption; try congruence].

Lemma handle_gone : forall s t x s' h a, steps s t x s' -> get h (hands s) = Some a -> get h (hands s') <> Some a -> x = ADrop h.
Proof.
  intros s t x s' h a H G N. by_steps H; try contradiction.
  - rewrite get_put in N. destruct (Nat.eqb_spec h0 h) as [->|]; congruence.
  - rewrite get_put in N. destruct (Nat.eqb_spec g h) as [->|]; congruence.
  - rewrite get_del in N. destruct (Nat.eqb_spec h0 h) as [->|]; congruence.
  - rewrite get_del in N. destruct (Nat.eqb_spec h0 h) as [->|]; congruence.
Qed.
Lemma handle_new : forall s t x s' h a, steps s t x s' -> get h (hands s) <> Some a -> get h (hands s') = Some a ->
  (x = AReturn h /\ exists n, at_pc s t = Found a n) \/ exists g, x = ACopy g h /\ get g (hands s) = Some a.
Proof.
  intros s t x s' h a H N G. by_steps H; try contradiction.
  - rewrite get_put in G. destruct (Nat.eqb_spec h0 h) as [->|]; [|congruence]. injection G as ->. left. split; [reflexivity|]. eexists; eassumption.
  - rewrite get_put in G. destruct (Nat.eqb_spec g h) as [->|]; [|congruence]. injection G as ->. right. eexists; split; [reflexivity|assumption].
  - rewrite get_del in G. destruct (Nat.eqb_spec h0 h) as [->|]; congruence.
  - rewrite get_del in G. destruct (Nat.eqb_spec h0 h) as [->|]; congruence.
Qed.
Lemma other_pc : forall s t x s' u, steps s t x s' -> u <> t -> at_pc s' u = at_pc s u.
Proof. intros s t x s' u H N. by_steps H; rewrite ?upd_other by assumption; reflexivity. Qed.
Lemma pc_dropped : forall s t x s' u a, steps s t x s' -> at_pc s u <> Dropped a -> at_pc s' u = Dropped a ->
  u = t /\ exists h, x = ADrop h /\ get h (hands s) = Some a.
Proof.
  intros s t x s' u a H N G. destruct (Nat.eq_dec u t) as [->|D]; [|rewrite (other_pc _ _ _ _ _ H D) in G; contradiction]. split; [reflexivity|].
  by_steps H; rewrite ?upd_same in G; try congruence. injection G as <-. eexists; split; [reflexivity|assumption].
Qed.
Lemma pc_erase : forall s t x s' u a, steps s t x s' -> at_pc s u <> InErase a -> at_pc s' u = InErase a -> u = t /\ at_pc s u = Dropped a.
Proof.
  intros s t x s' u a H N G. destruct (Nat.eq_dec u t) as [->|D]; [|rewrite (other_pc _ _ _ _ _ H D) in G; contradiction]. split; [reflexivity|].
  by_steps H; rewrite ?upd_same in G; try congruence.
Qed.
Lemma pc_made : forall s t x s' u a, steps s t x s' -> at_pc s u <> Made a -> at_pc s' u = Made a -> u = t /\ heap s a = None.
Proof.
  intros s t x s' u a H N G. destruct (Nat.eq_dec u t) as [->|D]; [|rewrite (other_pc _ _ _ _ _ H D) in G; contradiction]. split; [reflexivity|].
  by_steps H; rewrite ?upd_same in G; try congruence.
Qed.
Lemma pc_make : forall s t x s' u a, steps s t x s' -> at_pc s u <> InMake a -> at_pc s' u = InMake a -> u = t /\ x = ALock /\ at_pc s u = Made a.
Proof.
  intros s t x s' u a H N G. destruct (Nat.eq_dec u t) as [->|D]; [|rewrite (other_pc _ _ _ _ _ H D) in G; contradiction]. split; [reflexivity|].
  by_steps H; rewrite ?upd_same in G; try congruence. injection G as <-. split; [reflexivity|assumption].
Qed.
Lemma pc_found : forall s t x s' u b n, steps s t x s' -> at_pc s u <> Found b n -> at_pc s' u = Found b n ->
  u = t /\ x = AFind /\ if n then at_pc s u = InMake b else exists k, lookup s k (known s) = Val (Some b).
Proof.
  intros s t x s' u b n H N G. destruct (Nat.eq_dec u t) as [->|D]; [|rewrite (other_pc _ _ _ _ _ H D) in G; contradiction]. split; [reflexivity|].
  by_steps H; rewrite ?upd_same in G; try congruence; injection G as <- <-; (split; [reflexivity|]).
  - assumption.
  - eexists; eassumption.
Qed.
Lemma known_new : forall s t x s' a, steps s t x s' -> ~ In a (known s) -> In a (known s') -> x = AFind /\ at_pc s t = InMake a.
Proof.
  intros s t x s' a H N G. by_steps H; try contradiction.
  - destruct G as [->|G]; [|contradiction]. split; [reflexivity|assumption].
  - exfalso. apply N. match goal with I : incl _ _ |- _ => apply I, G end.
Qed.
Lemma field_gone : forall s t x s' a, steps s t x s' -> heap s a <> None -> heap s' a = None ->
  at_pc s t = InErase a \/ at_pc s t = InMake a.
Proof.
  intros s t x s' a H N G. by_steps H; try contradiction; unfold upd in G;
  repeat match type of G with context [Nat.eqb ?p ?q] => destruct (Nat.eqb_spec p q) as [E|]; [|contradiction] end; subst; try discriminate G; [right|left]; assumption.
Qed.
Lemma field_new : forall s t x s' a, tinv s -> steps s t x s' -> heap s a = None -> heap s' a <> None -> exists k, x = ANew k a.
Proof.
  intros s t x s' a I H N G. by_steps H; try contradiction; unfold upd in G;
  repeat match type of G with context [Nat.eqb ?p ?q] => destruct (Nat.eqb_spec p q) as [E|]; [|contradiction] end; subst; try (exfalso; apply G; reflexivity); try contradiction.
  - eexists; reflexivity.
  - exfalso. destruct n.
    + destruct (v_mind _ I t b) as [K _]; [right; right; assumption|]. apply (v_live _ I b K N).
    + apply (v_live _ I b); [|exact N]. apply (v_found _ I t). assumption.
  - exfalso. assert (Hd : held s a0) by (exists h; assumption). apply (held_refs _ _ (v_keys _ I)) in Hd. pose proof (v_dead _ I a0 N). lia.
Qed.
Lemma lock_taken : forall s t x s' u, steps s t x s' -> mutex s <> Some u -> mutex s' = Some u -> u = t /\ x = ALock.
Proof. intros s t x s' u H N G. by_steps H; try congruence; injection G as <-; split; reflexivity. Qed.
(** The lock is held by the thread that is inside; in all executions. *)
Definition one_inside (s : tstate) : Prop := forall t, mutex s = Some t <-> locked (at_pc s t).
Lemma inside_step : forall s t x s', one_inside s -> steps s t x s' -> one_inside s'.
Proof.
  intros s t x s' I H u. assert (It := I t). assert (Iu := I u). by_steps H; try exact Iu.
  all: destruct (Nat.eq_dec u t) as [->|D]; [rewrite upd_same|rewrite upd_other by exact D].
  all: try (match goal with P : at_pc _ _ = _ |- _ => rewrite P in It end); cbn [locked] in *; try tauto.
  - split; [congruence|]. intros L. apply Iu in L. congruence.
  - split; [congruence|]. intros L. apply Iu in L. congruence.
  - split; [discriminate|tauto].
  - split; [discriminate|]. intros L. apply Iu in L. assert (mutex s = Some t) by tauto. congruence.
Qed.
Lemma lock_left : forall s t x s' u, one_inside s -> steps s t x s' -> mutex s = Some u -> mutex s' <> Some u -> u = t /\ x = AUnlock.
Proof.
  intros s t x s' u I H G N. by_steps H; try congruence. split; [|reflexivity].
  match goal with P : at_pc s t = Leave |- _ => assert (L : locked (at_pc s t)) by (rewrite P; exact Logic.I) end. apply I in L. congruence.
Qed.

Section Run.
Variable debug : bool.
Variables add sub : order.
Variable r : run.
Hypothesis X : execution debug r.
Notation before := (before add sub r).

(** One step of the execution. *)
Lemma run_step : forall i, (exists x, does r i = Do x /\ steps (st r i) (thr r i) x (st r (S i))) \/ st r (S i) = st r i.
Proof.
  intros i. pose proof (proj1 (proj2 X) i) as E. unfold estep in E. destruct (does r i) as [x|c|c|].
  - left. exists x. split; [reflexivity|]. apply (tstep_steps debug), E.
  - right. injection E as E. symmetry. exact E.
  - right. injection E as E. symmetry. exact E.
  - right. injection E as E. symmetry. exact E.
Qed.

Lemma po : forall i j, i < j -> thr r i = thr r j -> before i j.
Proof. intros. apply t_step, by_program; assumption. Qed.
Lemma po_le : forall i j, i <= j -> thr r i = thr r j -> i = j \/ before i j.
Proof. intros i j L E. destruct (Nat.eq_dec i j); [left; assumption|right; apply po; [lia|exact E]]. Qed.

Lemma trans : forall i j k, before i j -> before j k -> before i k.
Proof. intros i j k H K. exact (t_trans _ _ _ _ _ H K). Qed.
Lemma eq_trans_r : forall i j k, i = j \/ before i j -> before j k -> before i k.
Proof. intros i j k [->|H] K; [exact K|exact (trans _ _ _ H K)]. Qed.

Lemma run_inside : forall i, one_inside (st r i).
Proof.
  induction i as [|i IH].
  - rewrite (proj1 X). intros t. split; [discriminate|intros []].
  - destruct (run_step i) as [(x & _ & H)|E]; [exact (inside_step _ _ _ _ IH H)|rewrite E; exact IH].
Qed.

(** ** The lock *)
Lemma handed_over : forall m n t u, m <= n -> mutex (st r m) = Some t -> mutex (st r n) = Some u -> t <> u ->
  exists q p, m <= q /\ q < p /\ p < n /\ thr r q = t /\ thr r p = u /\ does r q = Do AUnlock /\ does r p = Do ALock.
Proof.
  intros m n t u L Mm Mn N.
  destruct (came_about (st r) (fun s => mutex s = Some u) m n L) as (p & Lp & Np & Ap); [congruence|exact Mn|].
  destruct (run_step p) as [(x & Ex & Hp)|E]; [|exfalso; apply Np; rewrite <- E; apply Ap; lia].
  destruct (lock_taken _ _ _ _ u Hp Np) as (-> & ->); [apply Ap; lia|].
  assert (Fp : mutex (st r p) = None) by (inversion Hp; assumption).
  destruct (went_away (st r) (fun s => mutex s = Some t) m p) as (q & Lq & Aq & Nq); [lia|exact Mm|congruence|].
  destruct (run_step q) as [(y & Ey & Hq)|E]; [|rewrite E in Nq; exfalso; apply Nq, Aq; lia].
  destruct (lock_left _ _ _ _ t (run_inside q) Hq) as (-> & ->); [apply Aq; lia|exact Nq|].
  exists q, p. repeat (split; [first [lia|reflexivity|assumption]|]). assumption.
Qed.
Lemma has_lock : forall m, registry_access (does r m) -> mutex (st r m) = Some (thr r m).
Proof.
  intros m A. apply (run_inside m). destruct (run_step m) as [(x & Ex & H)|E].
  - destruct A as [A|A]; rewrite A in Ex; injection Ex as <-; inversion H;
      match goal with P : at_pc _ _ = _ |- _ => rewrite P; exact Logic.I end.
  - pose proof (proj1 (proj2 X) m) as S. destruct A as [A|A]; rewrite A in S; cbn [estep] in S; apply tstep_steps in S; inversion S;
      match goal with P : at_pc _ _ = _ |- _ => rewrite P; exact Logic.I end.
Qed.
Lemma registry_before : forall m n, m < n -> registry_access (does r m) -> registry_access (does r n) -> before m n.
Proof.
  intros m n L Am An. destruct (Nat.eq_dec (thr r m) (thr r n)) as [E|N]; [apply po; assumption|].
  destruct (handed_over m n (thr r m) (thr r n)) as (q & p & L1 & L2 & L3 & Tq & Tp & Dq & Dp); [lia|apply has_lock, Am|apply has_lock, An|exact N|].
  apply (eq_trans_r m q n).
  - apply po_le; [exact L1|symmetry; exact Tq].
  - apply (trans q p n); [apply t_step, by_mutex; assumption|apply po; [exact L3|exact Tp]].
Qed.

(** ** Executions that revive nothing *)
Hypothesis C : revives_nothing r.
Lemma run_inv : forall i, tinv (st r i).
Proof.
  destruct X as (X0 & X1 & _). induction i as [|i IH]; [rewrite X0; exact start_inv|].
  specialize (X1 i). unfold estep in X1. destruct (does r i) as [x|c|c|] eqn:E.
  - pose proof (tstep_fine debug (st r i) (thr r i) x IH (C i x E)) as F. rewrite X1 in F. exact F.
  - injection X1 as <-. exact IH.
  - injection X1 as <-. exact IH.
  - injection X1 as <-. exact IH.
Qed.
Lemma held_known : forall n h a, get h (hands (st r n)) = Some a -> In a (known (st r n)) /\ (0 < nrefs (st r n) a)%Z.
Proof.
  intros n h a G. pose proof (run_inv n) as I. assert (H : held (st r n) a) by (exists h; exact G).
  apply (held_refs _ _ (v_keys _ I)) in H. split; [exact (v_ref _ I a H)|exact H].
Qed.

(** ** Destruction *)
Lemma last_drop : forall i j a, no_race_on_handles add sub r -> uses r i a -> destroys r j a -> i < j -> lives r i j a ->
  exists k l, (i = k \/ before i k) /\ i <= k /\ k <= l /\ l < j /\ drops r k a /\ drops r l a /\ before l j.
Proof.
  intros i j a R (h & G & U) (D1 & D2) Lij A. unfold exists_at in D1, D2.
  assert (D3 : heap (st r (S j)) a = None) by (destruct (heap (st r (S j)) a); [exfalso; apply D2; discriminate|reflexivity]).
  destruct (run_step j) as [(x & Ex & H)|E]; [|rewrite E in D3; contradiction].
  pose proof (held_known i h a G) as [Ki Ri].
  destruct (field_gone _ _ _ _ a H D1 D3) as [P|P].
  - destruct (came_about (st r) (fun s => at_pc s (thr r j) = Dropped a \/ at_pc s (thr r j) = InErase a) i j) as (l & Ll & Nl & Al); [lia| |right; exact P|].
    { intros Q. destruct (v_mind _ (run_inv i) (thr r j) a) as [_ Z]; [destruct Q as [Q|Q]; [left|right; left]; exact Q|]. lia. }
    destruct (run_step l) as [(y & Ey & Hl)|E]; [|exfalso; apply Nl; rewrite <- E; apply Al; lia].
    assert (Dl : thr r l = thr r j /\ drops r l a).
    { destruct (Al (S l)) as [Q|Q]; [lia| |].
      - destruct (pc_dropped _ _ _ _ _ _ Hl (fun Z => Nl (or_introl Z)) Q) as (E & h' & -> & G'). split; [symmetry; exact E|]. exists h'. split; assumption.
      - destruct (pc_erase _ _ _ _ _ _ Hl (fun Z => Nl (or_intror Z)) Q) as (E & Z). exfalso. apply Nl. left. exact Z. }
    destruct Dl as [Tl Dl].
    assert (Mind : forall m, l < m <= j -> nrefs (st r m) a = 0%Z).
    { intros m M. destruct (v_mind _ (run_inv m) (thr r j) a) as [_ Z]; [|exact Z]. destruct (Al m M) as [Q|Q]; [left|right; left]; exact Q. }
    destruct (went_away (st r) (fun s => get h (hands s) = Some a) i j) as (k & Lk & Ak & Nk); [lia|exact G| |].
    { intros Q. destruct (held_known j h a Q) as [_ Z]. rewrite (Mind j) in Z by lia. lia. }
    assert (Gk : get h (hands (st r k)) = Some a) by (apply Ak; lia).
    destruct (run_step k) as [(y' & Ey' & Hk)|E]; [|rewrite E in Nk; contradiction].
    pose proof (handle_gone _ _ _ _ _ _ Hk Gk Nk) as ->.
    exists k, l. split; [|split; [lia|split; [|split; [lia|split; [exists h; split; assumption|split; [exact Dl|apply po; [lia|exact Tl]]]]]]].
    + destruct (Nat.eq_dec i k) as [->|]; [left; reflexivity|right]. apply (R i k h); [lia|].
      destruct U as [U|U]; [right|left; rewrite U; split; [right; right; reflexivity|right; right; right; exact Ey']].
      split; [exact U|right; right; exact Ey'].
    + destruct (Nat.le_gt_cases k l) as [Z|Z]; [exact Z|exfalso]. destruct (held_known k h a Gk) as [_ W]. rewrite (Mind k) in W by lia. lia.
  - exfalso. destruct (came_about (st r) (fun s => keeps (at_pc s (thr r j)) a) i j) as (l & Ll & Nl & Al); [lia| |right; exact P|].
    { intros Q. destruct (v_keep _ (run_inv i) _ _ Q) as [_ Z]. contradiction. }
    destruct (run_step l) as [(y & Ey & Hl)|E]; [|apply Nl; rewrite <- E; apply Al; lia].
    destruct (Al (S l)) as [Q|Q]; [lia| |].
    + destruct (pc_made _ _ _ _ _ _ Hl (fun Z => Nl (or_introl Z)) Q) as (_ & Z). apply (A l); [lia|exact Z].
    + destruct (pc_make _ _ _ _ _ _ Hl (fun Z => Nl (or_intror Z)) Q) as (_ & _ & Z). apply Nl. left. exact Z.
Qed.

(** ** Construction *)
Section Made.
Variables (i a : nat).
Hypothesis Ci : constructs r i a.

Lemma made_free : heap (st r i) a = None.
Proof. destruct Ci as [N _]. unfold exists_at in N. destruct (heap (st r i) a); [exfalso; apply N; discriminate|reflexivity]. Qed.
Lemma made_by : exists k, does r i = Do (ANew k a).
Proof.
  destruct Ci as [N Y]. destruct (run_step i) as [(x & Ex & H)|E]; [|rewrite E in Y; contradiction].
  destruct (field_new _ _ _ _ a (run_inv i) H made_free Y) as (k & ->). exists k. exact Ex.
Qed.
Lemma made_unknown : ~ In a (known (st r i)).
Proof. intros K. exact (v_live _ (run_inv i) a K made_free). Qed.
Lemma made_here : forall j u, i < j -> lives r (S i) j a -> keeps (at_pc (st r j) u) a -> u = thr r i.
Proof.
  intros j u L A K. destruct (came_about (st r) (fun s => keeps (at_pc s u) a) i j) as (k & Lk & Nk & Ak); [lia| |exact K|].
  { intros Q. destruct (v_keep _ (run_inv i) _ _ Q) as [Z _]. exact (Z made_free). }
  destruct (run_step k) as [(x & Ex & H)|E]; [|exfalso; apply Nk; rewrite <- E; apply Ak; lia].
  destruct (Ak (S k)) as [Q|Q]; [lia| |].
  - destruct (pc_made _ _ _ _ _ _ H (fun Z => Nk (or_introl Z)) Q) as (-> & Z).
    destruct (Nat.eq_dec k i) as [->|N]; [reflexivity|exfalso]. apply (A k); [lia|exact Z].
  - exfalso. destruct (pc_make _ _ _ _ _ _ H (fun Z => Nk (or_intror Z)) Q) as (_ & _ & Z). apply Nk. left. exact Z.
Qed.
Lemma inserted : forall j, i < j -> lives r (S i) j a -> In a (known (st r j)) ->
  exists m, i < m < j /\ thr r m = thr r i /\ does r m = Do AFind.
Proof.
  intros j L A K. destruct (came_about (st r) (fun s => In a (known s)) i j) as (m & Lm & Nm & Am); [lia|exact made_unknown|exact K|].
  destruct (run_step m) as [(x & Ex & H)|E]; [|exfalso; apply Nm; rewrite <- E; apply Am; lia].
  destruct (known_new _ _ _ _ a H Nm) as (-> & P); [apply Am; lia|].
  assert (i <> m). { intros <-. destruct made_by as (k & Q). congruence. }
  exists m. split; [lia|]. split; [|exact Ex]. apply (made_here m); [lia| |right; exact P]. intros q Q. apply A. lia.
Qed.

Hypothesis R : no_race_on_handles add sub r.
Lemma origin : forall j h, i < j -> lives r (S i) j a -> get h (hands (st r j)) = Some a ->
  exists k, i < k < j /\ writes (does r k) h /\ before i k.
Proof.
  intros j. induction j as [j IH] using lt_wf_ind. intros h L A G.
  destruct (came_about (st r) (fun s => get h (hands s) = Some a) i j) as (k & Lk & Nk & Ak); [lia| |exact G|].
  { intros Q. destruct (held_known i h a Q) as [K _]. exact (made_unknown K). }
  destruct (run_step k) as [(x & Ex & H)|E]; [|exfalso; apply Nk; rewrite <- E; apply Ak; lia].
  assert (Nik : i <> k).
  { intros <-. destruct made_by as (q & Q). rewrite Q in Ex. injection Ex as <-.
    destruct (handle_new _ _ _ _ h a H Nk) as [(Z & _)|(g & Z & _)]; [apply Ak; lia|discriminate Z|discriminate Z]. }
  destruct (handle_new _ _ _ _ h a H Nk) as [(-> & n & P)|(g & -> & Gg)]; [apply Ak; lia| |].
  - exists k. split; [lia|]. split; [left; exact Ex|].
    destruct (came_about (st r) (fun s => at_pc s (thr r k) = Found a n) i k) as (m & Lm & Nm & Am); [lia| |exact P|].
    { intros Q. apply made_unknown. destruct n; [|exact (v_found _ (run_inv i) _ _ Q)].
      destruct (v_mind _ (run_inv i) (thr r k) a) as [Z _]; [right; right; exact Q|exact Z]. }
    destruct (run_step m) as [(y & Ey & Hm)|E]; [|exfalso; apply Nm; rewrite <- E; apply Am; lia].
    destruct (pc_found _ _ _ _ _ _ _ Hm Nm) as (Tm & -> & F); [apply Am; lia|].
    assert (i <> m). { intros <-. destruct made_by as (q & Q). congruence. }
    assert (Am' : lives r (S i) m a) by (intros q Q; apply A; lia).
    destruct n.
    + apply po; [lia|]. symmetry. apply (made_here m); [lia|exact Am'|]. right. exact F.
    + destruct F as (c & Lc). pose proof (lookup_ok (st r m) c (known (st r m)) (v_live _ (run_inv m))) as O. rewrite Lc in O. destruct O as [O _].
      destruct (inserted m) as (m0 & L0 & T0 & D0); [lia|exact Am'|exact O|].
      apply (trans i m0 k); [apply po; [lia|symmetry; exact T0]|]. apply (trans m0 m k); [|apply po; [lia|symmetry; exact Tm]].
      apply registry_before; [lia|left; exact D0|left; exact Ey].
  - destruct (IH k) with (h := g) as (k' & L' & W' & B'); [lia|lia|intros q Q; apply A; lia|exact Gg|].
    exists k. split; [lia|]. split; [right; left; exists g; exact Ex|]. apply (trans i k' k B').
    apply (R k' k g); [lia|]. left. split; [exact W'|]. left. right. exists h. exact Ex.
Qed.
Lemma made_before : forall j, uses r j a -> i < j -> lives r (S i) j a -> before i j.
Proof.
  intros j (h & G & U) L A. destruct (origin j h L A G) as (k & Lk & W & B). apply (trans i k j B).
  apply (R k j h); [lia|]. left. split; [exact W|]. destruct U as [U|U]; [left; exact U|right; right; right; exact U].
Qed.
End Made.
End Run.

Lemma destroyed_after : forall debug add r i j a, execution debug r -> revives_nothing r -> no_race_on_handles add AcqRel r ->
  uses r i a -> destroys r j a -> i < j -> lives r i j a -> before add AcqRel r i j.
Proof.
  intros debug add r i j a X C R U D L A. destruct (last_drop debug add AcqRel r X C i j a R U D L A) as (k & l & B & L1 & L2 & L3 & Dk & Dl & E).
  apply (eq_trans_r add AcqRel r i k j B). destruct (Nat.eq_dec k l) as [->|N]; [exact E|]. apply (trans add AcqRel r k l j); [|exact E].
  destruct Dk as (h & Ek & Gk), Dl as (g & El & Gl). apply t_step. apply (by_counter _ _ _ _ _ a AcqRel AcqRel); try reflexivity; [lia| | |].
  - rewrite Ek. cbn [counter]. rewrite Gk. reflexivity.
  - rewrite El. cbn [counter]. rewrite Gl. reflexivity.
  - intros m M. apply A. lia.
Qed.
Lemma destroyed_ordered : forall debug add sub r i j a, execution debug r -> revives_nothing r -> no_race_on_handles add sub r ->
  (forall k l, k < l < j -> drops r k a -> drops r l a -> lives r k l a -> before add sub r k l) ->
  uses r i a -> destroys r j a -> i < j -> lives r i j a -> before add sub r i j.
Proof.
  intros debug add sub r i j a X C R O U D L A. destruct (last_drop debug add sub r X C i j a R U D L A) as (k & l & B & L1 & L2 & L3 & Dk & Dl & E).
  apply (eq_trans_r add sub r i k j B). destruct (Nat.eq_dec k l) as [->|N]; [exact E|]. apply (trans add sub r k l j); [|exact E].
  apply O; [lia|exact Dk|exact Dl|]. intros m M. apply A. lia.
Qed.
