(** Proofs about MemberModel.v. *)
Require Import List ZArith Bool Arith Lia.
From Verif Require Import RootModel Dyadic ArbModel MemberModel MemberSpec.
Import ListNotations.
Open Scope nat_scope.

Definition agrees (a : alive) (h : heap) : Prop :=
  h_lost h = 0 /\
  (forall f, h_at h (FNf f) = option_map CNf (fields a f)) /\
  (forall f, h_at h (FDer f) = option_map (fun _ => CPoly) (fields a f)) /\
  (forall f, h_at h (FEmb f) = option_map (fun _ => CArb) (fields a f)) /\
  (forall e, h_at h (EElem e) = option_map (fun l => CElem (rep_of l)) (elems a e)) /\
  (forall e, h_at h (EEmb e) = option_map (fun _ => CArb) (elems a e)).

Lemma rep_eqb_refl : forall r, rep_eqb r r = true.
Proof. destruct r; reflexivity. Qed.

Lemma use_field_ok : forall a h f l, agrees a h -> fields a f = Some l -> use_field f h = Val h.
Proof.
  intros a h f l (_ & A & B & C & _) H. unfold use_field, use. rewrite A, H. cbn. rewrite B, H. cbn. rewrite C, H. reflexivity.
Qed.

Ltac seen := repeat match goal with |- context [Nat.eqb ?x ?y] => destruct (Nat.eqb_spec x y); subst; cbn end.
Ltac cells A B C D E := cbn; unfold put_at; cbn; seen; rewrite ?A, ?B, ?C, ?D, ?E; try reflexivity; try congruence.

Lemma step_ok : forall a c b h, allowed a c b -> agrees a h -> exists h', mstep c h = Val h' /\ agrees b h'.
Proof.
  intros a c b h S G. pose proof G as (L & A & B & C & D & E). destruct S.
  - cbn [mstep]. unfold field_init. cbn [negb]. cbv zeta.
    set (h' := alloc (FDer f) CPoly (alloc (FNf f) (CNf l) (alloc (FEmb f) CArb h))).
    assert (G' : agrees (with_field f (Some l) a) h').
    { subst h'. repeat split; try (intros x; cells A B C D E; fail).
      cbn. unfold put_at. cbn. rewrite A, B, C, H, L. reflexivity. }
    exists h'. split; [|exact G'].
    assert (U : use_field f h' = Val h') by (apply (use_field_ok _ _ _ l G'); cbn; rewrite Nat.eqb_refl; reflexivity).
    destruct (rep_of l); [reflexivity|exact U|exact U].
  - assert (N : f <> g) by congruence. assert (N' : (f =? g) = false) by (apply Nat.eqb_neq; exact N).
    cbn [mstep]. unfold field_init_set, use, len_of, alloc, put_at. repeat (cbn; rewrite ?N', ?A, ?B, ?C, ?H0).
    eexists. split; [reflexivity|]. repeat split; try (intros x; cells A B C D E; fail).
    cbn. rewrite ?A, ?B, ?C, ?H, ?L. reflexivity.
  - cbn [mstep]. unfold field_clear, release. rewrite A, H. cbn. rewrite B, H. cbn. unfold put_at. cbn. rewrite C, H. cbn.
    eexists. split; [reflexivity|]. repeat split; [exact L| | | | |]; intros x; cells A B C D E.
  - exists h. split; [exact (use_field_ok a h f l G H)|]. exact G.
  - cbn [mstep]. unfold elem_init, len_of. rewrite A, H0. cbn. eexists. split; [reflexivity|].
    repeat split; try (intros x; cells A B C D E; fail). cbn. unfold put_at. cbn. rewrite D, E, H, L. reflexivity.
  - cbn [mstep]. unfold elem_clear, len_of, release. rewrite A, H0. cbn. rewrite D, H. cbn. rewrite rep_eqb_refl. cbn. unfold put_at. cbn. rewrite E, H. cbn.
    eexists. split; [reflexivity|]. repeat split; [exact L| | | | |]; intros x; cells A B C D E.
  - exists h. split; [|exact G]. cbn [mstep]. unfold elem_use. rewrite (use_field_ok a h f l G H0). cbn [bind]. unfold len_of, use.
    rewrite A, H0. cbn. rewrite D, H. cbn. rewrite rep_eqb_refl. cbn. rewrite E, H. reflexivity.
Qed.

Lemma run_ok : forall l a b h, allows a l b -> agrees a h -> exists h', mrun l h = Val h' /\ agrees b h'.
Proof.
  induction l as [|c l IH]; intros a b h S G; inversion S; subst; [exists h; split; [reflexivity|exact G]|].
  destruct (step_ok _ _ _ _ H2 G) as (h1 & E1 & G1). destruct (IH _ _ _ H4 G1) as (h2 & E2 & G2).
  exists h2. split; [cbn; rewrite E1; exact E2|exact G2].
Qed.

Lemma start_agrees : agrees none mempty.
Proof. repeat split. Qed.

Lemma members_defined : forall l b, allows none l b -> exists h, mrun l mempty = Val h /\ h_lost h = 0.
Proof. intros l b S. destruct (run_ok l none b mempty S start_agrees) as (h & E & G). exists h. split; [exact E|apply G]. Qed.

Lemma members_released : forall l b h, allows none l b -> nobody b -> mrun l mempty = Val h -> h_lost h = 0 /\ forall s, h_at h s = None.
Proof.
  intros l b h S (Nf & Ne) E. destruct (run_ok l none b mempty S start_agrees) as (h' & E' & L & A & B & C & D & F).
  rewrite E in E'. injection E' as <-. split; [exact L|]. intros [f|f|f|e|e]; rewrite ?A, ?B, ?C, ?D, ?F, ?Nf, ?Ne; reflexivity.
Qed.

Lemma members_kept : forall l b h, allows none l b -> mrun l mempty = Val h ->
  (forall f, fields b f <> None <-> h_at h (FNf f) <> None /\ h_at h (FDer f) <> None /\ h_at h (FEmb f) <> None) /\
  (forall e, elems b e <> None <-> h_at h (EElem e) <> None /\ h_at h (EEmb e) <> None).
Proof.
  intros l b h S E. destruct (run_ok l none b mempty S start_agrees) as (h' & E' & L & A & B & C & D & F).
  rewrite E in E'. injection E' as <-. split.
  - intros f. rewrite A, B, C. destruct (fields b f); cbn; intuition discriminate.
  - intros e. rewrite D, F. destruct (elems b e); cbn; intuition discriminate.
Qed.

(** What is not allowed. *)
Lemma clear_again : forall l b h f, allows none l b -> mrun l mempty = Val h -> fields b f = None ->
  mstep (MClear f) h = Undef /\ mstep (MRefine f) h = Undef /\ (forall g, mstep (MCopy g f) h = Undef \/ g = f) /\
  (forall e, mstep (MElem e f) h = Undef /\ mstep (MElemClear e f) h = Undef /\ mstep (MElemUse e f) h = Undef).
Proof.
  intros l b h f S E N. destruct (run_ok l none b mempty S start_agrees) as (h' & E' & L & A & B & C & D & F).
  rewrite E in E'. injection E' as <-. cbn [mstep].
  assert (U : use_field f h = Undef) by (unfold use_field, use; rewrite A, N; reflexivity).
  split; [unfold field_clear, release; rewrite A, N; reflexivity|]. split; [exact U|]. split.
  - intros g. destruct (Nat.eq_dec g f) as [G|G]; [right; exact G|left]. apply Nat.eqb_neq in G.
    unfold field_init_set, use, alloc, put_at. cbn. rewrite G, C, N. reflexivity.
  - intros e. unfold elem_init, elem_clear, elem_use, len_of. rewrite U, A, N. repeat split.
Qed.

Lemma elem_again : forall l b h e f, allows none l b -> mrun l mempty = Val h -> elems b e = None ->
  mstep (MElemClear e f) h = Undef /\ mstep (MElemUse e f) h = Undef.
Proof.
  intros l b h e f S E N. destruct (run_ok l none b mempty S start_agrees) as (h' & E' & L & A & B & C & D & F).
  rewrite E in E'. injection E' as <-. cbn [mstep]. unfold elem_clear, elem_use, use_field, len_of, use, release.
  destruct (fields b f) as [m|] eqn:Hf; repeat (cbn; rewrite ?A, ?B, ?C, ?D, ?Hf, ?N); cbn; split; reflexivity.
Qed.

Lemma other_representation : forall l b h e f k m, allows none l b -> mrun l mempty = Val h -> elems b e = Some k -> fields b f = Some m ->
  (rep_of k <> rep_of m <-> mstep (MElemClear e f) h = Undef) /\ (rep_of k <> rep_of m <-> mstep (MElemUse e f) h = Undef).
Proof.
  intros l b h e f k m S E He Hf. destruct (run_ok l none b mempty S start_agrees) as (h' & E' & L & A & B & C & D & F).
  rewrite E in E'. injection E' as <-. cbn [mstep]. unfold elem_clear, elem_use, use_field, len_of, use, release.
  repeat (cbn; rewrite ?A, ?B, ?C, ?D, ?He, ?Hf). cbn.
  destruct (rep_of k), (rep_of m); repeat (cbn; rewrite ?A, ?B, ?C, ?D, ?F, ?He, ?Hf); cbn; unfold put_at; repeat (cbn; rewrite ?F, ?He); cbn;
    split; split; intros; congruence.
Qed.

Lemma init_again : forall l b h f k m, allows none l b -> mrun l mempty = Val h -> fields b f = Some k ->
  exists h', mstep (MInit f m true) h = Val h' /\ h_lost h' = 3.
Proof.
  intros l b h f k m S E Hf. destruct (run_ok l none b mempty S start_agrees) as (h' & E' & L & A & B & C & D & F).
  rewrite E in E'. injection E' as <-. cbn [mstep]. unfold field_init. cbn [negb]. cbv zeta.
  set (g := alloc (FDer f) CPoly (alloc (FNf f) (CNf m) (alloc (FEmb f) CArb h))).
  exists g. split.
  - assert (U : use_field f g = Val g).
    { unfold use_field, use, g, alloc, put_at. repeat (cbn; rewrite ?Nat.eqb_refl). reflexivity. }
    destruct (rep_of m); [reflexivity|exact U|exact U].
  - unfold g, alloc, put_at. cbn. rewrite A, B, C, Hf, L. reflexivity.
Qed.

Lemma kind_rep : forall k m, same_kind k m <-> rep_of k = rep_of m.
Proof.
  intros k m. unfold same_kind, rep_of. destruct (Nat.leb_spec k 2), (Nat.leb_spec m 2), (Nat.eqb_spec k 3), (Nat.eqb_spec m 3);
    split; intros; try discriminate; try reflexivity; lia.
Qed.

Lemma other_kind : forall l b h e f k m, allows none l b -> mrun l mempty = Val h -> elems b e = Some k -> fields b f = Some m ->
  (~ same_kind k m <-> mstep (MElemClear e f) h = Undef) /\ (~ same_kind k m <-> mstep (MElemUse e f) h = Undef).
Proof. intros l b h e f k m S E He Hf. rewrite kind_rep. exact (other_representation l b h e f k m S E He Hf). Qed.
