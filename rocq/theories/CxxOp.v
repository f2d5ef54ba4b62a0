(** The derived operators (C69). *)
Require Import Reals List ZArith Bool Lia Lra Arith.
From Verif Require Import PolyR RootSpec Dyadic ArbModel ArbSpec ElemModel ElemSpec ElemProofs ElemHist CxxModel CxxSpec CxxProofs CxxSound CxxMake CxxOpModel CxxOpSpec.
Import ListNotations.
Open Scope R_scope.

Section Op.
Variable o : arbops.
Variable ops : list Z -> nfops.
Variable debug : bool.
Variable fuel : nat.
Variable pol : nat -> list Z.
Variable x : nat -> R.
Hypothesis Hm : forall f, minimal (pol f) (x f).
Hypothesis Hn : forall f, nf_ok (pol f) (x f) (ops (pol f)).
Notation exact := (exact_world pol).

Lemma copy_exact : forall w k i, exact w -> exact (copy_obj w k i).
Proof. intros w k i E. apply set_obj_exact; [exact E|]. apply (ew_objs _ _ E i). Qed.
Lemma copy_self : forall w k i, value x (copy_obj w k i) k = value x w i /\ fld (copy_obj w k i) k = fld w i.
Proof. intros w k i. unfold copy_obj, value, num_of, val, fld. rewrite !obj_get. split; reflexivity. Qed.
Lemma copy_rest : forall w k i j, j <> k -> value x (copy_obj w k i) j = value x w j /\ fld (copy_obj w k i) j = fld w j.
Proof. intros w k i j N. unfold copy_obj. destruct (other_after x w k (w_objs w i) j N) as [A B]. split; assumption. Qed.
Lemma gave_copy : forall w k i w' v, gave x (copy_obj w k i) w' k v -> gave x w w' k v.
Proof. intros w k i w' v [A B]. split; [exact A|]. intros j N. rewrite (B j N). apply obj_other. exact N. Qed.

Lemma op_objs_ok : forall swapped p w k i j, exact w -> k <> i -> k <> j ->
  fld w i = fld w j \/ rational (value x w i) \/ rational (value x w j) -> (p = Div -> value x w j <> 0) ->
  exists w', op_objs o ops debug fuel false swapped p w k i j = Val (Ret w') /\ exact w' /\
    gave x w w' k (real_op p (value x w i) (value x w j)) /\ (fld w' k = fld w i \/ fld w' k = fld w j).
Proof.
  intros sw p w k i j E Ni Nj F D.
  assert (G : forall a b, k <> b -> fld w a = fld w b \/ rational (value x w a) \/ rational (value x w b) -> (p = Div -> value x w b <> 0) ->
    exists w', binop o ops debug fuel false p (copy_obj w k a) k b = Val (Ret w') /\ exact w' /\
    gave x w w' k (real_op p (value x w a) (value x w b)) /\ (fld w' k = fld w a \/ fld w' k = fld w b)).
  { intros a b Nb Fab Dab. destruct (copy_self w k a) as [V1 F1]. destruct (copy_rest w k a b ltac:(congruence)) as [V2 F2].
    destruct (binop_ok o ops debug fuel pol x Hm Hn (copy_obj w k a) k b p (copy_exact w k a E)) as (w' & H & E' & G & F').
    - rewrite V1, F1, V2, F2. exact Fab.
    - rewrite V2. exact Dab.
    - exists w'. rewrite V1, V2 in G. rewrite F1, F2 in F'. split; [exact H|]. split; [exact E'|]. split; [exact (gave_copy _ _ _ _ _ G)|exact F']. }
  assert (F' : fld w j = fld w i \/ rational (value x w j) \/ rational (value x w i)) by (destruct F as [A|[A|A]]; auto).
  unfold op_objs. destruct p, sw; try (apply G; assumption).
  - destruct (G j i Ni F' ltac:(discriminate)) as (w' & H & E' & Gv & Fw). exists w'. split; [exact H|]. split; [exact E'|]. split; [|tauto].
    cbn [real_op] in *. rewrite Rplus_comm. exact Gv.
  - destruct (G j i Ni F' ltac:(discriminate)) as (w' & H & E' & Gv & Fw). exists w'. split; [exact H|]. split; [exact E'|]. split; [|tauto].
    cbn [real_op] in *. rewrite Rmult_comm. exact Gv.
Qed.

Lemma op_objs_throws : forall strict swapped p w k i j, exact w -> k <> i -> k <> j ->
  fld w i <> fld w j -> ~ rational (value x w i) -> ~ rational (value x w j) ->
  op_objs o ops debug fuel strict swapped p w k i j = Val Throw.
Proof.
  intros st sw p w k i j E Ni Nj F A B.
  assert (G : forall a b, k <> b -> fld w a <> fld w b -> ~ rational (value x w a) -> ~ rational (value x w b) ->
    binop o ops debug fuel st p (copy_obj w k a) k b = Val Throw).
  { intros a b Nb Fab Ra Rb. destruct (copy_self w k a) as [V1 F1]. destruct (copy_rest w k a b ltac:(congruence)) as [V2 F2].
    apply (binop_throws o ops debug fuel pol x Hm); [exact (copy_exact w k a E)|rewrite F1, F2; exact Fab|rewrite V1; exact Ra|rewrite V2; exact Rb]. }
  unfold op_objs. destruct p, sw; apply G; auto.
Qed.

Lemma assign_scal_ok : forall p w k s, exact w -> scal_ok s -> (p = Div -> scal_val s <> 0) ->
  exists w', assign_scal o ops debug fuel p w k s = Val w' /\ exact w' /\ gave x w w' k (real_op p (value x w k) (scal_val s)) /\ fld w' k = fld w k.
Proof.
  intros p w k s E S D. destruct s as [t z|z|qn qd]; cbn [assign_scal scal_val scal_ok] in *.
  - apply (binop_int_ok o ops debug fuel pol x Hm Hn); [exact E|exact S|]. intros P Z. subst z. exact (D P eq_refl).
  - apply (binop_mpz_ok o ops debug fuel pol x Hm Hn); [exact E|]. intros P Z. subst z. exact (D P eq_refl).
  - apply (binop_mpq_ok o ops debug fuel pol x Hm Hn); [exact E|exact (proj1 S)|]. intros P Z. subst qn. apply (D P). unfold Rdiv. ring.
Qed.

Lemma op_right_ok : forall p w k i s, exact w -> scal_ok s -> (p = Div -> scal_val s <> 0) ->
  exists w', op_right o ops debug fuel p w k i s = Val (Ret w') /\ exact w' /\ gave x w w' k (real_op p (value x w i) (scal_val s)) /\ fld w' k = fld w i.
Proof.
  intros p w k i s E S D. destruct (copy_self w k i) as [V F].
  destruct (assign_scal_ok p (copy_obj w k i) k s (copy_exact w k i E) S D) as (w' & H & E' & G & F').
  exists w'. unfold op_right. rewrite H. split; [reflexivity|]. split; [exact E'|]. rewrite V in G. split; [exact (gave_copy _ _ _ _ _ G)|congruence].
Qed.

Lemma make_scal_ok : forall w k s, exact w -> scal_ok s ->
  exists w', make_scal o ops debug fuel w k s = Val w' /\ made_in pol x w w' k 0 (scal_val s).
Proof.
  intros w k s E S. destruct s as [t z|z|qn qd]; cbn [make_scal scal_val scal_ok] in *.
  - apply (make_int_ok o ops debug fuel pol x Hm Hn); assumption.
  - assert (T : exists w', call_on o ops debug fuel (set_obj w k (zero_in 0)) k k (KSetZ k z) = Val w') by (eexists; reflexivity).
    destruct T as (w' & T). exists w'. split; [exact T|]. refine (set_made o ops debug fuel pol x Hm Hn _ _ _ _ (IZR z) _ E _ _ _ _ T); [cbn; tauto..|].
    intros u u' Ef. inversion Ef; subst. unfold vset. rewrite Nat.eqb_refl. reflexivity.
  - apply (make_mpq_ok o ops debug fuel pol x Hm Hn); [exact E|exact (proj1 S)].
Qed.

Lemma scal_rational : forall s, scal_ok s -> rational (scal_val s).
Proof.
  intros [t z|z|qn qd] S; cbn [scal_val scal_ok] in *; [exists z, 1%Z|exists z, 1%Z|exists qn, qd]; (split; [lia|]); try reflexivity; field.
Qed.

Lemma binop_stays : forall w i j p w', exact w -> fld w i <> fld w j -> ~ rational (value x w j) ->
  binop o ops debug fuel false p w i j = Val (Ret w') -> fld w' i = fld w j.
Proof.
  intros w i j p w' E F R H. unfold binop in H.
  destruct (Nat.eqb_spec (fld w i) (fld w j)) as [e|_]; [contradiction|]. cbn [andb] in H.
  assert (Q : is_rational (num_of w j) = false) by (destruct (is_rational (num_of w j)) eqn:Q; [exfalso; apply R, (rational_iff pol x Hm w j E), Q|reflexivity]).
  assert (I : is_integer (num_of w j) = false) by (destruct (is_integer (num_of w j)) eqn:I; [rewrite (integer_rational _ I) in Q; discriminate|reflexivity]).
  rewrite I, Q in H. destruct (coerce o ops debug fuel w i (fld w j)) as [[w1|]| | |] eqn:C; cbn [ebind bind] in H; try discriminate.
  destruct (coerce_keeps o ops debug fuel pol x Hm Hn w i (fld w j) w1 E C) as (E1 & F1 & _).
  unfold call_on in H. destruct (run o _ debug fuel _ _ _) as [[nf' m']| | |]; cbn [bind] in H; try discriminate.
  injection H as <-. rewrite fld_set_val, fld_set_field. exact F1.
Qed.

Lemma op_left_ok : forall strict p w k s j, exact w -> k <> j -> scal_ok s -> (p = Div -> value x w j <> 0) ->
  exists w', op_left o ops debug fuel strict p w k s j = Val (Ret w') /\ exact w' /\
    gave x w w' k (real_op p (scal_val s) (value x w j)) /\ (fld w' k = fld w j \/ fld w' k = 0%nat /\ rational (value x w j)).
Proof.
  intros st p w k s j E N S D.
  assert (C : forall q, (q = Add \/ q = Mul) -> q = p -> exists w', op_right o ops debug fuel q w k j s = Val (Ret w') /\ exact w' /\
    gave x w w' k (real_op q (scal_val s) (value x w j)) /\ (fld w' k = fld w j \/ fld w' k = 0%nat /\ rational (value x w j))).
  { intros q Q e. destruct (op_right_ok q w k j s E S ltac:(destruct Q as [-> | ->]; discriminate)) as (w' & H & E' & G & F).
    exists w'. split; [exact H|]. split; [exact E'|]. split; [|left; exact F].
    clear e; destruct Q as [-> | ->]; cbn [real_op] in *; [rewrite Rplus_comm|rewrite Rmult_comm]; exact G. }
  assert (L : forall q, q = p -> exists w', bind (make_scal o ops debug fuel w k s) (fun w' => binop o ops debug fuel st q w' k j) = Val (Ret w') /\ exact w' /\
    gave x w w' k (real_op q (scal_val s) (value x w j)) /\ (fld w' k = fld w j \/ fld w' k = 0%nat /\ rational (value x w j))).
  { intros q e. destruct (make_scal_ok w k s E S) as (w1 & H1 & E1 & [V1 O1] & F1). rewrite H1. cbn [bind].
    assert (Oj : w_objs w1 j = w_objs w j) by (apply O1; congruence).
    assert (Vj : value x w1 j = value x w j) by (unfold value, num_of, val, fld; rewrite Oj; reflexivity).
    assert (Fj : fld w1 j = fld w j) by (unfold fld; rewrite Oj; reflexivity).
    assert (B : binop o ops debug fuel st q w1 k j = binop o ops debug fuel false q w1 k j) by (destruct st; [apply binop_lenient; auto|reflexivity]).
    rewrite B.
    destruct (binop_ok o ops debug fuel pol x Hm Hn w1 k j q E1) as (w' & H & E' & [Vk Ok] & Fw).
    - right. left. rewrite V1. apply scal_rational. exact S.
    - rewrite Vj. subst q. exact D.
    - exists w'. split; [exact H|]. split; [exact E'|]. split.
      + split; [rewrite Vk, V1, Vj; reflexivity|]. intros i Ni. rewrite (Ok i Ni). apply O1. exact Ni.
      + rewrite F1, Fj in Fw. destruct Fw as [Fw|Fw]; [|left; exact Fw].
        destruct (is_rational (num_of w j)) eqn:R; [right; split; [exact Fw|]; apply (rational_iff pol x Hm w j E), R|].
        pose proof (not_rational pol x Hm w j E R) as NR.
        destruct (Nat.eq_dec (fld w1 k) (fld w1 j)) as [e'|n]; [left; congruence|].
        left. rewrite <- Fj. apply (binop_stays w1 k j q w' E1 n); [rewrite Vj; exact NR|exact H]. }
  unfold op_left. destruct p; [apply C; auto|apply L; reflexivity|apply C; auto|apply L; reflexivity].
Qed.

Lemma plus_ok : forall w k i, exact w -> made_in pol x w (plus w k i) k (fld w i) (value x w i).
Proof.
  intros w k i E. destruct (copy_self w k i) as [V F]. split; [exact (copy_exact w k i E)|]. split; [|exact F].
  split; [exact V|]. intros j N. apply obj_other. exact N.
Qed.

Lemma to_bool_ok : forall w i, exact w -> exists b, to_bool o ops debug fuel w i = Val (Ret (w, b)) /\ (b = true <-> value x w i <> 0).
Proof.
  intros w i E. unfold to_bool, rel_right, rel_int.
  destruct (eq_int_ok pol x Hm w i Int 0 E ltac:(cbn; lia)) as (b & H & Hb).
  rewrite H. exists (negb b). split; [reflexivity|]. destruct b; cbn; split; intro A; try discriminate; try reflexivity.
  - exfalso. apply A. apply (proj1 Hb). reflexivity.
  - intro B. apply (proj2 Hb) in B. discriminate.
Qed.
End Op.

Section Rel.
Variable o : arbops.
Variable ops : list Z -> nfops.
Variable debug : bool.
Variable fuel : nat.
Variable pol : nat -> list Z.
Variable x : nat -> R.
Variable N : nat -> ball -> Prop.
Hypothesis Hs : forall f, setting o (ops (pol f)) (pol f) (x f) (N f).

Lemma rel_right_ok : forall r w i s w' b, sound_world pol x N w -> scal_ok s ->
  rel_right o ops debug fuel r w i s = Val (Ret (w', b)) -> decides pol x N w w' b (real_rel r (value x w i) (scal_val s)).
Proof.
  intros r w i s w' b S K H. destruct s as [t z|z|qn qd]; cbn [rel_right scal_val scal_ok] in *.
  - exact (rel_int_ok o ops debug fuel pol x N Hs r w i t z w' b S K H).
  - exact (rel_mpz_ok o ops debug fuel pol x N Hs r w i z w' b S H).
  - exact (rel_mpq_ok o ops debug fuel pol x N Hs r w i qn qd w' b S (proj1 K) (proj2 K) H).
Qed.

Lemma decides_iff : forall w w' b P Q, (P <-> Q) -> decides pol x N w w' b P -> decides pol x N w w' b Q.
Proof. intros w w' b P Q E (A & B & C). split; [exact A|]. split; [exact B|]. tauto. Qed.
Lemma decides_flip : forall w (y : out (exc (world * bool))) w' b P, flip y = Val (Ret (w', b)) ->
  (forall w1 b1, y = Val (Ret (w1, b1)) -> decides pol x N w w1 b1 P) -> decides pol x N w w' b (~ P).
Proof.
  intros w y w' b P H G. unfold flip in H. destruct y as [[[w1 b1]|]| | |]; cbn in H; try discriminate.
  injection H as <- <-. destruct (G w1 b1 eq_refl) as (A & B & C). split; [exact A|]. split; [exact B|].
  destruct b1; cbn; split; intro K; try discriminate; try reflexivity.
  - exfalso. apply K, C. reflexivity.
  - intro L. apply C in L. discriminate.
Qed.

Lemma rel_left_ok : forall r w s j w' b, sound_world pol x N w -> scal_ok s ->
  rel_left o ops debug fuel r w s j = Val (Ret (w', b)) -> decides pol x N w w' b (real_rel r (scal_val s) (value x w j)).
Proof.
  intros r w s j w' b S K H. destruct r; cbn [rel_left real_rel] in *.
  - refine (decides_iff _ _ _ _ _ _ (rel_right_ok _ _ _ _ _ _ S K H)). cbn. split; intro; symmetry; assumption.
  - refine (decides_iff _ _ _ (~ value x w j = scal_val s) _ _ _); [split; intros A B; apply A; symmetry; exact B|].
    refine (decides_flip _ _ _ _ _ H _). intros w1 b1 H1. exact (rel_right_ok REq w j s w1 b1 S K H1).
  - refine (decides_iff _ _ _ _ _ _ (rel_right_ok _ _ _ _ _ _ S K H)). cbn. lra.
  - refine (decides_iff _ _ _ _ _ _ (rel_right_ok _ _ _ _ _ _ S K H)). cbn. lra.
  - refine (decides_iff _ _ _ (~ value x w j < scal_val s) _ _ _); [lra|].
    refine (decides_flip _ _ _ _ _ H _). intros w1 b1 H1. exact (rel_right_ok RLt w j s w1 b1 S K H1).
  - refine (decides_iff _ _ _ (~ value x w j > scal_val s) _ _ _); [lra|].
    refine (decides_flip _ _ _ _ _ H _). intros w1 b1 H1. exact (rel_right_ok RGt w j s w1 b1 S K H1).
Qed.
End Rel.
