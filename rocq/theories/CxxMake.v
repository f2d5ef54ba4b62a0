(** Construction, assignment and conversion of C++ elements (C66). *)
Require Import Reals List ZArith Bool Lia Lra Arith.
From Verif Require Import PolyR RootSpec Dyadic ArbModel ArbSpec ElemModel ElemSpec ElemProofs ElemHist CxxModel CxxSpec CxxProofs.
Import ListNotations.
Open Scope R_scope.

Section Make.
Variable o : arbops.
Variable ops : list Z -> nfops.
Variable debug : bool.
Variable fuel : nat.
Variable pol : nat -> list Z.
Variable x : nat -> R.
Hypothesis Hm : forall f, minimal (pol f) (x f).
Hypothesis Hn : forall f, nf_ok (pol f) (x f) (ops (pol f)).

Notation made_in := (made_in pol x).

Lemma set_made : forall w i f k v w', exact_world pol w -> call_ok (pol f) k -> arith k -> sound_call (pol f) k ->
  (forall u u', effect (x f) u k u' -> u' i = v) -> call_on o ops debug fuel (set_obj w i (zero_in f)) i i k = Val w' -> made_in w w' i f v.
Proof.
  intros w i f k v w' E A B C Ef H. pose proof (zero_in_exact pol x Hm w i f E) as E0.
  destruct (call_exact o ops debug fuel pol x Hm Hn _ _ _ _ _ E0 eq_refl ltac:(rewrite fld_get; exact A) B ltac:(rewrite fld_get; exact C) H) as (E' & Oth & Fi & u & Eu & Vi).
  rewrite fld_get in Fi, Eu. cbn [ob_field zero_in] in Fi, Eu. split; [exact E'|]. split; [|exact Fi]. split; [rewrite Vi; exact (Ef _ _ Eu)|].
  intros j Hj. rewrite Oth by exact Hj. apply obj_other. exact Hj.
Qed.

Lemma make_int_ok : forall w i f t z, exact_world pol w -> in_range t z ->
  exists w', make_int o ops debug fuel w i f t z = Val w' /\ made_in w w' i f (IZR z).
Proof.
  intros w i f t z E R. unfold make_int. rewrite (arg_ok t z R).
  assert (T : exists w', call_on o ops debug fuel (set_obj w i (zero_in f)) i i (KSetZ i z) = Val w') by (eexists; reflexivity).
  destruct T as (w' & T). exists w'. split; [exact T|]. refine (set_made _ _ _ _ (IZR z) _ E _ _ _ _ T); [cbn; tauto..|].
  intros u u' Ef. inversion Ef; subst. unfold vset. rewrite Nat.eqb_refl. reflexivity.
Qed.
Lemma make_mpq_ok : forall w i f qn qd, exact_world pol w -> (0 < qd)%Z ->
  exists w', make_mpq o ops debug fuel w i f qn qd = Val w' /\ made_in w w' i f (IZR qn / IZR qd).
Proof.
  intros w i f qn qd E D. unfold make_mpq.
  assert (T : exists w', call_on o ops debug fuel (set_obj w i (zero_in f)) i i (KSetQ i qn qd) = Val w') by (eexists; reflexivity).
  destruct T as (w' & T). exists w'. split; [exact T|]. refine (set_made _ _ _ _ (IZR qn / IZR qd) _ E _ _ _ _ T); [cbn; tauto..|].
  intros u u' Ef. inversion Ef; subst. unfold vset. rewrite Nat.eqb_refl. reflexivity.
Qed.
Lemma assign_int_ok : forall w i t z, exact_world pol w -> in_range t z ->
  exists w', assign_int o ops debug fuel w i t z = Val w' /\ made_in w w' i 0 (IZR z).
Proof. intros w i t z. apply (make_int_ok w i 0). Qed.
Lemma assign_mpq_ok : forall w i qn qd, exact_world pol w -> (0 < qd)%Z ->
  exists w', assign_mpq o ops debug fuel w i qn qd = Val w' /\ made_in w w' i 0 (IZR qn / IZR qd).
Proof. intros w i qn qd. apply (make_mpq_ok w i 0). Qed.

(** Vectors of at most as many coefficients as the degree are always accepted, longer
    ones only without assertions. *)
Lemma make_vector_ok : forall w i f v d, exact_world pol w -> (0 < d)%Z -> (length v <= length (pol f) - 1)%nat \/ debug = false ->
  exists w', make_vector o ops debug fuel w i f v d = Val w' /\ made_in w w' i f (zeval v (x f) / IZR d).
Proof.
  intros w i f v d E D L. unfold make_vector. rewrite (ew_fields _ _ E f). pose proof (min_len _ _ (Hm f)) as L2.
  assert (K : debug && Nat.leb (length (pol f)) (length v) = false) by (destruct L as [L| ->]; [destruct (Nat.leb_spec (length (pol f)) (length v)); [lia|apply andb_false_r]|reflexivity]).
  rewrite K. assert (T : exists w', call_on o ops debug fuel (set_obj w i (zero_in f)) i i (KSetPoly i v d) = Val w') by (eexists; reflexivity).
  destruct T as (w' & T). exists w'. split; [exact T|]. refine (set_made _ _ _ _ (zeval v (x f) / IZR d) _ E _ _ _ _ T); [cbn; tauto..|].
  intros u u' Ef. inversion Ef; subst. unfold vset. rewrite Nat.eqb_refl. reflexivity.
Qed.
Lemma make_vector_aborts : forall w i f v d, exact_world pol w -> debug = true -> (length (pol f) - 1 < length v)%nat ->
  make_vector o ops debug fuel w i f v d = Abort.
Proof.
  intros w i f v d E Db L. unfold make_vector. rewrite (ew_fields _ _ E f), Db. pose proof (min_len _ _ (Hm f)) as L2.
  destruct (Nat.leb_spec (length (pol f)) (length v)); [reflexivity|lia].
Qed.

Lemma negate_made : forall w i j, exact_world pol w -> exists w', negate o ops debug fuel w i j = Val w' /\ made_in w w' i (fld w j) (- value x w j).
Proof. intros w i j E. exact (negate_ok o ops debug fuel pol x Hm Hn w i j E). Qed.

Lemma convert_both : forall w i f j, exact_world pol w ->
  (fld w j = f \/ rational (value x w j) -> exists w', convert o ops debug fuel w i f j = Val (Ret w') /\ made_in w w' i f (value x w j)) /\
  (fld w j <> f -> ~ rational (value x w j) -> convert o ops debug fuel w i f j = Val Throw).
Proof.
  intros w i f j E. split.
  - intros H. exact (convert_ok o ops debug fuel pol x Hm Hn w i f j E H).
  - intros H1 H2. exact (convert_throws o ops debug fuel pol x Hm w i f j E H1 H2).
Qed.
End Make.
