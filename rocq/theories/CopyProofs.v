(** Copies of fields. *)
Require Import Reals List ZArith Bool Lia Lra.
From Verif Require Import PolyR RootSpec RootModel Dyadic ArbModel ArbSpec RefineProofs ElemModel ElemSpec ElemMore NfArith DyBall ElemRefute EndsSpec DefSpec DefMain.
Import ListNotations.
Open Scope R_scope.

Definition marked (i : Z) (nf : renf) : renf := {| f_pol := f_pol nf; f_den := f_den nf; f_emb := f_emb nf; f_prec := f_prec nf; f_imm := i |}.

Lemma copy_like : forall o n debug fuel nf m l, f_imm nf = 0%Z ->
  forall i, runs o n debug fuel (renf_init_set (marked i nf)) m l = runs o n debug fuel nf m l.
Proof. intros o n debug fuel nf m l H i. replace (renf_init_set (marked i nf)) with nf; [reflexivity|]. destruct nf. cbn in *. subst. reflexivity. Qed.

Lemma copy_equal : forall o n debug pol x N, setting o n pol x N ->
  forall fuel1 fuel2 l1 l2 nf m1 m2 nf1 nf2 m1' m2', field_ok pol x N nf -> mem_ok pol x m1 -> mem_ok pol x m2 ->
  Forall (call_ok pol) l1 -> Forall (call_ok pol) l2 ->
  runs o n debug fuel1 nf m1 l1 = Val (nf1, m1') -> runs o n debug fuel2 (renf_init_set nf) m2 l2 = Val (nf2, m2') ->
  renf_equal nf1 nf2 = true.
Proof.
  intros o n debug pol x N HS fuel1 fuel2 l1 l2 nf m1 m2 nf1 nf2 m1' m2' G M1 M2 L1 L2 E1 E2.
  destruct (hist_ok o n debug pol x N HS fuel1 l1 nf m1 nf1 m1' G M1 L1 E1) as [(A1 & A2 & _) _].
  assert (G' : field_ok pol x N (renf_init_set nf)) by exact G.
  destruct (hist_ok o n debug pol x N HS fuel2 l2 _ m2 nf2 m2' G' M2 L2 E2) as [(B1 & B2 & _) _].
  destruct (runs_kept o n debug fuel1 l1 nf m1 nf1 m1' E1) as [[(_ & D1 & _) _] _].
  destruct (runs_kept o n debug fuel2 l2 _ m2 nf2 m2' E2) as [[(_ & D2 & _) _] _]. cbn in D2.
  apply (renf_equal_same nf1 nf2 x); [congruence|congruence|exact A2|exact B2].
Qed.

Lemma copy_answers : forall o n pol x, library o n pol x -> exists r0, 0 < r0 /\ forall debug nf,
  field_ok pol x (fun a => rad_le a r0) nf -> pw2 (2 - f_prec nf) <= Rabs x ^ (length pol - 2) ->
  forall m l, mem_ok pol x m -> Forall (call_ok pol) l -> Forall (sound_call pol) l -> Forall modest l -> legal pol x (values x m) l ->
  answers (fun fuel => runs o n debug fuel (renf_init_set nf) m l)
    (fun '(nf', m') => ready pol x r0 nf' /\ mem_ok pol x m' /\ effects x (values x m) l (values x m')) (word_overflow o pol (f_emb nf)).
Proof.
  intros o n pol x HL. destruct (program_answers o n pol x HL) as (r0 & R0 & H). exists r0. split; [exact R0|].
  intros debug nf G P m l M L1 L2 L3 L4. apply (H debug (renf_init_set nf)); try assumption. split; [exact G|]. split; [reflexivity|exact P].
Qed.

(** The source refined, the copy not: see C18. *)
Lemma copy_unequal : exists pol a x nf m nf' m', reached pol a x [] nf m /\ reached pol a x [KRefine 128]%Z nf' m' /\
  renf_equal nf' (renf_init_set nf) = false.
Proof.
  destruct jroot as (x & Hx & Zx).
  assert (E : bind (renf_init dyops true 100 jpol 1 jball 64) (fun nf => Val (renf_equal jbad (renf_init_set nf))) = Val false) by calc.
  pose proof (jstate_bad []) as B. cbn [runs] in B.
  destruct (renf_init dyops true 100 jpol 1 jball 64) as [nf0| | |] eqn:I; try discriminate E.
  exists jpol, jball, x, nf0, mem0, jbad, mem0. split; [|split].
  - apply jreached; [exact Hx|exact Zx|]. unfold jstate. rewrite I. reflexivity.
  - apply jreached; [exact Hx|exact Zx|]. exact B.
  - injection E as E. exact E.
Qed.
