(** Answers of threads on a marked field are right. *)
Require Import Reals List ZArith Bool Lia.
From Verif Require Import PolyR RootSpec RootModel ExtraModel Dyadic ArbModel ArbSpec ArbProofs RefineProofs ElemModel ElemSpec
  ElemProofs ElemLoops ElemHist ElemMore ConcModel ConcSpec Conc.
Import ListNotations.
Open Scope R_scope.

Section Right.
Variables (o : arbops) (n : nfops) (debug : bool) (pol : list Z) (x : R) (J : renf -> Prop).
Hypothesis Ho : arb_ok o.
Hypothesis Hm : minimal pol x.
Hypothesis Hn : nf_ok pol x n.
Hypothesis HJ : keeps o debug pol x J.
Notation good := (good pol x J).
Notation goodm := (goodm pol x).
Notation vals := (vals x).

Lemma answer_right : forall fuel nf m k a, good nf -> goodm m -> call_ok pol k ->
  answer o n debug fuel nf m k = Val a -> right (vals m) k a.
Proof.
  intros fuel nf m k a G Gm Hk E.
  destruct k; cbn [answer] in E; try (injection E as <-; exact I).
  - destruct (sgn o debug fuel nf (m a0)) as [[[nf1 b] s]| | |] eqn:C; try discriminate E. cbn [bind] in E. injection E as <-.
    apply (sgn_ok o debug pol x J Ho Hm HJ _ _ _ _ _ _ G (Gm _) C).
  - destruct (cmp o n debug fuel nf (m a0) (m b)) as [[[[nf1 b1] c1] s]| | |] eqn:C; try discriminate E. cbn [bind] in E. injection E as <-.
    apply (cmp_ok o n debug pol x J Ho Hm Hn HJ _ _ _ _ _ _ _ _ G (Gm _) (Gm _) C).
  - destruct (cmp_q o n debug fuel nf (m a0) qn qd) as [[[nf1 b1] s]| | |] eqn:C; try discriminate E. cbn [bind] in E. injection E as <-.
    apply (cmp_q_ok o n debug pol x J Ho Hm Hn HJ _ _ _ _ _ _ _ _ G (Gm _) Hk C).
  - destruct (floor o debug fuel nf (m a0)) as [[[nf1 b1] s]| | |] eqn:C; try discriminate E. cbn [bind] in E. injection E as <-.
    apply (round_int_ok o debug pol x J Ho Hm HJ _ _ rd_floor_ok _ _ _ _ _ _ G (Gm _) C).
  - destruct (ceil o debug fuel nf (m a0)) as [[[nf1 b1] s]| | |] eqn:C; try discriminate E. cbn [bind] in E. injection E as <-.
    apply (round_int_ok o debug pol x J Ho Hm HJ _ _ rd_ceil_ok _ _ _ _ _ _ G (Gm _) C).
  - match type of E with bind ?c _ = _ => destruct c as [[[[nf1 b1] c1] s]| | |] eqn:C; try discriminate E end. cbn [bind] in E. injection E as <-.
    eapply (fdiv_ok o n debug pol x J Ho Hm Hn HJ) in C; [|exact G|apply Gm|apply Gm|].
    + apply C.
    + intros H. apply Nat.eqb_eq in H. subst. reflexivity.
  - match type of E with bind ?c _ = _ => destruct c as [[[nf1 b1] s]| | |] eqn:C; try discriminate E end. cbn [bind] in E. injection E as <-.
    apply (get_arb_ok o debug pol x J Ho Hm HJ _ _ _ _ _ _ _ G (Gm _) Hk C).
  - match type of E with bind ?c _ = _ => destruct c as [[[nf1 l1] w]| | |] eqn:C; try discriminate E end. cbn [bind] in E. injection E as <-.
    destruct (cfrac_ok o n debug pol x J Ho Hm Hn HJ _ _ _ _ _ _ _ G (Gm _) C) as (_ & _ & _ & F & L).
    exists (ev x (r_elem w)). split; assumption.
Qed.

Lemma calls_right : forall fuel l nf m nf' m' r, good nf -> goodm m -> Forall (call_ok pol) l -> Forall (sound_call pol) l ->
  calls o n debug fuel nf m l = Val (nf', m', r) -> goodm m' /\ history x (vals m) l (vals m') r.
Proof.
  intros fuel. induction l as [|k l IH]; intros nf m nf' m' r G Gm Hl Hs E; cbn [calls] in E.
  - injection E as <- <- <-. split; [exact Gm|constructor].
  - inversion Hl as [|? ? Hk Hl']; subst. inversion Hs as [|? ? Sk Hs']; subst.
    destruct (run o n debug fuel nf m k) as [[nf1 m1]| | |] eqn:Er; try discriminate E. cbn [bind] in E.
    destruct (answer o n debug fuel nf m k) as [a| | |] eqn:Ea; try discriminate E. cbn [bind] in E.
    destruct (calls o n debug fuel nf1 m1 l) as [[[nf2 m2] r2]| | |] eqn:Ec; try discriminate E. cbn [bind] in E. injection E as <- <- <-.
    destruct (run_ok o n debug pol x J Ho Hm Hn HJ fuel nf m k nf1 m1 G Gm Hk Er) as (G1 & _ & Gm1 & F).
    destruct (IH nf1 m1 nf2 m2 r2 G1 Gm1 Hl' Hs' Ec) as (Gm2 & H2).
    split; [exact Gm2|]. apply (hist_cons x _ _ _ (vals m1)); [apply F; exact Sk|exact (answer_right fuel nf m k a G Gm Hk Ea)|exact H2].
Qed.
End Right.

Lemma threads_right : forall o n pol x, arb_ok o -> minimal pol x -> nf_ok pol x n ->
  forall nf, f_pol nf = pol -> inb x (f_emb nf) -> (2 <= f_prec nf)%Z -> f_imm nf = 1%Z ->
  forall own fuel m (l : nat -> list call) nf' m' ps', mem_ok pol x m ->
  (forall t, divided own t (l t) /\ Forall (call_ok pol) (l t) /\ Forall (sound_call pol) (l t)) ->
  steps (nf, m, fun t => p_calls o n true fuel (l t)) (nf', m', ps') ->
  forall t r, ps' t = Fin_ (Val r) ->
  exists v, history x (fun i => ev x (r_elem (m i))) (l t) v r /\
  forall i, own i = Some t -> ev x (r_elem (m' i)) = v i /\ inb (v i) (r_emb (m' i)).
Proof.
  intros o n pol x Ho Hm Hn nf Hp Hx Hf Hi own fuel m l nf' m' ps' Gm Hl Hs t r Et.
  destruct (threads o n nf Hi own fuel m l nf' m' ps' (fun t => proj1 (Hl t)) Hs) as (_ & T).
  destruct (T t _ Et) as (ma & Ec & Em).
  assert (G : good pol x (fun nf => f_imm nf <> 0%Z) nf) by (repeat split; try assumption; lia).
  destruct (calls_right o n true pol x _ Ho Hm Hn (marked_keeps o pol x) fuel (l t) nf m nf ma r G Gm (proj1 (proj2 (Hl t))) (proj2 (proj2 (Hl t))) Ec) as (Ga & H).
  exists (vals x ma). split; [exact H|]. intros i Oi. rewrite (Em i Oi). split; [reflexivity|apply (Ga i)].
Qed.
