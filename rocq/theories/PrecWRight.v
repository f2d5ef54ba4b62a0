(** The answers with words of precision, from PrecWProofs.v and ElemMore.v. *)
Require Import Reals List ZArith Bool.
From Verif Require Import PolyR RootSpec RootModel ExtraModel Dyadic ArbModel ArbSpec ElemModel ElemSpec DyadicProofs ElemProofs ElemMore ArrModel IdxModel PrecWModel PrecWProofs.
Import ListNotations.
Open Scope R_scope.

Section Right.
Variable o : arbops.
Variable n : nfops.
Variable debug : bool.
Variable pol : list Z.
Variable x : R.
Variable N : ball -> Prop.
Hypothesis H : setting o n pol x N.

Lemma words_answers : forall fuel nf, field_ok pol x N nf ->
  (forall y nf' b s, elem_ok pol x y -> sgn_w o debug fuel nf y = Val (nf', b, s) -> s = Rsgn (ev x (r_elem y))) /\
  (forall y z nf' b c s, elem_ok pol x y -> elem_ok pol x z -> cmp_w o n debug fuel nf y z = Val (nf', b, c, s) -> s = Rsgn (ev x (r_elem y) - ev x (r_elem z))) /\
  (forall y p q nf' b s, elem_ok pol x y -> (0 < q)%Z -> cmp_q_w o n debug fuel nf y p q = Val (nf', b, s) -> s = Rsgn (ev x (r_elem y) - IZR p / IZR q)) /\
  (forall y nf' b z, elem_ok pol x y -> round_int_w o debug rd_floor fuel nf y = Val (nf', b, z) -> is_floor (ev x (r_elem y)) z) /\
  (forall y nf' b z, elem_ok pol x y -> round_int_w o debug rd_ceil fuel nf y = Val (nf', b, z) -> is_ceil (ev x (r_elem y)) z) /\
  (forall same y z nf' b c q, elem_ok pol x y -> elem_ok pol x z -> (same = true -> r_elem y = r_elem z) ->
     fdiv_w o n debug same fuel nf y z = Val (nf', b, c, q) -> ev x (r_elem z) <> 0 /\ is_floor (ev x (r_elem y) / ev x (r_elem z)) q).
Proof.
  intros fuel nf G. destruct (words_right o n debug fuel nf) as (A & B & C & D & E & _).
  split; [intros y nf' b s Gy K; apply A in K; exact (sgn_right o n debug pol x N H _ _ _ _ _ _ G Gy K)|].
  split; [intros y z nf' b c s Gy Gz K; apply B in K; exact (cmp_right o n debug pol x N H _ _ _ _ _ _ _ _ G Gy Gz K)|].
  split; [intros y p q nf' b s Gy Q K; apply C in K; exact (cmp_q_right o n debug pol x N H _ _ _ _ _ _ _ _ G Gy Q K)|].
  split; [intros y nf' b z Gy K; apply D in K; exact (floor_right o n debug pol x N H _ _ _ _ _ _ G Gy K)|].
  split; [intros y nf' b z Gy K; apply D in K; exact (ceil_right o n debug pol x N H _ _ _ _ _ _ G Gy K)|].
  intros same y z nf' b c q Gy Gz S K. apply E in K. exact (fdiv_right o n debug pol x N H _ _ _ _ _ _ _ _ _ G Gy Gz S K).
Qed.
End Right.
