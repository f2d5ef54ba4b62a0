(** Printing a tiny generator, with every ball arithmetic that rounds like FLINT. *)
Require Import Reals List ZArith Bool Ascii String.
From Verif Require Import PolyR RootSpec RootModel Dyadic ArbModel ArbSpec ElemModel ElemSpec GetdModel StrModel BufModel PrintModel FlSpec FlProofs FlTiny.
Import ListNotations.
Open Scope R_scope.

Lemma tiny_print : exists pol a x l, minimal pol x /\ inb x a /\ (forall z, inb z a -> zeval pol z = 0 -> z = x) /\
  forall o n, arb_ok o -> arb_fl o -> nf_ok pol x n -> forall debug fuel, exists nf m, came o n debug (S fuel) pol a l nf m /\
  forall pr show8 show, put o n debug pr show8 show (S fuel) nf (m 0%nat) = Undef /\
    forall alg, to_text o n debug pr show8 show (S fuel) nf (m 0%nat) alg true false = Undef.
Proof.
  destruct tiny_hash as (pol & a & x & l & H1 & H2 & H3 & H). exists pol, a, x, l. split; [exact H1|]. split; [exact H2|]. split; [exact H3|].
  intros o n Ho Hf Hn debug fuel. destruct (H o n Ho Hf Hn debug fuel) as (nf & m & C & G & _). exists nf, m. split; [exact C|].
  intros pr show8 show. specialize (G RNear).
  assert (T : forall alg, to_text o n debug pr show8 show (S fuel) nf (m 0%nat) alg true false = Undef).
  { intros alg. unfold to_text, elem_text. rewrite andb_false_r, G. reflexivity. }
  split; [|exact T]. unfold put. destruct (is_integer (r_elem (m 0%nat))) eqn:E; [exfalso|apply T].
  unfold is_integer in E. apply andb_true_iff in E. destruct E as [E _].
  unfold get_d in G. destruct (is_zero _); [discriminate G|]. rewrite E in G. discriminate G.
Qed.
