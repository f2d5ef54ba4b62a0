(** The abort of rounding_template.h with words of precision. *)
Require Import List ZArith Bool Lia.
From Verif Require Import RootModel ExtraModel Dyadic ArbModel ElemModel ArrModel IdxModel PrecWModel PrecWProofs.
Import ListNotations.
Open Scope Z_scope.

Lemma slong_out : forall z, word_max < z -> slong z = Undef.
Proof.
  intros z H. unfold slong. replace (z <=? word_max) with false by (symmetry; apply Z.leb_gt, H). rewrite andb_false_r. reflexivity.
Qed.
Lemma size_long : forall z, word_max < zbits z -> size_w z = Abort.
Proof. intros z H. unfold size_w. rewrite slong_out by exact H. reflexivity. Qed.

Lemma round_abort : forall o debug rd fuel nf x l r, is_rational (r_elem x) = false -> is_finite (r_emb x) = true ->
  unique_int rd (r_emb x) (f_prec nf) = Some (l, r) -> l <> r ->
  word_max < zbits l \/ (few_bits l /\ word_max < zbits r) -> round_int_w o debug rd fuel nf x = Abort.
Proof.
  intros o debug rd fuel nf x l r Q F U D W. unfold round_int_w. rewrite Q, F. cbn [bind]. rewrite U.
  replace (l =? r) with false by (symmetry; apply Z.eqb_neq, D). destruct W as [W|[A W]].
  - rewrite (size_long l W). reflexivity.
  - rewrite (size_same l A). cbn [bind]. rewrite (size_long r W). reflexivity.
Qed.

(** The ball around 0 of radius 2^e. *)
Lemma wide_ends : forall e prec, 0 <= e -> 1 <= prec ->
  unique_int rd_floor (Fin (0, e) (1, e)) prec = Some (- 2 ^ e, 2 ^ e) /\ zbits (- 2 ^ e) = e + 1.
Proof.
  intros e prec E P. pose proof (Z.pow_pos_nonneg 2 e ltac:(lia) E) as T. split.
  - unfold unique_int, interval, dsub, dadd, dneg, dat. cbn [fst snd]. rewrite Z.min_id, Z.sub_diag, !Z.shiftl_0_r. unfold dround. cbn [fst snd].
    change (zbits (0 + - (1))) with 1. change (zbits (0 + 1)) with 1. replace (1 - prec <=? 0) with true by (symmetry; apply Z.leb_le; lia).
    unfold rd_floor, rd_dy, dfloor. cbn [fst snd]. replace (0 <=? e) with true by (symmetry; apply Z.leb_le, E). do 2 f_equal; lia.
  - unfold zbits. replace (- 2 ^ e =? 0) with false by (symmetry; apply Z.eqb_neq; lia). rewrite Z.abs_neq, Z.opp_involutive, Z.log2_pow2 by lia. reflexivity.
Qed.
