(** Doubles with words of precision, from PrecWProofs.v and GetdMore.v. *)
Require Import Reals List ZArith Bool Lia.
From Verif Require Import PolyR RootSpec RootModel ExtraModel Dyadic ArbModel ArbSpec ElemModel ElemSpec DyadicProofs ElemProofs GetdModel GetdSpec GetdMore
  ArrModel IdxModel PrecWModel PrecWProofs GetdWModel.
Import ListNotations.
Open Scope Z_scope.

Section Getd.
Variable o : arbops.
Variable n : nfops.
Variable debug : bool.

Lemma overflows_or : forall k fuel nf x, or_undef (overflows_w o n debug k fuel nf x) (overflows o n debug k fuel nf x).
Proof.
  induction k as [|k IH]; intros; [apply or_refl|]. cbn [overflows_w overflows]. apply or_bind; [apply sgn_or|]. intros [[nf1 b] s]. cbv zeta.
  destruct (0 <=? s).
  - apply or_bind; [apply cmp_q_or|]. intros [[nf2 b2] c]. destruct (c <=? 0); [apply or_refl|].
    apply or_bind; [apply cmp_q_or|]. intros [[nf3 b3] c3]. apply or_refl.
  - apply or_bind; [apply IH|]. intros [[nf2 x2] v]. apply or_refl.
Qed.

Lemma reduce_or : forall fuel nf x md, or_undef (reduce_rnd_w o debug fuel nf x md) (reduce_rnd o debug fuel nf x md).
Proof. intros fuel nf x [| | | |]; cbn; try apply or_refl; (apply or_bind; [apply sgn_or|]; intros [[nf1 b] s]; apply or_refl). Qed.

Lemma accuracy_or : forall fuel nf a b prec, or_undef (accuracy_loop_w o debug fuel nf a b prec) (accuracy_loop o debug fuel nf a b prec).
Proof.
  induction fuel as [|f IH]; intros; [apply or_refl|]. cbn [accuracy_loop_w accuracy_loop]. destruct (_ <? 55); [|apply or_refl].
  apply twice_or. intros nf'. apply or_bind; [apply or_refl|]. intros b'. apply IH.
Qed.

Lemma double_or : forall md fuel nf a b prec, or_undef (double_loop_w o debug md fuel nf a b prec) (double_loop o debug md fuel nf a b prec).
Proof.
  intros md. induction fuel as [|f IH]; intros; [apply or_refl|]. cbn [double_loop_w double_loop]. cbv zeta.
  assert (A : or_undef (bind (twice_w o debug f nf prec) (fun '(nf, prec) => bind (set_evaluation o nf a prec) (fun b => double_loop_w o debug md f nf a b prec)))
    (bind (refine o debug f nf (2 * prec)) (fun nf' => bind (set_evaluation o nf' a (2 * prec)) (fun b' => double_loop o debug md f nf' a b' (2 * prec))))).
  { apply twice_or. intros nf'. apply or_bind; [apply or_refl|]. intros b'. apply IH. }
  destruct (interval b prec) as [[l u]|]; [|exact A]. destruct (dbl_eqb _ _); [apply or_refl|exact A].
Qed.

Lemma get_d_or : forall fuel nf x md, or_undef (get_d_w o n debug fuel nf x md) (get_d o n debug fuel nf x md).
Proof.
  intros fuel nf x md. unfold get_d_w, get_d. destruct (is_zero _); [apply or_refl|]. destruct (is_rational _); [apply or_refl|]. cbv zeta.
  apply or_bind; [apply reduce_or|]. intros [[nf1 x1] md1]. apply or_bind; [apply overflows_or|]. intros [[nf2 x2] v].
  destruct (v =? 1); [apply or_refl|]. destruct (v =? -1); [apply or_refl|]. apply or_bind.
  - destruct (_ <? 55); [|apply or_refl]. destruct (slong_or (2 * mid_bits (r_emb x2))) as [E|E]; rewrite E; [left; reflexivity|]. cbn [bind].
    apply or_bind; [apply or_refl|]. intros b. apply accuracy_or.
  - intros [nf3 b]. apply or_bind; [apply double_or|]. intros [[nf4 b4] d]. apply or_refl.
Qed.

Lemma get_d_only : forall fuel nf x md, get_d_w o n debug fuel nf x md = Undef \/ get_d_w o n debug fuel nf x md = get_d o n debug fuel nf x md.
Proof. exact get_d_or. Qed.

Lemma get_d_unbounded : forall fuel nf x md r, get_d_w o n debug fuel nf x md = Val r -> get_d o n debug fuel nf x md = Val r.
Proof. intros fuel nf x md r K. destruct (get_d_or fuel nf x md) as [E|E]; congruence. Qed.
End Getd.

Lemma get_d_w_right : forall o n debug pol x N, setting o n pol x N -> forall fuel nf y md nf' y' d,
  field_ok pol x N nf -> elem_ok pol x y -> get_d_w o n debug fuel nf y md = Val (nf', y', d) ->
  r_elem y' = r_elem y /\ (in_range md (ev x (r_elem y)) -> is_round md (ev x (r_elem y)) d) /\
  (~ fraction (ev x (r_elem y)) -> (MAX < ev x (r_elem y))%R -> d = DInf false) /\
  (~ fraction (ev x (r_elem y)) -> (ev x (r_elem y) < - MAX)%R -> d = DInf true).
Proof.
  intros o n debug pol x N H fuel nf y md nf' y' d F E K. apply get_d_unbounded in K.
  destruct (get_d_right o n debug pol x N H _ _ _ _ _ _ _ F E K) as (_ & _ & A & B & C & D). repeat split; assumption.
Qed.

Lemma hash_w_same : forall o1 n1 pol1 x1 N1 o2 n2 pol2 x2 N2, setting o1 n1 pol1 x1 N1 -> setting o2 n2 pol2 x2 N2 ->
  forall debug1 debug2 fuel1 fuel2 nf1 nf2 y1 y2 nf1' nf2' y1' y2' d1 d2,
  field_ok pol1 x1 N1 nf1 -> field_ok pol2 x2 N2 nf2 -> elem_ok pol1 x1 y1 -> elem_ok pol2 x2 y2 ->
  ev x1 (r_elem y1) = ev x2 (r_elem y2) ->
  hash_key_w o1 n1 debug1 fuel1 nf1 y1 = Val (nf1', y1', d1) -> hash_key_w o2 n2 debug2 fuel2 nf2 y2 = Val (nf2', y2', d2) -> dbl_eq d1 d2.
Proof.
  intros. unfold hash_key_w in *. apply get_d_unbounded in H6, H7.
  exact (hash_same _ _ _ _ _ _ _ _ _ _ H H0 _ _ _ _ _ _ _ _ _ _ _ _ _ _ H1 H2 H3 H4 H5 H6 H7).
Qed.
