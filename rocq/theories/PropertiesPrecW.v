(** C95: the precisions of signs, comparisons, floors, ceilings and balls are words.
    [room fuel prec cond]: the precision may be doubled [fuel] times, in at most 2^62, and
    the condition number is at most 2^61. *)
Require Import Reals List ZArith Bool.
From Verif Require Import PolyR RootSpec RootModel ExtraModel Dyadic ArbModel ArbSpec DyBall ElemModel ElemSpec DyadicProofs NfArith ElemProofs ElemMore ElemExact ElemRefute ElemEdge ElemWrong
  ArrModel IdxModel PrecWModel PrecWProofs PrecWRight PrecWAbort.
Import ListNotations.
Open Scope Z_scope.

(** False: the greatest word as precision, FLINT's ARF_PREC_EXACT, overflows in -prec-2. *)
Theorem C95_exact_refuted : forall o debug fuel nf x, is_zero (r_elem x) = false -> get_arb_w o debug fuel nf x word_max = Undef.
Proof. exact get_arb_large. Qed.
Print Assumptions C95_exact_refuted.

(** So does the least word, in -prec. *)
Theorem C95_least_refuted : forall o debug fuel nf x, is_zero (r_elem x) = false -> get_arb_w o debug fuel nf x word_min = Undef.
Proof. exact get_arb_least. Qed.
Print Assumptions C95_least_refuted.

(** Whenever an answer is returned it is the right one, and the one of the functions with
    unbounded precisions. *)
Theorem C95_right_partial : forall o n debug pol x N, setting o n pol x N -> forall fuel nf, field_ok pol x N nf ->
  (forall y nf' b s, elem_ok pol x y -> sgn_w o debug fuel nf y = Val (nf', b, s) -> s = Rsgn (ev x (r_elem y))) /\
  (forall y z nf' b c s, elem_ok pol x y -> elem_ok pol x z -> cmp_w o n debug fuel nf y z = Val (nf', b, c, s) ->
     s = Rsgn (ev x (r_elem y) - ev x (r_elem z))%R) /\
  (forall y p q nf' b s, elem_ok pol x y -> 0 < q -> cmp_q_w o n debug fuel nf y p q = Val (nf', b, s) ->
     s = Rsgn (ev x (r_elem y) - IZR p / IZR q)%R) /\
  (forall y nf' b z, elem_ok pol x y -> round_int_w o debug rd_floor fuel nf y = Val (nf', b, z) -> is_floor (ev x (r_elem y)) z) /\
  (forall y nf' b z, elem_ok pol x y -> round_int_w o debug rd_ceil fuel nf y = Val (nf', b, z) -> is_ceil (ev x (r_elem y)) z) /\
  (forall same y z nf' b c q, elem_ok pol x y -> elem_ok pol x z -> (same = true -> r_elem y = r_elem z) ->
     fdiv_w o n debug same fuel nf y z = Val (nf', b, c, q) -> ev x (r_elem z) <> 0%R /\ is_floor (ev x (r_elem y) / ev x (r_elem z))%R q).
Proof. exact words_answers. Qed.
Print Assumptions C95_right_partial.

Theorem C95_unbounded_partial : forall o n debug fuel nf,
  (forall x r, sgn_w o debug fuel nf x = Val r -> sgn o debug fuel nf x = Val r) /\
  (forall x y r, cmp_w o n debug fuel nf x y = Val r -> cmp o n debug fuel nf x y = Val r) /\
  (forall x qn qd r, cmp_q_w o n debug fuel nf x qn qd = Val r -> cmp_q o n debug fuel nf x qn qd = Val r) /\
  (forall rd x r, round_int_w o debug rd fuel nf x = Val r -> round_int o debug rd fuel nf x = Val r) /\
  (forall same x y r, fdiv_w o n debug same fuel nf x y = Val r -> fdiv o n debug same fuel nf x y = Val r) /\
  (forall x prec r, get_arb_w o debug fuel nf x prec = Val r -> get_arb o debug fuel nf x prec = Val r).
Proof. exact words_right. Qed.
Print Assumptions C95_unbounded_partial.

(** The only other outcomes are an overflow and, for roundings, the abort. *)
Theorem C95_only_partial : forall o n debug fuel nf,
  (forall x, sgn_w o debug fuel nf x = Undef \/ sgn_w o debug fuel nf x = sgn o debug fuel nf x) /\
  (forall x y, cmp_w o n debug fuel nf x y = Undef \/ cmp_w o n debug fuel nf x y = cmp o n debug fuel nf x y) /\
  (forall x qn qd, cmp_q_w o n debug fuel nf x qn qd = Undef \/ cmp_q_w o n debug fuel nf x qn qd = cmp_q o n debug fuel nf x qn qd) /\
  (forall x prec, get_arb_w o debug fuel nf x prec = Undef \/ get_arb_w o debug fuel nf x prec = get_arb o debug fuel nf x prec) /\
  (forall rd x, round_int_w o debug rd fuel nf x = Undef \/ round_int_w o debug rd fuel nf x = Abort \/
     round_int_w o debug rd fuel nf x = round_int o debug rd fuel nf x) /\
  (forall same x y, fdiv_w o n debug same fuel nf x y = Undef \/ fdiv_w o n debug same fuel nf x y = Abort \/
     fdiv_w o n debug same fuel nf x y = fdiv o n debug same fuel nf x y).
Proof. exact words_only. Qed.
Print Assumptions C95_only_partial.

(** No sum or doubling overflows as long as there is room, for balls of all precisions other than the least word and the
    two greatest ones. *)
Theorem C95_sign_partial : forall o debug fuel nf x, room fuel (start_prec nf) (elem_cond nf (r_elem x)) ->
  sgn_w o debug fuel nf x = sgn o debug fuel nf x.
Proof. exact sgn_same. Qed.
Print Assumptions C95_sign_partial.

Theorem C95_compare_partial : forall o n debug fuel nf x y, room fuel (start_prec nf) (elem_cond nf (r_elem x)) ->
  room fuel (start_prec nf) (elem_cond nf (r_elem y)) -> room fuel (start_prec nf) (elem_cond nf (n_sub n (r_elem x) (r_elem y))) ->
  cmp_w o n debug fuel nf x y = cmp o n debug fuel nf x y.
Proof. exact cmp_same. Qed.
Print Assumptions C95_compare_partial.

Theorem C95_rational_partial : forall o n debug fuel nf x qn qd, room fuel (start_prec nf) (elem_cond nf (r_elem x)) ->
  room fuel (start_prec nf) (elem_cond nf (n_sub_q n (r_elem x) qn qd)) -> cmp_q_w o n debug fuel nf x qn qd = cmp_q o n debug fuel nf x qn qd.
Proof. exact cmp_q_same. Qed.
Print Assumptions C95_rational_partial.

Theorem C95_round_partial : forall o debug rd fuel nf x, is_finite (r_emb x) = true -> room fuel (start_prec nf) (elem_cond nf (r_elem x)) ->
  (forall l r, unique_int rd (r_emb x) (f_prec nf) = Some (l, r) -> few_bits l /\ few_bits r) ->
  round_int_w o debug rd fuel nf x = round_int o debug rd fuel nf x.
Proof. exact round_same. Qed.
Print Assumptions C95_round_partial.

Theorem C95_infinite_partial : forall o debug rd fuel nf x, is_finite (r_emb x) = false -> room fuel (start_prec nf) (elem_cond nf (r_elem x)) ->
  (forall nf' b, bind (set_evaluation o nf (r_elem x) (start_prec nf + elem_cond nf (r_elem x))) (fun b =>
     finite_loop o debug fuel nf (r_elem x) b (start_prec nf) (elem_cond nf (r_elem x))) = Val (nf', b) ->
     room fuel (start_prec nf') (elem_cond nf (r_elem x)) /\
     forall l r, unique_int rd b (f_prec nf') = Some (l, r) -> few_bits l /\ few_bits r) ->
  round_int_w o debug rd fuel nf x = round_int o debug rd fuel nf x.
Proof. exact round_infinite. Qed.
Print Assumptions C95_infinite_partial.

Theorem C95_ball_partial : forall o debug fuel nf x prec, room fuel (start_prec nf) (elem_cond nf (r_elem x)) -> - word_max <= prec <= word_max - 2 ->
  get_arb_w o debug fuel nf x prec = get_arb o debug fuel nf x prec.
Proof. exact get_arb_same. Qed.
Print Assumptions C95_ball_partial.

(** A rounding of which an end has more bits than a word counts is aborted. *)
Theorem C95_abort_partial : forall o debug rd fuel nf x l r, is_rational (r_elem x) = false -> is_finite (r_emb x) = true ->
  unique_int rd (r_emb x) (f_prec nf) = Some (l, r) -> l <> r ->
  word_max < zbits l \/ (few_bits l /\ word_max < zbits r) -> round_int_w o debug rd fuel nf x = Abort.
Proof. exact round_abort. Qed.
Print Assumptions C95_abort_partial.

(** The cube root of 2 (see [elem_setting]), with and without a ball. *)
Example C95_case : let nf := fst cube_state in let x := snd cube_state 0%nat in let y := {| r_elem := r_elem x; r_emb := Top |} in
  room 40 (start_prec nf) (elem_cond nf (r_elem x)) /\ is_zero (r_elem x) = false /\
  sure (sgn_w dyops true 40 nf y) (fun r => snd r =? 1) = true /\
  sure (round_int_w dyops true rd_ceil 40 nf y) (fun r => snd r =? 2) = true /\
  sure (get_arb_w dyops true 40 nf (snd cube_state 0%nat) 20) (fun r => is_finite (snd r)) = true.
Proof.
  cbv zeta. split; [unfold room; split; [vm_compute; discriminate|split; vm_compute; discriminate]|].
  split; [vm_compute; reflexivity|]. split; [vm_compute; reflexivity|]. split; [vm_compute; reflexivity|]. vm_compute; reflexivity.
Qed.

Example C95_case_rational : let nf := fst cube_state in let x := snd cube_state 0%nat in
  room 40 (start_prec nf) (elem_cond nf (n_sub_q (nfc cube_pol) (r_elem x) 5 4)) /\
  sure (cmp_q_w dyops (nfc cube_pol) true 40 nf {| r_elem := r_elem x; r_emb := Top |} 5 4) (fun r => snd r =? 1) = true.
Proof. cbv zeta. split; [unfold room; split; [vm_compute; discriminate|split; vm_compute; discriminate]|vm_compute; reflexivity]. Qed.

(** The floor of 2^(1/3) + 1/3 by 2^(1/3). *)
Example C95_case_div : sure (fdiv_w dyops (nfc cube_pol) true false 40 (fst cube_state) (snd cube_state 2%nat) (snd cube_state 0%nat)) (fun r => snd r =? 1) = true /\
  sure (fdiv_w dyops (nfc cube_pol) true true 40 (fst cube_state) (snd cube_state 0%nat) (snd cube_state 0%nat)) (fun r => snd r =? 1) = true.
Proof. split; vm_compute; reflexivity. Qed.

Example C95_case_round : let nf := fst cube_state in let x := snd cube_state 0%nat in
  is_finite (r_emb x) = true /\ forall l r, unique_int rd_floor (r_emb x) (f_prec nf) = Some (l, r) -> few_bits l /\ few_bits r.
Proof. cbv zeta. split; [vm_compute; reflexivity|]. intros l r H. vm_compute in H. injection H as <- <-. split; vm_compute; discriminate. Qed.

(** The cube root of 2 with the ball around 0 of radius 2^(2^63). *)
Example C95_case_abort : let nf := fst cube_state in let e := word_max + 1 in
  let x := {| r_elem := r_elem (snd cube_state 0%nat); r_emb := Fin (0, e) (1, e) |} in
  is_rational (r_elem x) = false /\ is_finite (r_emb x) = true /\
  exists l r, unique_int rd_floor (r_emb x) (f_prec nf) = Some (l, r) /\ l <> r /\ word_max < zbits l.
Proof.
  cbv zeta. split; [vm_compute; reflexivity|]. split; [reflexivity|]. cbn [r_emb].
  assert (K : (1 <=? f_prec (fst cube_state)) = true) by (vm_compute; reflexivity). apply Z.leb_le in K.
  assert (B : word_max <= word_max + 1 /\ 0 <= word_max) by (split; vm_compute; discriminate). generalize dependent (f_prec (fst cube_state)). intros p K.
  revert B. generalize word_max. intros w [_ W]. assert (E : 0 <= w + 1) by (apply Z.le_trans with w; [exact W|apply Z.le_succ_diag_r]).
  destruct (wide_ends (w + 1) p E K) as [U V]. exists (- 2 ^ (w + 1)), (2 ^ (w + 1)). split; [exact U|]. pose proof (Z.pow_pos_nonneg 2 (w + 1) eq_refl E) as T.
  split; [intros F; rewrite <- F in T; apply Z.lt_nge in T; apply T; rewrite <- F in *; apply Z.opp_nonpos_nonneg; rewrite F; apply Z.lt_le_incl, Z.pow_pos_nonneg; [reflexivity|exact E]|].
  rewrite V. apply Z.lt_trans with (w + 1); apply Z.lt_succ_diag_r.
Qed.
