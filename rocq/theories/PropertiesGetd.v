(** Properties C30 and C41, and C31 for the conversion to double. *)
Require Import Reals List ZArith Bool.
From Verif Require Import RootSpec Dyadic ArbModel DyBall ElemModel ElemSpec NfArith ElemRefute ElemEdge GetdModel GetdSpec GetdMore GetdRefute.
Open Scope R_scope.

(** C30: false as stated.  A rational subnormal number is rounded twice and the
    result is not the nearest double. *)
Theorem C30_subnormal_refuted : exists pol a x l nf m nf' y d, reached pol a x l nf m /\
  get_d dyops (nfc pol) true 100 nf (m 0%nat) RNear = Val (nf', y, DF d) /\
  is_double (pw2 (-1074)) /\ Rabs (ev x (r_elem (m 0%nat)) - pw2 (-1074)) < Rabs (ev x (r_elem (m 0%nat)) - dyv d).
Proof. exact getd_sub_refuted. Qed.
Print Assumptions C30_subnormal_refuted.

(** An irrational number just beyond DBL_MAX becomes infinite also when rounded
    down or to nearest. *)
Theorem C30_overflow_refuted : exists pol a x l nf m nf0 y0 nf1 y1, reached pol a x l nf m /\
  MAX < ev x (r_elem (m 0%nat)) < MAX + 1 /\
  get_d dyops (nfc pol) true 100 nf (m 0%nat) RFloor = Val (nf0, y0, DInf false) /\
  get_d dyops (nfc pol) true 100 nf (m 0%nat) RNear = Val (nf1, y1, DInf false) /\
  ~ is_round RFloor (ev x (r_elem (m 0%nat))) (DInf false) /\ ~ is_round RNear (ev x (r_elem (m 0%nat))) (DInf false).
Proof. exact getd_over_refuted. Qed.
Print Assumptions C30_overflow_refuted.

(** And a larger rational number converts to a smaller double. *)
Theorem C30_monotone_refuted : exists pol a x l nf m nf0 y0 nf1 y1 d, reached pol a x l nf m /\
  ev x (r_elem (m 0%nat)) < ev x (r_elem (m 1%nat)) /\
  get_d dyops (nfc pol) true 100 nf (m 0%nat) RNear = Val (nf0, y0, DInf false) /\
  get_d dyops (nfc pol) true 100 nf (m 1%nat) RNear = Val (nf1, y1, DF d).
Proof. exact getd_mono_refuted. Qed.
Print Assumptions C30_monotone_refuted.

(** Otherwise the result is correctly rounded, in every mode.  The call keeps the
    field and the element. *)
Theorem C30_round_partial : forall o n debug pol x N, setting o n pol x N -> forall fuel nf y md nf' y' d,
  field_ok pol x N nf -> elem_ok pol x y -> get_d o n debug fuel nf y md = Val (nf', y', d) ->
  field_ok pol x N nf' /\ elem_ok pol x y' /\ r_elem y' = r_elem y /\
  (in_range md (ev x (r_elem y)) -> is_round md (ev x (r_elem y)) d) /\
  (~ fraction (ev x (r_elem y)) -> MAX < ev x (r_elem y) -> d = DInf false) /\
  (~ fraction (ev x (r_elem y)) -> ev x (r_elem y) < - MAX -> d = DInf true).
Proof. exact get_d_right. Qed.
Print Assumptions C30_round_partial.

(** Also between two fields. *)
Theorem C30_monotone_partial : forall o1 n1 pol1 x1 N1 o2 n2 pol2 x2 N2, setting o1 n1 pol1 x1 N1 -> setting o2 n2 pol2 x2 N2 ->
  forall debug1 debug2 fuel1 fuel2 nf1 nf2 y1 y2 md nf1' nf2' y1' y2' d1 d2,
  field_ok pol1 x1 N1 nf1 -> field_ok pol2 x2 N2 nf2 -> elem_ok pol1 x1 y1 -> elem_ok pol2 x2 y2 ->
  in_range md (ev x1 (r_elem y1)) -> in_range md (ev x2 (r_elem y2)) -> ev x1 (r_elem y1) <= ev x2 (r_elem y2) ->
  get_d o1 n1 debug1 fuel1 nf1 y1 md = Val (nf1', y1', d1) -> get_d o2 n2 debug2 fuel2 nf2 y2 md = Val (nf2', y2', d2) -> dbl_le d1 d2.
Proof. exact get_d_mono. Qed.
Print Assumptions C30_monotone_partial.

(** 2^(1/3) and 2^(1/3) + 1/3 in two directions each. *)
Example C30_case :
  sure (getd (fst cube_state) (snd cube_state 0%nat) RFloor) (is_dbl (DF (5674179970822794, -52)%Z)) = true /\
  sure (getd (fst cube_state) (snd cube_state 0%nat) RCeil) (is_dbl (DF (5674179970822795, -52)%Z)) = true /\
  sure (getd (fst cube_state) (snd cube_state 2%nat) RNear) (is_dbl (DF (7175379846612960, -52)%Z)) = true /\
  sure (getd (fst cube_state) (snd cube_state 2%nat) RUp) (is_dbl (DF (7175379846612961, -52)%Z)) = true.
Proof. vm_compute. repeat split. Qed.

(** The states of the example meet the hypotheses. *)
Example C30_case_ok : forall z, 1 < z < 2 -> z * z * z = 2 -> setting dyops (nfc cube_pol) cube_pol z (fun _ => True) /\
  field_ok cube_pol z (fun _ => True) (fst cube_state) /\ mem_ok cube_pol z (snd cube_state).
Proof. intros z Hz E. split; [apply cube_setting, E|apply cube_state_ok; assumption]. Qed.

(** C31 for the conversion to double: any two states of one field. *)
Theorem C31_get_d_partial : forall o n pol x N, setting o n pol x N ->
  forall debug1 debug2 fuel1 fuel2 nf1 nf2 y1 y2 md a1 a2 b1 b2 d1 d2,
  field_ok pol x N nf1 -> field_ok pol x N nf2 -> elem_ok pol x y1 -> elem_ok pol x y2 -> r_elem y1 = r_elem y2 ->
  get_d o n debug1 fuel1 nf1 y1 md = Val (a1, b1, d1) -> get_d o n debug2 fuel2 nf2 y2 md = Val (a2, b2, d2) -> dbl_eq d1 d2.
Proof. exact get_d_history. Qed.
Print Assumptions C31_get_d_partial.

Example C31_get_d_case : sure (runs dyops (nfc cube_pol) true 100 (fst cube_state) (snd cube_state) (KAddZ 2 2 (2 ^ 300) :: KSubZ 2 2 (2 ^ 300) :: nil)%Z)
  (fun '(nf, m) => sure (getd nf (m 2%nat) RNear) (is_dbl (DF (7175379846612960, -52)%Z))) = true.
Proof. vm_compute. reflexivity. Qed.

(** C41: false as stated; the hash of an element may be undefined after another
    history of the same element. *)
Theorem C41_hash_refuted : exists pol a x l1 nf1 m1 l2 nf2 m2,
  reached pol a x l1 nf1 m1 /\ reached pol a x l2 nf2 m2 /\ r_elem (m1 0%nat) = r_elem (m2 0%nat) /\
  (exists nf y d, hash_key dyops (nfc pol) true 100 nf1 (m1 0%nat) = Val (nf, y, d)) /\
  hash_key dyops (nfc pol) true 100 nf2 (m2 0%nat) = Undef.
Proof. exact hash_refuted. Qed.
Print Assumptions C41_hash_refuted.

(** Hashes that are found are equal for equal numbers, whatever the two fields and
    the two histories. *)
Theorem C41_hash_partial : forall o1 n1 pol1 x1 N1 o2 n2 pol2 x2 N2, setting o1 n1 pol1 x1 N1 -> setting o2 n2 pol2 x2 N2 ->
  forall debug1 debug2 fuel1 fuel2 nf1 nf2 y1 y2 nf1' nf2' y1' y2' d1 d2,
  field_ok pol1 x1 N1 nf1 -> field_ok pol2 x2 N2 nf2 -> elem_ok pol1 x1 y1 -> elem_ok pol2 x2 y2 ->
  ev x1 (r_elem y1) = ev x2 (r_elem y2) ->
  hash_key o1 n1 debug1 fuel1 nf1 y1 = Val (nf1', y1', d1) -> hash_key o2 n2 debug2 fuel2 nf2 y2 = Val (nf2', y2', d2) -> dbl_eq d1 d2.
Proof. exact hash_same. Qed.
Print Assumptions C41_hash_partial.

(** 1/3 in two fields and 2^(1/3) in two states. *)
Example C41_case :
  sure (hash_key dyops (nfc cube_pol) true 100 (fst cube_state) (snd cube_state 1%nat)) (is_dbl (DF (6004799503160661, -54)%Z)) = true /\
  sure (tstate (KSetQ 0 1 3 :: nil)%Z) (fun '(nf, m) =>
    sure (hash_key dyops (nfc tpol) true 100 nf (m 0%nat)) (is_dbl (DF (6004799503160661, -54)%Z))) = true.
Proof. vm_compute. split; reflexivity. Qed.
