(** C95 for conversions to double and for hashes: their precisions are words. *)
Require Import Reals List ZArith Bool.
From Verif Require Import PolyR RootSpec RootModel ExtraModel Dyadic ArbModel ArbSpec DyBall ElemModel ElemSpec DyadicProofs NfArith ElemProofs ElemMore ElemExact ElemRefute ElemEdge ElemWrong
  GetdModel GetdSpec ArrModel IdxModel PrecWModel GetdWModel GetdWProofs.
Import ListNotations.
Open Scope Z_scope.

(** Whenever a double is returned it is the right one, and the one with unbounded precisions. *)
Theorem C95_double_partial : forall o n debug pol x N, setting o n pol x N -> forall fuel nf y md nf' y' d,
  field_ok pol x N nf -> elem_ok pol x y -> get_d_w o n debug fuel nf y md = Val (nf', y', d) ->
  r_elem y' = r_elem y /\ (in_range md (ev x (r_elem y)) -> is_round md (ev x (r_elem y)) d) /\
  (~ fraction (ev x (r_elem y)) -> (MAX < ev x (r_elem y))%R -> d = DInf false) /\
  (~ fraction (ev x (r_elem y)) -> (ev x (r_elem y) < - MAX)%R -> d = DInf true).
Proof. exact get_d_w_right. Qed.
Print Assumptions C95_double_partial.

Theorem C95_double_unbounded_partial : forall o n debug fuel nf x md r, get_d_w o n debug fuel nf x md = Val r -> get_d o n debug fuel nf x md = Val r.
Proof. exact get_d_unbounded. Qed.
Print Assumptions C95_double_unbounded_partial.

(** An overflow is the only other outcome. *)
Theorem C95_double_only_partial : forall o n debug fuel nf x md, get_d_w o n debug fuel nf x md = Undef \/ get_d_w o n debug fuel nf x md = get_d o n debug fuel nf x md.
Proof. exact get_d_only. Qed.
Print Assumptions C95_double_only_partial.

(** Equal elements, of any two fields, have equal hashes. *)
Theorem C95_hash_partial : forall o1 n1 pol1 x1 N1 o2 n2 pol2 x2 N2, setting o1 n1 pol1 x1 N1 -> setting o2 n2 pol2 x2 N2 ->
  forall debug1 debug2 fuel1 fuel2 nf1 nf2 y1 y2 nf1' nf2' y1' y2' d1 d2,
  field_ok pol1 x1 N1 nf1 -> field_ok pol2 x2 N2 nf2 -> elem_ok pol1 x1 y1 -> elem_ok pol2 x2 y2 ->
  ev x1 (r_elem y1) = ev x2 (r_elem y2) ->
  hash_key_w o1 n1 debug1 fuel1 nf1 y1 = Val (nf1', y1', d1) -> hash_key_w o2 n2 debug2 fuel2 nf2 y2 = Val (nf2', y2', d2) -> dbl_eq d1 d2.
Proof. exact hash_w_same. Qed.
Print Assumptions C95_hash_partial.

(** The cube root of 2 (see [elem_setting]), with and without a ball. *)
Example C95_case_double : let nf := fst cube_state in let x := snd cube_state 0%nat in let y := {| r_elem := r_elem x; r_emb := Top |} in
  sure (get_d_w dyops (nfc cube_pol) true 40 nf x RNear) (fun r => match snd r with DF d => dleb (5, -2) d && dleb d (21, -4) | _ => false end) = true /\
  sure (get_d_w dyops (nfc cube_pol) true 40 nf y RUp) (fun r => match snd r with DF d => dleb (5, -2) d && dleb d (21, -4) | _ => false end) = true /\
  sure (hash_key_w dyops (nfc cube_pol) true 40 nf y) (fun r => sure (hash_key_w dyops (nfc cube_pol) false 40 nf x) (fun t => dbl_eqb (snd r) (snd t))) = true.
Proof. cbv zeta. split; [vm_compute; reflexivity|]. split; vm_compute; reflexivity. Qed.

(** 2 * 2^62 is not a word: the loop overflows when it needs a precision that large. *)
Example C95_case_overflow : forall o debug f nf a, accuracy_loop_w o debug (S f) nf a Top (2 ^ 62) = Undef.
Proof. intros o debug f nf a. cbn [accuracy_loop_w]. replace (rel_accuracy Top <? 55) with true by (vm_compute; reflexivity). reflexivity. Qed.
