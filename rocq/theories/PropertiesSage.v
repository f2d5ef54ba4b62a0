(** Elements of RealEmbeddedNumberField in SageMath: C72. *)
Require Import Reals List ZArith Bool Lia Lra.
From Verif Require Import PolyR RootSpec RootModel ExtraModel ElemProofs Dyadic ArbModel ArbSpec DyBall DyBallProofs ElemModel ElemSpec NfArith NfArithProofs ElemRefute
  CxxModel CxxSpec CxxProofs CxxSound CxxRefute PyModel PySpec SageModel SageSpec SageElem SageRefute.
Import ListNotations.
Open Scope R_scope.

(** ** C72

    An element of a RealEmbeddedNumberField and its image in the SageMath number
    field are the same real number; the operators of SageMath compute with these
    numbers, and a division by zero raises an exception.

    False as stated: an element of another field is accepted and stands for
    another number in SageMath. *)
Theorem C72_foreign_refuted : exists pol x w a v, (forall f, minimal (pol f) (x f)) /\ exact_world pol w /\
  to_number_field w a = Ret v /\ rational_poly v (x (s_parent a)) <> value x w (s_obj a).
Proof. exact foreign. Qed.
Print Assumptions C72_foreign_refuted.

(** The number three of a field of higher degree is accepted but cannot be
    converted. *)
Theorem C72_higher_refuted : exists pol x w a, (forall f, minimal (pol f) (x f)) /\ exact_world pol w /\
  value x w (s_obj a) = 3 /\ to_number_field w a = Throw.
Proof. exact higher. Qed.
Print Assumptions C72_higher_refuted.

(** Division by zero ends the process, always. *)
Theorem C72_zero_refuted : forall o ops debug fuel pol x, (forall f, minimal (pol f) (x f)) ->
  forall w k a b, exact_world pol w -> s_parent b = s_parent a ->
  belongs pol x w (s_parent a) (s_obj a) -> belongs pol x w (s_parent a) (s_obj b) -> k <> s_obj a -> k <> s_obj b ->
  value x w (s_obj b) = 0 -> s_op o ops debug fuel false Div w k a b = Abort.
Proof. exact s_div_zero. Qed.
Print Assumptions C72_zero_refuted.

(** For C++ elements of the field of the parent, and rational numbers of fields of
    at most its degree: conversion, *)
Theorem C72_value_partial : forall pol x, (forall f, minimal (pol f) (x f)) ->
  forall w a, exact_world pol w -> belongs pol x w (s_parent a) (s_obj a) ->
  exists v, to_number_field w a = Ret v /\ stands_for (x (s_parent a)) (List.length (pol (s_parent a)) - 1) v (value x w (s_obj a)).
Proof. exact to_nf_ok. Qed.
Print Assumptions C72_value_partial.

(** arithmetic, which gives such elements again, *)
Theorem C72_arithmetic_partial : forall o ops debug fuel pol x, (forall f, minimal (pol f) (x f)) -> (forall f, nf_ok (pol f) (x f) (ops (pol f))) ->
  forall p w k a b, exact_world pol w -> s_parent b = s_parent a ->
  belongs pol x w (s_parent a) (s_obj a) -> belongs pol x w (s_parent a) (s_obj b) -> k <> s_obj a -> k <> s_obj b ->
  (p = Div -> value x w (s_obj b) <> 0) ->
  exists w' c, s_op o ops debug fuel false p w k a b = Val (Ret (w', c)) /\ exact_world pol w' /\ s_parent c = s_parent a /\ s_obj c = k /\
    belongs pol x w' (s_parent a) k /\ gave x w w' k (real_op p (value x w (s_obj a)) (value x w (s_obj b))).
Proof. exact s_op_ok. Qed.
Print Assumptions C72_arithmetic_partial.
Theorem C72_neg_partial : forall o ops debug fuel pol x, (forall f, minimal (pol f) (x f)) -> (forall f, nf_ok (pol f) (x f) (ops (pol f))) ->
  forall w k a, exact_world pol w -> belongs pol x w (s_parent a) (s_obj a) -> k <> s_obj a ->
  exists w' c, s_neg o ops debug fuel w k a = Val (Ret (w', c)) /\ exact_world pol w' /\ s_parent c = s_parent a /\ s_obj c = k /\
    belongs pol x w' (s_parent a) k /\ gave x w w' k (- value x w (s_obj a)).
Proof. exact s_neg_ok. Qed.
Print Assumptions C72_neg_partial.

(** and the six relations, if refinement cannot lose the root (see C40). *)
Theorem C72_order_partial : forall o ops debug fuel pol x N, (forall f, setting o (ops (pol f)) (pol f) (x f) (N f)) ->
  forall r w a b w' t, sound_world pol x N w -> s_cmp o ops debug fuel r w a b = Val (Ret (w', t)) ->
  decides pol x N w w' t (real_rel r (value x w (s_obj a)) (value x w (s_obj b))).
Proof. exact s_cmp_ok. Qed.
Print Assumptions C72_order_partial.

(** 3/2 sqrt 2, with 3/2 of the rational field, and its conversion; 1/0. *)
Example C72_case : exists z, (forall f, minimal (spol f) (sx z f)) /\ (forall f, nf_ok (spol f) (sx z f) (nfc (spol f))) /\ exact_world spol sworld /\
  belongs spol (sx z) sworld 1 0 /\ belongs spol (sx z) sworld 1 2 /\ value (sx z) sworld 2 <> 0 /\ value (sx z) sworld 5 = 0 /\
  match s_op dyops nfc true 100 false Mul sworld 9 (wrap 1 2) (wrap 1 0) with
  | Val (Ret (w, c)) => fld w (s_obj c) = 1%nat /\ to_number_field w c = Ret [(0, 1); (3, 2)]%Z
  | _ => False
  end /\
  s_op dyops nfc true 100 false Div sworld 9 (wrap 1 0) (wrap 1 5) = Abort.
Proof.
  destruct cube_root as (z & _ & Hz). exists z. split; [apply sminimal; exact Hz|]. split; [intros f; apply nfc_ok, sminimal; exact Hz|].
  split; [exact sexact|]. split; [left; reflexivity|].
  assert (V : value (sx z) sworld 2 = IZR 3 / IZR 2).
  { unfold value, ev, fld, num_of, val, sworld, sobj. cbn [w_objs ob_field ob_val r_elem e_num e_den sx]. rewrite !zeval_cons, zeval_nil. field. }
  split; [right; rewrite V; split; [exists 3%Z, 2%Z; split; [lia|reflexivity]|cbn; lia]|]. split; [rewrite V; lra|].
  split; [|split; [split; vm_compute; reflexivity|vm_compute; reflexivity]].
  unfold value, ev, fld, num_of, val, sworld, sobj. cbn [w_objs ob_field ob_val r_elem e_num e_den sx]. rewrite zeval_nil. unfold Rdiv. ring.
Qed.

(** The world of C39: 2^(1/3) and 3, compared. *)
Example C72_order : forall z, 1 < z < 2 -> z * z * z = 2 ->
  (forall f, setting dyops (nfc (epol f)) (epol f) (ex z f) (fun _ => True)) /\ sound_world epol (ex z) (fun _ _ => True) eworld /\
  exists w, s_cmp dyops nfc true 100 RLe eworld (wrap 1 0) (wrap 1 1) = Val (Ret (w, true)).
Proof.
  intros z Hz E. split; [apply esetting; exact E|]. split; [apply eworld_sound; assumption|].
  assert (C : match s_cmp dyops nfc true 100 RLe eworld (wrap 1 0) (wrap 1 1) with Val (Ret (_, b)) => b | _ => false end = true) by (vm_compute; reflexivity).
  destruct (s_cmp dyops nfc true 100 RLe eworld (wrap 1 0) (wrap 1 1)) as [[[w b]|]| | |]; try discriminate C. exists w. rewrite C. reflexivity.
Qed.
