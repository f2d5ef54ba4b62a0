(** The derived operators of C++ elements: C69. *)
Require Import Reals List ZArith Bool Lia Lra.
From Verif Require Import PolyR RootSpec Dyadic ArbModel ArbSpec DyBall DyBallProofs ElemModel ElemSpec NfArith NfArithProofs ElemRefute
  CxxModel CxxSpec CxxProofs CxxSound CxxRefute CxxOpModel CxxOpSpec CxxOp CxxOpRefute.
Import ListNotations.
Open Scope R_scope.

(** [k] is the new object.  With an element on both sides: *)
Theorem C69_elements : forall o ops debug fuel pol x, (forall f, minimal (pol f) (x f)) -> (forall f, nf_ok (pol f) (x f) (ops (pol f))) ->
  forall swapped p w k i j, exact_world pol w -> k <> i -> k <> j ->
  fld w i = fld w j \/ rational (value x w i) \/ rational (value x w j) -> (p = Div -> value x w j <> 0) ->
  exists w', op_objs o ops debug fuel false swapped p w k i j = Val (Ret w') /\ exact_world pol w' /\
    gave x w w' k (real_op p (value x w i) (value x w j)) /\ (fld w' k = fld w i \/ fld w' k = fld w j).
Proof. exact op_objs_ok. Qed.
Print Assumptions C69_elements.

Theorem C69_throws : forall o ops debug fuel pol x, (forall f, minimal (pol f) (x f)) ->
  forall strict swapped p w k i j, exact_world pol w -> k <> i -> k <> j ->
  fld w i <> fld w j -> ~ rational (value x w i) -> ~ rational (value x w j) ->
  op_objs o ops debug fuel strict swapped p w k i j = Val Throw.
Proof. exact op_objs_throws. Qed.
Print Assumptions C69_throws.

(** A number on the right: the result is in the field of the element. *)
Theorem C69_right : forall o ops debug fuel pol x, (forall f, minimal (pol f) (x f)) -> (forall f, nf_ok (pol f) (x f) (ops (pol f))) ->
  forall p w k i s, exact_world pol w -> scal_ok s -> (p = Div -> scal_val s <> 0) ->
  exists w', op_right o ops debug fuel p w k i s = Val (Ret w') /\ exact_world pol w' /\
    gave x w w' k (real_op p (value x w i) (scal_val s)) /\ fld w' k = fld w i.
Proof. exact op_right_ok. Qed.
Print Assumptions C69_right.

(** A number on the left: the result may be in the rational field instead, if it is
    rational.  No exception, even if compiled with LIBEANTIC_STRICT_BINOP. *)
Theorem C69_left : forall o ops debug fuel pol x, (forall f, minimal (pol f) (x f)) -> (forall f, nf_ok (pol f) (x f) (ops (pol f))) ->
  forall strict p w k s j, exact_world pol w -> k <> j -> scal_ok s -> (p = Div -> value x w j <> 0) ->
  exists w', op_left o ops debug fuel strict p w k s j = Val (Ret w') /\ exact_world pol w' /\
    gave x w w' k (real_op p (scal_val s) (value x w j)) /\ (fld w' k = fld w j \/ fld w' k = 0%nat /\ rational (value x w j)).
Proof. exact op_left_ok. Qed.
Print Assumptions C69_left.

(** Unary operators. *)
Theorem C69_plus : forall pol x w k i, exact_world pol w -> made_in pol x w (plus w k i) k (fld w i) (value x w i).
Proof. exact plus_ok. Qed.
Print Assumptions C69_plus.
Theorem C69_bool : forall o ops debug fuel pol x, (forall f, minimal (pol f) (x f)) ->
  forall w i, exact_world pol w -> exists b, to_bool o ops debug fuel w i = Val (Ret (w, b)) /\ (b = true <-> value x w i <> 0).
Proof. exact to_bool_ok. Qed.
Print Assumptions C69_bool.

(** Relations with a number on the left: false as stated, as in C40. *)
Theorem C69_relation_refuted : exists pol x w l w' w'' b s, fresh pol x w /\ Forall xcall_ok l /\ scal_ok s /\
  xruns dyops nfc true 100 false w l = Val w' /\ rel_left dyops nfc true 100 RGt w' s 0 = Val (Ret (w'', b)) /\
  ~ (b = true <-> scal_val s > value x w' 0).
Proof. exact left_refuted. Qed.
Print Assumptions C69_relation_refuted.
(** If refinement cannot lose the root, every answer is right. *)
Theorem C69_relation_partial : forall o ops debug fuel pol x N, (forall f, setting o (ops (pol f)) (pol f) (x f) (N f)) ->
  forall r w s j w' b, sound_world pol x N w -> scal_ok s -> rel_left o ops debug fuel r w s j = Val (Ret (w', b)) ->
  decides pol x N w w' b (real_rel r (scal_val s) (value x w j)).
Proof. exact rel_left_ok. Qed.
Print Assumptions C69_relation_partial.

(** a = 2^(1/3), of field 1: 1/2 - a and 1/a are of its field; 1 - 5/7 is of the
    rational field although 5/7 is of field 1. *)
Definition made (x : out (exc world)) (k : nat) : option (nat * elem) := match x with Val (Ret w) => Some (fld w k, num_of w k) | _ => None end.
Definition answer (x : out (exc (world * bool))) : option bool := match x with Val (Ret (_, b)) => Some b | _ => None end.
Example C69_case :
  made (op_left dyops nfc true 100 true Sub eworld 9 (SMpq 1 2) 0) 9 = Some (1%nat, {| e_num := [1; -2]; e_den := 2 |}%Z) /\
  made (op_left dyops nfc true 100 true Div eworld 9 (SInt UShort 1) 0) 9 = Some (1%nat, {| e_num := [0; 0; 1]; e_den := 2 |}%Z) /\
  made (op_left dyops nfc true 100 true Sub eworld 9 (SMpz 1) 3) 9 = Some (0%nat, {| e_num := [2]; e_den := 7 |}%Z) /\
  made (op_left dyops nfc true 100 true Mul eworld 9 (SMpz 2) 3) 9 = Some (1%nat, {| e_num := [10]; e_den := 7 |}%Z) /\
  made (op_objs dyops nfc true 100 false true Mul eworld 9 0 1) 9 = Some (1%nat, {| e_num := [0; 3]; e_den := 1 |}%Z) /\
  made (op_objs dyops nfc true 100 false false Sub eworld 9 1 0) 9 = Some (1%nat, {| e_num := [3; -1]; e_den := 1 |}%Z) /\
  answer (rel_left dyops nfc true 100 RLt eworld (SInt Short 1) 0) = Some true /\
  answer (rel_left dyops nfc true 100 RGe eworld (SMpq 5 4) 0) = Some false /\
  answer (to_bool dyops nfc true 100 eworld 7) = Some false.
Proof. vm_compute. repeat split. Qed.

(** This world meets the hypotheses. *)
Example C69_world : forall z, 1 < z < 2 -> z * z * z = 2 ->
  (forall f, minimal (epol f) (ex z f)) /\ (forall f, nf_ok (epol f) (ex z f) (nfc (epol f))) /\ exact_world epol eworld /\
  (forall f, setting dyops (nfc (epol f)) (epol f) (ex z f) (fun _ => True)) /\ sound_world epol (ex z) (fun _ _ => True) eworld /\
  scal_ok (SMpq 1 2) /\ value (ex z) eworld 0 <> 0.
Proof.
  intros z Hz E. split; [apply eminimal; exact E|]. split; [intros f; apply nfc_ok, eminimal; exact E|].
  split; [apply (sound_exact epol (ex z) (fun _ _ => True)), eworld_sound; assumption|].
  split; [apply esetting; exact E|]. split; [apply eworld_sound; assumption|]. split; [split; [lia|reflexivity]|].
  unfold value, fld, num_of, val, eworld, ev, sgen. cbn. unfold zeval. simpl. lra.
Qed.
