(** Properties C08, C16 to C19, C21, C23 to C31, C40, C41, C43, C49, C50, C56 and C69 again: they fail with every ball arithmetic that works
    like FLINT's (FlSpec.v), not only with the one of DyBall.v.
    Models: ArbModel.v, EmbModel.v, ElemModel.v, GetdModel.v, CxxModel.v, CxxOpModel.v. *)
Require Import Reals List ZArith Lia Lra.
From Verif Require Import PolyR RootSpec Dyadic RootModel ArbModel ArbSpec DyBall DyBallProofs EmbModel
  ElemModel ElemSpec GetdModel RateSpec DefSpec DyRate NfArith NfArithProofs ElemRefute ElemEdge FlSpec FlProofs FlRefute FlEmb FlRoot FlWrong FlTiny CxxModel CxxSpec CxxOpModel FlCxx.
Import ListNotations.
Open Scope R_scope.

(** C08: (2^67 x - 2^67 - 16)^2 - 2 at 64 bits. *)
Theorem C08_root_flint_refuted : exists p fuel, (forall n d, (0 < d)%Z -> zeval p (IZR n / IZR d) <> 0) /\ length p = 3%nat /\
  (exists ints, isolate 0 fuel p = VDone [] ints /\ length ints = 2%nat) /\
  forall o, arb_ok o -> arb_fl o -> forall debug, exists nf, set_embeddings o debug 0 fuel p 1 64 = Val ([nf], 2%Z) /\
    forall x, inb x (f_emb nf) -> zeval p x <> 0.
Proof. exact root_every. Qed.
Print Assumptions C08_root_flint_refuted.

(** The answers in this field are wrong: for the smaller root x and the number
    q = 1 + 7 * 2^-66 below it, the sign of x - q is given as -1, x as less than q,
    the floor of x - q as -1 and its ceiling as 0. *)
Theorem C08_answers_flint_refuted : exists p fuel x qn qd l, (0 < qd)%Z /\ Z.gcd qn qd = 1%Z /\ minimal p x /\ (forall y, zeval p y = 0 -> x <= y) /\
  IZR qn / IZR qd < x < IZR qn / IZR qd + 1 /\
  forall o n, arb_ok o -> arb_fl o -> nf_ok p x n -> forall debug, exists nf m,
    set_embeddings o debug 0 fuel p 1 64 = Val ([nf], 2%Z) /\ runs o n debug fuel nf mem0 l = Val (nf, m) /\
    ev x (r_elem (m 0%nat)) = x /\ ev x (r_elem (m 1%nat)) = x - IZR qn / IZR qd /\ ev x (r_elem (m 2%nat)) = IZR qn / IZR qd /\
    (exists e, sgn o debug fuel nf (m 1%nat) = Val (nf, e, (-1)%Z)) /\
    (exists e1 e2, cmp o n debug fuel nf (m 0%nat) (m 2%nat) = Val (nf, e1, e2, (-1)%Z)) /\
    (exists e, cmp_q o n debug fuel nf (m 0%nat) qn qd = Val (nf, e, (-1)%Z)) /\
    (exists e, floor o debug fuel nf (m 1%nat) = Val (nf, e, (-1)%Z)) /\
    (exists e, ceil o debug fuel nf (m 1%nat) = Val (nf, e, 0%Z)).
Proof. exact wrong_answers. Qed.
Print Assumptions C08_answers_flint_refuted.

(** C21: asked for its sign, x - q gets an enclosure without it. *)
Theorem C21_flint_refuted : exists p fuel x l, minimal p x /\ (forall y, zeval p y = 0 -> x <= y) /\ Forall (call_ok p) l /\
  forall o n, arb_ok o -> arb_fl o -> nf_ok p x n -> forall debug, exists nf m,
    set_embeddings o debug 0 fuel p 1 64 = Val ([nf], 2%Z) /\ runs o n debug fuel nf mem0 l = Val (nf, m) /\
    ~ inb (ev x (r_elem (m 1%nat))) (r_emb (m 1%nat)).
Proof. exact wrong_enclosure. Qed.
Print Assumptions C21_flint_refuted.

(** C16: 41x^2-16x+1 at precision 12. *)
Theorem C16_bisection_flint_refuted : exists pol a x prec, unique_root pol a /\ simple_root pol x /\ inb x a /\ forall o, arb_ok o -> arb_fl o ->
  exists t, bisection_step o pol a prec = Val (true, Some t) /\ ~ inb x t.
Proof. exact bisection_every. Qed.
Print Assumptions C16_bisection_flint_refuted.

(** C17: the field is created and keeps the enclosure without a root. *)
Theorem C17_check_flint_refuted : exists pol a, (forall x, inb x a -> zeval pol x <> 0) /\ forall o, arb_fl o -> forall debug fuel,
  exists nf, renf_init o debug (S fuel) pol 1 a 64 = Val nf /\ f_emb nf = a.
Proof. exact check_every. Qed.
Print Assumptions C17_check_flint_refuted.

(** C18: for a field whose enclosure isolates its root, one call of the
    refinement is enough. *)
Theorem C18_refine_flint_refuted : exists nf x prec, unique_root (f_pol nf) (f_emb nf) /\ simple_root (f_pol nf) x /\ inb x (f_emb nf) /\ f_imm nf = 0%Z /\
  forall o, arb_ok o -> arb_fl o -> forall debug fuel, exists nf', refine o debug (S (S fuel)) nf prec = Val nf' /\ ~ inb x (f_emb nf').
Proof. exact refine_every. Qed.
Print Assumptions C18_refine_flint_refuted.

(** C19: both fields are created at the default precision. *)
Theorem C19_equal_flint_refuted : exists pol a1 a2 x y, x <> y /\ inb x a1 /\ zeval pol x = 0 /\ (forall z, inb z a1 -> zeval pol z = 0 -> z = x) /\
  inb y a2 /\ zeval pol y = 0 /\ (forall z, inb z a2 -> zeval pol z = 0 -> z = y) /\
  forall o, arb_fl o -> forall debug, exists nf1 nf2, renf_init o debug 300 pol 1 a1 64 = Val nf1 /\ renf_init o debug 300 pol 1 a2 64 = Val nf2 /\
    f_emb nf1 = a1 /\ f_emb nf2 = a2 /\ renf_equal nf1 nf2 = true.
Proof. exact equal_every. Qed.
Print Assumptions C19_equal_flint_refuted.

(** C50: the midpoint of the value at the common endpoint of two intervals is
    rounded to zero at 128 bits. *)
Theorem C50_embeddings_flint_refuted : exists p fuel, (forall n d, (0 < d)%Z -> Z.gcd n d = 1%Z -> zeval p (IZR n / IZR d) <> 0) /\
  length p = 4%nat /\ (exists ints, isolate 0 fuel p = VDone [] ints /\ length ints = 3%nat) /\
  forall o, arb_fl o -> forall debug, set_embeddings o debug 0 fuel p 3 64 = Abort.
Proof. exact embeddings_every. Qed.
Print Assumptions C50_embeddings_flint_refuted.

(** C23 to C30, C41 and C56: the generator 2^(-599/3) after an addition and a
    subtraction, which leave an enclosure with the midpoint 0; the evaluation is then
    tried at precision -134.  The field is made from an enclosure with 65 bits. *)
Theorem C23_to_C29_flint_refuted : exists pol a x l, minimal pol x /\ inb x a /\ (forall z, inb z a -> zeval pol z = 0 -> z = x) /\ 0 < x < 1 /\
  forall o n, arb_ok o -> arb_fl o -> nf_ok pol x n -> forall debug fuel, exists nf m, came o n debug (S fuel) pol a l nf m /\
  ev x (r_elem (m 0%nat)) = x /\ ev x (r_elem (m 1%nat)) = 1 /\ ev x (r_elem (m 2%nat)) = 0 /\
  sgn o debug (S fuel) nf (m 0%nat) = Undef /\
  cmp o n debug (S fuel) nf (m 0%nat) (m 2%nat) = Undef /\
  cmp_q o n debug (S fuel) nf (m 0%nat) 1 (2 ^ 200) = Undef /\
  floor o debug (S fuel) nf (m 0%nat) = Undef /\
  ceil o debug (S fuel) nf (m 0%nat) = Undef /\
  fdiv o n debug false (S fuel) nf (m 1%nat) (m 0%nat) = Undef /\
  cfrac o n debug (S fuel) nf (m 0%nat) 1 = Undef /\
  get_arb o debug (S fuel) nf (m 0%nat) 64 = Undef /\
  (forall md, get_d o n debug (S fuel) nf (m 0%nat) md = Undef).
Proof. exact tiny_every. Qed.
Print Assumptions C23_to_C29_flint_refuted.

(** C30 and C41: conversion to a double in every mode, and the hash. *)
Theorem C41_hash_flint_refuted : exists pol a x l, minimal pol x /\ inb x a /\ (forall z, inb z a -> zeval pol z = 0 -> z = x) /\
  forall o n, arb_ok o -> arb_fl o -> nf_ok pol x n -> forall debug fuel, exists nf m, came o n debug (S fuel) pol a l nf m /\
  (forall md, get_d o n debug (S fuel) nf (m 0%nat) md = Undef) /\ hash_key o n debug (S fuel) nf (m 0%nat) = Undef.
Proof. exact tiny_hash. Qed.
Print Assumptions C41_hash_flint_refuted.

(** C31: the sign of the fresh generator is found. *)
Theorem C31_history_flint_refuted : exists pol a x l1 l2, minimal pol x /\ inb x a /\ (forall z, inb z a -> zeval pol z = 0 -> z = x) /\
  forall o n, arb_ok o -> arb_fl o -> nf_ok pol x n -> forall debug fuel, exists nf1 m1 nf2 m2,
  came o n debug (S fuel) pol a l1 nf1 m1 /\ came o n debug (S fuel) pol a l2 nf2 m2 /\ r_elem (m1 0%nat) = r_elem (m2 0%nat) /\
  (exists nf b, sgn o debug (S fuel) nf1 (m1 0%nat) = Val (nf, b, 1%Z)) /\ sgn o debug (S fuel) nf2 (m2 0%nat) = Undef.
Proof. exact tiny_history. Qed.
Print Assumptions C31_history_flint_refuted.

(** C56. *)
Theorem C56_programs_flint_refuted : exists pol a x l, inb x a /\ (forall z, inb z a -> zeval pol z = 0 -> z = x) /\
  forall o n, library o n pol x -> arb_fl o -> forall debug fuel, exists nf m, came o n debug (S fuel) pol a l nf m /\
  allowed pol (values x m) (KSgn 0) /\ run o n debug (S fuel) nf m (KSgn 0) = Undef.
Proof. exact tiny_program. Qed.
Print Assumptions C56_programs_flint_refuted.

(** C40, C43 and C69: a program of the C++ interface that computes x + 1 - 1 for a
    tiny generator x of field 1. *)
Theorem C40_C43_C69_flint_refuted : exists pol a x l, minimal pol x /\ inb x a /\ (forall z, inb z a -> zeval pol z = 0 -> z = x) /\ 0 < x < 1 /\ Forall xcall_ok l /\
  forall o ops, arb_ok o -> arb_fl o -> nf_ok pol x (ops pol) -> forall debug fuel, exists nf, renf_init o debug (S fuel) pol 1 a 64 = Val nf /\
  forall strict xs w, w_fields w 1%nat = nf -> xs 1%nat = x -> exists w', xruns o ops debug (S fuel) strict w l = Val w' /\
  value xs w' 0 = x /\ value xs w' 1 = 1 /\ value xs w' 2 = 0 /\ fld w' 0 = 1%nat /\ fld w' 1 = 1%nat /\ fld w' 2 = 1%nat /\
  (forall r, r <> REq -> r <> RNe -> rel_mpq o ops debug (S fuel) r w' 0 1 (2 ^ 200) = Undef /\
     rel_left o ops debug (S fuel) r w' (SMpq 1 (2 ^ 200)) 0 = Undef) /\
  rel_objs o ops debug (S fuel) RLt w' 0 2 = Undef /\ rel_objs o ops debug (S fuel) RGe w' 0 2 = Undef /\
  sgn_obj o debug (S fuel) w' 0 = Undef /\ floor_obj o debug (S fuel) rd_floor w' 0 = Undef /\ floor_obj o debug (S fuel) rd_ceil w' 0 = Undef /\
  floordiv o ops debug (S fuel) strict w' 1 0 = Undef.
Proof. exact tiny_cxx. Qed.
Print Assumptions C40_C43_C69_flint_refuted.

(** C49: x^2 + 4x - 1 with the ball 0 +/- 1/2. *)
Theorem C49_flint_refuted : exists pol a, unique_root pol a /\ forall o, arb_fl o -> forall debug fuel,
  check_unique o fuel pol a 64 = Val true /\ renf_init o debug fuel pol 1 a 64 = Undef.
Proof. exact overflow_every. Qed.
Print Assumptions C49_flint_refuted.

(** There are such libraries. *)
Example Fl_case : arb_ok dyops /\ arb_fl dyops.
Proof. split; [exact dyops_ok|exact dyops_fl]. Qed.
Example Fl_library_case : exists x, zeval tpol x = 0 /\ library dyops (nfc tpol) tpol x.
Proof.
  destruct troot as (x & _ & Zx). exists x. split; [exact Zx|]. pose proof (tminimal x Zx) as Hm.
  constructor; [exact dyops_ok|exact dyops_conv|exact dyops_rate|exact Hm|cbn; lia|apply nfc_ok, Hm].
Qed.
