(** Property C56: programs on elements return, with the results of exact
    arithmetic; and C23-C30 for calls that need not be known to return.
    [library] collects the contracts of FLINT's balls and antic's arithmetic for a
    field of degree at least two, [ready] says that the enclosure of the field is
    small and its generator not tiny, and [answers] that the result does not
    depend on the fuel and is as said, or undefined behaviour in the case that
    some enclosure met on the way is so sharp that twice its accuracy in bits
    overflows a word. *)
Require Import Reals List ZArith Bool Lia Lra.
From Verif Require Import PolyR RootSpec RootModel ExtraModel Dyadic DyadicProofs ArbModel ArbSpec ArbProofs RefineProofs DyBall DyBallProofs
  ElemModel ElemSpec ElemProofs ElemHist NfArith NfArithProofs ElemMore ElemRefute ElemEdge GetdModel GetdSpec RateSpec DyRate EndsSpec RefineEnds EndsRefute EndsMain
  DefSpec DefMain DefRefute.
Import ListNotations.
Open Scope R_scope.

(** C56: false when the generator is tiny: in the field of 2^(-599/3) the sign of
    a sum equal to the generator is undefined. *)
Theorem C56_programs_refuted : exists pol a x l nf m, reached pol a x l nf m /\ library dyops (nfc pol) pol x /\
  allowed pol (values x m) (KSgn 0) /\ run dyops (nfc pol) true 100 nf m (KSgn 0) = Undef.
Proof. exact program_refuted. Qed.
Print Assumptions C56_programs_refuted.

Theorem C56_programs_partial : forall o n pol x, library o n pol x -> exists r0, 0 < r0 /\ forall debug nf, ready pol x r0 nf ->
  forall m l, mem_ok pol x m -> Forall (call_ok pol) l -> Forall (sound_call pol) l -> Forall modest l -> legal pol x (values x m) l ->
  answers (fun fuel => runs o n debug fuel nf m l)
    (fun '(nf', m') => ready pol x r0 nf' /\ mem_ok pol x m' /\ effects x (values x m) l (values x m')) (word_overflow o pol (f_emb nf)).
Proof. exact program_answers. Qed.
Print Assumptions C56_programs_partial.

Theorem C23_total_partial : forall o n pol x, library o n pol x -> exists r0, 0 < r0 /\ forall debug nf, ready pol x r0 nf ->
  forall y, elem_ok pol x y -> answers (fun fuel => sgn o debug fuel nf y) (fun '(nf', b, s) => s = Rsgn (ev x (r_elem y))) (word_overflow o pol (f_emb nf)).
Proof. exact sgn_answers. Qed.
Print Assumptions C23_total_partial.

Theorem C24_total_partial : forall o n pol x, library o n pol x -> exists r0, 0 < r0 /\ forall debug nf, ready pol x r0 nf ->
  forall y z, elem_ok pol x y -> elem_ok pol x z ->
  answers (fun fuel => cmp o n debug fuel nf y z) (fun '(nf', b, c, s) => s = Rsgn (ev x (r_elem y) - ev x (r_elem z))) (word_overflow o pol (f_emb nf)).
Proof. exact cmp_answers. Qed.
Print Assumptions C24_total_partial.

Theorem C25_total_partial : forall o n pol x, library o n pol x -> exists r0, 0 < r0 /\ forall debug nf, ready pol x r0 nf ->
  forall y p q, elem_ok pol x y -> (0 < q)%Z ->
  answers (fun fuel => cmp_q o n debug fuel nf y p q) (fun '(nf', b, s) => s = Rsgn (ev x (r_elem y) - IZR p / IZR q)) (word_overflow o pol (f_emb nf)).
Proof. exact cmp_q_answers. Qed.
Print Assumptions C25_total_partial.

(** C26, C27: false for zero in degree three or more: the first coefficient of an
    empty polynomial is read (rounding_template.h:56; sgn.c:27, cmp.c:42-46 and
    cmp_fmpq.c:29 look for zero first). *)
Theorem C26_zero_refuted : exists pol a x l nf m, reached pol a x l nf m /\ 1 < x < 2 /\ ev x (r_elem (m 0%nat)) = 0 /\
  floor dyops true 100 nf (m 0%nat) = Undef /\ ceil dyops true 100 nf (m 0%nat) = Undef /\
  ev x (r_elem (m 2%nat)) = 1 /\ fdiv dyops (nfc pol) true false 100 nf (m 0%nat) (m 2%nat) = Undef.
Proof. exact zero_refuted. Qed.
Print Assumptions C26_zero_refuted.

Theorem C26_total_partial : forall o n pol x, library o n pol x -> exists r0, 0 < r0 /\ forall debug nf, ready pol x r0 nf ->
  forall y, elem_ok pol x y -> ev x (r_elem y) <> 0 \/ (length pol <= 3)%nat ->
  answers (fun fuel => floor o debug fuel nf y) (fun '(nf', b, z) => is_floor (ev x (r_elem y)) z) (word_overflow o pol (f_emb nf)) /\
  answers (fun fuel => ceil o debug fuel nf y) (fun '(nf', b, z) => is_ceil (ev x (r_elem y)) z) (word_overflow o pol (f_emb nf)).
Proof. exact floor_answers. Qed.
Print Assumptions C26_total_partial.

Theorem C27_total_partial : forall o n pol x, library o n pol x -> exists r0, 0 < r0 /\ forall debug nf, ready pol x r0 nf ->
  forall same y z, elem_ok pol x y -> elem_ok pol x z -> (same = true -> r_elem y = r_elem z) -> ev x (r_elem z) <> 0 ->
  ev x (r_elem y) <> 0 \/ (length pol <= 3)%nat ->
  answers (fun fuel => fdiv o n debug same fuel nf y z) (fun '(nf', b, c, q) => is_floor (ev x (r_elem y) / ev x (r_elem z)) q) (word_overflow o pol (f_emb nf)).
Proof. exact fdiv_answers. Qed.
Print Assumptions C27_total_partial.

Theorem C28_total_partial : forall o n pol x, library o n pol x -> exists r0, 0 < r0 /\ forall debug nf, ready pol x r0 nf ->
  forall y k, elem_ok pol x y -> answers (fun fuel => cfrac o n debug fuel nf y k)
    (fun '(nf', cs, w) => cf (ev x (r_elem y)) cs (ev x (r_elem w)) /\ (length cs = k \/ (length cs < k)%nat /\ ev x (r_elem w) = 0)) (word_overflow o pol (f_emb nf)).
Proof. exact cfrac_answers. Qed.
Print Assumptions C28_total_partial.

Theorem C29_total_partial : forall o n pol x, library o n pol x -> round_sharp o -> exists r0, 0 < r0 /\ forall debug nf, ready pol x r0 nf ->
  forall y prec, elem_ok pol x y -> (0 <= prec)%Z -> (prec + 2 < WORD_MAX)%Z -> answers (fun fuel => get_arb o debug fuel nf y prec)
    (fun '(nf', b, r) => inb (ev x (r_elem y)) r /\ exists m s, r = Fin m s /\ dyv s * pw2 prec <= Rabs (dyv m)) (word_overflow o pol (f_emb nf)).
Proof. exact get_arb_answers. Qed.
Print Assumptions C29_total_partial.

Theorem C30_total_partial : forall o n pol x, library o n pol x -> exists r0, 0 < r0 /\ forall debug nf, ready pol x r0 nf ->
  forall y md, elem_ok pol x y -> answers (fun fuel => get_d o n debug fuel nf y md)
    (fun '(nf', y', d) => (in_range md (ev x (r_elem y)) -> is_round md (ev x (r_elem y)) d) /\
       (~ fraction (ev x (r_elem y)) -> MAX < ev x (r_elem y) -> d = DInf false) /\
       (~ fraction (ev x (r_elem y)) -> ev x (r_elem y) < - MAX -> d = DInf true)) (word_overflow o pol (f_emb nf)).
Proof. exact get_d_answers. Qed.
Print Assumptions C30_total_partial.

(** The hypotheses can be met: the field of the cube root of 2 at 64 bits with an
    enclosure of any radius, and a program on it with a division and a
    continued fraction. *)
Example C56_case : exists z, z * z * z = 2 /\ library dyops (nfc cube_pol) cube_pol z /\
  (forall r0, 0 < r0 -> exists nf, f_prec nf = 64%Z /\ ready cube_pol z r0 nf) /\
  (forall pre, let l := [KGen 0; KAddZ 1 0 1; KInv 2 1; KSub 3 2 0; KSgn 3; KFdiv 1 2; KCfrac 4 0 5]%Z in
    Forall (call_ok cube_pol) l /\ Forall (sound_call cube_pol) l /\ Forall modest l /\ legal cube_pol z pre l).
Proof.
  destruct cube_root as (z & Hz & E).
  assert (G : 1 < z) by (apply Rnot_le_lt; intros W; assert (0 <= z * z) by nra; assert (z * z * z <= z * z) by nra; assert (0 < z) by nra; nra).
  exists z. split; [exact E|]. split; [|split].
  - constructor; [exact dyops_ok|exact dyops_conv|exact dyops_rate|apply cube_minimal, E|cbn; lia|apply nfc_ok, cube_minimal, E].
  - intros r0 H0. destruct (small_ball_exists z r0 H0) as (m & r & I & R).
    exists {| f_pol := cube_pol; f_den := 1; f_emb := Fin m r; f_prec := 64; f_imm := 0 |}%Z. split; [reflexivity|].
    split; [repeat split; cbn [f_pol f_emb f_prec f_imm]; try assumption; lia|]. split; [reflexivity|]. cbn [f_prec].
    apply Rle_trans with 1; [change 1 with (pw2 0); apply pw2_le; lia|]. rewrite Rabs_pos_eq by lra. change (z ^ (length cube_pol - 2)) with (z * (z * 1)). nra.
  - intros pre l. split; [repeat constructor; cbn; lia|]. split; [repeat constructor; cbn; lia|]. split; [repeat constructor|].
    repeat (constructor; [cbn; try exact I|intros v' Hv; inversion Hv; subst; clear Hv]).
    + cbn. lra.
    + cbn. split; [apply Rinv_neq_0_compat; lra|left; lra].
    + constructor.
Qed.
