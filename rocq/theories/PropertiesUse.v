(** Properties C82 and C83: programs on elements, from the creation of the field to the
    answers; and C29 in degree one.  [calls] runs calls one after the other and collects
    their answers, [history] says that every call has its announced effect in exact
    arithmetic and the right answer. *)
Require Import Reals List ZArith Bool Lia Lra.
From Verif Require Import PolyR RootSpec RootModel ExtraModel Dyadic DyadicProofs ArbModel ArbSpec ArbProofs FieldProofs RefineProofs DyBall DyBallProofs DyRate
  ElemModel ElemSpec ElemProofs NfArith NfArithProofs ElemRefute GetdModel GetdSpec RateSpec EndsSpec EndsRefute DefSpec CreateSpec FlSpec FlProofs FineSpec FineDy MarginMain ConcModel ConcSpec
  MarginUse MarginOver LinearUse LinearRefute.
Import ListNotations.
Open Scope R_scope.

(** C82: a field of degree at least two is made from a ball below the explicit radius
    [margin], with the root not too close to its ends; then every program returns, its
    answers are right and the field is still that of the root.  The exception is an
    enclosure met on the way with more bits than half a word can count. *)
Theorem C82_programs : forall o n pol x X r0, library o n pol x -> arb_fl o -> arb_fine o -> margin pol x X r0 ->
  forall debug den m r mu prec, enough pol x X r0 mu prec -> mu <= x - (dyv m - dyv r) -> mu <= dyv m + dyv r - x -> dyv r <= r0 ->
  pw2 (2 - prec) <= Rabs x ^ (length pol - 2) ->
  forall el l, mem_ok pol x el -> Forall (call_ok pol) l -> Forall (sound_call pol) l -> Forall modest l -> legal pol x (values x el) l ->
  answers (fun fuel => bind (renf_init o debug fuel pol den (Fin m r) prec) (fun nf => calls o n debug fuel nf el l))
    (fun '(nf', el', r) => (f_pol nf' = pol /\ inb x (f_emb nf') /\ forall y, inb y (f_emb nf') -> zeval pol y = 0 -> y = x) /\
       mem_ok pol x el' /\ history x (values x el) l (values x el') r) (word_overflow o pol (Fin m r)).
Proof. exact margin_program. Qed.
Print Assumptions C82_programs.

(** The same with a double of an element at the end. *)
Theorem C82_doubles : forall o n pol x X r0, library o n pol x -> arb_fl o -> arb_fine o -> margin pol x X r0 ->
  forall debug den m r mu prec, enough pol x X r0 mu prec -> mu <= x - (dyv m - dyv r) -> mu <= dyv m + dyv r - x -> dyv r <= r0 ->
  pw2 (2 - prec) <= Rabs x ^ (length pol - 2) ->
  forall el l, mem_ok pol x el -> Forall (call_ok pol) l -> Forall (sound_call pol) l -> Forall modest l -> legal pol x (values x el) l ->
  forall i md, answers (fun fuel => bind (renf_init o debug fuel pol den (Fin m r) prec) (fun nf =>
      bind (calls o n debug fuel nf el l) (fun '(nf', el', _) => get_d o n debug fuel nf' (el' i) md)))
    (fun '(_, _, d) => exists v r, history x (values x el) l v r /\ (in_range md (v i) -> is_round md (v i) d) /\
       (~ fraction (v i) -> MAX < v i -> d = DInf false) /\ (~ fraction (v i) -> v i < - MAX -> d = DInf true)) (word_overflow o pol (Fin m r)).
Proof. exact margin_double. Qed.
Print Assumptions C82_doubles.

(** The hypotheses can be met: the square root of 2, given to 20 bits. *)
Example C82_case : exists z, z * z = 2 /\ 0 < z /\ library dyops (nfc sq_pol) sq_pol z /\ arb_fl dyops /\ arb_fine dyops /\
  margin sq_pol z (3 / 2) (/ IZR (2 ^ 20)) /\ enough sq_pol z (3 / 2) (/ IZR (2 ^ 20)) (/ IZR (2 ^ 22)) 64 /\
  / IZR (2 ^ 22) <= z - (dyv (1482910, -20)%Z - dyv (1, -20)%Z) /\ / IZR (2 ^ 22) <= dyv (1482910, -20)%Z + dyv (1, -20)%Z - z /\
  dyv (1, -20)%Z <= / IZR (2 ^ 20) /\ pw2 (2 - 64) <= Rabs z ^ (length sq_pol - 2) /\
  let l := [KGen 0; KAddZ 1 0 1; KInv 2 1; KSgn 2; KCmp 1 2; KFloor 1; KGetArb 2 50; KFdiv 1 2; KCfrac 3 0 4]%Z in
  mem_ok sq_pol z mem0 /\ Forall (call_ok sq_pol) l /\ Forall (sound_call sq_pol) l /\ Forall modest l /\ legal sq_pol z (values z mem0) l.
Proof.
  destruct sq_margin as (z & Hz & E & M & En). exists z. split; [exact E|]. split; [exact Hz|]. pose proof (sq_minimal z E) as Mi.
  assert (Z0 : 1.41421356 <= z <= 1.41421357) by nra.
  assert (V : dyv (1482910, -20)%Z = 1482910 / 1048576 /\ dyv (1, -20)%Z = / 1048576) by (unfold dyv, pw2; simpl; split; lra). destruct V as [V1 V2].
  split; [constructor; [exact dyops_ok|exact dyops_conv|exact dyops_rate|exact Mi|cbn; lia|apply nfc_ok, Mi]|].
  split; [exact dyops_fl|]. split; [exact dyops_fine|]. split; [exact M|]. split; [exact En|].
  rewrite V1, V2. change (2 ^ 22)%Z with 4194304%Z. change (2 ^ 20)%Z with 1048576%Z.
  split; [lra|]. split; [lra|]. split; [lra|].
  split; [apply Rle_trans with 1; [change 1 with (pw2 0); apply pw2_le; lia|]; rewrite Rabs_pos_eq by lra; cbn; lra|].
  split; [apply mem0_ok, Mi|].
  split; [repeat constructor; cbn; lia|]. split; [repeat constructor; cbn; lia|]. split; [repeat constructor; unfold modest, WORD_MAX; lia|].
  assert (z + 1 <> 0) by lra.
  repeat (constructor; [cbn; try exact I|intros v' Hv; inversion Hv; subst; clear Hv]); cbn; try lra.
  - split; [apply Rinv_neq_0_compat; lra|left; lra].
  - constructor.
Qed.

(** C30: false with every ball arithmetic meeting the contracts.  The number sqrt 2 +
    DBL_MAX - 1 becomes infinite in every direction, and the rational number
    DBL_MAX + 1, which is larger, becomes DBL_MAX.  (Hypotheses: [C82_case].) *)
Theorem C30_overflow_flint_refuted : exists z, z * z = 2 /\ 1 < z < 2 /\ let w := z + IZR (dbl_max_z - 1) in MAX < w < MAX + 1 /\ ev z over_rat = MAX + 1 /\
  ~ is_round RFloor w (DInf false) /\ ~ is_round RDown w (DInf false) /\ ~ is_round RNear w (DInf false) /\
  forall o n, library o n sq_pol z -> arb_fl o -> arb_fine o -> forall debug el, mem_ok sq_pol z el ->
    (forall md, answers (fun fuel => bind (renf_init o debug fuel sq_pol 1 over_ball 64) (fun nf =>
        bind (calls o n debug fuel nf el over_calls) (fun '(nf', el', _) => get_d o n debug fuel nf' (el' 0%nat) md)))
      (fun '(_, _, d) => d = DInf false) (word_overflow o sq_pol over_ball)) /\
    forall fuel nf b, get_d o n debug fuel nf {| r_elem := over_rat; r_emb := b |} RNear = Val (nf, {| r_elem := over_rat; r_emb := b |}, DF dbl_max).
Proof. exact over_every. Qed.
Print Assumptions C30_overflow_flint_refuted.

Example C30_overflow_flint_case : exists nf y, bind (renf_init dyops true 100 sq_pol 1 over_ball 64) (fun nf =>
    bind (calls dyops (nfc sq_pol) true 100 nf mem0 over_calls) (fun '(nf', el', _) => get_d dyops (nfc sq_pol) true 100 nf' (el' 0%nat) RDown)) = Val (nf, y, DInf false) /\
  r_elem y = {| e_num := [dbl_max_z - 1; 1]%Z; e_den := 1 |}.
Proof. eexists _, _. split; vm_compute; reflexivity. Qed.

(** C30: rational subnormals are rounded twice whatever the field and its arithmetic. *)
Theorem C30_subnormal_every_refuted : is_double (pw2 (-1074)) /\ (forall z, Rabs (ev z sub_elem - pw2 (-1074)) < Rabs (ev z sub_elem - dyv (2, -1074)%Z)) /\
  forall o n debug fuel nf b, get_d o n debug fuel nf {| r_elem := sub_elem; r_emb := b |} RNear =
    Val (nf, {| r_elem := sub_elem; r_emb := b |}, DF (2, -1074)%Z).
Proof. exact sub_every. Qed.
Print Assumptions C30_subnormal_every_refuted.

(** C83: in degree one programs return with the right answers whatever the enclosure of
    the generator and the correct ball arithmetic; no fuel is needed.  Without the
    generator (C20), refinement and [get_arb], which refines. *)
Theorem C83_rationals : forall o n pol x, arb_ok o -> minimal pol x -> nf_ok pol x n -> length pol = 2%nat ->
  forall debug fuel nf m l, f_pol nf = pol -> inb x (f_emb nf) -> (2 <= f_prec nf)%Z -> mem_ok pol x m ->
  Forall (call_ok pol) l -> Forall (sound_call pol) l -> Forall rational_call l -> legal pol x (values x m) l ->
  exists nf' m' r, calls o n debug fuel nf m l = Val (nf', m', r) /\ mem_ok pol x m' /\ history x (values x m) l (values x m') r.
Proof. exact linear_programs. Qed.
Print Assumptions C83_rationals.

Definition half_field : renf := {| f_pol := [-1; 2]; f_den := 1; f_emb := Fin (0, 0) (1, 0); f_prec := 64; f_imm := 0 |}%Z.
Definition half_program : list call := [KSetQ 0 (-7) 3; KInv 1 0; KFloor 0; KSgn 1; KCmp 0 1; KFdiv 0 1; KCfrac 2 0 5; KCeil 2]%Z.
Example C83_case : minimal [-1; 2]%Z (/ 2) /\ nf_ok [-1; 2]%Z (/ 2) (nfc [-1; 2]%Z) /\ inb (/ 2) (f_emb half_field) /\ mem_ok [-1; 2]%Z (/ 2) mem0 /\
  Forall (call_ok [-1; 2]%Z) half_program /\ Forall (sound_call [-1; 2]%Z) half_program /\ Forall rational_call half_program /\
  legal [-1; 2]%Z (/ 2) (values (/ 2) mem0) half_program /\
  exists nf m, calls dyops (nfc [-1; 2]%Z) true 0 half_field mem0 half_program =
    Val (nf, m, [ANone; ANone; AInt (-3); AInt (-1); AInt (-1); AInt 5; AInts [-3; 1; 2]; AInt 0]%Z).
Proof.
  assert (M : minimal [-1; 2]%Z (/ 2)).
  { constructor; [unfold zeval; cbn; lra|cbn; lia|cbn; lia|]. intros p Hp Hz. destruct p as [|c [|]]; [constructor| |cbn in Hp; lia].
    constructor; [|constructor]. unfold zeval in Hz. cbn in Hz. apply eq_IZR. lra. }
  split; [exact M|]. split; [apply nfc_ok, M|]. split; [apply inb_bounds; unfold dyv; cbn; lra|]. split; [apply mem0_ok, M|].
  split; [repeat constructor; cbn; lia|]. split; [repeat constructor; cbn; lia|]. split; [repeat constructor|].
  split; [|eexists; eexists; vm_compute; reflexivity].
  repeat (constructor; [cbn; try exact I|intros v' Hv; inversion Hv; subst; clear Hv]); cbn; try lra; try (right; lia).
  constructor.
Qed.

(** C29: false in degree one.  The field of the polynomial x is made from the ball of
    centre 0 and radius 1; a ball for 1/3 of more accuracy than the precision of the field
    is undefined with every correct ball arithmetic: the refinement doubles the relative
    accuracy of the ball around 0, which is -WORD_MAX (refine_embedding.c:34). *)
Theorem C29_rational_refuted : forall o n, arb_ok o -> nf_ok [0; 1]%Z 0 n -> exists prec, (0 <= prec)%Z /\ forall debug fuel el, exists el',
  renf_init o debug fuel [0; 1]%Z 1 zero_ball 64 = Val zero_field /\ run o n debug fuel zero_field el (KSetQ 0 1 3) = Val (zero_field, el') /\
  elem_ok [0; 1]%Z 0 (el' 0%nat) /\ ev 0 (r_elem (el' 0%nat)) = 1 / 3 /\ get_arb o debug (S fuel) zero_field (el' 0%nat) prec = Undef.
Proof. exact zero_get_arb. Qed.
Print Assumptions C29_rational_refuted.

(** C29: when the generator is enclosed exactly, as in the field of the rationals of the
    C++ interface, the quotient 1/3, which no ball without radius holds, is asked for with
    WORD_MAX = ARF_PREC_EXACT bits (get_arb.c:34-37).  arf.h allows this precision only for
    results that are exact and fit in memory. *)
Theorem C29_exact_refuted : (forall d, dyv d <> 1 / 3) /\ forall o debug fuel prec b, inb (1 / 3) b -> (- prec - 2 <= rel_error b)%Z ->
  renf_init o debug fuel [0; 1]%Z 1 bzero 64 = Val exact_field /\
  get_arb o debug (S fuel) exact_field {| r_elem := third; r_emb := b |} prec =
    (let c := o_set_q o 1 3 WORD_MAX in
     if (rel_error c <? - prec - 2)%Z then Val (exact_field, c, o_round o c (prec + 2))
     else bind (refine o debug fuel exact_field (2 * WORD_MAX)) (fun nf => get_arb_loop o debug fuel nf third (2 * WORD_MAX) 0 prec)).
Proof. split; [exact third_not_dyadic|exact exact_get_arb]. Qed.
Print Assumptions C29_exact_refuted.

(** With [dyops] 100 bits are too many. *)
Example C29_rational_case : nf_ok [0; 1]%Z 0 (nfc [0; 1]%Z) /\
  bind (run dyops (nfc [0; 1]%Z) true 10 zero_field mem0 (KSetQ 0 1 3)) (fun '(nf, el) => get_arb dyops true 10 nf (el 0%nat) 100) = Undef /\
  (exists nf b r, bind (run dyops (nfc [0; 1]%Z) true 10 zero_field mem0 (KSetQ 0 1 3)) (fun '(nf, el) => get_arb dyops true 10 nf (el 0%nat) 50) = Val (nf, b, r)) /\
  (- 100 - 2 <= rel_error (o_set_q dyops 1 3 64))%Z.
Proof.
  split; [apply nfc_ok, zero_minimal|]. split; [vm_compute; reflexivity|]. split; [do 3 eexists; vm_compute; reflexivity|]. vm_compute. discriminate.
Qed.
