(** Properties C20-C29, C31, C45 and C46: elements of number fields.
    [arb_ok o] and [nf_ok pol x n] are the contracts of FLINT's balls and of
    antic's exact arithmetic; [dyops] and [nfc pol] are concrete implementations
    satisfying them.  [setting] collects them with a generator [x] of minimal
    polynomial [pol] and a set of balls in which refinement cannot leave [x]
    (see C18). *)
Require Import Reals List ZArith Bool Lia Lra.
From Verif Require Import PolyR RootSpec RootModel ExtraModel Dyadic DyadicProofs ArbModel ArbSpec ArbProofs FieldProofs RefineProofs
  DyBall DyBallProofs ElemModel ElemSpec ElemProofs ElemLoops ElemHist NfArith NfArithProofs ElemMore ElemExact ElemRefute ElemEdge ElemWrong.
Import ListNotations.
Open Scope R_scope.

(** The contracts can be met, and the setting too: the field of the cube root of
    2, after calls leaving z, 1/3, z + 1/3 and z^2 + z/3. *)
Example elem_contracts_met : arb_ok dyops /\ round_sharp dyops /\ forall pol x, minimal pol x -> nf_ok pol x (nfc pol).
Proof. split; [exact dyops_ok|]. split; [exact dyops_sharp|exact nfc_ok]. Qed.

Example elem_setting : exists z, z * z * z = 2 /\ setting dyops (nfc cube_pol) cube_pol z (fun _ => True) /\
  field_ok cube_pol z (fun _ => True) (fst cube_state) /\ mem_ok cube_pol z (snd cube_state) /\
  values z (snd cube_state) 3%nat = z * z + z / 3.
Proof.
  destruct cube_root as (z & Hz & E). exists z. split; [exact E|]. split; [exact (cube_setting z E)|].
  destruct (cube_state_ok z Hz E) as [A B]. split; [exact A|]. split; [exact B|].
  assert (V : r_elem (snd cube_state 3%nat) = {| e_num := [0; 1; 3]; e_den := 3 |}%Z) by (vm_compute; reflexivity).
  unfold values. rewrite V. unfold ev. cbn [e_num e_den]. rewrite !zeval_cons, zeval_nil. field.
Qed.

(** C20: false in degree one.  The generator of Q given by 2x - 3 is 2/3, and
    that of Q given by x is undefined (division by zero). *)
Theorem C20_generator_refuted : exists pol a x l nf m, reached pol a x l nf m /\ l = [KGen 0] /\ ev x (r_elem (m 0%nat)) <> x.
Proof. exact gen_refuted. Qed.
Print Assumptions C20_generator_refuted.

Theorem C20_generator_zero_refuted : forall o n nf c, f_pol nf = [0; c]%Z -> gen o n nf = Undef.
Proof. exact gen_zero_undefined. Qed.
Print Assumptions C20_generator_zero_refuted.

(** With every arithmetic whatsoever, the inverse of the root is returned. *)
Theorem C20_inverse_refuted : forall o n nf c0 c1 x, f_pol nf = [c0; c1]%Z -> c1 <> 0%Z -> zeval [c0; c1]%Z x = 0 -> x <> 0 ->
  exists y, gen o n nf = Val y /\ ev x (r_elem y) = / x /\ (ev x (r_elem y) = x <-> x = 1 \/ x = -1).
Proof. exact gen_inverse. Qed.
Print Assumptions C20_inverse_refuted.
Example C20_inverse_case : let nf := {| f_pol := [-3; 2]; f_den := 1; f_emb := Fin (3, -1) (1, -2); f_prec := 64; f_imm := 0 |}%Z in
  f_pol nf = [-3; 2]%Z /\ zeval [-3; 2]%Z (3 / 2) = 0 /\ 3 / 2 <> 0.
Proof. split; [reflexivity|]. split; [rewrite !zeval_cons, zeval_nil; lra|lra]. Qed.

Theorem C20_generator_partial : forall o n pol x, nf_ok pol x n -> forall nf, f_pol nf = pol -> (3 <= length pol)%nat ->
  exists y, gen o n nf = Val y /\ canon pol (r_elem y) /\ ev x (r_elem y) = x.
Proof. exact gen_exact. Qed.
Print Assumptions C20_generator_partial.

Example C20_case : exists z, nf_ok cube_pol z (nfc cube_pol) /\ f_pol cube_nf = cube_pol /\ (3 <= length cube_pol)%nat.
Proof.
  destruct cube_root as (z & _ & E). exists z. split; [apply nfc_ok, cube_minimal, E|]. split; [reflexivity|cbn; lia].
Qed.

(** C21: false as stated.  In the field of 2^40(10y^2-7y)-1, y = x-2^66, made at
    the default precision from a ball containing only the root y = 0.7..., a
    later refinement moves to the other root. *)
Theorem C21_enclosure_refuted : exists pol a x l nf m, reached pol a x l nf m /\ ~ inb (ev x (r_elem (m 0%nat))) (r_emb (m 0%nat)).
Proof. exact enclosure_refuted. Qed.
Print Assumptions C21_enclosure_refuted.

Theorem C21_enclosure_partial : forall o n debug pol x N, setting o n pol x N ->
  forall fuel l nf m nf' m', field_ok pol x N nf -> mem_ok pol x m -> Forall (call_ok pol) l ->
  runs o n debug fuel nf m l = Val (nf', m') -> field_ok pol x N nf' /\ mem_ok pol x m'.
Proof. exact hist_ok. Qed.
Print Assumptions C21_enclosure_partial.

Example C21_case : Forall (call_ok cube_pol) cube_calls /\
  runs dyops (nfc cube_pol) true 100 cube_nf mem0 cube_calls = Val cube_state.
Proof. split; [repeat constructor|exact cube_run]. Qed.

(** C22: false for the quotient of a rational by an element stored in another
    object; 1/2 is computed as 2.  All other functions are exact, whatever the
    enclosures. *)
Theorem C22_arithmetic_refuted : exists pol a x l nf m nf' m', reached pol a x l nf m /\
  run dyops (nfc pol) true 100 nf m (KQDiv 1 1 1 0) = Val (nf', m') /\ ev x (r_elem (m 0%nat)) <> 0 /\
  ev x (r_elem (m' 1%nat)) <> (IZR 1 / IZR 1) / ev x (r_elem (m 0%nat)).
Proof. exact q_div_refuted. Qed.
Print Assumptions C22_arithmetic_refuted.

(** With every arithmetic and for all elements of different objects, the product is
    computed. *)
Theorem C22_product_refuted : forall o n debug pol x, minimal pol x -> nf_ok pol x n ->
  forall fuel nf m a qn qd c, exact_mem pol m -> (0 < qd)%Z -> a <> c ->
  values x m c <> 0 -> exists m', run o n debug fuel nf m (KQDiv a qn qd c) = Val (nf, m') /\ exact_mem pol m' /\
    values x m' = vset (values x m) a (values x m c * (IZR qn / IZR qd)) /\
    (values x m' a = IZR qn / IZR qd / values x m c <-> qn = 0%Z \/ values x m c = 1 \/ values x m c = -1).
Proof. exact q_div_product. Qed.
Print Assumptions C22_product_refuted.
Example C22_product_case : exists z, minimal cube_pol z /\ nf_ok cube_pol z (nfc cube_pol) /\ exact_mem cube_pol (snd cube_state) /\
  values z (snd cube_state) 1%nat = 1 / 3.
Proof.
  destruct cube_root as (z & Hz & E). exists z. split; [apply cube_minimal, E|]. split; [apply nfc_ok, cube_minimal, E|].
  split; [intros i; apply (cube_state_ok z Hz E)|].
  assert (V : r_elem (snd cube_state 1%nat) = {| e_num := [1]; e_den := 3 |}%Z) by (vm_compute; reflexivity).
  unfold values. rewrite V. unfold ev. cbn [e_num e_den]. rewrite !zeval_cons, zeval_nil. field.
Qed.

Theorem C22_arithmetic_partial : forall o n debug pol x, minimal pol x -> nf_ok pol x n ->
  forall fuel nf m k nf' m', exact_mem pol m -> call_ok pol k -> arith k -> sound_call pol k ->
  run o n debug fuel nf m k = Val (nf', m') -> exact_mem pol m' /\ effect x (values x m) k (values x m').
Proof. exact arith_exact. Qed.
Print Assumptions C22_arithmetic_partial.

Example C22_case : exact_mem cube_pol (snd cube_state) /\ call_ok cube_pol (KDiv 0 3 2) /\ arith (KDiv 0 3 2) /\ sound_call cube_pol (KDiv 0 3 2) /\
  sure (run dyops (nfc cube_pol) true 100 (fst cube_state) (snd cube_state) (KDiv 0 3 2))
    (fun r => elem_eqb (r_elem (snd r 0%nat)) {| e_num := [0; 1]; e_den := 1 |}%Z) = true.
Proof.
  destruct cube_root as (z & Hz & E). split; [intros i; apply (cube_state_ok z Hz E)|].
  split; [exact I|]. split; [intros H; exact H|]. split; [exact I|]. vm_compute. reflexivity.
Qed.

(** C23: false as stated, by leaving the root as in C21, and undefined when the
    generator is tiny. *)
Theorem C23_sign_refuted : exists pol a x l nf m nf' b s, reached pol a x l nf m /\
  sgn dyops true 100 nf (m 0%nat) = Val (nf', b, s) /\ s <> Rsgn (ev x (r_elem (m 0%nat))).
Proof. exact sgn_refuted. Qed.
Print Assumptions C23_sign_refuted.

(** The same memory for C23-C29; [m 1] is one and [m 2] zero. *)
Theorem C23_to_C29_undefined_refuted : exists pol a x l nf m, reached pol a x l nf m /\ ev x (r_elem (m 0%nat)) = x /\ 0 < x < 1 /\
  sgn dyops true 100 nf (m 0%nat) = Undef /\
  cmp dyops (nfc pol) true 100 nf (m 0%nat) (m 2%nat) = Undef /\
  cmp_q dyops (nfc pol) true 100 nf (m 0%nat) 1 (2 ^ 200) = Undef /\
  floor dyops true 100 nf (m 0%nat) = Undef /\
  ceil dyops true 100 nf (m 0%nat) = Undef /\
  fdiv dyops (nfc pol) true false 100 nf (m 1%nat) (m 0%nat) = Undef /\
  cfrac dyops (nfc pol) true 100 nf (m 0%nat) 1 = Undef /\
  get_arb dyops true 100 nf (m 0%nat) 64 = Undef.
Proof. exact tiny_undefined. Qed.
Print Assumptions C23_to_C29_undefined_refuted.

Theorem C23_sign_partial : forall o n debug pol x N, setting o n pol x N ->
  forall fuel nf y nf' b s, field_ok pol x N nf -> elem_ok pol x y ->
  sgn o debug fuel nf y = Val (nf', b, s) -> s = Rsgn (ev x (r_elem y)).
Proof. exact sgn_right. Qed.
Print Assumptions C23_sign_partial.

Example C23_case : sure (sgn dyops true 100 (fst cube_state) (snd cube_state 2%nat)) (fun r => Z.eqb (snd r) 1) = true.
Proof. vm_compute. reflexivity. Qed.

(** C24. *)
Theorem C24_compare_refuted : exists pol a x l nf m nf' b c s, reached pol a x l nf m /\
  cmp dyops (nfc pol) true 100 nf (m 0%nat) (m 1%nat) = Val (nf', b, c, s) /\
  s <> Rsgn (ev x (r_elem (m 0%nat)) - ev x (r_elem (m 1%nat))).
Proof. exact cmp_refuted. Qed.
Print Assumptions C24_compare_refuted.

Theorem C24_compare_partial : forall o n debug pol x N, setting o n pol x N ->
  forall fuel nf y z nf' b c s, field_ok pol x N nf -> elem_ok pol x y -> elem_ok pol x z ->
  cmp o n debug fuel nf y z = Val (nf', b, c, s) -> s = Rsgn (ev x (r_elem y) - ev x (r_elem z)).
Proof. exact cmp_right. Qed.
Print Assumptions C24_compare_partial.

Example C24_case : sure (cmp dyops (nfc cube_pol) true 100 (fst cube_state) (snd cube_state 2%nat) (snd cube_state 3%nat)) (fun r => Z.eqb (snd r) (-1)) = true.
Proof. vm_compute. reflexivity. Qed.

(** C25. *)
Theorem C25_compare_q_refuted : exists pol a x l nf m p q nf' b s, reached pol a x l nf m /\ (0 < q)%Z /\
  cmp_q dyops (nfc pol) true 100 nf (m 0%nat) p q = Val (nf', b, s) /\
  s <> Rsgn (ev x (r_elem (m 0%nat)) - IZR p / IZR q).
Proof. exact cmp_q_refuted. Qed.
Print Assumptions C25_compare_q_refuted.

Theorem C25_compare_q_partial : forall o n debug pol x N, setting o n pol x N ->
  forall fuel nf y p q nf' b s, field_ok pol x N nf -> elem_ok pol x y -> (0 < q)%Z ->
  cmp_q o n debug fuel nf y p q = Val (nf', b, s) -> s = Rsgn (ev x (r_elem y) - IZR p / IZR q).
Proof. exact cmp_q_right. Qed.
Print Assumptions C25_compare_q_partial.

Example C25_case : sure (cmp_q dyops (nfc cube_pol) true 100 (fst cube_state) (snd cube_state 0%nat) 63 50) (fun r => Z.eqb (snd r) (-1)) = true.
Proof. vm_compute. reflexivity. Qed.

(** C26. *)
Theorem C26_floor_refuted : exists pol a x l nf m nf' b z, reached pol a x l nf m /\
  floor dyops true 100 nf (m 0%nat) = Val (nf', b, z) /\ ~ is_floor (ev x (r_elem (m 0%nat))) z.
Proof. exact floor_refuted. Qed.
Print Assumptions C26_floor_refuted.

Theorem C26_ceil_refuted : exists pol a x l nf m nf' b z, reached pol a x l nf m /\
  ceil dyops true 100 nf (m 0%nat) = Val (nf', b, z) /\ ~ is_ceil (ev x (r_elem (m 0%nat))) z.
Proof. exact ceil_refuted. Qed.
Print Assumptions C26_ceil_refuted.

Theorem C26_floor_partial : forall o n debug pol x N, setting o n pol x N ->
  forall fuel nf y nf' b z, field_ok pol x N nf -> elem_ok pol x y ->
  floor o debug fuel nf y = Val (nf', b, z) -> is_floor (ev x (r_elem y)) z.
Proof. exact floor_right. Qed.
Print Assumptions C26_floor_partial.

Theorem C26_ceil_partial : forall o n debug pol x N, setting o n pol x N ->
  forall fuel nf y nf' b z, field_ok pol x N nf -> elem_ok pol x y ->
  ceil o debug fuel nf y = Val (nf', b, z) -> is_ceil (ev x (r_elem y)) z.
Proof. exact ceil_right. Qed.
Print Assumptions C26_ceil_partial.

(** The bits used when the precision of the field does not settle the rounding: the
    fewest that hold both bounds found before and a sign. *)
Theorem C26_size : forall l r s, (rd_size l r <= s)%Z <-> (1 <= s /\ Z.abs l < 2 ^ (s - 1) /\ Z.abs r < 2 ^ (s - 1))%Z.
Proof. exact rd_size_spec. Qed.
Print Assumptions C26_size.

Example C26_size_case : rd_size (-1) 0 = 2%Z /\ rd_size 7 8 = 5%Z /\ rd_size 0 0 = 1%Z.
Proof. repeat split; reflexivity. Qed.

Example C26_case : sure (floor dyops true 100 (fst cube_state) (snd cube_state 3%nat)) (fun r => Z.eqb (snd r) 2) = true /\
  sure (ceil dyops true 100 (fst cube_state) (snd cube_state 3%nat)) (fun r => Z.eqb (snd r) 3) = true.
Proof. split; vm_compute; reflexivity. Qed.

(** Large numbers with a wide enclosure are rounded without refining the field: the
    ends are converted with as many bits as the larger of the two integers has. *)
Example C26_large : let y s := {| r_elem := {| e_num := [s * 2 ^ 100; 1]; e_den := 1 |}%Z; r_emb := Fin (s * 2 ^ 100, 0)%Z (2 ^ 100 + 2, 0)%Z |} in
  sure (renf_init dyops true 100 cube_pol 1 (Fin (5, -2) (1, -2))%Z 64) (fun nf =>
    sure (floor dyops true 100 nf (y 1%Z)) (fun '(nf', _, k) => Z.eqb (rel_accuracy (f_emb nf')) (rel_accuracy (f_emb nf)) && Z.eqb k (2 ^ 100 + 1)) &&
    sure (floor dyops true 100 nf (y (-1)%Z)) (fun '(nf', _, k) => Z.eqb (rel_accuracy (f_emb nf')) (rel_accuracy (f_emb nf)) && Z.eqb k (- 2 ^ 100 + 1)) &&
    sure (ceil dyops true 100 nf (y (-1)%Z)) (fun '(nf', _, k) => Z.eqb (rel_accuracy (f_emb nf')) (rel_accuracy (f_emb nf)) && Z.eqb k (- 2 ^ 100 + 2))) = true.
Proof. vm_compute. reflexivity. Qed.

(** C27. *)
Theorem C27_floor_div_refuted : exists pol a x l nf m nf' b c z, reached pol a x l nf m /\
  fdiv dyops (nfc pol) true false 100 nf (m 0%nat) (m 1%nat) = Val (nf', b, c, z) /\ ev x (r_elem (m 1%nat)) <> 0 /\
  ~ is_floor (ev x (r_elem (m 0%nat)) / ev x (r_elem (m 1%nat))) z.
Proof. exact fdiv_refuted. Qed.
Print Assumptions C27_floor_div_refuted.

(** [same]: whether the two arguments are the same object. *)
Theorem C27_floor_div_partial : forall o n debug pol x N, setting o n pol x N ->
  forall same fuel nf y z nf' b c q, field_ok pol x N nf -> elem_ok pol x y -> elem_ok pol x z -> (same = true -> r_elem y = r_elem z) ->
  fdiv o n debug same fuel nf y z = Val (nf', b, c, q) ->
  ev x (r_elem z) <> 0 /\ is_floor (ev x (r_elem y) / ev x (r_elem z)) q.
Proof. exact fdiv_right. Qed.
Print Assumptions C27_floor_div_partial.

Example C27_case : sure (fdiv dyops (nfc cube_pol) true false 100 (fst cube_state) (snd cube_state 3%nat) (snd cube_state 1%nat)) (fun r => Z.eqb (snd r) 6) = true /\
  sure (fdiv dyops (nfc cube_pol) true false 100 (fst cube_state) (snd cube_state 3%nat) (snd cube_state 0%nat)) (fun r => Z.eqb (snd r) 1) = true.
Proof. split; vm_compute; reflexivity. Qed.

(** C28. *)
Theorem C28_cfrac_refuted : exists pol a x l nf m nf' z w, reached pol a x l nf m /\
  cfrac dyops (nfc pol) true 100 nf (m 0%nat) 1 = Val (nf', [z], w) /\
  ~ is_floor (ev x (r_elem (m 0%nat))) z.
Proof. exact cfrac_refuted. Qed.
Print Assumptions C28_cfrac_refuted.

Theorem C28_cfrac_partial : forall o n debug pol x N, setting o n pol x N ->
  forall k fuel nf y nf' cs w, field_ok pol x N nf -> elem_ok pol x y ->
  cfrac o n debug fuel nf y k = Val (nf', cs, w) ->
  cf (ev x (r_elem y)) cs (ev x (r_elem w)) /\ (forall c l, cs = c :: l -> Forall (fun d => (1 <= d)%Z) l) /\
  (length cs = k \/ (length cs < k)%nat /\ ev x (r_elem w) = 0).
Proof. exact cfrac_right. Qed.
Print Assumptions C28_cfrac_partial.

Example C28_case : sure (cfrac dyops (nfc cube_pol) true 100 (fst cube_state) (snd cube_state 0%nat) 5) (fun r => zlist_eqb (snd (fst r)) [1; 3; 1; 5; 1]%Z) = true /\
  sure (cfrac dyops (nfc cube_pol) true 100 (fst cube_state) (snd cube_state 1%nat) 5) (fun r => zlist_eqb (snd (fst r)) [0; 3]%Z) = true.
Proof. split; vm_compute; reflexivity. Qed.

(** C29. *)
Theorem C29_ball_refuted : exists pol a x l nf m nf' b r, reached pol a x l nf m /\
  get_arb dyops true 100 nf (m 0%nat) 10 = Val (nf', b, r) /\ ~ inb (ev x (r_elem (m 0%nat))) r.
Proof. exact get_arb_refuted. Qed.
Print Assumptions C29_ball_refuted.

Theorem C29_ball_partial : forall o n debug pol x N, setting o n pol x N -> round_sharp o ->
  forall fuel nf y prec nf' b r, field_ok pol x N nf -> elem_ok pol x y ->
  (0 <= prec <= WORD_MAX)%Z -> get_arb o debug fuel nf y prec = Val (nf', b, r) ->
  inb (ev x (r_elem y)) r /\ exists m s, r = Fin m s /\ dyv s * pw2 prec <= Rabs (dyv m).
Proof. exact get_arb_accurate. Qed.
Print Assumptions C29_ball_partial.

Example C29_case : sure (get_arb dyops true 100 (fst cube_state) (snd cube_state 3%nat) 200) (fun r => is_finite (snd r)) = true.
Proof. vm_compute. reflexivity. Qed.

(** C31: false as stated; the sign of a tiny generator is found when the element
    is fresh and undefined after adding and subtracting 1. *)
Theorem C31_history_refuted : exists pol a x l1 nf1 m1 l2 nf2 m2,
  reached pol a x l1 nf1 m1 /\ reached pol a x l2 nf2 m2 /\ r_elem (m1 0%nat) = r_elem (m2 0%nat) /\
  (exists nf b, sgn dyops true 100 nf1 (m1 0%nat) = Val (nf, b, 1%Z)) /\ sgn dyops true 100 nf2 (m2 0%nat) = Undef.
Proof. exact history_refuted. Qed.
Print Assumptions C31_history_refuted.

(** Any two states of one field, e.g. after two histories (C21). *)
Theorem C31_sign_partial : forall o n debug pol x N, setting o n pol x N ->
  forall fuel1 fuel2 nf1 nf2 y1 y2 a1 a2 b1 b2 s1 s2,
  field_ok pol x N nf1 -> field_ok pol x N nf2 -> elem_ok pol x y1 -> elem_ok pol x y2 -> r_elem y1 = r_elem y2 ->
  sgn o debug fuel1 nf1 y1 = Val (a1, b1, s1) -> sgn o debug fuel2 nf2 y2 = Val (a2, b2, s2) -> s1 = s2.
Proof. exact sgn_history. Qed.
Print Assumptions C31_sign_partial.

Theorem C31_compare_partial : forall o n debug pol x N, setting o n pol x N ->
  forall fuel1 fuel2 nf1 nf2 y1 y2 z1 z2 a1 a2 b1 b2 c1 c2 s1 s2,
  field_ok pol x N nf1 -> field_ok pol x N nf2 -> elem_ok pol x y1 -> elem_ok pol x y2 -> elem_ok pol x z1 -> elem_ok pol x z2 ->
  r_elem y1 = r_elem y2 -> r_elem z1 = r_elem z2 ->
  cmp o n debug fuel1 nf1 y1 z1 = Val (a1, b1, c1, s1) -> cmp o n debug fuel2 nf2 y2 z2 = Val (a2, b2, c2, s2) -> s1 = s2.
Proof. exact cmp_history. Qed.
Print Assumptions C31_compare_partial.

Theorem C31_compare_q_partial : forall o n debug pol x N, setting o n pol x N ->
  forall fuel1 fuel2 nf1 nf2 y1 y2 p q a1 a2 b1 b2 s1 s2, (0 < q)%Z ->
  field_ok pol x N nf1 -> field_ok pol x N nf2 -> elem_ok pol x y1 -> elem_ok pol x y2 -> r_elem y1 = r_elem y2 ->
  cmp_q o n debug fuel1 nf1 y1 p q = Val (a1, b1, s1) -> cmp_q o n debug fuel2 nf2 y2 p q = Val (a2, b2, s2) -> s1 = s2.
Proof. exact cmp_q_history. Qed.
Print Assumptions C31_compare_q_partial.

Theorem C31_floor_partial : forall o n debug pol x N, setting o n pol x N ->
  forall fuel1 fuel2 nf1 nf2 y1 y2 a1 a2 b1 b2 s1 s2,
  field_ok pol x N nf1 -> field_ok pol x N nf2 -> elem_ok pol x y1 -> elem_ok pol x y2 -> r_elem y1 = r_elem y2 ->
  floor o debug fuel1 nf1 y1 = Val (a1, b1, s1) -> floor o debug fuel2 nf2 y2 = Val (a2, b2, s2) -> s1 = s2.
Proof. exact floor_history. Qed.
Print Assumptions C31_floor_partial.

Theorem C31_ceil_partial : forall o n debug pol x N, setting o n pol x N ->
  forall fuel1 fuel2 nf1 nf2 y1 y2 a1 a2 b1 b2 s1 s2,
  field_ok pol x N nf1 -> field_ok pol x N nf2 -> elem_ok pol x y1 -> elem_ok pol x y2 -> r_elem y1 = r_elem y2 ->
  ceil o debug fuel1 nf1 y1 = Val (a1, b1, s1) -> ceil o debug fuel2 nf2 y2 = Val (a2, b2, s2) -> s1 = s2.
Proof. exact ceil_history. Qed.
Print Assumptions C31_ceil_partial.

Theorem C31_floor_div_partial : forall o n debug pol x N, setting o n pol x N ->
  forall fuel1 fuel2 nf1 nf2 m1 m2 i1 j1 i2 j2 a1 a2 b1 b2 c1 c2 s1 s2,
  field_ok pol x N nf1 -> field_ok pol x N nf2 -> mem_ok pol x m1 -> mem_ok pol x m2 ->
  r_elem (m1 i1) = r_elem (m2 i2) -> r_elem (m1 j1) = r_elem (m2 j2) ->
  fdiv o n debug (Nat.eqb i1 j1) fuel1 nf1 (m1 i1) (m1 j1) = Val (a1, b1, c1, s1) ->
  fdiv o n debug (Nat.eqb i2 j2) fuel2 nf2 (m2 i2) (m2 j2) = Val (a2, b2, c2, s2) -> s1 = s2.
Proof. exact fdiv_history. Qed.
Print Assumptions C31_floor_div_partial.

Theorem C31_cfrac_partial : forall o n debug pol x N, setting o n pol x N ->
  forall k fuel1 fuel2 nf1 nf2 y1 y2 a1 a2 w1 w2 l1 l2,
  field_ok pol x N nf1 -> field_ok pol x N nf2 -> elem_ok pol x y1 -> elem_ok pol x y2 -> r_elem y1 = r_elem y2 ->
  cfrac o n debug fuel1 nf1 y1 k = Val (a1, l1, w1) -> cfrac o n debug fuel2 nf2 y2 k = Val (a2, l2, w2) ->
  l1 = l2 /\ r_elem w1 = r_elem w2.
Proof. exact cfrac_history. Qed.
Print Assumptions C31_cfrac_partial.

(** The element z + 1/3 in two different states. *)
Example C31_case : sure (runs dyops (nfc cube_pol) true 100 (fst cube_state) (snd cube_state) [KRefine 300; KEval 2 200]%Z)
  (fun '(nf, m) => elem_eqb (r_elem (m 2%nat)) (r_elem (snd cube_state 2%nat)) && negb (bequal (r_emb (m 2%nat)) (r_emb (snd cube_state 2%nat)))
    && negb (bequal (f_emb nf) (f_emb (fst cube_state)))) = true.
Proof. vm_compute. reflexivity. Qed.

(** C45. *)
Theorem C45_is_zero : forall pol x, minimal pol x -> forall e, canon pol e -> is_zero e = true <-> ev x e = 0.
Proof. exact is_zero_spec. Qed.
Print Assumptions C45_is_zero.

Theorem C45_is_one : forall pol x, minimal pol x -> forall e, canon pol e -> is_one e = true <-> ev x e = 1.
Proof. exact is_one_spec. Qed.
Print Assumptions C45_is_one.

Theorem C45_is_integer : forall pol x, minimal pol x -> forall e, canon pol e -> is_integer e = true <-> exists z, ev x e = IZR z.
Proof. exact is_integer_spec. Qed.
Print Assumptions C45_is_integer.

Theorem C45_is_rational : forall pol x, minimal pol x -> forall e, canon pol e ->
  is_rational e = true <-> exists p q, (0 < q)%Z /\ ev x e = IZR p / IZR q.
Proof. exact is_rational_spec. Qed.
Print Assumptions C45_is_rational.

Theorem C45_equal : forall pol x, minimal pol x -> forall a b, canon pol a -> canon pol b ->
  elem_eqb a b = true <-> ev x a = ev x b.
Proof. exact elem_eqb_spec. Qed.
Print Assumptions C45_equal.

Theorem C45_equal_q : forall pol x, minimal pol x -> forall e a d, canon pol e -> (0 < d)%Z -> Z.gcd a d = 1%Z ->
  equal_q e a d = true <-> ev x e = IZR a / IZR d.
Proof. exact equal_q_spec. Qed.
Print Assumptions C45_equal_q.

Example C45_case : canon cube_pol {| e_num := [1; 0; 3]; e_den := 2 |}%Z /\ canon cube_pol {| e_num := [-4]; e_den := 3 |}%Z /\
  equal_q {| e_num := [-4]; e_den := 3 |}%Z (-4) 3 = true /\ is_rational {| e_num := [1; 0; 3]; e_den := 2 |}%Z = false.
Proof. split; [apply canon_intro; cbn; lia|]. split; [apply canon_intro; cbn; lia|]. split; reflexivity. Qed.

(** C46.  Nothing is assumed of the operations. *)
Theorem C46_call : forall o n debug fuel nf m k nf' m', run o n debug fuel nf m k = Val (nf', m') ->
  (same_field nf nf' /\ f_imm nf' = f_imm nf) /\ (reads k -> forall i, r_elem (m' i) = r_elem (m i)).
Proof. exact run_kept. Qed.
Print Assumptions C46_call.

Theorem C46_history : forall o n debug fuel l nf m nf' m', runs o n debug fuel nf m l = Val (nf', m') ->
  (same_field nf nf' /\ f_imm nf' = f_imm nf) /\ (Forall reads l -> forall i, r_elem (m' i) = r_elem (m i)).
Proof. exact runs_kept. Qed.
Print Assumptions C46_history.

Example C46_case : Forall reads [KRefine 300; KEval 2 200; KSgn 2; KFloor 3]%Z /\
  sure (runs dyops (nfc cube_pol) true 100 (fst cube_state) (snd cube_state) [KRefine 300; KEval 2 200; KSgn 2; KFloor 3]%Z)
    (fun '(nf, m) => Z.eqb (f_imm nf) 0) = true.
Proof. split; [repeat constructor|vm_compute; reflexivity]. Qed.
