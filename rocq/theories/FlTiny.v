(** A tiny generator: with every ball arithmetic that rounds like FLINT an addition
    and a subtraction later the functions reading it ask for an evaluation at a
    negative precision. *)
Require Import Reals List ZArith Bool Lia Lra Psatz.
From Verif Require Import PolyR RootSpec RootModel ExtraModel Dyadic DyadicProofs VcaProofs ArbModel ArbSpec ArbProofs FieldProofs
  DyRate ArbRefute ElemModel ElemSpec ElemProofs RefineEnds ElemRefute ElemEdge GetdModel RateSpec DefSpec FlSpec FlProofs FlRefute.
Import ListNotations.
Open Scope R_scope.

(** Around 2^(-599/3). *)
Definition tsharp : ball := Fin (1523151087893883639709146, -280)%Z (1, -266)%Z.
Definition tfield : renf := {| f_pol := tpol; f_den := 1; f_emb := tsharp; f_prec := 64; f_imm := 0 |}.

Lemma tsharp_in : forall x, zeval tpol x = 0 -> inb x tsharp.
Proof.
  intros x Zx. apply tval in Zx. unfold tsharp. apply inb_bounds. change (-280)%Z with (- (280))%Z. change (-266)%Z with (- (266))%Z.
  rewrite (dyv_neg_exp _ 280), (dyv_neg_exp _ 266) by lia.
  assert (P : 0 < IZR (2 ^ 200)) by (apply IZR_lt; reflexivity).
  assert (E1 : IZR (2 ^ 280) = IZR (2 ^ 80) * IZR (2 ^ 200)) by (rewrite <- mult_IZR; apply f_equal; reflexivity).
  assert (E2 : IZR (2 ^ 266) = IZR (2 ^ 66) * IZR (2 ^ 200)) by (rewrite <- mult_IZR; apply f_equal; reflexivity).
  rewrite E1, E2. set (k := IZR (2 ^ 200)) in *. change (2 ^ 80)%Z with 1208925819614629174706176%Z. change (2 ^ 66)%Z with 73786976294838206464%Z.
  set (y := x * k) in *. assert (Ex : x = y / k) by (unfold y; field; lra).
  set (c := 1523151087893883639709146 / 1208925819614629174706176). set (d := 1 / 73786976294838206464).
  replace (1523151087893883639709146 / (1208925819614629174706176 * k)) with (c / k) by (unfold c; field; lra).
  replace (1 / (73786976294838206464 * k)) with (d / k) by (unfold d; field; lra).
  assert (L : 0 < c - d /\ (c - d) * (c - d) * (c - d) < 2) by (unfold c, d; split; lra).
  assert (H : 0 < c + d /\ 2 < (c + d) * (c + d) * (c + d)) by (unfold c, d; split; lra).
  clearbody c d. assert (Y0 : 0 < y) by (destruct (Rle_or_lt y 0) as [A|A]; [|exact A]; assert (0 <= y * y) by nra; nra).
  assert (A : c - d <= y).
  { destruct (Rle_or_lt (c - d) y) as [A|A]; [exact A|exfalso]. set (l := c - d) in *. assert (y * y <= l * l) by nra. assert (y * y * y <= l * l * l) by nra. lra. }
  assert (B : y <= c + d).
  { destruct (Rle_or_lt y (c + d)) as [B|B]; [exact B|exfalso]. set (h := c + d) in *. assert (h * h <= y * y) by nra. assert (h * h * h <= y * y * y) by nra. lra. }
  rewrite Ex. pose proof (Rinv_0_lt_compat k P) as I. unfold Rdiv. split.
  - replace (c * / k - d * / k) with ((c - d) * / k) by ring. apply Rmult_le_compat_r; lra.
  - replace (c * / k + d * / k) with ((c + d) * / k) by ring. apply Rmult_le_compat_r; lra.
Qed.

(** The number 1 plus something tiny is rounded to 1. *)
Lemma round_one : forall m v, 0 < dyv m -> dyv m < pw2 (-64) -> dyv v = dyv m + 1 -> dyv (dround RDown 64 v) = 1.
Proof.
  intros [a s] v P L V. assert (A : (0 < a)%Z) by (apply (dyv_pos (a, s)); exact P).
  assert (S : (s < -64)%Z).
  { destruct (Z_lt_ge_dec s (-64)) as [S|S]; [exact S|exfalso]. unfold dyv in L. cbn [fst snd] in L. pose proof (pw2_le (-64) s ltac:(lia)) as Q.
    assert (1 <= IZR a) by (apply IZR_le; lia). pose proof (pw2_pos s). nra. }
  set (E := (- s)%Z). assert (HE : (64 < E)%Z) by (unfold E; lia).
  assert (Es : s = (- E)%Z) by (unfold E; lia). clearbody E. subst s.
  assert (La : (a < 2 ^ (E - 64))%Z).
  { apply lt_IZR. rewrite pw2_IZR by lia. unfold dyv in L. cbn [fst snd] in L. apply (Rmult_lt_reg_r (pw2 (- E))); [apply pw2_pos|].
    rewrite <- pw2_add. replace (E - 64 + - E)%Z with (-64)%Z by lia. exact L. }
  assert (P0 : (0 < 2 ^ (E - 64))%Z) by (apply Z.pow_pos_nonneg; lia).
  assert (T1 : (2 ^ E = 2 ^ 64 * 2 ^ (E - 64))%Z) by (rewrite <- Z.pow_add_r by lia; f_equal; lia).
  assert (T2 : (2 ^ (E - 63) = 2 * 2 ^ (E - 64))%Z) by (replace (E - 63)%Z with (1 + (E - 64))%Z by lia; rewrite Z.pow_add_r by lia; reflexivity).
  rewrite (dround_value 64 v (2 ^ E + a, - E)%Z ltac:(lia)).
  2:{ rewrite V. unfold dyv. cbn [fst snd]. rewrite plus_IZR, pw2_IZR by lia. rewrite Rmult_plus_distr_r, <- pw2_add.
      replace (E + - E)%Z with 0%Z by lia. change (pw2 0) with 1. lra. }
  assert (Z1 : zbits (2 ^ E + a) = (E + 1)%Z).
  { assert (N : (2 ^ E + a <> 0)%Z) by nia. pose proof (zbits_spec _ N) as ([B1 B2] & B3). rewrite Z.abs_eq in B1, B2 by nia.
    assert (C1 : (E < zbits (2 ^ E + a))%Z) by (apply (Z.pow_lt_mono_r_iff 2); [lia|lia|]; nia).
    assert (C2 : (zbits (2 ^ E + a) - 1 < E + 1)%Z) by (apply (Z.pow_lt_mono_r_iff 2); [lia|lia|]; rewrite Z.pow_add_r by lia; nia). lia. }
  unfold dround. cbn [fst snd]. rewrite Z1. replace (E + 1 - 64)%Z with (E - 63)%Z by lia. destruct (Z.leb_spec (E - 63) 0); [lia|].
  assert (Q : zround RDown (2 ^ E + a) (E - 63) = (2 ^ 63)%Z).
  { unfold zround. replace (2 ^ E + a)%Z with (a + 2 ^ 63 * 2 ^ (E - 63))%Z by (rewrite T1, T2; change (2 ^ 64)%Z with (2 * 2 ^ 63)%Z; ring).
    destruct (Z.leb_spec 0 (a + 2 ^ 63 * 2 ^ (E - 63))); [|nia]. rewrite Z.shiftr_div_pow2, Z.div_add by lia. rewrite Z.div_small by lia. reflexivity. }
  rewrite Q. unfold dyv. cbn [fst snd]. rewrite pw2_IZR, <- pw2_add by lia. replace (63 + (- E + (E - 63)))%Z with 0%Z by lia. reflexivity.
Qed.

Section Tiny.
Variable o : arbops.
Hypothesis Ho : arb_ok o.
Hypothesis Hf : arb_fl o.

Lemma tiny_made : forall debug fuel, renf_init o debug (S fuel) tpol 1 tsharp 64 = Val tfield.
Proof.
  intros debug fuel. apply init_sharp with (c := 138%Z).
  - unfold check_unique. cbn [tpol]. change (64 <? 2)%Z with false.
    change (interval tsharp 64) with (Some ((11620720580245083920, -263), (11620720580245083922, -263)))%Z. cbv iota zeta. change (2 * 64)%Z with 128%Z. fold tpol.
    rewrite (sgn2_fl o Hf tpol (11620720580245083920, -263)%Z 128 (-1) ltac:(lia) ltac:(vm_compute; reflexivity) ltac:(vm_compute; reflexivity)).
    rewrite (sgn2_fl o Hf tpol (11620720580245083922, -263)%Z 128 1 ltac:(lia) ltac:(vm_compute; reflexivity) ltac:(vm_compute; reflexivity)).
    change (-1 * 1 =? -1)%Z with true. cbv iota.
    assert (B : below tsharp tsharp).
    { unfold tsharp, below. split; [reflexivity|]. split; [|lra]. apply dyv_nonneg. cbn [fst]. lia. }
    destruct (below_sign _ _ (eval_below o Hf (zderiv tpol) _ _ 64 ltac:(lia) B) ltac:(vm_compute; reflexivity)) as [-> _]. reflexivity.
  - reflexivity.
  - vm_compute. discriminate.
  - intros i. vm_compute. reflexivity.
Qed.

(** The enclosure of the generator. *)
Lemma tiny_gen : exists m r, eval_arb_q o [0; 1]%Z 1 tsharp 64 = Fin m r /\ 0 < dyv m < pw2 (-64) /\ 0 <= dyv r < dyv m.
Proof.
  assert (B : below tsharp tsharp).
  { unfold tsharp, below. split; [reflexivity|]. split; [|lra]. apply dyv_nonneg. cbn [fst]. lia. }
  pose proof (eval_below o Hf [0; 1]%Z _ _ 64 ltac:(lia) B) as E. set (h := h_eval [0; 1]%Z tsharp 64) in E. vm_compute in h. subst h.
  unfold eval_arb_q. destruct (eval_arb o [0; 1]%Z tsharp 64) as [m r|]; [|contradiction]. destruct E as [Em [R0 R9]].
  destruct (fl_div_z o Hf m r 1 64 ltac:(lia) R0 ltac:(lia)) as (m' & r' & E & D & R & R'). exists m', r'. split; [exact E|].
  assert (S : 8 * dyv r <= dyv m).
  { rewrite Em. eapply Rle_trans; [apply Rmult_le_compat_l; [lra|exact R9]|]. change 8 with (IZR 8). rewrite <- dyv_dz, <- dyv_mul. apply dleb_spec. vm_compute. reflexivity. }
  replace (dyv m / 1) with (dyv m) in D, R' by field. replace (dyv r / 1) with (dyv r) in R' by field. assert (Pm : 0 < dyv m < pw2 (-198)).
  { rewrite Em. split; [apply dyv_pos; reflexivity|]. unfold dyv. cbn [fst snd]. apply (Rmult_lt_reg_r (pw2 263)); [apply pw2_pos|].
    rewrite Rmult_assoc, <- !pw2_add. change (-263 + 263)%Z with 0%Z. change (-198 + 263)%Z with 65%Z. rewrite <- !pw2_IZR by lia. change (2 ^ 0)%Z with 1%Z. change (2 ^ 65)%Z with 36893488147419103232%Z. lra. }
  rewrite (Rabs_pos_eq (dyv m)) in D, R' by lra. assert (Q : pw2 (3 - 64) <= 1 / 8) by (rewrite <- pw2_m3; apply pw2_le; lia).
  assert (W : dyv m * pw2 (3 - 64) <= dyv m * (1 / 8)) by (apply Rmult_le_compat_l; lra).
  assert (K : 2 * pw2 (-198) <= pw2 (-64)) by (rewrite <- pw2_1, <- pw2_add; apply pw2_le; lia).
  apply Rabs_le_inv2 in D. lra.
Qed.

(** The enclosure one addition and one subtraction later. *)
Lemma tiny_ball : exists m r, o_add_z o (o_add_z o (eval_arb_q o [0; 1]%Z 1 tsharp 64) 1 64) (-1) 64 = Fin m r /\ dyv m = 0 /\ 0 <= dyv r.
Proof.
  destruct tiny_gen as (m & r & -> & [P L] & [R _]).
  destruct (fl_add_z o Hf m r 1 64 ltac:(lia) R) as (m1 & r1 & -> & E1 & R1 & _ & _).
  rewrite (round_one m) in E1; [|exact P|exact L|rewrite dyv_add, dyv_dz; reflexivity].
  destruct (fl_add_z o Hf m1 r1 (-1) 64 ltac:(lia) R1) as (m2 & r2 & -> & E2 & R2 & _ & _). exists m2, r2. split; [reflexivity|]. split; [|exact R2].
  rewrite E2. rewrite (dround_value 64 _ (0, 0)%Z ltac:(lia)); [unfold dyv; cbn; ring|]. rewrite dyv_add, dyv_dz, E1. unfold dyv. cbn [fst snd]. lra.
Qed.
End Tiny.

(** ** The state reached *)
Definition tcalls : list call := [KGen 0; KAddZ 0 0 1; KAddZ 0 0 (-1); KOne 1; KZero 2]%Z.

Section State.
Variable o : arbops.
Hypothesis Ho : arb_ok o.
Hypothesis Hf : arb_fl o.
Variable x : R.
Hypothesis Zx : zeval tpol x = 0.
Variable n : nfops.
Hypothesis Hn : nf_ok tpol x n.

Lemma jg_canon : canon tpol jg.
Proof. apply canon_intro; cbn; lia || (try discriminate); reflexivity. Qed.

Lemma tiny_state : forall debug fuel, exists m mid rad, runs o n debug fuel tfield mem0 tcalls = Val (tfield, m) /\
  r_elem (m 0%nat) = jg /\ r_emb (m 0%nat) = Fin mid rad /\ dyv mid = 0 /\ 0 < dyv rad /\ inb x (r_emb (m 0%nat)) /\
  r_elem (m 1%nat) = {| e_num := [1]; e_den := 1 |}%Z /\ m 2%nat = {| r_elem := {| e_num := []; e_den := 1 |}; r_emb := bzero |}.
Proof.
  intros debug fuel. pose proof (tminimal x Zx) as Hm. destruct (tiny_ball o Hf) as (mid & rad & E & M & R).
  assert (G : n_set_poly n [0; 1]%Z 1 = jg).
  { destruct (nk_set_poly _ _ _ Hn [0; 1]%Z 1 ltac:(lia)) as [C V]. apply (canon_unique tpol x Hm _ _ C jg_canon). rewrite V, jg_val, !zeval_cons, zeval_nil. field. }
  assert (A : n_add_q n (n_add_q n jg 1 1) (-1) 1 = jg).
  { destruct (nk_add_q _ _ _ Hn jg 1 1 jg_canon ltac:(lia)) as [C V]. destruct (nk_add_q _ _ _ Hn _ (-1) 1 C ltac:(lia)) as [C' V'].
    apply (canon_unique tpol x Hm _ _ C' jg_canon). rewrite V', V. lra. }
  assert (I : inb x (o_add_z o (o_add_z o (eval_arb_q o [0; 1]%Z 1 tsharp 64) 1 64) (-1) 64)).
  { replace x with (x + 1 + -1) by ring. apply (ok_add_z o Ho); [lia|]. apply (ok_add_z o Ho); [lia|].
    replace x with (zeval [0; 1]%Z x / 1) by (rewrite !zeval_cons, zeval_nil; field). apply (eval_arb_q_ok o Ho); [lia|apply tsharp_in, Zx|lia]. }
  assert (X0 : x <> 0) by (intros ->; apply tval in Zx; lra).
  eexists _, mid, rad. split; [cbn [runs tcalls run bind gen tfield f_pol tpol]; reflexivity|].
  cbn [upd upd_elem upd_emb r_elem r_emb Nat.eqb f_emb f_prec tfield]. rewrite G, A, E. rewrite E in I.
  split; [reflexivity|]. split; [reflexivity|]. split; [exact M|]. split; [|split; [exact I|split; reflexivity]].
  unfold inb in I. rewrite M, Rminus_0_r in I. pose proof (Rabs_pos_lt x X0). lra.
Qed.

(** ** The answers *)
Variables (y : relem) (mid rad : dy).
Hypothesis Ey : r_elem y = jg.
Hypothesis Eb : r_emb y = Fin mid rad.
Hypothesis Em : dyv mid = 0.
Hypothesis Er : 0 < dyv rad.
Hypothesis Ix : inb x (r_emb y).
Variables (debug : bool) (fuel : nat).

Lemma tiny_eval : set_evaluation o tfield jg (start_prec tfield + elem_cond tfield jg) = Undef.
Proof. replace (start_prec tfield + elem_cond tfield jg)%Z with (-134)%Z by (vm_compute; reflexivity). reflexivity. Qed.

Lemma tiny_zero : contains_zero (r_emb y) = true.
Proof. apply contains_zero_true. rewrite Eb. unfold inb. rewrite Em, Rminus_0_r, Rabs_R0. lra. Qed.

Lemma tiny_sgn : sgn o debug fuel tfield y = Undef.
Proof. unfold sgn. rewrite Ey, tiny_zero. cbn [jg e_num negb]. fold jg. rewrite tiny_eval. reflexivity. Qed.

Lemma tiny_not_zero : elem_eqb jg {| e_num := []; e_den := 1 |}%Z = false.
Proof. reflexivity. Qed.

Lemma tiny_cmp : cmp o n debug fuel tfield y {| r_elem := {| e_num := []; e_den := 1 |}%Z; r_emb := bzero |} = Undef.
Proof.
  unfold cmp. cbn [r_elem r_emb]. rewrite Ey, tiny_not_zero, Eb. unfold bzero, bint, bexact, blt.
  assert (B1 : dltb (dadd mid rad) (dsub (dz 0) (dz 0)) = false).
  { apply dltb_false. rewrite dyv_add, dyv_sub, !dyv_dz. lra. }
  assert (B2 : dltb (dadd (dz 0) (dz 0)) (dsub mid rad) = false).
  { apply dltb_false. rewrite dyv_add, dyv_sub, !dyv_dz. lra. }
  rewrite B1, B2. change (is_rational jg) with false. cbn [andb]. rewrite tiny_eval. reflexivity.
Qed.

Lemma tiny_cmp_q : cmp_q o n debug fuel tfield y 1 (2 ^ 200) = Undef.
Proof.
  unfold cmp_q. rewrite Ey. change (1 =? 0)%Z with false. change (is_zero jg) with false. change (is_rational jg) with false. cbv iota zeta.
  assert (X : 1 < x * IZR (2 ^ 200)).
  { pose proof (tval x Zx) as V. assert (A : 0 < x * IZR (2 ^ 200)) by (set (z := x * IZR (2 ^ 200)) in *; destruct (Rle_or_lt z 0); [assert (0 <= z * z) by nra; nra|assumption]).
    set (z := x * IZR (2 ^ 200)) in *. destruct (Rle_or_lt z 1); [|assumption]. assert (z * z <= 1) by nra. assert (z * z * z <= 1) by nra. lra. }
  assert (P : 0 < IZR (2 ^ 200)) by (apply IZR_lt; reflexivity).
  assert (Z0 : contains_zero (o_sub o (r_emb y) (o_set_q o 1 (2 ^ 200) (f_prec tfield)) (f_prec tfield)) = true).
  { assert (Q : inb (1 / IZR (2 ^ 200)) (o_set_q o 1 (2 ^ 200) (f_prec tfield))) by (apply (ok_set_q o Ho); [cbn; lia|discriminate]).
    assert (I0 : inb 0 (r_emb y)) by (rewrite Eb; unfold inb; rewrite Em, Rminus_0_r, Rabs_R0; lra).
    pose proof (ok_sub o Ho _ _ _ _ (f_prec tfield) ltac:(cbn; lia) Ix Q) as J1. pose proof (ok_sub o Ho _ _ _ _ (f_prec tfield) ltac:(cbn; lia) I0 Q) as J2.
    apply contains_zero_true. apply (inb_between _ _ _ 0 J1 J2). pose proof (Rinv_0_lt_compat _ P) as Pi.
    assert (0 < x - 1 / IZR (2 ^ 200)).
    { apply (Rmult_lt_reg_r (IZR (2 ^ 200))); [exact P|]. rewrite Rmult_0_l, Rmult_minus_distr_r. replace (1 / IZR (2 ^ 200) * IZR (2 ^ 200)) with 1 by (field; lra). lra. }
    assert (0 - 1 / IZR (2 ^ 200) < 0) by lra. rewrite Rmin_right, Rmax_left by lra. lra. }
  rewrite Z0. cbn [negb]. replace (start_prec tfield =? - elem_cond tfield jg)%Z with false by (vm_compute; reflexivity). rewrite andb_false_r, tiny_eval. reflexivity.
Qed.

Lemma tiny_ends : exists l r, interval (r_emb y) 64 = Some (l, r) /\ dyv l < 0 < dyv r.
Proof.
  rewrite Eb. eexists _, _. split; [reflexivity|]. split.
  - eapply Rle_lt_trans; [apply dround_floor_le; lia|]. rewrite dyv_sub. lra.
  - eapply Rlt_le_trans; [|apply dround_ceil_ge; lia]. rewrite dyv_add. lra.
Qed.

Lemma tiny_round : forall rd, rd = rd_floor \/ rd = rd_ceil -> round_int o debug rd (S fuel) tfield y = Undef.
Proof.
  intros rd Hrd. unfold round_int. rewrite Ey. change (is_rational jg) with false. cbv iota. rewrite Eb. cbn [is_finite]. cbn [bind].
  unfold unique_int. cbn [f_prec tfield]. destruct tiny_ends as (l & r & E & L & R). rewrite Eb in E. rewrite E.
  assert (N : (rd_dy rd l =? rd_dy rd r)%Z = false).
  { apply Z.eqb_neq. intros Q. destruct Hrd as [->| ->]; cbn [rd_dy rd_floor rd_ceil] in Q.
    - pose proof (dfloor_spec l) as F. pose proof (dfloor_spec r) as G. rewrite Q in F. assert (dfloor r < 0)%Z by (apply lt_IZR; lra). assert (-1 < dfloor r)%Z by (apply lt_IZR; lra). lia.
    - pose proof (dceil_spec l) as F. pose proof (dceil_spec r) as G. rewrite Q in F. assert (0 < dceil r)%Z by (apply lt_IZR; lra). assert (dceil r < 1)%Z by (apply lt_IZR; lra). lia. }
  rewrite N. cbn [round_loop]. fold tfield. rewrite tiny_eval. reflexivity.
Qed.

Lemma tiny_fdiv : forall b, fdiv o n debug false (S fuel) tfield {| r_elem := {| e_num := [1]; e_den := 1 |}%Z; r_emb := b |} y = Undef.
Proof.
  intros b. unfold fdiv. rewrite Ey. change (is_rational jg) with false. cbv iota zeta. cbn [r_elem].
  replace (start_prec tfield + elem_cond tfield {| e_num := [1]; e_den := 1 |})%Z with 65%Z by (vm_compute; reflexivity).
  assert (F : exists m r, set_evaluation o tfield {| e_num := [1]; e_den := 1 |}%Z 65 = Val (Fin m r)).
  { unfold set_evaluation. change (65 <? 2)%Z with false. cbn [tfield f_pol tpol linear quadratic length Nat.eqb Nat.leb e_num e_den f_emb].
    assert (B : below tsharp tsharp).
    { unfold tsharp, below. split; [reflexivity|]. split; [|lra]. apply dyv_nonneg. cbn [fst]. lia. }
    pose proof (eval_below o Hf [1]%Z _ _ 65 ltac:(lia) B) as E. unfold eval_arb_q. destruct (eval_arb o [1]%Z tsharp 65) as [m r|]; [|contradiction].
    destruct (h_eval [1]%Z tsharp 65) as [m0 r0|]; [|contradiction]. destruct E as [_ [R0 _]].
    destruct (fl_div_z o Hf m r 1 65 ltac:(lia) R0 ltac:(lia)) as (m' & r' & E & _). exists m', r'. rewrite E. reflexivity. }
  destruct F as (m & r & ->). cbn [bind finite_loop_p is_finite]. rewrite tiny_eval. reflexivity.
Qed.

Lemma tiny_cfrac : forall k, cfrac o n debug (S fuel) tfield y (S k) = Undef.
Proof.
  intros k. unfold cfrac. rewrite Ey. change (is_zero jg) with false. cbn [cfrac_loop]. unfold floor.
  rewrite tiny_round by (left; reflexivity). reflexivity.
Qed.

Lemma tiny_get_arb : forall prec, (- WORD_MAX - 2 <= prec)%Z -> get_arb o debug (S fuel) tfield y prec = Undef.
Proof.
  intros prec Hp. unfold get_arb. rewrite Ey. change (is_zero jg) with false. cbv iota.
  assert (E : (rel_error (r_emb y) <? - prec - 2)%Z = false).
  { rewrite Eb. unfold rel_error. destruct (Z.eqb_spec (fst rad) 0) as [Z0|_]; [apply dyv_eq0 in Z0; lra|]. apply dyv_eq0 in Em. rewrite Em. cbn [Z.eqb]. lia. }
  rewrite E. cbn [get_arb_loop]. rewrite tiny_eval. reflexivity.
Qed.

Lemma tiny_get_d : forall md, get_d o n debug fuel tfield y md = Undef.
Proof.
  intros md. unfold get_d. rewrite Ey. change (is_zero jg) with false. change (is_rational jg) with false. cbv iota.
  destruct md; cbn [reduce_rnd bind overflows]; rewrite tiny_sgn; reflexivity.
Qed.
End State.

(** * With every such arithmetic *)

(** The state after making a field and running a program in it. *)
Definition came (o : arbops) (n : nfops) (debug : bool) (fuel : nat) (pol : list Z) (a : ball) (l : list call) (nf : renf) (m : mem) : Prop :=
  exists nf0, renf_init o debug fuel pol 1 a 64 = Val nf0 /\ runs o n debug fuel nf0 mem0 l = Val (nf, m).

Lemma tiny_between : forall x, zeval tpol x = 0 -> 0 < x < 1.
Proof.
  intros x Zx. apply tval in Zx. assert (P : 4 < IZR (2 ^ 200)) by (apply IZR_lt; reflexivity). set (k := IZR (2 ^ 200)) in *.
  assert (0 < x * k < 2) by (set (z := x * k) in *; split; [destruct (Rle_or_lt z 0); [assert (0 <= z * z) by nra; nra|assumption]|destruct (Rle_or_lt 2 z); [assert (4 <= z * z) by nra; nra|assumption]]).
  split; nra.
Qed.

Lemma tiny_every : exists pol a x l, minimal pol x /\ inb x a /\ (forall z, inb z a -> zeval pol z = 0 -> z = x) /\ 0 < x < 1 /\
  forall o n, arb_ok o -> arb_fl o -> nf_ok pol x n -> forall debug fuel, exists nf m, came o n debug (S fuel) pol a l nf m /\
  ev x (r_elem (m 0%nat)) = x /\ ev x (r_elem (m 1%nat)) = 1 /\ ev x (r_elem (m 2%nat)) = 0 /\
  sgn o debug (S fuel) nf (m 0%nat) = Undef /\
  cmp o n debug (S fuel) nf (m 0%nat) (m 2%nat) = Undef /\
  cmp_q o n debug (S fuel) nf (m 0%nat) 1 (2 ^ 200) = Undef /\
  floor o debug (S fuel) nf (m 0%nat) = Undef /\
  ceil o debug (S fuel) nf (m 0%nat) = Undef /\
  fdiv o n debug false (S fuel) nf (m 1%nat) (m 0%nat) = Undef /\
  cfrac o n debug (S fuel) nf (m 0%nat) 1 = Undef /\
  get_arb o debug (S fuel) nf (m 0%nat) 64 = Undef /\
  (forall md, get_d o n debug (S fuel) nf (m 0%nat) md = Undef).
Proof.
  destruct troot as (x & _ & Zx). exists tpol, tsharp, x, tcalls. split; [apply tminimal, Zx|]. split; [apply tsharp_in, Zx|].
  split; [intros z _; apply tunique, Zx|]. split; [apply tiny_between, Zx|].
  intros o n Ho Hf Hn debug fuel. destruct (tiny_state o Ho Hf x Zx n Hn debug (S fuel)) as (m & mid & rad & E & E0 & Eb & Em & Er & Ix & E1 & E2).
  exists tfield, m. split; [exists tfield; split; [apply tiny_made, Hf|exact E]|].
  split; [rewrite E0; apply jg_val|]. split; [rewrite E1; unfold ev; cbn [e_num e_den]; rewrite zeval_cons, zeval_nil; lra|].
  split; [rewrite E2; unfold ev; cbn [r_elem e_num e_den]; rewrite zeval_nil; lra|].
  split; [eapply tiny_sgn; eassumption|]. split; [rewrite E2; eapply tiny_cmp; eassumption|]. split; [eapply tiny_cmp_q; eassumption|].
  split; [eapply tiny_round; try eassumption; left; reflexivity|]. split; [eapply tiny_round; try eassumption; right; reflexivity|].
  split; [destruct (m 1%nat) as [e1 b1]; cbn [r_elem] in E1; subst e1; eapply tiny_fdiv; eassumption|]. split; [eapply tiny_cfrac; eassumption|].
  split; [eapply tiny_get_arb; try eassumption; unfold WORD_MAX; lia|]. intros md. eapply tiny_get_d; eassumption.
Qed.

(** The sign of the fresh generator is found. *)
Lemma tiny_history : exists pol a x l1 l2, minimal pol x /\ inb x a /\ (forall z, inb z a -> zeval pol z = 0 -> z = x) /\
  forall o n, arb_ok o -> arb_fl o -> nf_ok pol x n -> forall debug fuel, exists nf1 m1 nf2 m2, came o n debug (S fuel) pol a l1 nf1 m1 /\ came o n debug (S fuel) pol a l2 nf2 m2 /\
  r_elem (m1 0%nat) = r_elem (m2 0%nat) /\
  (exists nf b, sgn o debug (S fuel) nf1 (m1 0%nat) = Val (nf, b, 1%Z)) /\ sgn o debug (S fuel) nf2 (m2 0%nat) = Undef.
Proof.
  destruct troot as (x & _ & Zx). exists tpol, tsharp, x, [KGen 0], tcalls. split; [apply tminimal, Zx|]. split; [apply tsharp_in, Zx|].
  split; [intros z _; apply tunique, Zx|].
  intros o n Ho Hf Hn debug fuel. destruct (tiny_state o Ho Hf x Zx n Hn debug (S fuel)) as (m & mid & rad & E & E0 & Eb & Em & Er & Ix & E1 & E2).
  assert (G : n_set_poly n [0; 1]%Z 1 = jg).
  { destruct (nk_set_poly _ _ _ Hn [0; 1]%Z 1 ltac:(lia)) as [C V]. apply (canon_unique tpol x (tminimal x Zx) _ _ C jg_canon). rewrite V, jg_val, !zeval_cons, zeval_nil. field. }
  exists tfield, (upd mem0 0 {| r_elem := jg; r_emb := eval_arb_q o [0; 1]%Z 1 tsharp 64 |}), tfield, m.
  split; [exists tfield; split; [apply tiny_made, Hf|cbn [runs run gen bind tfield f_pol tpol f_emb f_prec]; rewrite G; reflexivity]|].
  split; [exists tfield; split; [apply tiny_made, Hf|exact E]|]. split; [rewrite E0; reflexivity|]. split; [|eapply tiny_sgn; eassumption].
  unfold upd. cbn [Nat.eqb]. destruct (tiny_gen o Hf) as (mm & r & Eg & [P _] & [_ L]). exists tfield, (Fin mm r). unfold sgn. cbn [r_elem r_emb jg e_num]. rewrite Eg.
  assert (C : contains_zero (Fin mm r) = false) by (cbn [contains_zero]; apply dleb_false; rewrite dyv_abs, Rabs_pos_eq by lra; lra).
  rewrite C. cbn [negb msgn]. unfold dsgn. rewrite Z.sgn_pos; [reflexivity|]. apply dyv_pos, P.
Qed.

(** Programs. *)
Lemma tiny_program : exists pol a x l, inb x a /\ (forall z, inb z a -> zeval pol z = 0 -> z = x) /\
  forall o n, library o n pol x -> arb_fl o -> forall debug fuel, exists nf m, came o n debug (S fuel) pol a l nf m /\
  allowed pol (values x m) (KSgn 0) /\ run o n debug (S fuel) nf m (KSgn 0) = Undef.
Proof.
  destruct tiny_every as (pol & a & x & l & _ & I & U & _ & H). exists pol, a, x, l. split; [exact I|]. split; [exact U|].
  intros o n L Hf debug fuel. destruct (H o n (lb_ok _ _ _ _ L) Hf (lb_nf _ _ _ _ L) debug fuel) as (nf & m & C & _ & _ & _ & S & _).
  exists nf, m. split; [exact C|]. split; [exact Logic.I|]. cbn [run]. rewrite S. reflexivity.
Qed.

Lemma tiny_hash : exists pol a x l, minimal pol x /\ inb x a /\ (forall z, inb z a -> zeval pol z = 0 -> z = x) /\
  forall o n, arb_ok o -> arb_fl o -> nf_ok pol x n -> forall debug fuel, exists nf m, came o n debug (S fuel) pol a l nf m /\
  (forall md, get_d o n debug (S fuel) nf (m 0%nat) md = Undef) /\ hash_key o n debug (S fuel) nf (m 0%nat) = Undef.
Proof.
  destruct tiny_every as (pol & a & x & l & M & I & U & _ & H). exists pol, a, x, l. split; [exact M|]. split; [exact I|]. split; [exact U|].
  intros o n Ho Hf Hn debug fuel. destruct (H o n Ho Hf Hn debug fuel) as (nf & m & C & H').
  exists nf, m. split; [exact C|]. assert (D : forall md, get_d o n debug (S fuel) nf (m 0%nat) md = Undef) by apply H'. split; [exact D|apply D].
Qed.

(** ** A ball centred at zero: x^2 + 4 x - 1 *)
Lemma overflow_every : exists pol a, unique_root pol a /\ forall o, arb_fl o -> forall debug fuel,
  check_unique o fuel pol a 64 = Val true /\ renf_init o debug fuel pol 1 a 64 = Undef.
Proof.
  exists [-1; 4; 1]%Z, (Fin (0, 0) (1, -1))%Z.
  assert (I : forall x, inb x (Fin (0, 0) (1, -1))%Z <-> - 0.5 <= x <= 0.5).
  { intros x. rewrite inb_bounds, dyv_int. change (-1)%Z with (- (1))%Z. rewrite (dyv_neg_exp _ 1) by lia.
    change (2 ^ 1)%Z with 2%Z. split; intros; lra. }
  split.
  - destruct (root_between (-1) 4 1 0 0.5) as (x & Hx & Zx); [lra|rewrite !zeval2; lra|].
    exists x. split; [split; [apply I; lra|exact Zx]|]. intros y [Hy Zy]. apply I in Hy. rewrite zeval2 in Zx, Zy.
    assert (E : (x - y) * (4 + x + y) = 0) by lra. apply Rmult_integral in E. destruct E; lra.
  - intros o Hf debug fuel.
    assert (E : check_unique o fuel [-1; 4; 1]%Z (Fin (0, 0) (1, -1))%Z 64 = Val true).
    { unfold check_unique. change (64 <? 2)%Z with false.
      set (j := interval (Fin (0, 0) (1, -1))%Z 64). vm_compute in j. subst j. cbv iota zeta. change (2 * 64)%Z with 128%Z.
      rewrite (sgn2_fl o Hf [-1; 4; 1]%Z (-1, -1)%Z 128 (-1) ltac:(lia) ltac:(vm_compute; reflexivity) ltac:(vm_compute; reflexivity)).
      rewrite (sgn2_fl o Hf [-1; 4; 1]%Z (1, -1)%Z 128 1 ltac:(lia) ltac:(vm_compute; reflexivity) ltac:(vm_compute; reflexivity)).
      change (-1 * 1 =? -1)%Z with true. cbv iota.
      assert (B : below (Fin (0, 0) (1, -1))%Z (Fin (0, 0) (1, -1))%Z).
      { unfold below. split; [reflexivity|]. split; [|lra]. apply dyv_nonneg. cbn [fst]. lia. }
      destruct (below_sign _ _ (eval_below o Hf (zderiv [-1; 4; 1]%Z) _ _ 64 ltac:(lia) B) ltac:(vm_compute; reflexivity)) as [-> _]. reflexivity. }
    split; [exact E|]. unfold renf_init. rewrite E. destruct debug; reflexivity.
Qed.
