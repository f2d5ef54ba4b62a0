(** The conversion of numbers just above DBL_MAX with every ball arithmetic meeting the
    contracts. *)
Require Import Reals List ZArith Bool Lia Lra.
From Verif Require Import PolyR RootSpec RootModel ExtraModel Dyadic DyadicProofs VcaProofs ArbModel ArbSpec ArbProofs FieldProofs RefineProofs
  ElemModel ElemSpec ElemProofs ElemHist GetdModel GetdSpec GetdProofs GetdMore GetdRefute RateSpec EndsSpec EndsRefute DefSpec CreateSpec FlSpec FineSpec MarginMain ConcModel ConcSpec MarginUse.
Import ListNotations.
Open Scope R_scope.

Definition over_ball : ball := Fin (1482910, -20)%Z (1, -20)%Z.
Definition over_calls : list call := [KGen 0; KAddZ 0 0 (dbl_max_z - 1)]%Z.
Definition over_rat : elem := {| e_num := [(dbl_max_z + 1)%Z]; e_den := 1 |}.

Lemma over_rat_near : forall o n debug fuel nf b, get_d o n debug fuel nf {| r_elem := over_rat; r_emb := b |} RNear =
  Val (nf, {| r_elem := over_rat; r_emb := b |}, DF dbl_max).
Proof. intros. unfold get_d. cbn [r_elem]. change (is_zero over_rat) with false. change (is_rational over_rat) with true. cbv iota. do 2 f_equal. Qed.

Lemma over_rat_val : forall z, ev z over_rat = MAX + 1.
Proof.
  intros z. rewrite (rational_val z over_rat) by reflexivity. unfold over_rat. cbn [e_num e_den nth].
  rewrite plus_IZR. assert (M : IZR dbl_max_z = MAX) by (rewrite <- max_z; field). rewrite M. field.
Qed.

Lemma over_every : exists z, z * z = 2 /\ 1 < z < 2 /\ let w := z + IZR (dbl_max_z - 1) in MAX < w < MAX + 1 /\ ev z over_rat = MAX + 1 /\
  ~ is_round RFloor w (DInf false) /\ ~ is_round RDown w (DInf false) /\ ~ is_round RNear w (DInf false) /\
  forall o n, library o n sq_pol z -> arb_fl o -> arb_fine o -> forall debug el, mem_ok sq_pol z el ->
    (forall md, answers (fun fuel => bind (renf_init o debug fuel sq_pol 1 over_ball 64) (fun nf =>
        bind (calls o n debug fuel nf el over_calls) (fun '(nf', el', _) => get_d o n debug fuel nf' (el' 0%nat) md)))
      (fun '(_, _, d) => d = DInf false) (word_overflow o sq_pol over_ball)) /\
    forall fuel nf b, get_d o n debug fuel nf {| r_elem := over_rat; r_emb := b |} RNear = Val (nf, {| r_elem := over_rat; r_emb := b |}, DF dbl_max).
Proof.
  destruct sq_margin as (z & Hz & E & M & En). exists z. split; [exact E|].
  assert (Z0 : 1.41421356 <= z <= 1.41421357) by nra. split; [lra|]. cbv zeta.
  assert (MZ : IZR dbl_max_z = MAX) by (rewrite <- max_z; field). rewrite minus_IZR, MZ.
  split; [lra|]. split; [apply over_rat_val|].
  assert (P : 0 < MAX) by (unfold MAX; pose proof (pw2_pos 971); change (2 ^ 53 - 1)%Z with 9007199254740991%Z; nra).
  split; [intros [W _]; discriminate|]. split; [intros [W _]; destruct W as [W _]; [lra|discriminate]|].
  split.
  { cbn [is_round round_near]. assert (L : MAX + 1 <= LIM); [|lra]. rewrite LIM_eq. unfold MAX. rewrite (pw2_int 971 970) by lia.
    assert (Q : 1 <= pw2 970) by (rewrite <- pw2_0; apply pw2_le; lia). change (2 ^ (971 - 970))%Z with 2%Z.
    change (2 ^ 53 - 1)%Z with 9007199254740991%Z. change (2 ^ 54 - 1)%Z with 18014398509481983%Z. lra. }
  intros o n L F Fi debug el Hel. split; [|intros; apply over_rat_near]. intros md. pose proof (sq_minimal z E) as Mi.
  assert (V : dyv (1482910, -20)%Z = 1482910 / 1048576 /\ dyv (1, -20)%Z = / 1048576) by (unfold dyv, pw2; simpl; split; lra). destruct V as [V1 V2].
  assert (Fr : ~ fraction (z + (MAX - 1))).
  { intros (a & b & Hb & Q). assert (Hb' : IZR b <> 0) by (apply not_0_IZR; lia).
    assert (A : Forall (fun c => c = 0%Z) [b * (dbl_max_z - 1) - a; b]%Z).
    { apply (min_short _ _ Mi); [cbn; lia|]. rewrite !zeval_cons, zeval_nil, minus_IZR, mult_IZR, minus_IZR, MZ.
      replace (IZR a) with ((z + (MAX - 1)) * IZR b) by (rewrite Q; field; exact Hb'). ring. }
    inversion A as [|? ? _ A2]. inversion A2. lia. }
  destruct (margin_double o n sq_pol z (3 / 2) (/ IZR (2 ^ 20)) L F Fi M debug 1%Z (1482910, -20)%Z (1, -20)%Z (/ IZR (2 ^ 22)) 64%Z En) with (el := el) (l := over_calls) (i := 0%nat) (md := md)
    as (f0 & r & S & C).
  - rewrite V1, V2. change (2 ^ 22)%Z with 4194304%Z. lra.
  - rewrite V1, V2. change (2 ^ 22)%Z with 4194304%Z. lra.
  - rewrite V2. change (2 ^ 20)%Z with 1048576%Z. lra.
  - apply Rle_trans with 1; [change 1 with (pw2 0); apply pw2_le; lia|]; rewrite Rabs_pos_eq by lra; cbn; lra.
  - exact Hel.
  - repeat constructor; cbn; lia.
  - repeat constructor; cbn; lia.
  - repeat constructor.
  - repeat (constructor; [cbn; try exact I|intros v' Hv; inversion Hv; subst; clear Hv]). constructor.
  - exists f0, r. split; [exact S|]. destruct r as [[[nf y] d]| | |]; try exact C.
    destruct C as (v & a & Hi & _ & Up & _). unfold over_calls in Hi.
    assert (KV : IZR (dbl_max_z - 1) = MAX - 1) by (rewrite minus_IZR, MZ; reflexivity). revert Hi KV. generalize (dbl_max_z - 1)%Z. intros k Hi KV.
    assert (W : v 0%nat = z + (MAX - 1)).
    { inversion Hi as [|? ? ? ? ? ? ? E1 _ H1]; subst. inversion E1; subst. inversion H1 as [|? ? ? ? ? ? ? E2 _ H2]; subst. inversion E2; subst. inversion H2; subst.
      rewrite !vset_same, KV. reflexivity. }
    apply Up; rewrite W; [exact Fr|lra].
Qed.

(** Rational subnormals. *)
Definition sub_elem : elem := {| e_num := [sub_n]; e_den := sub_d |}.
Lemma sub_every : is_double (pw2 (-1074)) /\ (forall z, Rabs (ev z sub_elem - pw2 (-1074)) < Rabs (ev z sub_elem - dyv (2, -1074)%Z)) /\
  forall o n debug fuel nf b, get_d o n debug fuel nf {| r_elem := sub_elem; r_emb := b |} RNear =
    Val (nf, {| r_elem := sub_elem; r_emb := b |}, DF (2, -1074)%Z).
Proof.
  split; [exists 1%Z, (-1074)%Z; repeat split; try lia; ring|]. split.
  2: { intros. unfold get_d. cbn [r_elem]. change (is_zero sub_elem) with false. change (is_rational sub_elem) with true. cbv iota. do 2 f_equal. }
  intros z.
  rewrite (rational_val z) by reflexivity. unfold sub_elem. cbn [e_num e_den nth].
  assert (V : IZR sub_n / IZR sub_d = (3 / 2 - / IZR (2 ^ 61)) * pw2 (-1074)).
  { change sub_d with (2 ^ 1135)%Z. rewrite (pw2_IZR 1135) by lia. replace 1135%Z with (61 + 1074)%Z by lia. rewrite pw2_add, <- (pw2_IZR 61) by lia.
    pose proof (pw2_inv 1074) as P. change (- (1074))%Z with (-1074)%Z in P. pose proof (pw2_pos 1074).
    change sub_n with (3 * 2 ^ 60 - 1)%Z. rewrite minus_IZR, mult_IZR.
    replace (IZR (2 ^ 61)) with (2 * IZR (2 ^ 60)) by (rewrite <- mult_IZR; apply f_equal; reflexivity).
    assert (0 < IZR (2 ^ 60)) by (apply IZR_lt; reflexivity). set (k := IZR (2 ^ 60)) in *. set (h := pw2 1074) in *. set (g := pw2 (-1074)) in *.
    replace g with (/ h); [field; lra|]. apply Rmult_eq_reg_r with h; [|lra]. rewrite Rinv_l, P by lra. reflexivity. }
  rewrite V. unfold dyv. cbn [fst snd]. pose proof (pw2_pos (-1074)) as P. set (g := pw2 (-1074)) in *.
  assert (K : 0 < / IZR (2 ^ 61) < 1 / 4).
  { assert (4 < IZR (2 ^ 61)) by (apply IZR_lt; reflexivity). split; [apply Rinv_0_lt_compat; lra|].
    apply Rmult_lt_reg_r with (IZR (2 ^ 61)); [lra|]. rewrite Rinv_l by lra. lra. }
  set (q := / IZR (2 ^ 61)) in *. rewrite Rabs_pos_eq by nra. rewrite Rabs_left by nra. nra.
Qed.
