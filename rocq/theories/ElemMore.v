(** Elements: accuracy of balls, exact predicates, independence of the history,
    what no call changes. *)
Require Import Reals List ZArith Bool Lia Lra Psatz Arith.
From Verif Require Import PolyR RootSpec RootModel ExtraModel VcaProofs VcaTerm Dyadic DyadicProofs ArbModel ArbSpec ArbProofs
  RefineProofs DyBall DyBallProofs ElemModel ElemSpec ElemProofs ElemLoops ElemHist.
Import ListNotations.
Open Scope R_scope.

(** * Accuracy *)
Lemma dround_down : forall p m, (1 <= p)%Z -> fst m <> 0%Z ->
  fst (dround RDown p m) <> 0%Z /\ dexp (dround RDown p m) = dexp m /\
  Rabs (dyv m - dyv (dround RDown p m)) <= pw2 (dexp m - p).
Proof.
  intros p [m e] Hp Hm. cbn [fst] in Hm. unfold dround. cbn [fst snd].
  destruct (Z.leb_spec (zbits m - p) 0) as [Hs|Hs].
  { split; [exact Hm|]. split; [reflexivity|]. rewrite Rminus_diag_eq, Rabs_R0 by reflexivity. left. apply pw2_pos. }
  destruct (zbits_spec m Hm) as [[B1 B2] B3]. set (s := (zbits m - p)%Z) in *.
  set (q := (Z.abs m / 2 ^ s)%Z).
  assert (Ps : (0 < 2 ^ s)%Z) by (apply Z.pow_pos_nonneg; lia).
  assert (Q : (2 ^ (p - 1) <= q < 2 ^ p)%Z).
  { unfold q. split.
    - apply Z.div_le_lower_bound; [exact Ps|]. rewrite <- Z.pow_add_r by lia. replace (s + (p - 1))%Z with (zbits m - 1)%Z by (unfold s; lia). exact B1.
    - apply Z.div_lt_upper_bound; [exact Ps|]. rewrite <- Z.pow_add_r by lia. replace (s + p)%Z with (zbits m) by (unfold s; lia). exact B2. }
  assert (Q0 : (0 < 2 ^ (p - 1))%Z) by (apply Z.pow_pos_nonneg; lia).
  assert (Hz : zround RDown m s = (Z.sgn m * q)%Z).
  { rewrite zround_eq by lia. unfold q. destruct (Z.leb_spec 0 m) as [P|P].
    - rewrite Z.abs_eq, Z.sgn_pos by lia. lia.
    - rewrite Z.abs_neq, Z.sgn_neg by lia. lia. }
  rewrite Hz. assert (Nz : (Z.sgn m * q <> 0)%Z) by (destruct m; cbn [Z.sgn]; lia).
  assert (Aq : Z.abs (Z.sgn m * q) = q) by (destruct m; cbn [Z.sgn]; lia).
  assert (Zb : zbits (Z.sgn m * q) = p).
  { unfold zbits. destruct (Z.eqb_spec (Z.sgn m * q) 0); [contradiction|]. rewrite Aq.
    assert (Z.log2 q = p - 1)%Z; [|lia]. apply Z.log2_unique; [lia|]. replace (Z.succ (p - 1)) with p by lia. exact Q. }
  split; [exact Nz|]. split.
  - unfold dexp. cbn [fst snd]. destruct (Z.eqb_spec (Z.sgn m * q) 0); [contradiction|]. destruct (Z.eqb_spec m 0); [contradiction|].
    rewrite Zb. unfold s. lia.
  - unfold dexp. cbn [fst snd]. destruct (Z.eqb_spec m 0); [contradiction|].
    replace (zbits m + e - p)%Z with (s + e)%Z by (unfold s; lia).
    unfold dyv. cbn [fst snd]. rewrite (Z.add_comm e s), !pw2_add. pose proof (pw2_pos e) as Pe.
    replace (IZR m * pw2 e - IZR (Z.sgn m * q) * (pw2 s * pw2 e)) with ((IZR m - IZR (Z.sgn m * q) * pw2 s) * pw2 e) by ring.
    rewrite Rabs_mult, (Rabs_pos_eq (pw2 e)) by lra. apply Rmult_le_compat_r; [lra|].
    rewrite <- pw2_IZR by lia. rewrite <- mult_IZR, <- minus_IZR, <- abs_IZR. apply IZR_le.
    pose proof (Z.div_mod (Z.abs m) (2 ^ s) ltac:(lia)) as D. pose proof (Z.mod_pos_bound (Z.abs m) (2 ^ s) Ps) as M. fold q in D.
    destruct m; cbn [Z.sgn Z.abs] in *; lia.
Qed.

Lemma dyops_sharp : round_sharp dyops.
Proof.
  intros m r p Hp Hm Hr. cbn [dyops o_round lift1]. unfold bround. set (m' := dround RDown p m).
  destruct (dround_down p m ltac:(lia) Hm) as (A & B & C). fold m' in A, B, C.
  eexists _, _. split; [reflexivity|]. split; [exact A|]. split; [exact B|].
  set (v := dadd r (dabs (dsub m m'))).
  assert (Hv : dyv v = dyv r + Rabs (dyv m - dyv m')) by (unfold v; rewrite dyv_add, dyv_abs, dyv_sub; reflexivity).
  destruct (dround_spec RUp 30 v ltac:(lia)) as (_ & F & _ & _).
  pose proof (Rabs_pos (dyv m - dyv m')) as P0. rewrite (Rabs_pos_eq (dyv v)) in F by lra.
  assert (Hpw : pw2 (1 - 30) <= pw2 (-20)) by (apply pw2_le; lia).
  apply Rle_trans with (dyv v * (1 + pw2 (-20))).
  - unfold Rabs in F. destruct (Rcase_abs _) in F; pose proof (pw2_pos (-20)); nra.
  - pose proof (pw2_pos (-20)). apply Rmult_le_compat_r; lra.
Qed.

Lemma pw2_m20 : pw2 (-20) < / 2.
Proof. replace (/ 2) with (pw2 (-1)); [apply pw2_lt; lia|]. unfold pw2. simpl. lra. Qed.

(** A ball that was accurate enough is so after rounding. *)
Lemma round_accurate : forall o, round_sharp o -> forall m r prec, (0 <= prec <= WORD_MAX)%Z -> 0 <= dyv r ->
  (rel_error (Fin m r) < - prec - 2)%Z -> fst m <> 0%Z ->
  exists m' r', o_round o (Fin m r) (prec + 2) = Fin m' r' /\ dyv r' * pw2 prec <= Rabs (dyv m') /\
    (0 <= fst r' -> prec <= rel_accuracy (Fin m' r'))%Z.
Proof.
  intros o Hs m r prec Hp Hr E Hm. destruct (Hs m r (prec + 2)%Z ltac:(lia) Hm Hr) as (m' & r' & E' & Nm & Ex & B).
  exists m', r'. split; [exact E'|]. set (e := dexp m) in *.
  assert (R : dyv r < pw2 (e - prec - 4) \/ dyv r = 0).
  { unfold rel_error in E. destruct (Z.eqb_spec (fst r) 0) as [Z|Z]; [right; apply dyv_eq0; exact Z|left].
    destruct (Z.eqb_spec (fst m) 0); [contradiction|]. destruct (dexp_spec r Z) as [_ D]. rewrite Rabs_pos_eq in D by exact Hr.
    eapply Rlt_le_trans; [exact D|]. apply pw2_le. unfold e. lia. }
  assert (R2 : dyv r <= pw2 (e - prec - 2) / 4).
  { replace (pw2 (e - prec - 2) / 4) with (pw2 (e - prec - 4)).
    - destruct R as [R| ->]; [lra|left; apply pw2_pos].
    - replace (e - prec - 2)%Z with (e - prec - 4 + 2)%Z by lia. rewrite (pw2_add _ 2). change (pw2 2) with (2 * (2 * 1)). field. }
  replace (e - (prec + 2))%Z with (e - prec - 2)%Z in B by lia.
  pose proof pw2_m20 as S. pose proof (pw2_pos (-20)) as S0. pose proof (pw2_pos (e - prec - 2)) as P.
  assert (R3 : dyv r' < pw2 (e - prec - 1)).
  { replace (e - prec - 1)%Z with (e - prec - 2 + 1)%Z by lia. rewrite (pw2_add _ 1). change (pw2 1) with (2 * 1).
    apply Rle_lt_trans with ((pw2 (e - prec - 2) / 4 + pw2 (e - prec - 2)) * (1 + pw2 (-20))); [|nra].
    eapply Rle_trans; [exact B|]. apply Rmult_le_compat_r; lra. }
  destruct (dexp_spec m' Nm) as [M _]. rewrite Ex in M. split.
  - apply Rle_trans with (pw2 (e - prec - 1) * pw2 prec); [apply Rmult_le_compat_r; [left; apply pw2_pos|lra]|].
    rewrite <- pw2_add. replace (e - prec - 1 + prec)%Z with (e - 1)%Z by lia. exact M.
  - intros Pr. unfold rel_accuracy, rel_error. destruct (Z.eqb_spec (fst r') 0) as [Z|Z]; [lia|].
    destruct (Z.eqb_spec (fst m') 0); [contradiction|]. rewrite Ex. fold e.
    destruct (dexp_spec r' Z) as [L _]. rewrite Rabs_pos_eq in L by (apply dyv_nonneg; exact Pr).
    assert (Q : pw2 (dexp r' - 1) < pw2 (e - prec - 1)) by lra.
    destruct (Z_lt_le_dec (dexp r' - 1) (e - prec - 1)) as [W|W]; [lia|]. apply pw2_le in W. lra.
Qed.

(** * Exact predicates *)
Section Pred.
Variables (pol : list Z) (x : R).
Hypothesis Hm : minimal pol x.

Lemma is_one_spec : forall e, canon pol e -> is_one e = true <-> ev x e = 1.
Proof.
  intros e C. pose proof (min_len _ _ Hm) as L. assert (C1 : canon pol {| e_num := [1%Z]; e_den := 1 |}).
  { constructor; cbn [e_num e_den last length]; try lia. intros g Hg D _. apply Z.divide_1_r_nonneg in D; lia. }
  assert (V1 : ev x {| e_num := [1%Z]; e_den := 1 |} = 1) by (unfold ev; cbn [e_num e_den]; rewrite zeval_cons, zeval_nil; field).
  split.
  - intros H. replace e with {| e_num := [1%Z]; e_den := 1 |}; [exact V1|]. unfold is_one in H. destruct e as [[|c [|? ?]] d]; try discriminate.
    cbn [e_num e_den] in H. apply andb_true_iff in H. destruct H as [H1 H2]. apply Z.eqb_eq in H1, H2. congruence.
  - intros H. rewrite <- V1 in H. apply (canon_unique pol x Hm _ _ C C1) in H. subst e. reflexivity.
Qed.

Lemma is_integer_spec : forall e, canon pol e -> is_integer e = true <-> exists z, ev x e = IZR z.
Proof.
  intros e C. pose proof (min_len _ _ Hm) as L. unfold is_integer. split.
  - intros H. apply andb_true_iff in H. destruct H as [H1 H2]. apply Z.eqb_eq in H2. exists (nth 0 (e_num e) 0%Z).
    rewrite (rational_val x _ H1), H2. field.
  - intros (z & E). assert (R : is_rational e = true) by (apply (is_rational_spec pol x Hm e C); exists z, 1%Z; split; [lia|rewrite E; field]).
    rewrite R. cbn [andb]. apply Z.eqb_eq. pose proof (can_den _ _ C) as D. rewrite (rational_val x _ R) in E.
    assert (IZR (e_den e) <> 0) by (apply not_0_IZR; lia).
    assert (E' : IZR (nth 0 (e_num e) 0%Z) = IZR (z * e_den e)) by (rewrite mult_IZR, <- E; field; assumption).
    apply eq_IZR in E'. apply (can_gcd _ _ C); [exact D|apply Z.divide_refl|].
    intros c Hc. unfold is_rational in R. destruct (e_num e) as [|c0 [|? ?]]; [destruct Hc| |discriminate].
    destruct Hc as [<-|[]]. exists z. exact E'.
Qed.

Lemma equal_q_spec : forall e a d, canon pol e -> (0 < d)%Z -> Z.gcd a d = 1%Z -> equal_q e a d = true <-> ev x e = IZR a / IZR d.
Proof.
  intros e a d C Hd Hg. pose proof (min_len _ _ Hm) as L. assert (IZR d <> 0) by (apply not_0_IZR; lia).
  destruct (Z.eq_dec a 0) as [->|Na].
  - replace (IZR 0 / IZR d) with 0 by (field; assumption). rewrite <- (is_zero_spec pol x Hm e C). unfold equal_q, is_zero.
    destruct e as [[|c [|? ?]] d0] eqn:Ee; cbn [e_num e_den]; split; intros H'; try reflexivity; try discriminate.
    apply andb_true_iff in H'. destruct H' as [H' _]. apply Z.eqb_eq in H'. subst c.
    pose proof (can_last _ _ C) as W. cbn [e_num last] in W. lia.
  - assert (C1 : canon pol {| e_num := [a]; e_den := d |}).
    { constructor; cbn [e_num e_den last length]; try lia. intros g Hg0 D1 D2. specialize (D2 a (or_introl eq_refl)).
      assert (D3 : (g | Z.gcd a d)%Z) by (apply Z.gcd_greatest; assumption). rewrite Hg in D3. apply Z.divide_1_r_nonneg in D3; lia. }
    assert (V1 : ev x {| e_num := [a]; e_den := d |} = IZR a / IZR d) by (unfold ev; cbn [e_num e_den]; rewrite zeval_cons, zeval_nil; f_equal; ring).
    rewrite <- V1. split.
    + intros E. f_equal. unfold equal_q in E. destruct e as [[|c [|? ?]] d0]; cbn [e_num e_den] in E; try discriminate.
      * apply Z.eqb_eq in E. contradiction.
      * apply andb_true_iff in E. destruct E as [E1 E2]. apply Z.eqb_eq in E1, E2. congruence.
    + intros E. apply (canon_unique pol x Hm _ _ C C1) in E. subst e. unfold equal_q. cbn [e_num e_den]. rewrite !Z.eqb_refl. reflexivity.
Qed.
End Pred.

Section Elem.
Variables (o : arbops) (n : nfops) (debug : bool) (pol : list Z) (x : R) (N : ball -> Prop).
Hypothesis S : setting o n pol x N.
Let Ho := st_arb _ _ _ _ _ S.
Let Hm := st_min _ _ _ _ _ S.
Let Hn := st_nf _ _ _ _ _ S.
Let HN := st_safe _ _ _ _ _ S.
Let HJ : keeps o debug pol x (on_ball N) := safe_keeps o debug pol x N Ho Hm HN.

Lemma get_arb_accurate : round_sharp o -> forall fuel nf y prec nf' b r, field_ok pol x N nf -> elem_ok pol x y ->
  (0 <= prec <= WORD_MAX)%Z -> get_arb o debug fuel nf y prec = Val (nf', b, r) ->
  inb (ev x (r_elem y)) r /\
  exists m s, r = Fin m s /\ dyv s * pw2 prec <= Rabs (dyv m).
Proof.
  intros Hs fuel nf y prec nf' b r G Gy Hp E.
  destruct (get_arb_ok o debug pol x (on_ball N) Ho Hm HJ _ _ _ _ _ _ _ G Gy (proj1 Hp) E) as (_ & _ & Hb & Hr & D).
  split; [exact Hr|]. destruct (is_zero (r_elem y)) eqn:Iz.
  { unfold get_arb in E. rewrite Iz in E. injection E as _ _ <-. exists (dz 0), (dz 0). split; [reflexivity|].
    rewrite dyv_dz, Rabs_R0. lra. }
  assert (Nz : ev x (r_elem y) <> 0) by (intros W; apply (is_zero_spec pol x Hm _ (proj1 Gy)) in W; congruence).
  destruct D as [->|[-> L]].
  { exists (dz 0), (dz 0). split; [reflexivity|]. rewrite dyv_dz, Rabs_R0. lra. }
  destruct b as [m s|].
  2:{ unfold rel_error, WORD_MAX in L. lia. }
  assert (Ps : 0 <= dyv s) by (cbn [inb] in Hb; pose proof (Rabs_pos (ev x (r_elem y) - dyv m)); lra).
  assert (Nm : fst m <> 0%Z).
  { intros Z. unfold rel_error in L. rewrite Z in L. destruct (Z.eqb_spec (fst s) 0) as [Q|Q].
    - apply dyv_eq0 in Q. apply dyv_eq0 in Z. cbn [inb] in Hb. rewrite Z, Q, Rminus_0_r in Hb.
      apply Nz. unfold Rabs in Hb. destruct (Rcase_abs _) in Hb; lra.
    - cbn in L. unfold WORD_MAX in L. lia. }
  destruct (round_accurate o Hs m s prec Hp Ps L Nm) as (m' & r' & E' & A & _). exists m', r'. split; assumption.
Qed.

(** The answers alone. *)
Lemma sgn_right : forall fuel nf y nf' b s, field_ok pol x N nf -> elem_ok pol x y ->
  sgn o debug fuel nf y = Val (nf', b, s) -> s = Rsgn (ev x (r_elem y)).
Proof. intros fuel nf y nf' b s G Gy E. apply (sgn_ok o debug pol x (on_ball N) Ho Hm HJ _ _ _ _ _ _ G Gy E). Qed.

Lemma cmp_right : forall fuel nf y z nf' b c s, field_ok pol x N nf -> elem_ok pol x y -> elem_ok pol x z ->
  cmp o n debug fuel nf y z = Val (nf', b, c, s) -> s = Rsgn (ev x (r_elem y) - ev x (r_elem z)).
Proof. intros fuel nf y z nf' b c s G Gy Gz E. apply (cmp_ok o n debug pol x (on_ball N) Ho Hm Hn HJ _ _ _ _ _ _ _ _ G Gy Gz E). Qed.

Lemma cmp_q_right : forall fuel nf y p q nf' b s, field_ok pol x N nf -> elem_ok pol x y -> (0 < q)%Z ->
  cmp_q o n debug fuel nf y p q = Val (nf', b, s) -> s = Rsgn (ev x (r_elem y) - IZR p / IZR q).
Proof. intros fuel nf y p q nf' b s G Gy Hq E. apply (cmp_q_ok o n debug pol x (on_ball N) Ho Hm Hn HJ _ _ _ _ _ _ _ _ G Gy Hq E). Qed.

Lemma floor_right : forall fuel nf y nf' b z, field_ok pol x N nf -> elem_ok pol x y ->
  floor o debug fuel nf y = Val (nf', b, z) -> is_floor (ev x (r_elem y)) z.
Proof. intros fuel nf y nf' b z G Gy E. apply (round_int_ok o debug pol x (on_ball N) Ho Hm HJ _ _ rd_floor_ok _ _ _ _ _ _ G Gy E). Qed.

Lemma ceil_right : forall fuel nf y nf' b z, field_ok pol x N nf -> elem_ok pol x y ->
  ceil o debug fuel nf y = Val (nf', b, z) -> is_ceil (ev x (r_elem y)) z.
Proof. intros fuel nf y nf' b z G Gy E. apply (round_int_ok o debug pol x (on_ball N) Ho Hm HJ _ _ rd_ceil_ok _ _ _ _ _ _ G Gy E). Qed.

Lemma fdiv_right : forall same fuel nf y z nf' b c q, field_ok pol x N nf -> elem_ok pol x y -> elem_ok pol x z ->
  (same = true -> r_elem y = r_elem z) -> fdiv o n debug same fuel nf y z = Val (nf', b, c, q) ->
  ev x (r_elem z) <> 0 /\ is_floor (ev x (r_elem y) / ev x (r_elem z)) q.
Proof. intros same fuel nf y z nf' b c q G Gy Gz Hs E. apply (fdiv_ok o n debug pol x (on_ball N) Ho Hm Hn HJ _ _ _ _ _ _ _ _ _ G Gy Gz Hs E). Qed.

Lemma cfrac_right : forall k fuel nf y nf' cs w, field_ok pol x N nf -> elem_ok pol x y ->
  cfrac o n debug fuel nf y k = Val (nf', cs, w) ->
  cf (ev x (r_elem y)) cs (ev x (r_elem w)) /\ (forall c l, cs = c :: l -> Forall (fun d => (1 <= d)%Z) l) /\
  (length cs = k \/ (length cs < k)%nat /\ ev x (r_elem w) = 0).
Proof.
  intros k fuel nf y nf' cs w G Gy E. destruct (cfrac_ok o n debug pol x (on_ball N) Ho Hm Hn HJ _ _ _ _ _ _ _ G Gy E) as (_ & _ & _ & C & L).
  split; [exact C|]. split; [exact (cf_positive _ _ _ C)|exact L].
Qed.

(** * Independence of the history *)
Lemma cf_unique : forall v cs r, cf v cs r -> forall cs' r', cf v cs' r' ->
  (length cs = length cs' -> cs = cs' /\ r = r') /\
  ((length cs < length cs')%nat -> r = 0 -> cs = []).
Proof.
  assert (FU : forall v a b, is_floor v a -> is_floor v b -> a = b) by exact floor_unique.
  assert (FI : forall c, is_floor (IZR c) c) by (intros c; unfold is_floor; lra).
  intros v cs r H. induction H as [v|c|v c cs r Fl Nv H IH]; intros cs' r' H'.
  - split; [|intros; reflexivity]. intros L. inversion H'; subst; cbn [length] in L; try lia. split; reflexivity.
  - inversion H' as [v' Ev|c' Ec|v' c' cs1 r1 Fl' Nv' H1 Ev]; subst.
    + split; cbn [length]; lia.
    + apply eq_IZR in Ec. subst c'. split; [intros _; split; reflexivity|cbn [length]; lia].
    + exfalso. apply Nv'. f_equal. apply (FU _ _ _ (FI c) Fl').
  - inversion H' as [v' Ev|c' Ec|v' c' cs1 r1 Fl' Nv' H1 Ev]; subst.
    + split; cbn [length]; lia.
    + exfalso. apply Nv. f_equal. apply (FU _ _ _ (FI c') Fl).
    + rewrite <- (FU _ _ _ Fl Fl') in *. destruct (IH _ _ H1) as [A B]. split.
      * cbn [length]. intros L. destruct A as [-> ->]; [lia|]. split; reflexivity.
      * cbn [length]. intros L R. exfalso. specialize (B ltac:(lia) R). subst cs.
        assert (Z : / (v - IZR c) = 0) by (inversion H; congruence). apply (Rinv_neq_0_compat (v - IZR c)); [lra|exact Z].
Qed.

(** The answers are those of the real numbers. *)
Lemma sgn_history : forall fuel1 fuel2 nf1 nf2 y1 y2 a1 a2 b1 b2 s1 s2,
  field_ok pol x N nf1 -> field_ok pol x N nf2 -> elem_ok pol x y1 -> elem_ok pol x y2 -> r_elem y1 = r_elem y2 ->
  sgn o debug fuel1 nf1 y1 = Val (a1, b1, s1) -> sgn o debug fuel2 nf2 y2 = Val (a2, b2, s2) -> s1 = s2.
Proof.
  intros fuel1 fuel2 nf1 nf2 y1 y2 a1 a2 b1 b2 s1 s2 G1 G2 E1 E2 Q H1 H2.
  destruct (sgn_ok o debug pol x (on_ball N) Ho Hm HJ _ _ _ _ _ _ G1 E1 H1) as (_ & _ & _ & ->).
  destruct (sgn_ok o debug pol x (on_ball N) Ho Hm HJ _ _ _ _ _ _ G2 E2 H2) as (_ & _ & _ & ->). rewrite Q. reflexivity.
Qed.

Lemma cmp_history : forall fuel1 fuel2 nf1 nf2 y1 y2 z1 z2 a1 a2 b1 b2 c1 c2 s1 s2,
  field_ok pol x N nf1 -> field_ok pol x N nf2 -> elem_ok pol x y1 -> elem_ok pol x y2 -> elem_ok pol x z1 -> elem_ok pol x z2 ->
  r_elem y1 = r_elem y2 -> r_elem z1 = r_elem z2 ->
  cmp o n debug fuel1 nf1 y1 z1 = Val (a1, b1, c1, s1) -> cmp o n debug fuel2 nf2 y2 z2 = Val (a2, b2, c2, s2) -> s1 = s2.
Proof.
  intros fuel1 fuel2 nf1 nf2 y1 y2 z1 z2 a1 a2 b1 b2 c1 c2 s1 s2 G1 G2 E1 E2 F1 F2 Q Q' H1 H2.
  destruct (cmp_ok o n debug pol x (on_ball N) Ho Hm Hn HJ _ _ _ _ _ _ _ _ G1 E1 F1 H1) as (_ & _ & _ & _ & ->).
  destruct (cmp_ok o n debug pol x (on_ball N) Ho Hm Hn HJ _ _ _ _ _ _ _ _ G2 E2 F2 H2) as (_ & _ & _ & _ & ->). rewrite Q, Q'. reflexivity.
Qed.

Lemma cmp_q_history : forall fuel1 fuel2 nf1 nf2 y1 y2 p q a1 a2 b1 b2 s1 s2, (0 < q)%Z ->
  field_ok pol x N nf1 -> field_ok pol x N nf2 -> elem_ok pol x y1 -> elem_ok pol x y2 -> r_elem y1 = r_elem y2 ->
  cmp_q o n debug fuel1 nf1 y1 p q = Val (a1, b1, s1) -> cmp_q o n debug fuel2 nf2 y2 p q = Val (a2, b2, s2) -> s1 = s2.
Proof.
  intros fuel1 fuel2 nf1 nf2 y1 y2 p q a1 a2 b1 b2 s1 s2 Hq G1 G2 E1 E2 Q H1 H2.
  destruct (cmp_q_ok o n debug pol x (on_ball N) Ho Hm Hn HJ _ _ _ _ _ _ _ _ G1 E1 Hq H1) as (_ & _ & _ & ->).
  destruct (cmp_q_ok o n debug pol x (on_ball N) Ho Hm Hn HJ _ _ _ _ _ _ _ _ G2 E2 Hq H2) as (_ & _ & _ & ->). rewrite Q. reflexivity.
Qed.

Lemma floor_history : forall fuel1 fuel2 nf1 nf2 y1 y2 a1 a2 b1 b2 s1 s2,
  field_ok pol x N nf1 -> field_ok pol x N nf2 -> elem_ok pol x y1 -> elem_ok pol x y2 -> r_elem y1 = r_elem y2 ->
  floor o debug fuel1 nf1 y1 = Val (a1, b1, s1) -> floor o debug fuel2 nf2 y2 = Val (a2, b2, s2) -> s1 = s2.
Proof.
  intros fuel1 fuel2 nf1 nf2 y1 y2 a1 a2 b1 b2 s1 s2 G1 G2 E1 E2 Q H1 H2.
  destruct (round_int_ok o debug pol x (on_ball N) Ho Hm HJ _ _ rd_floor_ok _ _ _ _ _ _ G1 E1 H1) as (_ & _ & _ & F1).
  destruct (round_int_ok o debug pol x (on_ball N) Ho Hm HJ _ _ rd_floor_ok _ _ _ _ _ _ G2 E2 H2) as (_ & _ & _ & F2).
  rewrite Q in F1. apply (floor_unique _ _ _ F1 F2).
Qed.

Lemma ceil_unique : forall v a b, is_ceil v a -> is_ceil v b -> a = b.
Proof.
  intros v a b [A1 A2] [B1 B2]. assert (IZR a < IZR (b + 1)) by (rewrite plus_IZR; lra).
  assert (IZR b < IZR (a + 1)) by (rewrite plus_IZR; lra). apply lt_IZR in H, H0. lia.
Qed.

Lemma ceil_history : forall fuel1 fuel2 nf1 nf2 y1 y2 a1 a2 b1 b2 s1 s2,
  field_ok pol x N nf1 -> field_ok pol x N nf2 -> elem_ok pol x y1 -> elem_ok pol x y2 -> r_elem y1 = r_elem y2 ->
  ceil o debug fuel1 nf1 y1 = Val (a1, b1, s1) -> ceil o debug fuel2 nf2 y2 = Val (a2, b2, s2) -> s1 = s2.
Proof.
  intros fuel1 fuel2 nf1 nf2 y1 y2 a1 a2 b1 b2 s1 s2 G1 G2 E1 E2 Q H1 H2.
  destruct (round_int_ok o debug pol x (on_ball N) Ho Hm HJ _ _ rd_ceil_ok _ _ _ _ _ _ G1 E1 H1) as (_ & _ & _ & F1).
  destruct (round_int_ok o debug pol x (on_ball N) Ho Hm HJ _ _ rd_ceil_ok _ _ _ _ _ _ G2 E2 H2) as (_ & _ & _ & F2).
  rewrite Q in F1. apply (ceil_unique _ _ _ F1 F2).
Qed.

Lemma same_elem : forall (m : mem) i j, Nat.eqb i j = true -> r_elem (m i) = r_elem (m j).
Proof. intros m i j W. apply Nat.eqb_eq in W. rewrite W. reflexivity. Qed.

Lemma fdiv_history : forall fuel1 fuel2 nf1 nf2 m1 m2 i1 j1 i2 j2 a1 a2 b1 b2 c1 c2 s1 s2,
  field_ok pol x N nf1 -> field_ok pol x N nf2 -> mem_ok pol x m1 -> mem_ok pol x m2 ->
  r_elem (m1 i1) = r_elem (m2 i2) -> r_elem (m1 j1) = r_elem (m2 j2) ->
  fdiv o n debug (Nat.eqb i1 j1) fuel1 nf1 (m1 i1) (m1 j1) = Val (a1, b1, c1, s1) ->
  fdiv o n debug (Nat.eqb i2 j2) fuel2 nf2 (m2 i2) (m2 j2) = Val (a2, b2, c2, s2) -> s1 = s2.
Proof.
  intros fuel1 fuel2 nf1 nf2 m1 m2 i1 j1 i2 j2 a1 a2 b1 b2 c1 c2 s1 s2 G1 G2 E1 E2 Q Q' H1 H2.
  destruct (fdiv_ok o n debug pol x (on_ball N) Ho Hm Hn HJ _ _ _ _ _ _ _ _ _ G1 (E1 i1) (E1 j1) (same_elem m1 i1 j1) H1) as (_ & _ & _ & _ & _ & F1).
  destruct (fdiv_ok o n debug pol x (on_ball N) Ho Hm Hn HJ _ _ _ _ _ _ _ _ _ G2 (E2 i2) (E2 j2) (same_elem m2 i2 j2) H2) as (_ & _ & _ & _ & _ & F2).
  rewrite Q, Q' in F1. apply (floor_unique _ _ _ F1 F2).
Qed.

Lemma cf_zero_short : forall v cs r, cf v cs r -> r = 0 -> forall cs' r', cf v cs' r' -> cs <> [] -> (length cs' <= length cs)%nat.
Proof.
  intros v cs r H R cs' r' H' Ne. destruct (Nat.le_gt_cases (length cs') (length cs)) as [L|L]; [exact L|].
  exfalso. apply Ne. apply (proj2 (cf_unique _ _ _ H _ _ H')); assumption.
Qed.

Lemma cfrac_history : forall k fuel1 fuel2 nf1 nf2 y1 y2 a1 a2 w1 w2 l1 l2,
  field_ok pol x N nf1 -> field_ok pol x N nf2 -> elem_ok pol x y1 -> elem_ok pol x y2 -> r_elem y1 = r_elem y2 ->
  cfrac o n debug fuel1 nf1 y1 k = Val (a1, l1, w1) -> cfrac o n debug fuel2 nf2 y2 k = Val (a2, l2, w2) ->
  l1 = l2 /\ r_elem w1 = r_elem w2.
Proof.
  intros k fuel1 fuel2 nf1 nf2 y1 y2 a1 a2 w1 w2 l1 l2 G1 G2 E1 E2 Q H1 H2.
  destruct (cfrac_ok o n debug pol x (on_ball N) Ho Hm Hn HJ _ _ _ _ _ _ _ G1 E1 H1) as (_ & _ & W1 & F1 & L1).
  destruct (cfrac_ok o n debug pol x (on_ball N) Ho Hm Hn HJ _ _ _ _ _ _ _ G2 E2 H2) as (_ & _ & W2 & F2 & L2).
  rewrite Q in F1. destruct (is_zero (r_elem y1)) eqn:Z.
  { unfold cfrac in H1, H2. rewrite <- Q, Z in H2. rewrite Z in H1. injection H1 as _ <- <-. injection H2 as _ <- <-. split; [reflexivity|exact Q]. }
  assert (L : length l1 = length l2).
  { assert (V : ev x (r_elem y2) <> 0) by (rewrite <- Q; intros W; apply (is_zero_spec pol x Hm _ (proj1 E1)) in W; congruence).
    assert (N1 : ev x (r_elem w1) = 0 -> l1 <> []) by (intros W Q0; rewrite Q0 in F1; apply V; rewrite <- W; inversion F1; congruence).
    assert (N2 : ev x (r_elem w2) = 0 -> l2 <> []) by (intros W Q0; rewrite Q0 in F2; apply V; rewrite <- W; inversion F2; congruence).
    destruct L1 as [L1|[L1 R1]], L2 as [L2|[L2 R2]]; try congruence.
    - pose proof (cf_zero_short _ _ _ F2 R2 _ _ F1 (N2 R2)). lia.
    - pose proof (cf_zero_short _ _ _ F1 R1 _ _ F2 (N1 R1)). lia.
    - pose proof (cf_zero_short _ _ _ F2 R2 _ _ F1 (N2 R2)). pose proof (cf_zero_short _ _ _ F1 R1 _ _ F2 (N1 R1)). lia. }
  destruct (proj1 (cf_unique _ _ _ F1 _ _ F2) L) as [-> R]. split; [reflexivity|].
  apply (canon_unique pol x Hm); [apply W1|apply W2|exact R].
Qed.

Lemma hist_ok : forall fuel l nf m nf' m', field_ok pol x N nf -> mem_ok pol x m -> Forall (call_ok pol) l ->
  runs o n debug fuel nf m l = Val (nf', m') -> field_ok pol x N nf' /\ mem_ok pol x m'.
Proof.
  intros fuel l nf m nf' m' G Gm Hl E.
  destruct (runs_ok o n debug pol x (on_ball N) Ho Hm Hn HJ fuel l nf m nf' m' G Gm Hl E) as (A & _ & B). split; assumption.
Qed.

Lemma call_effect : forall fuel nf m k nf' m', field_ok pol x N nf -> mem_ok pol x m -> call_ok pol k -> sound_call pol k ->
  run o n debug fuel nf m k = Val (nf', m') -> effect x (values x m) k (values x m').
Proof.
  intros fuel nf m k nf' m' G Gm Hk Hs E.
  destruct (run_ok o n debug pol x (on_ball N) Ho Hm Hn HJ fuel nf m k nf' m' G Gm Hk E) as (_ & _ & _ & F). apply F. exact Hs.
Qed.
End Elem.

(** * What no call changes, without any assumption *)
Section Kept.
Variables (o : arbops) (n : nfops) (debug : bool).

Lemma refine_loop_kept : forall fuel nf p c nf', refine_loop o fuel nf p c = Val nf' -> kept nf nf'.
Proof.
  induction fuel as [|f IH]; intros nf p c nf' E; [discriminate|]. cbn [refine_loop] in E.
  destruct (rel_accuracy (f_emb nf) <? p)%Z; [|injection E as <-; apply kept_refl].
  assert (H : forall t, bind (comp_prec (with_emb nf t) 32) (fun cp' => refine_loop o f (with_emb nf t) p cp') = Val nf' -> kept nf nf').
  { intros t E'. destruct (comp_prec (with_emb nf t) 32) as [cp| | |]; try discriminate. cbn [bind] in E'. apply IH in E'.
    destruct E' as ((A & B & C) & D). cbn in *. repeat split; assumption. }
  destruct (newton_step o (f_pol nf) (zderiv (f_pol nf)) (f_emb nf) c) as [[b t]| | |]; try discriminate. cbn [bind] in E.
  assert (H2 : bind (bisection_step o (f_pol nf) (f_emb nf) c) (fun bs =>
                match bs with
                | (true, Some t) => bind (comp_prec (with_emb nf t) 32) (fun cp' => refine_loop o f (with_emb nf t) p cp')
                | _ => refine_loop o f nf p (2 * c)
                end) = Val nf' -> kept nf nf').
  { clear E. intros E. destruct (bisection_step o (f_pol nf) (f_emb nf) c) as [[b' t']| | |]; try discriminate. cbn [bind] in E.
    destruct b', t'; try (apply IH in E; exact E). apply (H _ E). }
  destruct b, t; try (apply H2; exact E). apply (H _ E).
Qed.

Lemma refine_kept : forall fuel nf p nf', refine o debug fuel nf p = Val nf' -> kept nf nf'.
Proof.
  intros fuel nf p nf' E. unfold refine in E. destruct debug.
  - cbn [set_immutable] in E. destruct (Z.eqb_spec (f_imm nf) 0) as [Hi|]; [|discriminate].
    destruct (comp_prec (with_imm nf 1) _) as [cp| | |]; try discriminate. cbn [bind] in E.
    destruct (refine_loop o fuel (with_imm nf 1) p cp) as [nf2| | |] eqn:El; try discriminate. cbn [bind] in E.
    unfold set_immutable in E. destruct (f_imm nf2 =? 0)%Z; [discriminate|]. injection E as <-.
    apply refine_loop_kept in El. destruct El as ((A & B & C) & D). cbn in *. repeat split; try assumption. exact (eq_sym Hi).
  - destruct (comp_prec nf _) as [cp| | |]; try discriminate. cbn [bind] in E. eapply refine_loop_kept. exact E.
Qed.

Ltac kgo E :=
  repeat match type of E with
  | bind ?t _ = Val _ => let K := fresh "K" in destruct t as [?| | |] eqn:K; try discriminate; cbn [bind] in E
  | (let '(_, _) := ?t in _) = Val _ => destruct t
  | (if ?t then _ else _) = Val _ => destruct t eqn:?; try discriminate
  | match ?t with _ => _ end = Val _ => destruct t eqn:?; try discriminate
  end.
Ltac kfin := repeat match goal with
  | H : refine _ _ _ _ _ = Val _ |- _ => apply refine_kept in H
  end; try (eapply kept_trans; eassumption); try assumption; try apply kept_refl.

Lemma sgn_loop_kept : forall fuel nf a b p c nf' b' s, sgn_loop o debug fuel nf a b p c = Val (nf', b', s) -> kept nf nf'.
Proof.
  induction fuel as [|f IH]; intros nf a b p c nf' b' s E; [discriminate|]. cbn [sgn_loop] in E. kgo E.
  - injection E as <- <- <-. apply kept_refl.
  - apply IH in E. kfin.
Qed.
Lemma sgn_kept : forall fuel nf y nf' b s, sgn o debug fuel nf y = Val (nf', b, s) -> kept nf nf'.
Proof.
  intros fuel nf y nf' b s E. unfold sgn in E. cbv zeta in E. kgo E;
    try (injection E as <- <- <-; apply kept_refl); eapply sgn_loop_kept; exact E.
Qed.
Lemma cmp_kept : forall fuel nf y z nf' b c s, cmp o n debug fuel nf y z = Val (nf', b, c, s) -> kept nf nf'.
Proof.
  intros fuel nf y z nf' b c s E. unfold cmp in E. cbv zeta in E. kgo E; try (injection E as <- <- <- <-);
    try apply kept_refl; eapply sgn_kept; eassumption.
Qed.
Lemma cmp_q_kept : forall fuel nf y p q nf' b s, cmp_q o n debug fuel nf y p q = Val (nf', b, s) -> kept nf nf'.
Proof.
  intros fuel nf y p q nf' b s E. unfold cmp_q in E. cbv zeta in E. kgo E; try (injection E as <- <- <-);
    try apply kept_refl; eapply sgn_kept; eassumption.
Qed.
Lemma finite_loop_kept : forall fuel nf a b p c nf' b', finite_loop o debug fuel nf a b p c = Val (nf', b') -> kept nf nf'.
Proof.
  induction fuel as [|f IH]; intros nf a b p c nf' b' E; [discriminate|]. cbn [finite_loop] in E. kgo E.
  - injection E as <- <-. apply kept_refl.
  - apply IH in E. kfin.
Qed.
Lemma finite_loop_p_kept : forall fuel nf a b p c nf' b' q, finite_loop_p o debug fuel nf a b p c = Val (nf', b', q) -> kept nf nf'.
Proof.
  induction fuel as [|f IH]; intros nf a b p c nf' b' q E; [discriminate|]. cbn [finite_loop_p] in E. kgo E.
  - injection E as <- <- <-. apply kept_refl.
  - apply IH in E. kfin.
Qed.
Lemma nonzero_loop_kept : forall fuel nf a b p c nf' b' q, nonzero_loop o debug fuel nf a b p c = Val (nf', b', q) -> kept nf nf'.
Proof.
  induction fuel as [|f IH]; intros nf a b p c nf' b' q E; [discriminate|]. cbn [nonzero_loop] in E. kgo E.
  - injection E as <- <- <-. apply kept_refl.
  - apply IH in E. kfin.
Qed.
Lemma round_loop_kept : forall rd fuel nf a sz p c nf' b' q, round_loop o debug rd fuel nf a sz p c = Val (nf', b', q) -> kept nf nf'.
Proof.
  intros rd. induction fuel as [|f IH]; intros nf a sz p c nf' b' q E; [discriminate|]. cbn [round_loop] in E. cbv zeta in E. kgo E;
    try (injection E as <- <- <-; apply kept_refl); apply IH in E; kfin.
Qed.
Lemma round_int_kept : forall rd fuel nf y nf' b z, round_int o debug rd fuel nf y = Val (nf', b, z) -> kept nf nf'.
Proof.
  intros rd fuel nf y nf' b z E. unfold round_int in E. cbv zeta in E. destruct (is_rational (r_elem y)).
  { kgo E. injection E as <- <- <-. apply kept_refl. }
  match type of E with bind ?t _ = _ => destruct t as [[nf1 b1]| | |] eqn:K; try discriminate end. cbn [bind] in E.
  assert (K1 : kept nf nf1).
  { destruct (is_finite (r_emb y)); [injection K as <- <-; apply kept_refl|]. kgo K. eapply finite_loop_kept. exact K. }
  kgo E.
  - injection E as <- <- <-. exact K1.
  - apply round_loop_kept in E. kfin.
Qed.
Lemma quot_loop_kept : forall fuel nf b c eb ec q p k1 k2 nf' eb' ec' q',
  quot_loop o debug fuel nf b c eb ec q p k1 k2 = Val (nf', eb', ec', q') -> kept nf nf'.
Proof.
  induction fuel as [|f IH]; intros nf b c eb ec q p k1 k2 nf' eb' ec' q' E; [discriminate|]. cbn [quot_loop] in E. kgo E.
  - apply IH in E. kfin.
  - injection E as <- <- <- <-. apply kept_refl.
Qed.
Lemma fdiv_kept : forall same fuel nf y z nf' b c q, fdiv o n debug same fuel nf y z = Val (nf', b, c, q) -> kept nf nf'.
Proof.
  intros same fuel nf y z nf' b c q E. unfold fdiv in E. cbv zeta in E. destruct (is_rational (r_elem z)).
  { destruct (is_zero (r_elem z)); [discriminate|]. kgo E. injection E as <- <- <- <-. eapply round_int_kept. eassumption. }
  repeat match type of E with bind ?t _ = Val _ => let K := fresh "K" in destruct t as [?| | |] eqn:K; try discriminate; cbn [bind] in E
    | (let '(_, _) := ?t in _) = Val _ => destruct t end.
  match goal with H : finite_loop_p _ _ _ _ _ _ _ _ = _ |- _ => apply finite_loop_p_kept in H end.
  match goal with H : nonzero_loop _ _ _ _ _ _ _ _ = _ |- _ => apply nonzero_loop_kept in H end.
  match goal with H : quot_loop _ _ _ _ _ _ _ _ _ _ _ _ = _ |- _ => apply quot_loop_kept in H end.
  kgo E; injection E as <- <- <- <-;
    repeat match goal with H : cmp _ _ _ _ _ _ _ = _ |- _ => apply cmp_kept in H end;
    repeat match goal with H : sgn _ _ _ _ _ = _ |- _ => apply sgn_kept in H end;
    repeat (eapply kept_trans; [eassumption|]); try assumption; apply kept_refl.
Qed.
Lemma get_arb_loop_kept : forall fuel nf a p c q nf' b r, get_arb_loop o debug fuel nf a p c q = Val (nf', b, r) -> kept nf nf'.
Proof.
  induction fuel as [|f IH]; intros nf a p c q nf' b r E; [discriminate|]. cbn [get_arb_loop] in E. kgo E.
  - injection E as <- <- <-. apply kept_refl.
  - apply IH in E. kfin.
Qed.
Lemma get_arb_kept : forall fuel nf y p nf' b r, get_arb o debug fuel nf y p = Val (nf', b, r) -> kept nf nf'.
Proof.
  intros fuel nf y p nf' b r E. unfold get_arb in E. cbv zeta in E. kgo E;
    try (injection E as <- <- <-; apply kept_refl). eapply get_arb_loop_kept. exact E.
Qed.
Lemma cfrac_loop_kept : forall k fuel nf y nf' l w, cfrac_loop o n debug fuel nf y k = Val (nf', l, w) -> kept nf nf'.
Proof.
  induction k as [|k IH]; intros fuel nf y nf' l w E; cbn [cfrac_loop] in E; [injection E as <- <- <-; apply kept_refl|].
  kgo E; cbv zeta in E; kgo E; injection E as <- <- <-;
    repeat match goal with H : floor _ _ _ _ _ = _ |- _ => apply round_int_kept in H end;
    repeat match goal with H : cfrac_loop _ _ _ _ _ _ _ = _ |- _ => apply IH in H end; kfin.
Qed.
Lemma cfrac_kept : forall k fuel nf y nf' l w, cfrac o n debug fuel nf y k = Val (nf', l, w) -> kept nf nf'.
Proof.
  intros k fuel nf y nf' l w E. unfold cfrac in E. destruct (is_zero (r_elem y)); [injection E as <- <- <-; apply kept_refl|].
  eapply cfrac_loop_kept. exact E.
Qed.

Lemma run_kept : forall fuel nf m k nf' m', run o n debug fuel nf m k = Val (nf', m') ->
  kept nf nf' /\ (reads k -> forall i, r_elem (m' i) = r_elem (m i)).
Proof.
  intros fuel nf m k nf' m' E.
  assert (W : forall a b ea eb i, r_elem (write2 m a b ea eb i) = r_elem (m i)).
  { intros. unfold write2. rewrite !elem_upd_emb. reflexivity. }
  destruct k; cbn [run reads] in *; cbv zeta in E; kgo E;
    try (injection E as <- <-);
    repeat match goal with p : (_ * _)%type |- _ => destruct p end;
    try (injection E as <- <-).
  all: split; [|first [intros H0; exfalso; exact H0 | intros _ i; first [apply elem_upd_emb | apply W | reflexivity]]].
  all: try apply kept_refl.
  all: try first [eapply sgn_kept; eassumption | eapply cmp_kept; eassumption | eapply cmp_q_kept; eassumption | eapply round_int_kept; eassumption
      | eapply fdiv_kept; eassumption | eapply get_arb_kept; eassumption | eapply cfrac_kept; eassumption | eapply refine_kept; eassumption].
Qed.

Lemma runs_kept : forall fuel l nf m nf' m', runs o n debug fuel nf m l = Val (nf', m') ->
  kept nf nf' /\ (Forall reads l -> forall i, r_elem (m' i) = r_elem (m i)).
Proof.
  intros fuel. induction l as [|k l IH]; intros nf m nf' m' E; cbn [runs] in E.
  - injection E as <- <-. split; [apply kept_refl|reflexivity].
  - destruct (run o n debug fuel nf m k) as [[nf1 m1]| | |] eqn:Er; try discriminate. cbn [bind] in E.
    apply run_kept in Er. apply IH in E. destruct Er as [A A'], E as [B B']. split; [eapply kept_trans; eassumption|].
    intros H i. inversion H; subst. rewrite B', A' by assumption. reflexivity.
Qed.
End Kept.
