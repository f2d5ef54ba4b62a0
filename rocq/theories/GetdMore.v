(** The conversion to double on elements; monotonicity and hashes. *)
Require Import Reals Lra Lia List ZArith Bool.
From Verif Require Import PolyR RootSpec VcaProofs Dyadic DyadicProofs ArbModel ArbSpec ArbProofs FieldProofs RefineProofs ElemModel ElemSpec
  ElemProofs ElemLoops ElemMore GetdModel GetdSpec GetdProofs.
Import ListNotations.
Open Scope R_scope.

Lemma max_z : IZR dbl_max_z / 1 = MAX.
Proof.
  unfold MAX. rewrite (pw2_int 971 0) by lia. rewrite pw2_0, Rmult_1_r, <- mult_IZR.
  replace (IZR dbl_max_z / 1) with (IZR dbl_max_z) by field. apply f_equal. reflexivity.
Qed.

Section Elem.
Variables (o : arbops) (n : nfops) (debug : bool) (pol : list Z) (x : R) (J : renf -> Prop).
Hypothesis Ho : arb_ok o.
Hypothesis Hm : minimal pol x.
Hypothesis Hn : nf_ok pol x n.
Hypothesis HJ : keeps o debug pol x J.

Notation good := (good pol x J).
Notation goodr := (goodr pol x).

Ltac fin := repeat match goal with
  | |- _ /\ _ => split
  | |- kept ?a ?a => apply kept_refl
  | |- kept _ _ => eassumption || (eapply kept_trans; eassumption)
  | |- goodr _ => assumption || (split; assumption)
  | |- _ => assumption
  end.

Lemma over_ok : forall depth fuel nf y nf' y' v, good nf -> goodr y -> overflows o n debug depth fuel nf y = Val (nf', y', v) ->
  good nf' /\ kept nf nf' /\ goodr y' /\ r_elem y' = r_elem y /\
  (v = 1%Z /\ MAX < ev x (r_elem y) \/ v = (-1)%Z /\ ev x (r_elem y) < - MAX \/ v = 0%Z /\ Rabs (ev x (r_elem y)) <= MAX).
Proof.
  induction depth as [|k IH]; intros fuel nf [e b] nf' y' v G [He Hb] E; [discriminate|]. cbn [overflows r_elem r_emb] in *.
  destruct (sgn o debug fuel nf {| r_elem := e; r_emb := b |}) as [[[nf1 b1] s]| | |] eqn:E1; try discriminate. cbn [bind] in E.
  destruct (sgn_ok o debug pol x J Ho Hm HJ _ _ _ _ _ _ G (goodr_intro pol x _ _ He Hb) E1) as (G1 & K1 & H1 & S1).
  cbn [r_elem] in *. destruct (Z.leb_spec 0 s) as [P|P].
  - assert (V0 : 0 <= ev x e).
    { destruct (Rle_or_lt 0 (ev x e)) as [|L]; [assumption|]. rewrite (Rsgn_neg _ L) in S1. lia. }
    destruct (cmp_q o n debug fuel nf1 {| r_elem := e; r_emb := b1 |} UINT_MAX 1) as [[[nf2 b2] c]| | |] eqn:E2; try discriminate. cbn [bind] in E.
    destruct (cmp_q_ok o n debug pol x J Ho Hm Hn HJ _ _ _ _ _ _ _ _ G1 (goodr_intro pol x _ _ He H1) Z.lt_0_1 E2) as (G2 & K2 & H2 & S2).
    cbn [r_elem] in *. destruct (Z.leb_spec c 0) as [C|C].
    + injection E as <- <- <-. fin; try reflexivity. right. right. split; [reflexivity|]. rewrite Rabs_pos_eq by exact V0.
      assert (ev x e <= IZR UINT_MAX / 1).
      { destruct (Rle_or_lt (ev x e) (IZR UINT_MAX / 1)) as [|L]; [assumption|]. rewrite Rsgn_pos in S2 by lra. lia. }
      rewrite <- max_z. apply Rle_trans with (1 := H). unfold Rdiv. apply Rmult_le_compat_r; [lra|]. apply IZR_le. vm_compute. discriminate.
    + destruct (cmp_q o n debug fuel nf2 {| r_elem := e; r_emb := b2 |} dbl_max_z 1) as [[[nf3 b3] c2]| | |] eqn:E3; try discriminate. cbn [bind] in E.
      destruct (cmp_q_ok o n debug pol x J Ho Hm Hn HJ _ _ _ _ _ _ _ _ G2 (goodr_intro pol x _ _ He H2) Z.lt_0_1 E3) as (G3 & K3 & H3 & S3).
      cbn [r_elem] in *. rewrite max_z in S3. assert (K' : kept nf nf3) by (eapply kept_trans; [|eassumption]; eapply kept_trans; eassumption).
      injection E as <- <- <-. fin; try reflexivity.
      destruct (Z.ltb_spec 0 c2) as [C2|C2]; [left|right; right]; (split; [reflexivity|]).
      * destruct (Rle_or_lt (ev x e) MAX) as [L|L]; [|exact L]. destruct L as [L|L].
        { rewrite Rsgn_neg in S3 by lra. lia. }
        { rewrite L, Rminus_eq_0, Rsgn_0 in S3. lia. }
      * rewrite Rabs_pos_eq by exact V0. destruct (Rle_or_lt (ev x e) MAX) as [L|L]; [exact L|]. rewrite Rsgn_pos in S3 by lra. lia.
  - destruct (nk_neg _ _ _ Hn e He) as [Cn Vn].
    destruct (overflows o n debug k fuel nf1 {| r_elem := n_neg n e; r_emb := bneg b1 |}) as [[[nf2 [e2 b2]] w]| | |] eqn:E2; try discriminate.
    cbn [bind r_elem r_emb] in E. injection E as <- <- <-.
    destruct (IH _ _ _ _ _ _ G1 (goodr_intro pol x (n_neg n e) (bneg b1) Cn ltac:(rewrite Vn; apply inb_neg, H1)) E2) as (G2 & K2 & [He2 Hb2] & Q & D).
    cbn [r_elem r_emb] in *. subst e2. rewrite Vn in D, Hb2. destruct (nk_neg _ _ _ Hn _ Cn) as [Cnn Vnn].
    assert (Q : n_neg n (n_neg n e) = e).
    { apply (canon_unique pol x Hm); [exact Cnn|exact He|]. rewrite Vnn, Vn. ring. }
    rewrite Q. fin; try reflexivity.
    + split; [exact He|]. cbn [r_elem r_emb]. replace (ev x e) with (- - ev x e) by ring. apply inb_neg, Hb2.
    + rewrite Rabs_Ropp in D. destruct D as [[-> D]|[[-> D]|[-> D]]]; [right; left|left|right; right]; (split; [reflexivity|lra]).
Qed.

Lemma acc_ok : forall e, canon pol e -> forall fuel nf b p nf' b', good nf -> inb (ev x e) b ->
  accuracy_loop o debug fuel nf e b p = Val (nf', b') -> good nf' /\ kept nf nf' /\ inb (ev x e) b'.
Proof.
  intros e He. induction fuel as [|f IH]; intros nf b p nf' b' G Hb E; [discriminate|]. cbn [accuracy_loop] in E.
  destruct (rel_accuracy b <? 55)%Z; [|injection E as <- <-; fin].
  destruct (refine o debug f nf (2 * p)) as [nf1| | |] eqn:Er; try discriminate. cbn [bind] in E.
  destruct (HJ _ _ _ _ G Er) as (G1 & K1).
  destruct (set_evaluation o nf1 e (2 * p)) as [b1| | |] eqn:Ee; try discriminate. cbn [bind] in E.
  destruct (IH _ _ _ _ _ G1 (set_eval_ok o pol x J Ho Hm _ _ _ _ G1 He Ee) E) as (A & B & C). fin.
Qed.

Lemma double_ok : forall md, md = RFloor \/ md = RCeil \/ md = RNear -> forall e, canon pol e ->
  forall fuel nf b p nf' b' d, good nf -> inb (ev x e) b -> (1 <= p)%Z ->
  double_loop o debug md fuel nf e b p = Val (nf', b', d) ->
  good nf' /\ kept nf nf' /\ inb (ev x e) b' /\ is_round md (ev x e) d.
Proof.
  intros md Hmd e He. induction fuel as [|f IH]; intros nf b p nf' b' d G Hb Hp E; [discriminate|]. cbn [double_loop] in E.
  match type of E with match _ with Some _ => _ | None => ?t end = _ =>
    assert (Hagain : t = Val (nf', b', d) -> good nf' /\ kept nf nf' /\ inb (ev x e) b' /\ is_round md (ev x e) d) end.
  { clear E. intros E. destruct (refine o debug f nf (2 * p)) as [nf1| | |] eqn:Er; try discriminate. cbn [bind] in E.
    destruct (HJ _ _ _ _ G Er) as (G1 & K1).
    destruct (set_evaluation o nf1 e (2 * p)) as [b1| | |] eqn:Ee; try discriminate. cbn [bind] in E.
    destruct (IH nf1 b1 (2 * p)%Z nf' b' d G1 (set_eval_ok o pol x J Ho Hm _ _ _ _ G1 He Ee) ltac:(lia) E) as (A & B & C & D). fin. }
  destruct (interval b p) as [[l u]|] eqn:Ei; [|exact (Hagain E)].
  destruct (dbl_eqb (arf_get_d md u) (arf_get_d md l)) eqn:Ed; [|exact (Hagain E)]. injection E as <- <- <-. fin.
  apply (sandwich md (dyv l) (dyv u) _ _ (arf_get_d md u)); [exact Hmd|apply (interval_spec b p l u _ Hp Ei Hb)|apply arf_get_d_ok|apply arf_get_d_ok|exact Ed].
Qed.

(** What the conversion returns. *)
Definition converted (md : rnd) (e : elem) (d : dbl) : Prop :=
  (is_rational e = true /\ d = arf_get_d md (round_q md (nth 0 (e_num e) 0%Z) (e_den e) 53)) \/
  (is_rational e = false /\
    (MAX < ev x e /\ d = DInf false \/ ev x e < - MAX /\ d = DInf true \/ Rabs (ev x e) <= MAX /\ is_round md (ev x e) d)).

Lemma get_d_ok : forall fuel nf y md nf' y' d, good nf -> goodr y -> get_d o n debug fuel nf y md = Val (nf', y', d) ->
  good nf' /\ kept nf nf' /\ goodr y' /\ r_elem y' = r_elem y /\ converted md (r_elem y) d.
Proof.
  intros fuel nf [e b] md nf' y' d G [He Hb] E. unfold get_d in E. cbn [r_elem r_emb] in *.
  destruct (is_zero e) eqn:Z0.
  { injection E as <- <- <-. fin; [reflexivity|]. left. unfold is_zero in Z0.
    destruct e as [[|? ?] dd]; [|discriminate]. split; reflexivity. }
  destruct (is_rational e) eqn:Re.
  { injection E as <- <- <-. fin; [reflexivity|]. left. auto. }
  assert (V0 : ev x e <> 0) by (intros W; apply (is_zero_spec pol x Hm e He) in W; congruence).
  match type of E with bind ?t _ = _ => destruct t as [[[nf1 y1] md1]| | |] eqn:E1; try discriminate end. cbn [bind] in E.
  assert (H1 : good nf1 /\ kept nf nf1 /\ goodr y1 /\ r_elem y1 = e /\ (md1 = RFloor \/ md1 = RCeil \/ md1 = RNear) /\
     forall d, is_round md1 (ev x e) d -> is_round md (ev x e) d).
  { assert (Hs : forall nf1 b1 s, sgn o debug fuel nf {| r_elem := e; r_emb := b |} = Val (nf1, b1, s) ->
      good nf1 /\ kept nf nf1 /\ goodr {| r_elem := e; r_emb := b1 |} /\ ((0 <? s)%Z = true /\ 0 < ev x e \/ (0 <? s)%Z = false /\ ev x e < 0)).
    { intros nf2 b2 s Es. destruct (sgn_ok o debug pol x J Ho Hm HJ _ _ _ _ _ _ G (goodr_intro pol x _ _ He Hb) Es) as (A & B & C & D).
      cbn [r_elem] in *. fin. destruct (Rdichotomy _ _ V0) as [V|V]; [right|left]; rewrite D.
      - rewrite (Rsgn_neg _ V). split; [reflexivity|exact V].
      - rewrite (Rsgn_pos _ V). split; [reflexivity|exact V]. }
    unfold reduce_rnd in E1. cbn [r_elem] in E1.
    assert (Kk : forall m, md = m -> (m = RFloor \/ m = RCeil \/ m = RNear) -> Val (nf, {| r_elem := e; r_emb := b |}, m) = Val (nf1, y1, md1) ->
       good nf1 /\ kept nf nf1 /\ goodr y1 /\ r_elem y1 = e /\ (md1 = RFloor \/ md1 = RCeil \/ md1 = RNear) /\
       forall d, is_round md1 (ev x e) d -> is_round md (ev x e) d).
    { intros m Em Dm Q. injection Q as <- <- <-. subst m. fin; [reflexivity|auto]. }
    destruct md.
    - destruct (sgn o debug fuel nf {| r_elem := e; r_emb := b |}) as [[[nf2 b2] s]| | |] eqn:Es; try discriminate. cbn [bind] in E1.
      injection E1 as <- <- <-. destruct (Hs _ _ _ eq_refl) as (A & B & C & D). fin; [reflexivity| |].
      + destruct (0 <? s)%Z; auto.
      + intros d0. destruct D as [[-> D]|[-> D]]; cbn; intros; split; intros; auto; exfalso; lra.
    - destruct (sgn o debug fuel nf {| r_elem := e; r_emb := b |}) as [[[nf2 b2] s]| | |] eqn:Es; try discriminate. cbn [bind] in E1.
      injection E1 as <- <- <-. destruct (Hs _ _ _ eq_refl) as (A & B & C & D). fin; [reflexivity| |].
      + destruct (0 <? s)%Z; auto.
      + intros d0. destruct D as [[-> D]|[-> D]]; cbn; intros; split; intros; auto; exfalso; lra.
    - apply (Kk RFloor); auto.
    - apply (Kk RCeil); auto.
    - apply (Kk RNear); auto. }
  destruct H1 as (G1 & K1 & Gy1 & Q1 & Dm & Tm). clear E1.
  destruct (overflows o n debug 2 fuel nf1 y1) as [[[nf2 y2] v]| | |] eqn:E2; try discriminate. cbn [bind] in E.
  destruct (over_ok _ _ _ _ _ _ _ G1 Gy1 E2) as (G2 & K2 & Gy2 & Q2 & D2). rewrite Q1 in *.
  destruct D2 as [[-> D2]|[[-> D2]|[-> D2]]].
  { cbn in E. injection E as <- <- <-. fin. right. split; [exact Re|]. left. auto. }
  { cbn in E. injection E as <- <- <-. fin. right. split; [exact Re|]. right. left. auto. }
  cbn [Z.eqb] in E. destruct y2 as [e2 b2]. cbn [r_elem r_emb] in *. subst e2. destruct Gy2 as [_ Hb2]. cbn [r_elem r_emb] in *.
  match type of E with bind ?t _ = _ => destruct t as [[nf3 b3]| | |] eqn:E3; try discriminate end. cbn [bind] in E.
  assert (H3 : good nf3 /\ kept nf2 nf3 /\ inb (ev x e) b3).
  { destruct (rel_accuracy b2 <? 55)%Z; [|injection E3 as <- <-; fin].
    match type of E3 with bind ?t _ = _ => destruct t as [b4| | |] eqn:E4; try discriminate end. cbn [bind] in E3.
    apply (acc_ok e He _ _ _ _ _ _ G2) in E3; [exact E3|].
    destruct (2 * mid_bits b2 <? f_prec nf)%Z; [apply (set_eval_ok o pol x J Ho Hm _ _ _ _ G2 He E4)|injection E4 as <-; exact Hb2]. }
  destruct H3 as (G3 & K3 & Hb3).
  match type of E with bind ?t _ = _ => destruct t as [[[nf4 b4] d4]| | |] eqn:E4; try discriminate end. cbn [bind] in E. injection E as <- <- <-.
  assert (P3 : (2 <= f_prec nf3)%Z) by apply G3.
  assert (P4 : (1 <= Z.max (f_prec nf3) (rel_accuracy b3))%Z) by lia.
  destruct (double_ok md1 Dm e He _ _ _ _ _ _ _ G3 Hb3 P4 E4) as (G4 & K4 & Hb4 & R4).
  assert (K' : kept nf nf4) by (eapply kept_trans; [|eassumption]; eapply kept_trans; [|eassumption]; eapply kept_trans; eassumption).
  fin; [reflexivity|]. right. split; [exact Re|]. right. right. auto.
Qed.

Lemma rational_fraction : forall e, canon pol e -> is_rational e = true <-> fraction (ev x e).
Proof. intros e He. apply (is_rational_spec pol x Hm e He). Qed.

Lemma converted_round : forall md e d, canon pol e -> converted md e d -> in_range md (ev x e) -> is_round md (ev x e) d.
Proof.
  intros md e d He C [Rq Ri]. pose proof (rational_fraction e He) as Q. destruct C as [[Re ->]|[Re C]].
  - specialize (Rq (proj1 Q Re)). pose proof (can_den _ _ He) as Hd. rewrite (rational_val x e Re) in Rq |- *. apply get_q_ok; [exact Hd|].
    intros Em Nz. specialize (Rq Em). destruct Rq as [Rg|Rg]; [|exact Rg].
    exfalso. apply Nz, eq_IZR. assert (0 < IZR (e_den e)) by (apply IZR_lt, Hd).
    unfold Rdiv in Rg. apply Rmult_integral in Rg. destruct Rg as [Rg|Rg]; [exact Rg|]. apply Rinv_neq_0_compat in Rg; [contradiction|lra].
  - assert (Nf : ~ fraction (ev x e)) by (intros W; apply Q in W; congruence). specialize (Ri Nf).
    apply Rabs_le_inv in Ri. destruct C as [[C _]|[[C _]|[_ C]]]; [lra|lra|exact C].
Qed.
End Elem.

(** * Uniqueness *)
Lemma dyv_fraction : forall d, fraction (dyv d).
Proof.
  intros [m e]. unfold dyv. cbn [fst snd]. destruct (Z.le_gt_cases 0 e) as [L|L].
  - exists (m * 2 ^ e)%Z, 1%Z. split; [lia|]. rewrite mult_IZR, pw2_IZR by exact L. field.
  - exists m, (2 ^ (- e))%Z. split; [apply Z.pow_pos_nonneg; lia|]. rewrite pw2_IZR by lia.
    pose proof (pw2_inv e). pose proof (pw2_pos e). pose proof (pw2_pos (- e)).
    apply Rmult_eq_reg_r with (pw2 (- e)); [|lra]. unfold Rdiv. rewrite !Rmult_assoc, Rinv_l, (Rmult_comm (pw2 e)), H by lra. reflexivity.
Qed.

Lemma mid_fraction : forall a b v, fraction a -> fraction b -> a + b = 2 * v -> fraction v.
Proof.
  intros a b v (p & q & Q & ->) (r & s & S1 & ->) E. exists (p * s + r * q)%Z, (2 * q * s)%Z. split; [nia|].
  assert (0 < IZR q) by (apply IZR_lt, Q). assert (0 < IZR s) by (apply IZR_lt, S1).
  rewrite plus_IZR, !mult_IZR. apply Rmult_eq_reg_l with 2; [|lra]. rewrite <- E. field. lra.
Qed.

Lemma round_unique : forall md v a b, ~ fraction v -> is_round md v a -> is_round md v b -> dbl_eq a b.
Proof.
  intros md v a b Hv A B.
  assert (F : round_floor v a -> round_floor v b -> dbl_eq a b).
  { destruct a as [p|s], b as [q|t]; cbn.
    - intros (D1 & L1 & U1) (D2 & L2 & U2). apply Rle_antisym; [apply U2|apply U1]; assumption.
    - intros (D1 & L1 & U1) (-> & U2). specialize (U2 _ D1). lra.
    - intros (-> & U2) (D1 & L1 & U1). specialize (U2 _ D1). lra.
    - intros (-> & _) (-> & _). reflexivity. }
  assert (C : round_ceil v a -> round_ceil v b -> dbl_eq a b).
  { destruct a as [p|s], b as [q|t]; cbn.
    - intros (D1 & L1 & U1) (D2 & L2 & U2). apply Rle_antisym; [apply U1|apply U2]; assumption.
    - intros (D1 & L1 & U1) (-> & U2). specialize (U2 _ D1). lra.
    - intros (-> & U2) (D1 & L1 & U1). specialize (U2 _ D1). lra.
    - intros (-> & _) (-> & _). reflexivity. }
  destruct md; cbn [is_round] in A, B.
  - destruct A, B, (Rle_or_lt 0 v); [apply F; auto|apply C; match goal with H : v <= 0 -> _ |- _ => apply H; lra end].
  - destruct A, B, (Rle_or_lt 0 v); [apply C; auto|apply F; match goal with H : v <= 0 -> _ |- _ => apply H; lra end].
  - auto.
  - auto.
  - assert (0 < LIM) by (pose proof MAX_LIM; pose proof MAX_lt; pose proof (pw2_pos 1023); lra).
    destruct a as [p|s], b as [q|t]; cbn in A, B |- *.
    + destruct A as (D1 & L1 & U1), B as (D2 & L2 & U2). specialize (U1 _ D2). specialize (U2 _ D1).
      destruct (Req_dec (dyv p) (dyv q)) as [Q|Q]; [exact Q|exfalso]. apply Hv.
      apply (mid_fraction (dyv p) (dyv q)); try apply dyv_fraction.
      unfold Rabs in U1, U2. destruct (Rcase_abs (v - dyv p)), (Rcase_abs (v - dyv q)); try lra; exfalso; apply Q; lra.
    + destruct A as (_ & L & _). unfold Rabs in L. destruct (Rcase_abs v), t; lra.
    + destruct B as (_ & L & _). unfold Rabs in L. destruct (Rcase_abs v), s; lra.
    + destruct s, t; try reflexivity; lra.
Qed.

(** * Monotonicity *)
Lemma round_mono : forall md v w a b, v < w -> is_round md v a -> is_round md w b -> dbl_le a b.
Proof.
  intros md v w a b Hv A B.
  assert (F : round_floor v a -> round_floor w b -> dbl_le a b).
  { destruct a as [p|s], b as [q|t]; cbn.
    - intros (D1 & L1 & U1) (D2 & L2 & U2). apply U2; [exact D1|lra].
    - intros (D1 & L1 & U1) (-> & U2). specialize (U2 _ D1). lra.
    - intros (-> & _) _. exact I.
    - intros (-> & _) _. exact I. }
  assert (C : round_ceil v a -> round_ceil w b -> dbl_le a b).
  { destruct a as [p|s], b as [q|t]; cbn.
    - intros (D1 & L1 & U1) (D2 & L2 & U2). apply U1; [exact D2|lra].
    - intros _ (-> & _). exact I.
    - intros (-> & U1) (D2 & L2 & U2). specialize (U1 _ D2). lra.
    - intros _ (-> & _). destruct s; exact I. }
  assert (Z0 : forall s d, 0 <= s -> round_floor s d -> dbl_le (DF (dz 0)) d).
  { intros s [q|t] S0; cbn.
    - intros (_ & _ & U). rewrite dyv_dz. apply U; [apply zero_double|exact S0].
    - intros (_ & U). specialize (U 0 zero_double). lra. }
  assert (Z1 : forall s d, s <= 0 -> round_ceil s d -> dbl_le d (DF (dz 0))).
  { intros s [q|t] S0; cbn.
    - intros (_ & _ & U). rewrite dyv_dz. apply U; [apply zero_double|exact S0].
    - intros (_ & U). specialize (U 0 zero_double). lra. }
  assert (Z2 : forall s d, 0 < s -> round_ceil s d -> dbl_le (DF (dz 0)) d).
  { intros s [q|t] S0; cbn.
    - intros (_ & L & _). rewrite dyv_dz. lra.
    - intros (-> & _). exact I. }
  assert (Z3 : forall s d, s < 0 -> round_floor s d -> dbl_le d (DF (dz 0))).
  { intros s [q|t] S0; cbn.
    - intros (_ & L & _). rewrite dyv_dz. lra.
    - intros (-> & _). exact I. }
  assert (T : dbl_le a (DF (dz 0)) -> dbl_le (DF (dz 0)) b -> dbl_le a b).
  { destruct a as [p|[|]], b as [q|[|]]; cbn; try tauto. lra. }
  destruct md; cbn [is_round] in A, B.
  - destruct A as [A1 A2], B as [B1 B2]. destruct (Rle_or_lt 0 v) as [V|V]; [apply F; [auto|apply B1; lra]|].
    destruct (Rle_or_lt w 0) as [W|W]; [apply C; [apply A2; lra|auto]|].
    apply T; [apply (Z1 v); [lra|apply A2; lra]|apply (Z0 w); [lra|apply B1; lra]].
  - destruct A as [A1 A2], B as [B1 B2]. destruct (Rle_or_lt 0 v) as [V|V]; [apply C; [auto|apply B1; lra]|].
    destruct (Rle_or_lt w 0) as [W|W]; [apply F; [apply A2; lra|auto]|].
    apply T; [apply (Z3 v); [lra|apply A2; lra]|apply (Z2 w); [lra|apply B1; lra]].
  - auto.
  - auto.
  - destruct a as [p|s], b as [q|t]; cbn in A, B |- *.
    + destruct A as (D1 & L1 & U1), B as (D2 & L2 & U2). specialize (U1 _ D2). specialize (U2 _ D1).
      unfold Rabs in U1, U2. destruct (Rcase_abs (v - dyv p)), (Rcase_abs (v - dyv q)), (Rcase_abs (w - dyv p)), (Rcase_abs (w - dyv q)); lra.
    + destruct A as (_ & L & _). unfold Rabs in L. destruct (Rcase_abs v), t; try exact I; lra.
    + destruct B as (_ & L & _). unfold Rabs in L. destruct (Rcase_abs w), s; try exact I; lra.
    + assert (0 < LIM) by (pose proof MAX_LIM; pose proof MAX_lt; pose proof (pw2_pos 1023); lra).
      destruct s, t; try exact I; lra.
Qed.

(** * The theorems *)
Lemma get_d_right : forall o n debug pol x N, setting o n pol x N -> forall fuel nf y md nf' y' d,
  field_ok pol x N nf -> elem_ok pol x y -> get_d o n debug fuel nf y md = Val (nf', y', d) ->
  field_ok pol x N nf' /\ elem_ok pol x y' /\ r_elem y' = r_elem y /\
  (in_range md (ev x (r_elem y)) -> is_round md (ev x (r_elem y)) d) /\
  (~ fraction (ev x (r_elem y)) -> MAX < ev x (r_elem y) -> d = DInf false) /\
  (~ fraction (ev x (r_elem y)) -> ev x (r_elem y) < - MAX -> d = DInf true).
Proof.
  intros o n debug pol x N [Ho Hm Hn HN] fuel nf y md nf' y' d G Gy E.
  destruct (get_d_ok o n debug pol x (on_ball N) Ho Hm Hn (safe_keeps o debug pol x N Ho Hm HN) _ _ _ _ _ _ _ G Gy E) as (A & B & C & D & F).
  split; [exact A|]. split; [exact C|]. split; [exact D|]. split; [apply (converted_round pol x Hm md _ d (proj1 Gy) F)|].
  pose proof MAX_lt. pose proof (pw2_pos 1023).
  split; intros Re V; destruct F as [[Re' _]|[_ F]];
    try (contradiction Re; apply (rational_fraction pol x Hm _ (proj1 Gy)); exact Re'); destruct F as [[F F']|[[F F']|[F F']]]; try assumption; try lra;
    apply Rabs_le_inv in F; lra.
Qed.

(** Two conversions of equal numbers, perhaps in different fields. *)
Lemma rational_same : forall pol1 x1 pol2 x2 e1 e2, minimal pol1 x1 -> minimal pol2 x2 -> canon pol1 e1 -> canon pol2 e2 ->
  ev x1 e1 = ev x2 e2 -> is_rational e1 = true -> e1 = e2.
Proof.
  intros pol1 x1 pol2 x2 e1 e2 M1 M2 C1 C2 E R1.
  assert (C1' : canon pol2 e1).
  { destruct C1 as [K1 K2 K3 K4]. constructor; try assumption. pose proof (min_len _ _ M2).
    unfold is_rational in R1. destruct (e_num e1) as [|? [|? ?]]; [| |discriminate]; cbn; lia. }
  apply (canon_unique pol2 x2 M2 _ _ C1' C2). rewrite <- E. rewrite !(rational_val _ e1 R1). reflexivity.
Qed.

Lemma dbl_eq_refl : forall a, dbl_eq a a.
Proof. intros [p|s]; reflexivity. Qed.

Lemma get_d_same : forall o1 n1 pol1 x1 N1 o2 n2 pol2 x2 N2, setting o1 n1 pol1 x1 N1 -> setting o2 n2 pol2 x2 N2 ->
  forall debug1 debug2 fuel1 fuel2 nf1 nf2 y1 y2 md nf1' nf2' y1' y2' d1 d2,
  field_ok pol1 x1 N1 nf1 -> field_ok pol2 x2 N2 nf2 -> elem_ok pol1 x1 y1 -> elem_ok pol2 x2 y2 ->
  ev x1 (r_elem y1) = ev x2 (r_elem y2) ->
  get_d o1 n1 debug1 fuel1 nf1 y1 md = Val (nf1', y1', d1) -> get_d o2 n2 debug2 fuel2 nf2 y2 md = Val (nf2', y2', d2) -> dbl_eq d1 d2.
Proof.
  intros o1 n1 pol1 x1 N1 o2 n2 pol2 x2 N2 [Ho1 Hm1 Hn1 HN1] [Ho2 Hm2 Hn2 HN2] debug1 debug2 fuel1 fuel2 nf1 nf2 y1 y2 md nf1' nf2' y1' y2' d1 d2
    G1 G2 Gy1 Gy2 Q E1 E2.
  destruct (get_d_ok o1 n1 debug1 pol1 x1 (on_ball N1) Ho1 Hm1 Hn1 (safe_keeps o1 debug1 pol1 x1 N1 Ho1 Hm1 HN1) _ _ _ _ _ _ _ G1 Gy1 E1) as (_ & _ & _ & _ & F1).
  destruct (get_d_ok o2 n2 debug2 pol2 x2 (on_ball N2) Ho2 Hm2 Hn2 (safe_keeps o2 debug2 pol2 x2 N2 Ho2 Hm2 HN2) _ _ _ _ _ _ _ G2 Gy2 E2) as (_ & _ & _ & _ & F2).
  destruct Gy1 as [C1 _], Gy2 as [C2 _].
  destruct (is_rational (r_elem y1)) eqn:R1.
  { pose proof (rational_same _ _ _ _ _ _ Hm1 Hm2 C1 C2 Q R1) as W. rewrite W in R1, F1.
    destruct F1 as [[_ ->]|[? _]]; [|congruence]. destruct F2 as [[_ ->]|[? _]]; [|congruence]. apply dbl_eq_refl. }
  assert (R2 : is_rational (r_elem y2) = false).
  { destruct (is_rational (r_elem y2)) eqn:R2; [|reflexivity].
    pose proof (rational_same _ _ _ _ _ _ Hm2 Hm1 C2 C1 (eq_sym Q) R2) as W. rewrite W in R2. congruence. }
  assert (Hv : ~ fraction (ev x1 (r_elem y1))).
  { intros W. apply (is_rational_spec pol1 x1 Hm1 _ C1) in W. congruence. }
  destruct F1 as [[? _]|[_ F1]]; [congruence|]. destruct F2 as [[? _]|[_ F2]]; [congruence|]. rewrite <- Q in F2.
  pose proof MAX_lt. pose proof (pw2_pos 1023).
  destruct F1 as [[F1 ->]|[[F1 ->]|[F1 F1']]], F2 as [[F2 ->]|[[F2 ->]|[F2 F2']]]; try reflexivity; try lra;
    try (apply Rabs_le_inv in F1; lra); try (apply Rabs_le_inv in F2; lra).
  apply (round_unique md _ _ _ Hv F1' F2').
Qed.

Lemma get_d_mono : forall o1 n1 pol1 x1 N1 o2 n2 pol2 x2 N2, setting o1 n1 pol1 x1 N1 -> setting o2 n2 pol2 x2 N2 ->
  forall debug1 debug2 fuel1 fuel2 nf1 nf2 y1 y2 md nf1' nf2' y1' y2' d1 d2,
  field_ok pol1 x1 N1 nf1 -> field_ok pol2 x2 N2 nf2 -> elem_ok pol1 x1 y1 -> elem_ok pol2 x2 y2 ->
  in_range md (ev x1 (r_elem y1)) -> in_range md (ev x2 (r_elem y2)) -> ev x1 (r_elem y1) <= ev x2 (r_elem y2) ->
  get_d o1 n1 debug1 fuel1 nf1 y1 md = Val (nf1', y1', d1) -> get_d o2 n2 debug2 fuel2 nf2 y2 md = Val (nf2', y2', d2) -> dbl_le d1 d2.
Proof.
  intros o1 n1 pol1 x1 N1 o2 n2 pol2 x2 N2 S1 S2 debug1 debug2 fuel1 fuel2 nf1 nf2 y1 y2 md nf1' nf2' y1' y2' d1 d2
    G1 G2 Gy1 Gy2 R1 R2 Q E1 E2.
  destruct Q as [Q|Q].
  - destruct (get_d_right _ _ debug1 _ _ _ S1 _ _ _ _ _ _ _ G1 Gy1 E1) as (_ & _ & _ & F1 & _).
    destruct (get_d_right _ _ debug2 _ _ _ S2 _ _ _ _ _ _ _ G2 Gy2 E2) as (_ & _ & _ & F2 & _).
    apply (round_mono md _ _ _ _ Q (F1 R1) (F2 R2)).
  - pose proof (get_d_same _ _ _ _ _ _ _ _ _ _ S1 S2 _ _ _ _ _ _ _ _ _ _ _ _ _ _ _ G1 G2 Gy1 Gy2 Q E1 E2) as D.
    destruct d1 as [p|[|]], d2 as [q|[|]]; cbn in D |- *; try exact I; try contradiction; try discriminate; lra.
Qed.

Lemma get_d_history : forall o n pol x N, setting o n pol x N ->
  forall debug1 debug2 fuel1 fuel2 nf1 nf2 y1 y2 md a1 a2 b1 b2 d1 d2,
  field_ok pol x N nf1 -> field_ok pol x N nf2 -> elem_ok pol x y1 -> elem_ok pol x y2 -> r_elem y1 = r_elem y2 ->
  get_d o n debug1 fuel1 nf1 y1 md = Val (a1, b1, d1) -> get_d o n debug2 fuel2 nf2 y2 md = Val (a2, b2, d2) -> dbl_eq d1 d2.
Proof.
  intros o n pol x N Hs debug1 debug2 fuel1 fuel2 nf1 nf2 y1 y2 md a1 a2 b1 b2 d1 d2 G1 G2 Y1 Y2 Q E1 E2.
  exact (get_d_same _ _ _ _ _ _ _ _ _ _ Hs Hs _ _ _ _ _ _ _ _ _ _ _ _ _ _ _ G1 G2 Y1 Y2 (f_equal (ev x) Q) E1 E2).
Qed.

Lemma hash_same : forall o1 n1 pol1 x1 N1 o2 n2 pol2 x2 N2, setting o1 n1 pol1 x1 N1 -> setting o2 n2 pol2 x2 N2 ->
  forall debug1 debug2 fuel1 fuel2 nf1 nf2 y1 y2 nf1' nf2' y1' y2' d1 d2,
  field_ok pol1 x1 N1 nf1 -> field_ok pol2 x2 N2 nf2 -> elem_ok pol1 x1 y1 -> elem_ok pol2 x2 y2 ->
  ev x1 (r_elem y1) = ev x2 (r_elem y2) ->
  hash_key o1 n1 debug1 fuel1 nf1 y1 = Val (nf1', y1', d1) -> hash_key o2 n2 debug2 fuel2 nf2 y2 = Val (nf2', y2', d2) -> dbl_eq d1 d2.
Proof.
  intros o1 n1 pol1 x1 N1 o2 n2 pol2 x2 N2 S1 S2 debug1 debug2 fuel1 fuel2 nf1 nf2 y1 y2 nf1' nf2' y1' y2' d1 d2 G1 G2 Y1 Y2 Q E1 E2.
  exact (get_d_same _ _ _ _ _ _ _ _ _ _ S1 S2 _ _ _ _ _ _ _ _ _ _ _ _ _ _ _ G1 G2 Y1 Y2 Q E1 E2).
Qed.
