(** Elements: integer parts, floor division, balls, continued fractions. *)
Require Import Reals List ZArith Bool Lia Lra.
From Verif Require Import PolyR RootSpec RootModel ExtraModel Dyadic DyadicProofs ArbModel ArbSpec ArbProofs
  RefineProofs ElemModel ElemSpec ElemProofs.
Import ListNotations.
Open Scope R_scope.

(** A rounding to integers with its meaning. *)
Record rd_ok (rd : roundop) (S : R -> Z -> Prop) : Prop := {
  rk_dy : forall l r v, dyv l <= v <= dyv r -> rd_dy rd l = rd_dy rd r -> S v (rd_dy rd l);
  rk_q : forall a d, (0 < d)%Z -> S (IZR a / IZR d) (rd_q rd a d)
}.

Lemma frac_floor : forall a d, (0 < d)%Z -> is_floor (IZR a / IZR d) (a / d).
Proof.
  intros a d Hd. assert (P : 0 < IZR d) by (apply IZR_lt; exact Hd).
  pose proof (Z.div_mod a d ltac:(lia)) as E. pose proof (Z.mod_pos_bound a d Hd) as B.
  assert (Ev : IZR a / IZR d = IZR (a / d) + IZR (a mod d) / IZR d).
  { rewrite E at 1. rewrite plus_IZR, mult_IZR. field. lra. }
  assert (0 <= IZR (a mod d) / IZR d).
  { apply Rmult_le_pos; [apply IZR_le; lia|left; apply Rinv_0_lt_compat; exact P]. }
  assert (IZR (a mod d) / IZR d < 1).
  { apply Rmult_lt_reg_r with (IZR d); [exact P|]. unfold Rdiv. rewrite Rmult_assoc, Rinv_l, Rmult_1_r, Rmult_1_l by lra.
    apply IZR_lt. lia. }
  unfold is_floor. lra.
Qed.

Lemma rd_floor_ok : rd_ok rd_floor is_floor.
Proof.
  split; cbn [rd_floor rd_dy rd_q].
  - intros l r v H E. pose proof (dfloor_spec l). pose proof (dfloor_spec r). rewrite <- E in *. unfold is_floor. lra.
  - exact frac_floor.
Qed.

Lemma rd_ceil_ok : rd_ok rd_ceil is_ceil.
Proof.
  split; cbn [rd_ceil rd_dy rd_q].
  - intros l r v H E. pose proof (dceil_spec l). pose proof (dceil_spec r). rewrite <- E in *. unfold is_ceil. lra.
  - intros a d Hd. pose proof (frac_floor (- a) d Hd) as [A B]. unfold is_ceil. rewrite opp_IZR in *.
    replace (- IZR a / IZR d) with (- (IZR a / IZR d)) in * by (unfold Rdiv; ring). lra.
Qed.

Lemma floor_unique : forall v a b, is_floor v a -> is_floor v b -> a = b.
Proof.
  intros v a b [A1 A2] [B1 B2].
  assert (IZR a < IZR b + 1) by lra. assert (IZR b < IZR a + 1) by lra.
  rewrite <- plus_IZR in *. apply lt_IZR in H. apply lt_IZR in H0. lia.
Qed.

Section Elem.
Variables (o : arbops) (n : nfops) (debug : bool) (pol : list Z) (x : R) (J : renf -> Prop).
Hypothesis Ho : arb_ok o.
Hypothesis Hm : minimal pol x.
Hypothesis Hn : nf_ok pol x n.
Hypothesis HJ : keeps o debug pol x J.

Notation good := (good pol x J).
Notation goodr := (goodr pol x).

Ltac fin := repeat match goal with
  | |- _ /\ _ => split
  | |- kept ?a ?a => apply kept_refl
  | |- kept _ _ => eassumption || (eapply kept_trans; eassumption)
  | |- _ => assumption
  end.

Lemma start_ge : forall nf, good nf -> (2 <= start_prec nf)%Z.
Proof. intros nf (_ & _ & _ & G). unfold start_prec. lia. Qed.

(** Refine, then evaluate. *)
Lemma step_ok : forall e, canon pol e -> forall f nf p c nf' b, good nf ->
  bind (refine o debug f nf p) (fun nf1 => bind (set_evaluation o nf1 e c) (fun b1 => Val (nf1, b1))) = Val (nf', b) ->
  good nf' /\ kept nf nf' /\ inb (ev x e) b.
Proof.
  intros e He f nf p c nf' b G E. destruct (refine o debug f nf p) as [nf1| | |] eqn:Er; try discriminate. cbn [bind] in E.
  destruct (HJ _ _ _ _ G Er) as (G1 & K1).
  destruct (set_evaluation o nf1 e c) as [b1| | |] eqn:Ee; try discriminate. cbn [bind] in E. injection E as <- <-.
  fin. apply (set_eval_ok o pol x J Ho Hm _ _ _ _ G1 He Ee).
Qed.

Lemma finite_loop_ok : forall e, canon pol e -> forall fuel nf b p c nf' b', good nf -> inb (ev x e) b ->
  finite_loop o debug fuel nf e b p c = Val (nf', b') -> good nf' /\ kept nf nf' /\ inb (ev x e) b' /\ is_finite b' = true.
Proof.
  intros e He. induction fuel as [|f IH]; intros nf b p c nf' b' G Hb E; [discriminate|]. cbn [finite_loop] in E.
  destruct (is_finite b) eqn:Fb; [injection E as <- <-; fin|].
  destruct (refine o debug f nf (2 * p)) as [nf1| | |] eqn:Er; try discriminate. cbn [bind] in E.
  destruct (HJ _ _ _ _ G Er) as (G1 & K1).
  destruct (set_evaluation o nf1 e (2 * p + c)) as [b1| | |] eqn:Ee; try discriminate. cbn [bind] in E.
  destruct (IH _ _ _ _ _ _ G1 (set_eval_ok o pol x J Ho Hm _ _ _ _ G1 He Ee) E) as (A & B & C & D). fin.
Qed.

Lemma finite_loop_p_ok : forall e, canon pol e -> forall fuel nf b p c nf' b' p', good nf -> inb (ev x e) b -> (2 <= p)%Z ->
  finite_loop_p o debug fuel nf e b p c = Val (nf', b', p') -> good nf' /\ kept nf nf' /\ inb (ev x e) b' /\ (2 <= p')%Z.
Proof.
  intros e He. induction fuel as [|f IH]; intros nf b p c nf' b' p' G Hb Hp E; [discriminate|]. cbn [finite_loop_p] in E.
  destruct (is_finite b) eqn:Fb; [injection E as <- <- <-; fin|].
  destruct (refine o debug f nf (2 * p)) as [nf1| | |] eqn:Er; try discriminate. cbn [bind] in E.
  destruct (HJ _ _ _ _ G Er) as (G1 & K1).
  destruct (set_evaluation o nf1 e (2 * p + c)) as [b1| | |] eqn:Ee; try discriminate. cbn [bind] in E.
  destruct (IH nf1 b1 (2 * p)%Z c nf' b' p' G1 (set_eval_ok o pol x J Ho Hm _ _ _ _ G1 He Ee) ltac:(lia) E) as (A & B & C & D). fin.
Qed.

Lemma nonzero_loop_ok : forall e, canon pol e -> forall fuel nf b p c nf' b' p', good nf -> inb (ev x e) b -> (2 <= p)%Z ->
  nonzero_loop o debug fuel nf e b p c = Val (nf', b', p') -> good nf' /\ kept nf nf' /\ inb (ev x e) b' /\ (2 <= p')%Z.
Proof.
  intros e He. induction fuel as [|f IH]; intros nf b p c nf' b' p' G Hb Hp E; [discriminate|]. cbn [nonzero_loop] in E.
  destruct (contains_zero b) eqn:Fb; cbn [negb] in E; [|injection E as <- <- <-; fin].
  destruct (refine o debug f nf (2 * p)) as [nf1| | |] eqn:Er; try discriminate. cbn [bind] in E.
  destruct (HJ _ _ _ _ G Er) as (G1 & K1).
  destruct (set_evaluation o nf1 e (2 * p + c)) as [b1| | |] eqn:Ee; try discriminate. cbn [bind] in E.
  destruct (IH nf1 b1 (2 * p)%Z c nf' b' p' G1 (set_eval_ok o pol x J Ho Hm _ _ _ _ G1 He Ee) ltac:(lia) E) as (A & B & C & D). fin.
Qed.

(** * Integer parts *)
Lemma unique_int_ok : forall rd S b p l r v, rd_ok rd S -> (1 <= p)%Z -> unique_int rd b p = Some (l, r) -> l = r -> inb v b -> S v l.
Proof.
  intros rd S b p l r v Hr Hp E El Hv. unfold unique_int in E. destruct (interval b p) as [[c d]|] eqn:Ei; [|discriminate].
  injection E as <- <-. apply (rk_dy _ _ Hr c d); [|exact El]. apply (interval_spec b p c d v Hp Ei Hv).
Qed.

Lemma round_loop_ok : forall rd S, rd_ok rd S -> forall e, canon pol e -> forall fuel nf sz p c nf' b z, good nf -> (2 <= p)%Z ->
  round_loop o debug rd fuel nf e sz p c = Val (nf', b, z) -> good nf' /\ kept nf nf' /\ inb (ev x e) b /\ S (ev x e) z.
Proof.
  intros rd S Hr e He. induction fuel as [|f IH]; intros nf sz p c nf' b z G Hp E; [discriminate|]. cbn [round_loop] in E.
  destruct (set_evaluation o nf e (p + c)) as [b1| | |] eqn:Ee; try discriminate. cbn [bind] in E.
  pose proof (set_eval_ok o pol x J Ho Hm _ _ _ _ G He Ee) as Hb.
  assert (Hagain : bind (refine o debug f nf (2 * p)) (fun nf1 => round_loop o debug rd f nf1 e sz (2 * p) c) = Val (nf', b, z) ->
    good nf' /\ kept nf nf' /\ inb (ev x e) b /\ S (ev x e) z).
  { clear E. intros E. destruct (refine o debug f nf (2 * p)) as [nf1| | |] eqn:Er; try discriminate. cbn [bind] in E.
    destruct (HJ _ _ _ _ G Er) as (G1 & K1).
    destruct (IH nf1 sz (2 * p)%Z c nf' b z G1 ltac:(lia) E) as (A & B & C & D). fin. }
  destruct (unique_int rd b1 (Z.max sz p)) as [[l r]|] eqn:Eu; [|exact (Hagain E)].
  destruct (Z.eqb_spec l r) as [El|]; [|exact (Hagain E)]. injection E as <- <- <-. fin.
  apply (unique_int_ok rd S b1 (Z.max sz p) l r _ Hr ltac:(lia) Eu El Hb).
Qed.

Lemma round_int_ok : forall rd S, rd_ok rd S -> forall fuel nf y nf' b z, good nf -> goodr y ->
  round_int o debug rd fuel nf y = Val (nf', b, z) ->
  good nf' /\ kept nf nf' /\ inb (ev x (r_elem y)) b /\ S (ev x (r_elem y)) z.
Proof.
  intros rd S Hr fuel nf [e b0] nf' b z G [He Hb] E. unfold round_int in E. cbn [r_elem r_emb] in *.
  pose proof (can_den _ _ He) as Hd.
  destruct (is_rational e) eqn:Re.
  { destruct (coeff0 (f_pol nf) e) as [c| | |] eqn:Ec; try discriminate. cbn [bind] in E. injection E as <- <- <-. fin.
    rewrite (rational_val x e Re). replace (nth 0 (e_num e) 0%Z) with c; [apply (rk_q _ _ Hr); exact Hd|].
    unfold coeff0 in Ec. destruct (e_num e); [destruct (generic (f_pol nf)); [discriminate|]|]; injection Ec as <-; reflexivity. }
  match type of E with bind ?t _ = _ => destruct t as [[nf1 b1]| | |] eqn:E1; try discriminate end. cbn [bind] in E.
  assert (H1 : good nf1 /\ kept nf nf1 /\ inb (ev x e) b1).
  { destruct (is_finite b0); [injection E1 as <- <-; fin|].
    destruct (set_evaluation o nf e (start_prec nf + elem_cond nf e)) as [b2| | |] eqn:Ee; try discriminate. cbn [bind] in E1.
    destruct (finite_loop_ok e He _ _ _ _ _ _ _ G (set_eval_ok o pol x J Ho Hm _ _ _ _ G He Ee) E1) as (A & B & C & D). fin. }
  destruct H1 as (G1 & K1 & Hb1). assert (Gp : (2 <= f_prec nf1)%Z) by apply G1.
  destruct (unique_int rd b1 (f_prec nf1)) as [[l r]|] eqn:Eu; [|discriminate].
  destruct (Z.eqb_spec l r) as [El|].
  { injection E as <- <- <-. fin. apply (unique_int_ok rd S b1 (f_prec nf1) l r _ Hr ltac:(lia) Eu El Hb1). }
  destruct (round_loop_ok rd S Hr e He _ _ _ _ _ _ _ _ G1 (start_ge nf1 G1) E) as (A & B & C & D). fin.
Qed.

(** * Floor division *)
Lemma quot_loop_ok : forall b c, canon pol b -> canon pol c -> ev x c <> 0 -> forall fuel nf eb ec q p k1 k2 nf' eb' ec' q',
  good nf -> inb (ev x b) eb -> inb (ev x c) ec -> inb (ev x b / ev x c) q -> (2 <= p)%Z ->
  quot_loop o debug fuel nf b c eb ec q p k1 k2 = Val (nf', eb', ec', q') ->
  good nf' /\ kept nf nf' /\ inb (ev x b) eb' /\ inb (ev x c) ec' /\ inb (ev x b / ev x c) q' /\ rad_ge_half q' = false.
Proof.
  intros b c Hb Hc Hz. induction fuel as [|f IH]; intros nf eb ec q p k1 k2 nf' eb' ec' q' G Heb Hec Hq Hp E; [discriminate|].
  cbn [quot_loop] in E. destruct (rad_ge_half q) eqn:Rq; [|injection E as <- <- <- <-; fin].
  destruct (refine o debug f nf (2 * p)) as [nf1| | |] eqn:Er; try discriminate. cbn [bind] in E.
  destruct (HJ _ _ _ _ G Er) as (G1 & K1).
  destruct (set_evaluation o nf1 b (2 * p + k1)) as [b1| | |] eqn:E1; try discriminate. cbn [bind] in E.
  destruct (set_evaluation o nf1 c (2 * p + k2)) as [c1| | |] eqn:E2; try discriminate. cbn [bind] in E.
  pose proof (set_eval_ok o pol x J Ho Hm _ _ _ _ G1 Hb E1) as H1. pose proof (set_eval_ok o pol x J Ho Hm _ _ _ _ G1 Hc E2) as H2.
  destruct (IH nf1 b1 c1 (o_div o b1 c1 (2 * p)) (2 * p)%Z k1 k2 nf' eb' ec' q' G1 H1 H2 ltac:(apply (ok_div o Ho); [lia|exact H1|exact H2|exact Hz]) ltac:(lia) E)
    as (A & B & C & D & F & H). fin.
Qed.

(** The final correction, on real numbers. *)
Lemma fdiv_value : forall vb vc m r l s cs, vc <> 0 -> dyv m - dyv r <= vb / vc <= dyv m + dyv r -> dyv r < 1 / 2 ->
  l = dceil (dsub m r) -> s = Rsgn (IZR l * vc - vb) -> cs = Rsgn vc ->
  is_floor (vb / vc) (if (l =? dceil (dsub m r))%Z then if (s =? cs)%Z then l - 1 else l else 0)%Z.
Proof.
  intros vb vc m r l s cs Hc Hv Hr El Es Ec. rewrite El, Z.eqb_refl, <- El.
  pose proof (dceil_spec (dsub m r)) as Hl. rewrite <- El, dyv_sub in Hl.
  assert (Ev : IZR l * vc - vb = (IZR l - vb / vc) * vc) by (field; exact Hc).
  set (v := vb / vc) in *. unfold is_floor.
  assert (K : (s =? cs)%Z = true <-> v < IZR l).
  { rewrite Z.eqb_eq, Es, Ec, Ev. destruct (Rtotal_order vc 0) as [C|[C|C]]; [|contradiction|].
    - rewrite (Rsgn_neg vc C). destruct (Rtotal_order v (IZR l)) as [V|[V|V]].
      + rewrite Rsgn_neg by nra. split; intros; [exact V|reflexivity].
      + rewrite V, Rminus_eq_0, Rmult_0_l, Rsgn_0. split; intros; [discriminate|lra].
      + rewrite Rsgn_pos by nra. split; intros; [discriminate|lra].
    - rewrite (Rsgn_pos vc C). destruct (Rtotal_order v (IZR l)) as [V|[V|V]].
      + rewrite Rsgn_pos by nra. split; intros; [exact V|reflexivity].
      + rewrite V, Rminus_eq_0, Rmult_0_l, Rsgn_0. split; intros; [discriminate|lra].
      + rewrite Rsgn_neg by nra. split; intros; [discriminate|lra]. }
  destruct (s =? cs)%Z eqn:Esc.
  - assert (v < IZR l) by (apply K; reflexivity). rewrite minus_IZR. lra.
  - assert (~ v < IZR l) by (intros V; apply K in V; discriminate). lra.
Qed.

Lemma fdiv_ok : forall same fuel nf y z nf' eb ec q, good nf -> goodr y -> goodr z -> (same = true -> r_elem y = r_elem z) ->
  fdiv o n debug same fuel nf y z = Val (nf', eb, ec, q) ->
  good nf' /\ kept nf nf' /\ inb (ev x (r_elem y)) eb /\ inb (ev x (r_elem z)) ec /\
  ev x (r_elem z) <> 0 /\ is_floor (ev x (r_elem y) / ev x (r_elem z)) q.
Proof.
  intros same fuel nf [b b0] [c c0] nf' eb ec q G [Hb Hb0] [Hc Hc0] Hsame E. unfold fdiv in E. cbn [r_elem r_emb] in *.
  assert (Gp : (2 <= f_prec nf)%Z) by apply G.
  destruct (is_rational c) eqn:Rc.
  { destruct (is_zero c) eqn:Zc; [discriminate|].
    assert (Hz : ev x c <> 0) by (intros Z; apply (is_zero_spec pol x Hm c Hc) in Z; congruence).
    destruct (floor o debug fuel nf (div_elem o n nf {| r_elem := b; r_emb := b0 |} {| r_elem := c; r_emb := c0 |})) as [[[nf1 b1] z]| | |] eqn:Ef; try discriminate.
    cbn [bind] in E. injection E as <- <- <- <-. destruct (nk_div _ _ _ Hn b c Hb Hc Hz) as [Cq Vq].
    assert (Gq : goodr (div_elem o n nf {| r_elem := b; r_emb := b0 |} {| r_elem := c; r_emb := c0 |})).
    { apply goodr_intro; cbn [r_elem r_emb]; [exact Cq|]. rewrite Vq. apply (ok_div o Ho); assumption. }
    destruct (round_int_ok _ _ rd_floor_ok _ _ _ _ _ _ G Gq Ef) as (A & B & _ & D). cbn [div_elem r_elem] in D. rewrite Vq in D. fin. }
  assert (Hz : ev x c <> 0).
  { intros Z. apply (is_zero_spec pol x Hm c Hc) in Z. unfold is_zero, is_rational in *. destruct (e_num c); discriminate. }
  pose proof (start_ge nf G) as Hp.
  destruct (set_evaluation o nf b (start_prec nf + elem_cond nf b)) as [b1| | |] eqn:E1; try discriminate. cbn [bind] in E.
  destruct (finite_loop_p o debug fuel nf b b1 (start_prec nf) (elem_cond nf b)) as [[[nf2 b2] p2]| | |] eqn:E2; try discriminate. cbn [bind] in E.
  destruct (finite_loop_p_ok b Hb _ _ _ _ _ _ _ _ G (set_eval_ok o pol x J Ho Hm _ _ _ _ G Hb E1) Hp E2) as (G2 & K2 & Hb2 & P2).
  destruct (set_evaluation o nf2 c (p2 + elem_cond nf c)) as [c1| | |] eqn:E3; try discriminate. cbn [bind] in E.
  destruct (nonzero_loop o debug fuel nf2 c c1 p2 (elem_cond nf c)) as [[[nf3 c3] p3]| | |] eqn:E4; try discriminate. cbn [bind] in E.
  destruct (nonzero_loop_ok c Hc _ _ _ _ _ _ _ _ G2 (set_eval_ok o pol x J Ho Hm _ _ _ _ G2 Hc E3) P2 E4) as (G3 & K3 & Hc3 & P3).
  cbv zeta in E.
  assert (Hb3 : inb (ev x b) (if same then c3 else b2)).
  { destruct same; [rewrite (Hsame eq_refl); exact Hc3|exact Hb2]. }
  set (b3 := if same then c3 else b2) in *.
  destruct (quot_loop o debug fuel nf3 b c b3 c3 (o_div o b3 c3 p3) p3 (elem_cond nf b) (elem_cond nf c)) as [[[[nf4 b4] c4] qb]| | |] eqn:E5; try discriminate.
  cbn [bind] in E.
  destruct (quot_loop_ok b c Hb Hc Hz fuel nf3 b3 c3 (o_div o b3 c3 p3) p3 _ _ _ _ _ _ G3 Hb3 Hc3 ltac:(apply (ok_div o Ho); assumption) P3 E5)
    as (G4 & K4 & Hb4 & Hc4 & Hq & Rq).
  assert (K04 : kept nf nf4) by (eapply kept_trans; [exact K2|]; eapply kept_trans; eassumption).
  destruct qb as [m r|]; [|discriminate]. cbn [rad_ge_half] in Rq. apply dleb_false in Rq.
  assert (Hr : dyv r < 1 / 2).
  { replace (1 / 2) with (dyv (1, -1)%Z); [exact Rq|]. unfold dyv, pw2. cbn [fst snd powerRZ].
    change (Pos.to_nat 1) with 1%nat. rewrite pow_1. lra. }
  apply inb_bounds in Hq.
  destruct (Z.leb_spec (dceil (dsub m r)) (dfloor (dadd m r))) as [Hlh|Hlh].
  - set (l := dceil (dsub m r)) in *.
    destruct (cmp o n debug fuel nf4 {| r_elem := n_mul_q n c l 1; r_emb := o_mul_z o c4 l (f_prec nf4) |} {| r_elem := b; r_emb := b4 |})
      as [[[[nf5 a5] b5] s]| | |] eqn:E6; try discriminate. cbn [bind] in E.
    destruct (nk_mul_q _ _ _ Hn c l 1 Hc ltac:(lia)) as [Cm Vm].
    assert (Vm' : ev x (n_mul_q n c l 1) = ev x c * IZR l) by (rewrite Vm; field).
    assert (Gm : goodr {| r_elem := n_mul_q n c l 1; r_emb := o_mul_z o c4 l (f_prec nf4) |}).
    { apply goodr_intro; [exact Cm|]. rewrite Vm'. apply (ok_mul_z o Ho); [apply G4|exact Hc4]. }
    destruct (cmp_ok o n debug pol x J Ho Hm Hn HJ _ _ _ _ _ _ _ _ G4 Gm (goodr_intro pol x _ _ Hb Hb4) E6) as (G5 & K5 & _ & Hb5 & Es).
    cbn [r_elem] in Hb5, Es.
    destruct (sgn o debug fuel nf5 {| r_elem := c; r_emb := if same then b5 else c4 |}) as [[[nf6 c6] cs]| | |] eqn:E7; try discriminate.
    cbn [bind] in E. injection E as <- <- <- <-.
    assert (Hc5 : inb (ev x c) (if same then b5 else c4)).
    { destruct same; [rewrite <- (Hsame eq_refl); exact Hb5|exact Hc4]. }
    destruct (sgn_ok o debug pol x J Ho Hm HJ _ _ _ _ _ _ G5 (goodr_intro pol x _ _ Hc Hc5) E7) as (G6 & K6 & Hc6 & Ec).
    cbn [r_elem] in Hc6, Ec.
    assert (K06 : kept nf nf6) by (eapply kept_trans; [exact K04|]; eapply kept_trans; eassumption).
    split; [exact G6|]. split; [exact K06|]. split; [|split; [exact Hc6|split; [exact Hz|]]].
    + destruct same; [rewrite (Hsame eq_refl); exact Hc6|exact Hb5].
    + pose proof (fdiv_value (ev x b) (ev x c) m r l s cs Hz Hq Hr eq_refl
        ltac:(rewrite Es, Vm'; f_equal; ring) Ec) as F.
      fold l in F. rewrite Z.eqb_refl in F. exact F.
  - injection E as <- <- <- <-. fin.
    pose proof (dceil_spec (dsub m r)) as A. pose proof (dfloor_spec (dadd m r)) as B. pose proof (dfloor_spec m) as C.
    rewrite dyv_sub in A. rewrite dyv_add in B. set (v := ev x b / ev x c) in *. unfold is_floor.
    assert (R0 : 0 <= dyv r) by lra.
    (* no integer between m - r and m + r *)
    assert (H1 : IZR (dfloor m) <= dyv m - dyv r).
    { destruct (Rle_or_lt (IZR (dfloor m)) (dyv m - dyv r)) as [|H]; [assumption|exfalso].
      assert (H1 : IZR (dceil (dsub m r)) - 1 < IZR (dfloor m)) by lra.
      assert (H2 : IZR (dfloor m) < IZR (dfloor (dadd m r)) + 1) by lra.
      rewrite <- minus_IZR in H1. rewrite <- plus_IZR in H2. apply lt_IZR in H1. apply lt_IZR in H2. lia. }
    assert (H2 : dyv m + dyv r < IZR (dfloor m) + 1).
    { destruct (Rlt_or_le (dyv m + dyv r) (IZR (dfloor m) + 1)) as [|H]; [assumption|exfalso].
      assert (H3 : IZR (dceil (dsub m r)) - 1 < IZR (dfloor m) + 1) by lra.
      assert (H4 : IZR (dfloor m) + 1 < IZR (dfloor (dadd m r)) + 1) by lra.
      rewrite <- minus_IZR, <- plus_IZR in H3. rewrite <- !plus_IZR in H4. apply lt_IZR in H3. apply lt_IZR in H4. lia. }
    lra.
Qed.

(** * Balls *)
Lemma get_arb_loop_ok : forall e, canon pol e -> forall fuel nf pp c prec nf' b r, good nf -> (0 <= prec)%Z ->
  get_arb_loop o debug fuel nf e pp c prec = Val (nf', b, r) ->
  good nf' /\ kept nf nf' /\ inb (ev x e) b /\ inb (ev x e) r /\ r = o_round o b (prec + 2) /\ (rel_error b < - prec - 2)%Z.
Proof.
  intros e He. induction fuel as [|f IH]; intros nf pp c prec nf' b r G Hp E; [discriminate|]. cbn [get_arb_loop] in E.
  destruct (set_evaluation o nf e (pp + c)) as [b1| | |] eqn:Ee; try discriminate. cbn [bind] in E.
  pose proof (set_eval_ok o pol x J Ho Hm _ _ _ _ G He Ee) as Hb.
  destruct (Z.ltb_spec (rel_error b1) (- prec - 2)) as [L|L].
  - injection E as <- <- <-. fin; [apply (ok_round o Ho); [lia|exact Hb]|reflexivity].
  - destruct (refine o debug f nf (2 * pp)) as [nf1| | |] eqn:Er; try discriminate. cbn [bind] in E.
    destruct (HJ _ _ _ _ G Er) as (G1 & K1).
    destruct (IH _ _ _ _ _ _ _ G1 Hp E) as (A & B & C & D & F & H). fin.
Qed.

Lemma get_arb_ok : forall fuel nf y prec nf' b r, good nf -> goodr y -> (0 <= prec)%Z ->
  get_arb o debug fuel nf y prec = Val (nf', b, r) ->
  good nf' /\ kept nf nf' /\ inb (ev x (r_elem y)) b /\ inb (ev x (r_elem y)) r /\
  (r = bzero \/ r = o_round o b (prec + 2) /\ (rel_error b < - prec - 2)%Z).
Proof.
  intros fuel nf [e b0] prec nf' b r G [He Hb] Hp E. unfold get_arb in E. cbn [r_elem r_emb] in *.
  destruct (is_zero e) eqn:Z.
  { injection E as <- <- <-. apply (is_zero_spec pol x Hm e He) in Z. fin; [rewrite Z; apply inb_zero|left; reflexivity]. }
  destruct (Z.ltb_spec (rel_error b0) (- prec - 2)) as [L|L].
  - injection E as <- <- <-. fin; [apply (ok_round o Ho); [lia|exact Hb]|right; split; [reflexivity|exact L]].
  - destruct (get_arb_loop_ok e He _ _ _ _ _ _ _ _ G Hp E) as (A & B & C & D & F & H). fin. right. split; assumption.
Qed.

(** * Continued fractions *)
Lemma cfrac_loop_ok : forall k fuel nf y nf' cs w, good nf -> goodr y ->
  cfrac_loop o n debug fuel nf y k = Val (nf', cs, w) ->
  good nf' /\ kept nf nf' /\ goodr w /\ cf (ev x (r_elem y)) cs (ev x (r_elem w)) /\
  (length cs = k \/ (length cs < k)%nat /\ ev x (r_elem w) = 0).
Proof.
  induction k as [|k IH]; intros fuel nf y nf' cs w G Gy E; cbn [cfrac_loop] in E.
  { injection E as <- <- <-. fin; [apply cf_nil|left; reflexivity]. }
  destruct (floor o debug fuel nf y) as [[[nf1 b1] c]| | |] eqn:Ef; try discriminate. cbn [bind] in E.
  destruct (round_int_ok _ _ rd_floor_ok _ _ _ _ _ _ G Gy Ef) as (G1 & K1 & Hb1 & Fl).
  destruct Gy as [Hy _]. destruct (nk_sub_q _ _ _ Hn (r_elem y) c 1 Hy ltac:(lia)) as [Cs Vs].
  assert (Vs' : ev x (n_sub_q n (r_elem y) c 1) = ev x (r_elem y) - IZR c) by (rewrite Vs; field).
  assert (Hs : inb (ev x (n_sub_q n (r_elem y) c 1)) (o_sub_z o b1 c (f_prec nf1))).
  { rewrite Vs'. apply (ok_sub_z o Ho); [apply G1|exact Hb1]. }
  cbn [r_elem r_emb] in E. destruct (is_zero (n_sub_q n (r_elem y) c 1)) eqn:Z.
  - injection E as <- <- <-. apply (is_zero_spec pol x Hm _ Cs) in Z. cbn [r_elem]. rewrite Z.
    assert (Ey : ev x (r_elem y) = IZR c) by lra. rewrite Ey.
    split; [exact G1|]. split; [exact K1|]. split; [apply goodr_intro; assumption|]. split; [apply cf_end|].
    cbn [length]. destruct k; [left; reflexivity|right; split; [lia|reflexivity]].
  - assert (Nz : ev x (n_sub_q n (r_elem y) c 1) <> 0) by (intros W; apply (is_zero_spec pol x Hm _ Cs) in W; congruence).
    destruct (nk_inv _ _ _ Hn _ Cs Nz) as [Ci Vi].
    match type of E with bind (cfrac_loop _ _ _ _ _ ?r _) _ = _ => assert (Gr : goodr r) end.
    { apply goodr_intro; [exact Ci|]. rewrite Vi. apply (ok_inv o Ho); [apply G1|exact Hs|exact Nz]. }
    match type of E with bind ?t _ = _ => destruct t as [[[nf2 cs2] w2]| | |] eqn:El; try discriminate end.
    cbn [bind] in E. injection E as <- <- <-.
    destruct (IH _ _ _ _ _ _ G1 Gr El) as (A & B & C & D & F). cbn [r_elem] in D. rewrite Vi, Vs' in D.
    fin; [apply cf_step; [exact Fl|rewrite Vs' in Nz; lra|exact D]|].
    cbn [length]. destruct F as [F|[F1 F2]]; [left; lia|right; split; [lia|exact F2]].
Qed.

Lemma cfrac_ok : forall k fuel nf y nf' cs w, good nf -> goodr y ->
  cfrac o n debug fuel nf y k = Val (nf', cs, w) ->
  good nf' /\ kept nf nf' /\ goodr w /\ cf (ev x (r_elem y)) cs (ev x (r_elem w)) /\
  (length cs = k \/ (length cs < k)%nat /\ ev x (r_elem w) = 0).
Proof.
  intros k fuel nf y nf' cs w G Gy E. unfold cfrac in E. destruct (is_zero (r_elem y)) eqn:Z; [|eapply cfrac_loop_ok; eassumption].
  injection E as <- <- <-. fin; [apply cf_nil|]. destruct k; [left; reflexivity|right].
  split; [cbn; lia|]. destruct Gy as [Hy _]. apply (is_zero_spec pol x Hm _ Hy). exact Z.
Qed.
End Elem.

(** All quotients but the first are positive. *)
Lemma cf_positive : forall v cs r, cf v cs r -> forall c l, cs = c :: l -> Forall (fun d => (1 <= d)%Z) l.
Proof.
  intros v cs r H. induction H as [v|c0|v c0 cs r Fl Nv H IH]; intros c l E; [discriminate|injection E as <- <-; constructor|].
  injection E as <- <-. destruct cs as [|d cs]; [constructor|]. constructor; [|apply (IH d cs eq_refl)].
  destruct Fl as [F1 F2]. assert (P : 0 < v - IZR c0 < 1) by lra.
  assert (B : 1 < / (v - IZR c0)) by (rewrite <- Rinv_1; apply Rinv_lt_contravar; lra).
  assert (D : IZR d <= / (v - IZR c0) < IZR d + 1).
  { inversion H as [|c1 Ec|v1 c1 cs1 r1 Fl1 N1 H1 Ev]; subst; [rewrite <- ?Ec in *; lra|exact Fl1]. }
  assert (L : 0 < IZR d) by lra. apply lt_IZR in L. lia.
Qed.
