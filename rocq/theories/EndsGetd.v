(** The conversion to double ends if the refinement does. *)
Require Import Reals List ZArith Bool Lia Lra.
From Verif Require Import PolyR RootSpec RootModel VcaProofs Dyadic DyadicProofs ArbModel ArbSpec ArbProofs FieldProofs RefineProofs
  ElemModel ElemSpec ElemProofs ElemLoops ElemHist EndsSpec
  GetdModel GetdSpec GetdProofs GetdMore EndsProofs.
Import ListNotations.
Open Scope R_scope.

(** * Rounding between two neighbours of the grid of all midpoints *)
Notation grid := (pw2 (-1075)).
Lemma grid_int : forall m e, (-1075 <= e)%Z -> exists j, IZR m * pw2 e = IZR j * grid.
Proof.
  intros m e He. exists (m * 2 ^ (e + 1075))%Z. rewrite mult_IZR, pw2_IZR by lia. rewrite Rmult_assoc, <- pw2_add. do 2 f_equal. lia.
Qed.
Lemma double_int : forall y, is_double y -> exists j, y = IZR (2 * j) * grid.
Proof.
  intros y (m & e & _ & He & ->). exists (m * 2 ^ (e + 1074))%Z. rewrite !mult_IZR, pw2_IZR by lia.
  replace e with ((e + 1074) + 1 + -1075)%Z at 1 by lia. rewrite !pw2_add. change (pw2 1) with (2 ^ 1). ring.
Qed.
Lemma LIM_int : exists j, LIM = IZR j * grid.
Proof. rewrite LIM_eq. apply grid_int. lia. Qed.

Section Cell.
Variables (v l : R) (k : Z).
Hypothesis (Hv : IZR k * grid < v < IZR (k + 1) * grid) (Hl : IZR k * grid < l < IZR (k + 1) * grid).

Lemma cell : forall j, (v < IZR j * grid /\ l < IZR j * grid) \/ (IZR j * grid < v /\ IZR j * grid < l).
Proof.
  intros j. pose proof (pw2_pos (-1075)). destruct (Z.le_gt_cases j k) as [L|L].
  - right. assert (IZR j * grid <= IZR k * grid) by (apply Rmult_le_compat_r; [lra|apply IZR_le, L]). lra.
  - left. assert (IZR (k + 1) * grid <= IZR j * grid) by (apply Rmult_le_compat_r; [lra|apply IZR_le; lia]). lra.
Qed.
Lemma cell_double : forall y, is_double y -> (v < y /\ l < y) \/ (y < v /\ y < l).
Proof. intros y Hy. destruct (double_int y Hy) as (j & ->). apply cell. Qed.

Lemma nearer : forall t a b, a < b -> (Rabs (t - a) <= Rabs (t - b) <-> t <= (a + b) / 2) /\ (Rabs (t - b) <= Rabs (t - a) <-> (a + b) / 2 <= t).
Proof. intros t a b H. unfold Rabs. destruct (Rcase_abs (t - a)), (Rcase_abs (t - b)); lra. Qed.

Lemma round_cell : forall md a, md = RFloor \/ md = RCeil \/ md = RNear -> is_round md l a -> is_round md v a.
Proof.
  intros md a Hmd H. destruct Hmd as [E|[E|E]]; subst md; destruct a as [d|s]; cbn in H |- *.
  - destruct H as (D & L & U). split; [exact D|]. pose proof (cell_double _ D). split; [lra|].
    intros y Dy Ly. apply U; [exact Dy|]. pose proof (cell_double _ Dy). lra.
  - destruct H as (-> & U). split; [reflexivity|]. intros y Dy. specialize (U y Dy). pose proof (cell_double _ Dy). lra.
  - destruct H as (D & L & U). split; [exact D|]. pose proof (cell_double _ D). split; [lra|].
    intros y Dy Ly. apply U; [exact Dy|]. pose proof (cell_double _ Dy). lra.
  - destruct H as (-> & U). split; [reflexivity|]. intros y Dy. specialize (U y Dy). pose proof (cell_double _ Dy). lra.
  - destruct H as (D & L & U). split; [exact D|]. destruct LIM_int as (jl & EL).
    split.
    + pose proof (cell jl) as C1. pose proof (cell (- jl)) as C2. rewrite opp_IZR, Ropp_mult_distr_l_reverse in C2. rewrite <- EL in C1, C2.
      apply Rabs_def2 in L. apply Rabs_def1; lra.
    + intros y Dy. specialize (U y Dy). destruct (double_int _ D) as (i & Ei). destruct (double_int _ Dy) as (j & Ej).
      assert (Hmid : (dyv d + y) / 2 = IZR (i + j) * grid) by (rewrite Ei, Ej, !mult_IZR, plus_IZR; field).
      pose proof (cell (i + j)) as C. rewrite <- Hmid in C.
      destruct (Rtotal_order (dyv d) y) as [W|[W|W]].
      * apply (nearer v _ _ W). apply (nearer l _ _ W) in U. lra.
      * rewrite W. lra.
      * apply (nearer v _ _ W). apply (nearer l _ _ W) in U. lra.
  - destruct LIM_int as (jl & EL). pose proof (cell jl) as C1. pose proof (cell (- jl)) as C2.
    rewrite opp_IZR, Ropp_mult_distr_l_reverse in C2. rewrite <- EL in C1, C2. destruct s; lra.
Qed.
End Cell.

Lemma dbl_eqb_eq : forall a b, dbl_eq a b -> dbl_eqb a b = true.
Proof.
  intros [a|s] [b|t]; cbn; try tauto; intros H; [apply deqb_spec; exact H|subst; apply eqb_reflx].
Qed.

Lemma round_const : forall v, ~ fraction v -> exists d, 0 < d /\ forall md l u, md = RFloor \/ md = RCeil \/ md = RNear ->
  v - d < dyv l -> dyv l <= dyv u -> dyv u < v + d -> dbl_eqb (arf_get_d md u) (arf_get_d md l) = true.
Proof.
  intros v Hv. pose proof (pw2_pos (-1075)) as Hg. destruct (archimed (v / grid)) as [A1 A2]. set (k := (up (v / grid) - 1)%Z).
  assert (Hk : IZR k * grid < v < IZR (k + 1) * grid).
  { assert (E : v = v / grid * grid) by (field; lra). unfold k. replace (up (v / grid) - 1 + 1)%Z with (up (v / grid)) by lia. split.
    - destruct (Req_dec (v / grid) (IZR (up (v / grid) - 1))) as [Q|Q].
      + exfalso. apply Hv. rewrite E, Q. apply (dyv_fraction ((up (v / grid) - 1)%Z, (-1075)%Z)).
      + rewrite E at 2. apply Rmult_lt_compat_r; [exact Hg|]. rewrite minus_IZR in *. lra.
    - rewrite E at 1. apply Rmult_lt_compat_r; [exact Hg|]. lra. }
  exists (Rmin (v - IZR k * grid) (IZR (k + 1) * grid - v)). split; [apply Rmin_glb_lt; lra|].
  intros md l u Hmd H1 H2 H3.
  pose proof (Rmin_l (v - IZR k * grid) (IZR (k + 1) * grid - v)). pose proof (Rmin_r (v - IZR k * grid) (IZR (k + 1) * grid - v)).
  apply dbl_eqb_eq. apply (round_unique md v); [exact Hv| |]; eapply (round_cell v _ k); try exact Hmd; try apply arf_get_d_ok; lra.
Qed.

Section Elem.
Variables (o : arbops) (n : nfops) (debug : bool) (pol : list Z) (x : R) (N : ball -> Prop).
Hypothesis Ho : arb_ok o.
Hypothesis Hc : arb_conv o.
Hypothesis Hm : minimal pol x.
Hypothesis Hn : nf_ok pol x n.
Hypothesis HN : safe_balls o pol x N.
Let HJ : keeps o debug pol x (on_ball N) := safe_keeps o debug pol x N Ho Hm HN.
Hypothesis Hr : refines_end o debug pol x N.
Notation good := (good pol x (on_ball N)).
Notation goodr := (goodr pol x).

Lemma accuracy_big : forall v, v <> 0 -> exists eps, 0 < eps /\ forall b, inb v b -> rad_le b eps -> (55 <= rel_accuracy b)%Z.
Proof.
  intros v Hv. destruct (error_small v 60 Hv ltac:(lia) ltac:(unfold WORD_MAX; lia)) as (eps & Heps & H). exists eps. split; [exact Heps|].
  intros b Hb Hrad. specialize (H b Hb Hrad). unfold rel_accuracy. lia.
Qed.

Lemma accuracy_loop_ends : forall e, canon pol e -> ev x e <> 0 -> forall nf b p, good nf -> (2 <= p)%Z ->
  ends (fun f => accuracy_loop o debug f nf e b p).
Proof.
  intros e He Hv nf b p Hg Hp. destruct (accuracy_big _ Hv) as (eps & Heps & HU).
  apply (test_ends o debug pol x N Ho Hc Hm HN Hr _ e 0 (fun f nf b p => accuracy_loop o debug f nf e b p) (fun b => negb (rel_accuracy b <? 55)%Z) (fun nf b p => (nf, b)) eps); try assumption.
  - intros b1 Hb Hrad. specialize (HU b1 Hb Hrad). apply negb_true_iff, Z.ltb_ge. exact HU.
  - intros f nf1 b1 p1. cbn [accuracy_loop]. rewrite Z.add_0_r. destruct (rel_accuracy b1 <? 55)%Z; reflexivity.
Qed.

Lemma double_loop_ends : forall md, md = RFloor \/ md = RCeil \/ md = RNear -> forall e, canon pol e -> is_rational e = false ->
  forall nf b p, good nf -> (2 <= p)%Z -> ends (fun f => double_loop o debug md f nf e b p).
Proof.
  intros md Hmd e He Hirr nf b p Hg Hp.
  assert (Hv : ~ fraction (ev x e)) by (intros F; apply (rational_fraction pol x Hm e He) in F; congruence).
  destruct (round_const _ Hv) as (d & Hd & HR). destruct (interval_small (ev x e) d Hd) as (eps & P1 & Heps & HI).
  destruct (sharp_after o pol x N Ho Hc e He _ Heps) as (P & HP).
  apply (doubling _ (renf * ball * Z) (fun '(nf, b, p) => good nf /\ (2 <= p)%Z)
    (fun '(nf, b, p) => (p <= rel_accuracy (f_emb nf))%Z /\ set_evaluation o nf e (p + 0) = Val b)
    snd (Z.max P1 P) (fun '(nf, b, p) f => double_loop o debug md f nf e b p)) with (s := (nf, b, p)); [| | |split; assumption].
  - intros [[nf1 b1] p1] [_ H]. exact H.
  - intros [[nf1 b1] p1] [G1 _] [Ha Eb] Hp1. apply ends_S. cbn [snd] in Hp1.
    destruct (HP nf1 p1 0%Z G1 Ha ltac:(lia) ltac:(lia)) as (b2 & E2 & R2). rewrite Eb in E2. injection E2 as <-.
    destruct (HI b1 p1 (set_eval_ok o pol x (on_ball N) Ho Hm _ _ _ _ G1 He Eb) R2 ltac:(lia)) as (l & u & Ei & L1 & L2 & L3).
    cbn [double_loop]. rewrite Ei, (HR md l u Hmd L1 L2 L3). apply ends_val. discriminate.
  - intros [[nf1 b1] p1] [G1 Hp1] IH. apply ends_S. cbn [double_loop].
    assert (Ha : ends (fun f => bind (refine o debug f nf1 (2 * p1)) (fun nf' => bind (set_evaluation o nf' e (2 * p1)) (fun b' =>
        double_loop o debug md f nf' e b' (2 * p1))))).
    { apply (ends_bind _ _ _ (fun nf' f => bind (set_evaluation o nf' e (2 * p1)) (fun b' => double_loop o debug md f nf' e b' (2 * p1))) (Hr nf1 (2 * p1)%Z G1)).
      intros f nf' E. apply ends_bind_const; [apply eval_no_fuel|]. intros b' Eb.
      apply (IH (nf', b', (2 * p1)%Z)); [split; [exact (refine_good' o debug pol x N Ho Hm HN _ _ _ _ G1 E)|lia]
        |split; [exact (refine_sharp o debug pol x N Ho Hm HN _ _ _ _ G1 E)|rewrite Z.add_0_r; exact Eb]|reflexivity]. }
    destruct (interval b1 p1) as [[l u]|]; [|exact Ha]. destruct (dbl_eqb _ _); [apply ends_val; discriminate|exact Ha].
Qed.

Lemma overflows_ends : forall nf y, good nf -> goodr y -> ends (fun f => overflows o n debug 2 f nf y).
Proof.
  intros nf y Hg Hy.
  assert (Hhalf : forall nf (y : relem) s, good nf -> goodr y -> (0 <= s)%Z -> ends (fun f =>
    bind (cmp_q o n debug f nf y UINT_MAX 1) (fun '(nf, b, c) =>
            let x := {| r_elem := r_elem y; r_emb := b |} in
            if (c <=? 0)%Z then Val (nf, x, 0%Z)
            else
              bind (cmp_q o n debug f nf x dbl_max_z 1) (fun '(nf, b, c) =>
                Val (nf, {| r_elem := r_elem x; r_emb := b |}, if (0 <? c)%Z then 1%Z else 0%Z))))).
  { clear nf y Hg Hy. intros nf y s Hg Hy _.
    match goal with |- ends (fun f => bind (@?F f) (@?G f)) => apply (ends_bind _ _ F (fun v f => G f v)) end;
      [apply (cmp_q_ends o n debug pol x N Ho Hc Hm Hn HN Hr); [exact Hg|exact Hy|lia]|].
    intros f [[nf1 b1] c] E.
    destruct (cmp_q_ok o n debug pol x (on_ball N) Ho Hm Hn HJ _ _ _ _ _ _ _ _ Hg Hy Z.lt_0_1 E) as (G1 & _ & H1 & _).
    cbv zeta. destruct (c <=? 0)%Z; [apply ends_val; discriminate|].
    apply ends_bind_val; [|intros [[? ?] ?]; discriminate].
    apply (cmp_q_ends o n debug pol x N Ho Hc Hm Hn HN Hr); [exact G1|split; [apply Hy|exact H1]|lia]. }
  cbn [overflows].
  match goal with |- ends (fun f => bind (@?F f) (@?G f)) => apply (ends_bind _ _ F (fun v f => G f v)) end;
    [apply (sgn_ends o debug pol x N Ho Hc Hm HN Hr); assumption|].
  intros f1 [[nf1 b1] s] E1.
  destruct (sgn_ok o debug pol x (on_ball N) Ho Hm HJ _ _ _ _ _ _ Hg Hy E1) as (G1 & _ & H1 & Es). cbv zeta. cbn [r_elem r_emb].
  destruct (0 <=? s)%Z eqn:S0.
  { apply (Hhalf nf1 {| r_elem := r_elem y; r_emb := b1 |} s G1); [split; [apply Hy|exact H1]|apply Z.leb_le, S0]. }
  apply ends_bind_val; [|intros [[? ?] ?]; discriminate].
  destruct (nk_neg _ _ _ Hn (r_elem y) (proj1 Hy)) as [Cn Vn].
  assert (Gn : goodr {| r_elem := n_neg n (r_elem y); r_emb := bneg b1 |}) by (split; cbn [r_elem r_emb]; [exact Cn|rewrite Vn; apply inb_neg, H1]).
  match goal with |- ends (fun f => bind (@?F f) (@?G f)) => apply (ends_bind _ _ F (fun v f => G f v)) end;
    [apply (sgn_ends o debug pol x N Ho Hc Hm HN Hr); assumption|].
  intros f2 [[nf2 b2] s2] E2.
  destruct (sgn_ok o debug pol x (on_ball N) Ho Hm HJ _ _ _ _ _ _ G1 Gn E2) as (G2 & _ & H2 & Es2). cbn [r_elem r_emb] in *.
  assert (S2 : (0 <=? s2)%Z = true).
  { rewrite Es2, Vn. apply Z.leb_gt in S0. destruct (Rtotal_order (ev x (r_elem y)) 0) as [W|[W|W]].
    - rewrite Rsgn_pos by lra. reflexivity.
    - rewrite W, Rsgn_0 in Es. lia.
    - rewrite Rsgn_pos in Es by lra. lia. }
  rewrite S2. apply (Hhalf nf2 {| r_elem := n_neg n (r_elem y); r_emb := b2 |} s2 G2); [split; assumption|apply Z.leb_le, S2].
Qed.

Lemma reduce_ends : forall nf y md, good nf -> goodr y -> ends (fun f => reduce_rnd o debug f nf y md).
Proof.
  intros nf y md Hg Hy. destruct md; cbn [reduce_rnd]; try (apply ends_val; discriminate);
    (apply ends_bind_val; [apply (sgn_ends o debug pol x N Ho Hc Hm HN Hr); assumption|intros [[? ?] ?]; discriminate]).
Qed.
Lemma reduce_ok : forall f nf y md nf' y' md', good nf -> goodr y -> reduce_rnd o debug f nf y md = Val (nf', y', md') ->
  good nf' /\ goodr y' /\ r_elem y' = r_elem y /\ (md' = RFloor \/ md' = RCeil \/ md' = RNear).
Proof.
  intros f nf y md nf' y' md' Hg Hy E.
  destruct md; cbn [reduce_rnd] in E; try (injection E as <- <- <-; repeat split; try apply Hg; try apply Hy; auto; fail);
    (destruct (sgn o debug f nf y) as [[[nf1 b1] s]| | |] eqn:Es; try discriminate; cbn [bind] in E; injection E as <- <- <-;
     destruct (sgn_ok o debug pol x (on_ball N) Ho Hm HJ _ _ _ _ _ _ Hg Hy Es) as (G1 & _ & H1 & _);
     split; [exact G1|]; split; [split; [apply Hy|exact H1]|]; split; [reflexivity|]; destruct (0 <? s)%Z; auto).
Qed.

Lemma get_d_ends : forall nf y md, good nf -> goodr y -> ends (fun f => get_d o n debug f nf y md).
Proof.
  intros nf y md Hg Hy. unfold get_d. destruct (is_zero (r_elem y)) eqn:Z0; [apply ends_val; discriminate|].
  destruct (is_rational (r_elem y)) eqn:Re; [apply ends_val; discriminate|].
  assert (V0 : ev x (r_elem y) <> 0) by (intros W; apply (is_zero_spec pol x Hm _ (proj1 Hy)) in W; congruence).
  cbv zeta.
  match goal with |- ends (fun f => bind (@?F f) (@?G f)) => apply (ends_bind _ _ F (fun v f => G f v)) end; [apply reduce_ends; assumption|].
  intros f1 [[nf1 y1] md1] E1. destruct (reduce_ok _ _ _ _ _ _ _ Hg Hy E1) as (G1 & Gy1 & Q1 & Dm).
  match goal with |- ends (fun f => bind (@?F f) (@?G f)) => apply (ends_bind _ _ F (fun v f => G f v)) end; [apply overflows_ends; assumption|].
  intros f2 [[nf2 y2] v] E2. destruct (over_ok o n debug pol x (on_ball N) Ho Hm Hn HJ _ _ _ _ _ _ _ G1 Gy1 E2) as (G2 & _ & Gy2 & Q2 & _).
  destruct (v =? 1)%Z; [apply ends_val; discriminate|]. destruct (v =? -1)%Z; [apply ends_val; discriminate|].
  assert (Q : r_elem y2 = r_elem y) by congruence. rewrite Q in *. destruct Gy2 as [_ Hb2]. rewrite Q in Hb2. destruct Hy as [He _].
  match goal with |- ends (fun f => bind (@?F f) (@?G f)) => apply (ends_bind _ _ F (fun v f => G f v)) end.
  - destruct (rel_accuracy (r_emb y2) <? 55)%Z; [|apply ends_val; discriminate].
    apply ends_bind_const; [destruct (2 * mid_bits (r_emb y2) <? f_prec nf)%Z; [apply eval_no_fuel|discriminate]|].
    intros b _. apply accuracy_loop_ends; try assumption. apply Hg.
  - intros f3 [nf3 b3] E3.
    assert (G3 : good nf3).
    { destruct (rel_accuracy (r_emb y2) <? 55)%Z; [|injection E3 as <- <-; exact G2].
      match type of E3 with bind ?t _ = _ => destruct t as [b4| | |] eqn:E4; try discriminate end. cbn [bind] in E3.
      apply (acc_ok o debug pol x (on_ball N) Ho Hm HJ (r_elem y) He _ _ _ _ _ _ G2) in E3; [apply E3|].
      destruct (2 * mid_bits (r_emb y2) <? f_prec nf)%Z; [apply (set_eval_ok o pol x (on_ball N) Ho Hm _ _ _ _ G2 He E4)|injection E4 as <-; exact Hb2]. }
    apply ends_bind_val; [|intros [[? ?] ?]; discriminate]. apply double_loop_ends; try assumption.
    assert (2 <= f_prec nf3)%Z by apply G3. lia.
Qed.
End Elem.
