(** Correctness of the conversion to double. *)
Require Import Reals Lra Lia List ZArith Bool.
From Verif Require Import PolyR RootSpec VcaProofs Dyadic DyadicProofs ArbModel ArbSpec ArbProofs FieldProofs RefineProofs ElemModel ElemSpec
  ElemProofs ElemLoops ElemMore GetdModel GetdSpec.
Import ListNotations.
Open Scope R_scope.

(** ** Rounding to integers *)
Definition int_round (md : rnd) (t : R) (k : Z) : Prop :=
  match md with
  | RFloor => IZR k <= t < IZR k + 1
  | RCeil => IZR k - 1 < t <= IZR k
  | RNear => Rabs (t - IZR k) <= 1 / 2 /\ (Rabs (t - IZR k) = 1 / 2 -> Z.even k = true)
  | RDown => (0 <= t -> IZR k <= t < IZR k + 1) /\ (t < 0 -> IZR k - 1 < t <= IZR k)
  | RUp => (0 <= t -> IZR k - 1 < t <= IZR k) /\ (t < 0 -> IZR k <= t < IZR k + 1)
  end.

Lemma frac_ceil : forall a d, (0 < d)%Z -> IZR (- ((- a) / d)) - 1 < IZR a / IZR d <= IZR (- ((- a) / d)).
Proof.
  intros a d D. pose proof (frac_floor (- a) d D) as [F1 F2]. rewrite opp_IZR.
  replace (IZR a / IZR d) with (- (IZR (- a) / IZR d)) by (rewrite opp_IZR; field; apply not_0_IZR; lia). lra.
Qed.

Lemma rz_ok : forall md n d, (0 < d)%Z -> int_round md (IZR n / IZR d) (rz md n d).
Proof.
  intros md n d D. pose proof (frac_floor n d D) as F. unfold is_floor in F. pose proof (frac_ceil n d D) as C.
  assert (Dp : 0 < IZR d) by (apply IZR_lt; exact D).
  assert (S1 : (0 <= n)%Z <-> 0 <= IZR n / IZR d).
  { split; intros H.
    - apply Rmult_le_pos; [apply IZR_le; exact H|left; apply Rinv_0_lt_compat; exact Dp].
    - apply le_IZR. replace (IZR n) with (IZR n / IZR d * IZR d) by (field; lra). apply Rmult_le_pos; lra. }
  destruct md; cbn [rz int_round].
  - destruct (Z.leb_spec 0 n) as [H|H].
    + split; [intros _; exact F|]. intros K. apply S1 in H. lra.
    + split; [|intros _; exact C]. intros K. apply S1 in K. lia.
  - destruct (Z.leb_spec 0 n) as [H|H].
    + split; [intros _; exact C|]. intros K. apply S1 in H. lra.
    + split; [|intros _; exact F]. intros K. apply S1 in K. lia.
  - exact F.
  - exact C.
  - set (q := (n / d)%Z) in *. set (r := (n mod d)%Z).
    assert (E : IZR n / IZR d - IZR q = IZR r / IZR d).
    { assert (N : n = (d * q + r)%Z) by (apply Z.div_mod; lia). rewrite N, plus_IZR, mult_IZR. field. lra. }
    pose proof (Z.mod_pos_bound n d D) as B. fold r in B.
    assert (R0 : 0 <= IZR r / IZR d) by (apply Rmult_le_pos; [apply IZR_le; lia|left; apply Rinv_0_lt_compat; exact Dp]).
    assert (Q : forall a, (a <= d)%Z -> IZR a / IZR d <= 1).
    { intros a Ha. apply Rmult_le_reg_r with (IZR d); [exact Dp|]. unfold Rdiv. rewrite Rmult_assoc, Rinv_l, Rmult_1_l, Rmult_1_r by lra. apply IZR_le, Ha. }
    assert (Q' : forall a, (d <= a)%Z -> 1 <= IZR a / IZR d).
    { intros a Ha. apply Rmult_le_reg_r with (IZR d); [exact Dp|]. unfold Rdiv. rewrite Rmult_assoc, Rinv_l, Rmult_1_l, Rmult_1_r by lra. apply IZR_le, Ha. }
    assert (T : IZR (2 * r) / IZR d = 2 * (IZR r / IZR d)) by (rewrite mult_IZR; field; lra).
    destruct (Z.compare_spec (2 * r) d) as [K|K|K].
    + assert (H : IZR r / IZR d = 1 / 2) by (pose proof (Q (2 * r)%Z ltac:(lia)); pose proof (Q' (2 * r)%Z ltac:(lia)); lra).
      destruct (Z.even q) eqn:Ev.
      * split; [|intros _; exact Ev]. rewrite E, H, Rabs_pos_eq; lra.
      * split; [|intros _; rewrite Z.even_add, Ev; reflexivity].
        rewrite plus_IZR. replace (IZR n / IZR d - (IZR q + 1)) with (- (1 / 2)) by lra. rewrite Rabs_Ropp, Rabs_pos_eq; lra.
    + assert (H : IZR r / IZR d < 1 / 2).
      { apply Rmult_lt_reg_r with (2 * IZR d); [lra|]. replace (IZR r / IZR d * (2 * IZR d)) with (2 * IZR r) by (field; lra).
        apply IZR_lt in K. rewrite mult_IZR in K. lra. }
      rewrite E, Rabs_pos_eq by lra. split; lra.
    + assert (H : 1 / 2 < IZR r / IZR d).
      { apply Rmult_lt_reg_r with (2 * IZR d); [lra|]. replace (IZR r / IZR d * (2 * IZR d)) with (2 * IZR r) by (field; lra).
        apply IZR_lt in K. rewrite mult_IZR in K. lra. }
      rewrite plus_IZR, Rabs_left1 by lra. split; lra.
Qed.

(** Rounding to integers is monotone and keeps integers. *)
Lemma IZR_le_half a b : IZR a <= IZR b + 1 / 2 -> (a <= b)%Z.
Proof. intros H. apply Z.lt_succ_r, lt_IZR. rewrite succ_IZR. lra. Qed.

Lemma IZR_lt_one a b : IZR a < IZR b + 1 -> (a <= b)%Z.
Proof. intros H. apply Z.lt_succ_r, lt_IZR. rewrite succ_IZR. lra. Qed.

Lemma int_round_mono md t k : int_round md t k ->
  (forall z, IZR z <= t -> (z <= k)%Z) /\ (forall z, t <= IZR z -> (k <= z)%Z).
Proof.
  intros H. assert (C : IZR k <= t < IZR k + 1 \/ IZR k - 1 < t <= IZR k \/ Rabs (t - IZR k) <= 1 / 2).
  { destruct md; cbn in H; try tauto; destruct (Rle_or_lt 0 t); tauto. }
  split; intros z Hz; destruct C as [C|[C|C]].
  - apply IZR_lt_one. lra.
  - apply le_IZR. lra.
  - apply IZR_le_half. unfold Rabs in C. destruct (Rcase_abs (t - IZR k)); lra.
  - apply le_IZR. lra.
  - apply IZR_lt_one. lra.
  - apply IZR_le_half. unfold Rabs in C. destruct (Rcase_abs (t - IZR k)); lra.
Qed.

(** ** Facts about doubles *)

Lemma pw2_split a b : pw2 a = pw2 (a - b) * pw2 b.
Proof. rewrite <- pw2_add. f_equal. lia. Qed.

Lemma pw2_int a b : (b <= a)%Z -> pw2 a = IZR (2 ^ (a - b)) * pw2 b.
Proof. intros H. rewrite pw2_IZR by lia. apply pw2_split. Qed.

Lemma pw2_lt_inv a b : pw2 a < pw2 b -> (a < b)%Z.
Proof. intros H. destruct (Z.lt_ge_cases a b) as [|G]; [assumption|]. pose proof (pw2_le _ _ G). lra. Qed.

Lemma MAX_lt : pw2 1023 <= MAX < pw2 1024.
Proof.
  unfold MAX. rewrite (pw2_int 1023 971), (pw2_int 1024 971) by lia. pose proof (pw2_pos 971).
  split; [apply Rmult_le_compat_r; [lra|apply IZR_le; vm_compute; discriminate]|].
  apply Rmult_lt_compat_r; [lra|apply IZR_lt; vm_compute; reflexivity].
Qed.
Lemma LIM_eq : LIM = IZR (2 ^ 54 - 1) * pw2 970.
Proof. unfold LIM. rewrite (pw2_int 1024 970) by lia. change (2 ^ (1024 - 970))%Z with (2 ^ 54)%Z. rewrite minus_IZR. ring. Qed.
Lemma MAX_LIM : MAX < LIM < pw2 1024.
Proof.
  split; [|unfold LIM; pose proof (pw2_pos 970); lra].
  rewrite LIM_eq. unfold MAX. rewrite (pw2_int 971 970) by lia. rewrite <- Rmult_assoc, <- mult_IZR.
  apply Rmult_lt_compat_r; [apply pw2_pos|apply IZR_lt; vm_compute; reflexivity].
Qed.

Lemma double_max y : is_double y -> Rabs y <= MAX.
Proof.
  intros (m & e & M & E & ->). unfold MAX. rewrite Rabs_mult, (Rabs_pos_eq (pw2 e)) by (left; apply pw2_pos).
  rewrite <- abs_IZR. apply Rmult_le_compat; [apply IZR_le; lia|left; apply pw2_pos|apply IZR_le; lia|apply pw2_le; lia].
Qed.
Lemma MAX_double : is_double MAX.
Proof. exists (2 ^ 53 - 1)%Z, 971%Z. repeat split; lia. Qed.
Lemma neg_double y : is_double y -> is_double (- y).
Proof. intros (m & e & M & E & ->). exists (- m)%Z, e. repeat split; try lia. rewrite opp_IZR. ring. Qed.
Lemma zero_double : is_double 0.
Proof. exists 0%Z, 0%Z. repeat split; try lia. ring. Qed.
Lemma dyv_max : dyv dbl_max = MAX. Proof. reflexivity. Qed.

Lemma Rabs_le_inv a b : Rabs a <= b -> - b <= a <= b.
Proof. intros H. unfold Rabs in H. destruct (Rcase_abs a); lra. Qed.

(** ** Rounding on the grid of the doubles near [v] *)
Section Grid.
Variables (v : R) (E : Z).
Hypothesis HE : pw2 (E - 1) <= Rabs v < pw2 E.
(** The grid is that of the doubles for [bot = -1074], and that of the numbers of
    53 bits when [bot] is small. *)
Variable bot : Z.
Hypothesis Hbot : (bot <= -1074)%Z.
Definition quantum : Z := Z.max (E - 53) bot.

Lemma v_neq : v <> 0.
Proof. intros ->. rewrite Rabs_R0 in HE. pose proof (pw2_pos (E - 1)). lra. Qed.

Lemma double_grid y : is_double y -> (exists k, y = IZR k * pw2 quantum) \/
  (quantum = E - 53)%Z /\ Rabs y < pw2 (E - 1).
Proof.
  intros (m & e & M & Ee & ->). destruct (Z.le_gt_cases quantum e) as [L|L].
  - left. exists (m * 2 ^ (e - quantum))%Z. rewrite mult_IZR, Rmult_assoc, <- pw2_int by exact L. reflexivity.
  - right. unfold quantum in *. split; [lia|].
    rewrite Rabs_mult, (Rabs_pos_eq (pw2 e)), <- abs_IZR by (left; apply pw2_pos).
    apply Rlt_le_trans with (pw2 53 * pw2 e).
    + apply Rmult_lt_compat_r; [apply pw2_pos|]. rewrite <- pw2_IZR by lia. apply IZR_lt, M.
    + rewrite <- pw2_add. apply pw2_le. lia.
Qed.

Lemma edge_grid : quantum = (E - 53)%Z -> pw2 (E - 1) = IZR (2 ^ 52) * pw2 quantum.
Proof. intros Q. rewrite (pw2_int (E - 1) quantum) by lia. rewrite Q. do 2 f_equal. f_equal. lia. Qed.

Variables (md : rnd) (k : Z).
Hypothesis Hk : int_round md (v / pw2 quantum) k.
Definition rv : R := IZR k * pw2 quantum.

Lemma v_eq : v = v / pw2 quantum * pw2 quantum.
Proof. field. pose proof (pw2_pos quantum). lra. Qed.

Lemma grid_le z : IZR z * pw2 quantum <= v -> IZR z * pw2 quantum <= rv.
Proof.
  intros H. apply Rmult_le_compat_r; [left; apply pw2_pos|]. apply IZR_le. apply (proj1 (int_round_mono _ _ _ Hk)).
  rewrite v_eq in H. apply Rmult_le_reg_r in H; [exact H|apply pw2_pos].
Qed.
Lemma grid_ge z : v <= IZR z * pw2 quantum -> rv <= IZR z * pw2 quantum.
Proof.
  intros H. apply Rmult_le_compat_r; [left; apply pw2_pos|]. apply IZR_le. apply (proj2 (int_round_mono _ _ _ Hk)).
  rewrite v_eq in H. apply Rmult_le_reg_r in H; [exact H|apply pw2_pos].
Qed.

Lemma k_small : (Z.abs k <= 2 ^ 53)%Z.
Proof.
  assert (T : Rabs v <= IZR (2 ^ 53) * pw2 quantum).
  { apply Rle_trans with (pw2 E); [lra|]. rewrite pw2_IZR, <- pw2_add by lia. apply pw2_le. unfold quantum. lia. }
  pose proof (Rabs_le_inv _ _ T) as [T1 T2].
  pose proof (grid_ge _ T2) as G2. assert (G1 : IZR (- 2 ^ 53) * pw2 quantum <= rv) by (apply grid_le; rewrite opp_IZR; lra).
  unfold rv in *. apply Rmult_le_reg_r in G1, G2; try apply pw2_pos. apply le_IZR in G1, G2. lia.
Qed.

Lemma rv_sign : (0 < v -> 0 <= rv) /\ (v < 0 -> rv <= 0).
Proof.
  split; intros H.
  - replace 0 with (IZR 0 * pw2 quantum) by ring. apply grid_le. lra.
  - replace 0 with (IZR 0 * pw2 quantum) by ring. apply grid_ge. lra.
Qed.

Lemma rv_big : quantum = (E - 53)%Z -> (0 < v -> pw2 (E - 1) <= rv) /\ (v < 0 -> rv <= - pw2 (E - 1)).
Proof.
  intros Q. pose proof (edge_grid Q) as G. split; intros H.
  - rewrite G. apply grid_le. rewrite <- G. rewrite Rabs_pos_eq in HE; lra.
  - rewrite G, Ropp_mult_distr_l, <- opp_IZR. apply grid_ge. rewrite opp_IZR, <- Ropp_mult_distr_l, <- G. rewrite Rabs_left in HE; lra.
Qed.

Lemma rv_double : (-1074 <= quantum)%Z -> Rabs rv <= MAX -> is_double rv.
Proof.
  intros Q0 M. pose proof k_small as K. pose proof MAX_lt as [_ ML].
  assert (A : Rabs rv = IZR (Z.abs k) * pw2 quantum).
  { unfold rv. rewrite Rabs_mult, (Rabs_pos_eq (pw2 quantum)), <- abs_IZR by (left; apply pw2_pos). reflexivity. }
  assert (Q : (quantum <= 971)%Z).
  { destruct (Z.eq_dec quantum (E - 53)) as [Q|Q]; [|unfold quantum in *; lia].
    destruct (rv_big Q) as [B1 B2]. assert (B : pw2 (E - 1) <= Rabs rv).
    { destruct (Rtotal_order v 0) as [V|[V|V]]; [|contradiction (v_neq V)|].
      - rewrite Rabs_left1; [lra|]. pose proof (pw2_pos (E - 1)). lra.
      - rewrite Rabs_pos_eq; [lra|]. pose proof (pw2_pos (E - 1)). lra. }
    assert (pw2 (E - 1) < pw2 1024) by lra. apply pw2_lt_inv in H. lia. }
  destruct (Z.eq_dec (Z.abs k) (2 ^ 53)) as [K2|K2].
  - assert (Q2 : (quantum <= 970)%Z).
    { rewrite K2, pw2_IZR, <- pw2_add in A by lia. assert (H : pw2 (53 + quantum) < pw2 1024) by lra. apply pw2_lt_inv in H. lia. }
    exists (Z.sgn k * 2 ^ 52)%Z, (quantum + 1)%Z. repeat split.
    + destruct (Z.abs_spec k) as [[? ?]|[? ?]]; [rewrite Z.sgn_pos by lia|rewrite Z.sgn_neg by lia]; lia.
    + lia.
    + lia.
    + unfold rv. rewrite pw2_add, pw2_1. replace (IZR (Z.sgn k * 2 ^ 52) * (pw2 quantum * 2)) with (IZR (Z.sgn k * 2 ^ 52) * IZR 2 * pw2 quantum) by ring.
      rewrite <- mult_IZR. do 2 f_equal. rewrite <- (Z.abs_sgn k) at 1. rewrite K2. lia.
  - exists k, quantum. repeat split; lia.
Qed.

Lemma floor_facts : IZR k <= v / pw2 quantum < IZR k + 1 -> rv <= v /\ forall y, is_double y -> y <= v -> y <= rv.
Proof.
  intros [F _]. split.
  - rewrite v_eq at 1. unfold rv. apply Rmult_le_compat_r; [left; apply pw2_pos|exact F].
  - intros y D Y. destruct (double_grid y D) as [(z & ->)|[Q L]]; [apply grid_le; exact Y|].
    destruct (rv_big Q) as [B1 B2]. destruct (Rtotal_order v 0) as [V|[V|V]]; [|contradiction (v_neq V)|].
    + rewrite Rabs_left in HE by exact V. unfold Rabs in L. destruct (Rcase_abs y); lra.
    + specialize (B1 V). unfold Rabs in L. destruct (Rcase_abs y); lra.
Qed.

Lemma ceil_facts : IZR k - 1 < v / pw2 quantum <= IZR k -> v <= rv /\ forall y, is_double y -> v <= y -> rv <= y.
Proof.
  intros [_ F]. split.
  - rewrite v_eq at 1. unfold rv. apply Rmult_le_compat_r; [left; apply pw2_pos|exact F].
  - intros y D Y. destruct (double_grid y D) as [(z & ->)|[Q L]]; [apply grid_ge; exact Y|].
    destruct (rv_big Q) as [B1 B2]. destruct (Rtotal_order v 0) as [V|[V|V]]; [|contradiction (v_neq V)|].
    + specialize (B2 V). unfold Rabs in L. destruct (Rcase_abs y); lra.
    + rewrite Rabs_pos_eq in HE by lra. unfold Rabs in L. destruct (Rcase_abs y); lra.
Qed.

Lemma near_facts : Rabs (v / pw2 quantum - IZR k) <= 1 / 2 -> forall y, is_double y -> Rabs (v - rv) <= Rabs (v - y).
Proof.
  intros N. pose proof (pw2_pos quantum) as P.
  assert (NZ : forall z, Rabs (v - rv) <= Rabs (v - IZR z * pw2 quantum)).
  { intros z. unfold rv. pose proof v_eq as Ev. set (t := v / pw2 quantum) in *. clearbody t. rewrite Ev.
    rewrite <- !Rmult_minus_distr_r, !Rabs_mult. apply Rmult_le_compat_r; [apply Rabs_pos|].
    destruct (Z.eq_dec z k) as [->|Z]; [lra|].
    assert (IZR z <= IZR k - 1 \/ IZR k + 1 <= IZR z).
    { destruct (Z.lt_ge_cases z k); [left|right]; rewrite <- ?minus_IZR, <- ?plus_IZR; apply IZR_le; lia. }
    unfold Rabs in *. destruct (Rcase_abs (t - IZR k)), (Rcase_abs (t - IZR z)); lra. }
  intros y D. destruct (double_grid y D) as [(z & ->)|[Q L]]; [apply NZ|].
  pose proof (edge_grid Q) as G. destruct (Rtotal_order v 0) as [V|[V|V]]; [|contradiction (v_neq V)|].
  - apply Rle_trans with (Rabs (v - IZR (- 2 ^ 52) * pw2 quantum)); [apply NZ|].
    rewrite opp_IZR, <- Ropp_mult_distr_l, <- G. rewrite Rabs_left in HE by exact V.
    unfold Rabs in L |- *. destruct (Rcase_abs y), (Rcase_abs (v - - pw2 (E - 1))), (Rcase_abs (v - y)); lra.
  - apply Rle_trans with (Rabs (v - IZR (2 ^ 52) * pw2 quantum)); [apply NZ|].
    rewrite <- G. rewrite Rabs_pos_eq in HE by lra.
    unfold Rabs in L |- *. destruct (Rcase_abs y), (Rcase_abs (v - pw2 (E - 1))), (Rcase_abs (v - y)); lra.
Qed.
Definition pack (r : dy) (neg : bool) : dbl := if dleb (dabs r) dbl_max then DF r else overflow md neg.

Lemma pack_cases r neg : dyv r = rv -> (neg = true <-> v < 0) ->
  Rabs rv <= MAX /\ pack r neg = DF r \/
  0 < v /\ MAX < rv /\ neg = false /\ pack r neg = overflow md false \/
  v < 0 /\ rv < - MAX /\ neg = true /\ pack r neg = overflow md true.
Proof.
  intros Hr Hn. unfold pack. pose proof (dleb_spec (dabs r) dbl_max) as D. rewrite dyv_abs, dyv_max, Hr in D.
  destruct (dleb (dabs r) dbl_max).
  - left. split; [apply D; reflexivity|reflexivity].
  - right. destruct rv_sign as [S1 S2]. assert (B : MAX < Rabs rv).
    { destruct (Rle_or_lt (Rabs rv) MAX) as [L|L]; [apply D in L; discriminate|exact L]. }
    destruct (Rtotal_order v 0) as [V|[V|V]]; [right|contradiction (v_neq V)|left].
    + rewrite Rabs_left1 in B by (apply S2, V). rewrite (proj2 Hn V). repeat split; lra.
    + rewrite Rabs_pos_eq in B by (apply S1, V). destruct neg; [pose proof (proj1 Hn eq_refl); lra|]. repeat split; lra.
Qed.

Hypothesis Q0 : (-1074 <= quantum)%Z.

Lemma pack_floor r neg : dyv r = rv -> (neg = true <-> v < 0) -> IZR k <= v / pw2 quantum < IZR k + 1 ->
  md = RFloor \/ md = RDown /\ 0 < v \/ md = RUp /\ v < 0 -> round_floor v (pack r neg).
Proof.
  intros Hr Hn F Hm. destruct (floor_facts F) as [F1 F2].
  destruct (pack_cases r neg Hr Hn) as [[B ->]|[(V & B & _ & ->)|(V & B & _ & ->)]].
  - cbn. rewrite Hr. repeat split; auto. apply rv_double; assumption.
  - assert (overflow md false = DF dbl_max) as -> by (destruct Hm as [->|[[-> _]|[_ ?]]]; [reflexivity..|lra]).
    cbn [round_floor]. rewrite dyv_max. repeat split; [apply MAX_double|lra|].
    intros y D _. apply double_max, Rabs_le_inv in D. lra.
  - assert (overflow md true = DInf true) as -> by (destruct Hm as [->|[[_ ?]|[-> _]]]; [reflexivity|lra|reflexivity]).
    cbn. split; [reflexivity|]. intros y D. destruct (Rle_or_lt y v) as [L|L]; [|exact L].
    apply (F2 y D) in L. apply double_max, Rabs_le_inv in D. lra.
Qed.

Lemma dyv_nmax : dyv (dneg dbl_max) = - MAX.
Proof. rewrite dyv_neg. reflexivity. Qed.

Lemma pack_ceil r neg : dyv r = rv -> (neg = true <-> v < 0) -> IZR k - 1 < v / pw2 quantum <= IZR k ->
  md = RCeil \/ md = RUp /\ 0 < v \/ md = RDown /\ v < 0 -> round_ceil v (pack r neg).
Proof.
  intros Hr Hn F Hm. destruct (ceil_facts F) as [F1 F2].
  destruct (pack_cases r neg Hr Hn) as [[B ->]|[(V & B & _ & ->)|(V & B & _ & ->)]].
  - cbn. rewrite Hr. repeat split; auto. apply rv_double; assumption.
  - assert (overflow md false = DInf false) as -> by (destruct Hm as [->|[[-> _]|[_ ?]]]; [reflexivity..|lra]).
    cbn. split; [reflexivity|]. intros y D. destruct (Rle_or_lt v y) as [L|L]; [|exact L].
    apply (F2 y D) in L. apply double_max, Rabs_le_inv in D. lra.
  - assert (overflow md true = DF (dneg dbl_max)) as -> by (destruct Hm as [->|[[_ ?]|[-> _]]]; [reflexivity|lra|reflexivity]).
    cbn [round_ceil]. rewrite dyv_nmax. repeat split; [apply neg_double, MAX_double|lra|].
    intros y D _. apply double_max, Rabs_le_inv in D. lra.
Qed.

Lemma near_below : md = RNear -> Rabs rv <= MAX -> Rabs v < LIM.
Proof.
  intros Em B. pose proof MAX_LIM as [ML1 ML2]. pose proof MAX_lt as [ML3 ML4].
  destruct (Rlt_or_le (Rabs v) LIM) as [|G]; [assumption|exfalso].
  assert (E1 : (1023 < E)%Z) by (apply pw2_lt_inv; lra).
  assert (Q : quantum = (E - 53)%Z) by (unfold quantum; lia).
  destruct (rv_big Q) as [B1 B2]. apply Rabs_le_inv in B.
  destruct (Z.eq_dec E 1024) as [E2|E2].
  - clear B1 B2. pose proof Hk as NT. rewrite Em in NT. destruct NT as [N T]. assert (Q2 : quantum = 971%Z) by lia. pose proof v_eq as Ev.
    unfold rv in B. rewrite Q2 in *. set (t := v / pw2 971) in *. clearbody t. pose proof (pw2_pos 971) as P.
    rewrite Ev, Rabs_mult, (Rabs_pos_eq (pw2 971)) in G by lra. rewrite LIM_eq in G.
    assert (G2 : IZR (2 ^ 53) - 1 / 2 <= Rabs t).
    { apply Rmult_le_reg_r with (pw2 971); [exact P|]. apply Rle_trans with (2 := G). rewrite (pw2_int 971 970) by lia.
      change (2 ^ (971 - 970))%Z with 2%Z. change (2 ^ 53)%Z with 9007199254740992%Z.
      change (2 ^ 54 - 1)%Z with 18014398509481983%Z. pose proof (pw2_pos 970). lra. }
    assert (B2 : (- (2 ^ 53 - 1) <= k <= 2 ^ 53 - 1)%Z).
    { unfold MAX in B. destruct B as [B1 B2]. rewrite Ropp_mult_distr_l in B1. apply Rmult_le_reg_r in B1, B2; try exact P.
      rewrite <- opp_IZR in B1. apply le_IZR in B1, B2. lia. }
    destruct B2 as [L U]. apply IZR_le in L, U. rewrite opp_IZR in L.
    change (2 ^ 53 - 1)%Z with 9007199254740991%Z in *. change (2 ^ 53)%Z with 9007199254740992%Z in *.
    assert (T2 : Rabs (t - IZR k) = 1 / 2).
    { unfold Rabs in *. destruct (Rcase_abs t), (Rcase_abs (t - IZR k)); lra. }
    specialize (T T2). assert (K : Z.abs k = 9007199254740991%Z).
    { assert (IZR k = 9007199254740991 \/ IZR k = - 9007199254740991) as [K|K].
      - unfold Rabs in *. destruct (Rcase_abs t), (Rcase_abs (t - IZR k)); lra.
      - apply eq_IZR in K. lia.
      - apply eq_IZR in K. lia. }
    assert (k = 9007199254740991 \/ k = -9007199254740991)%Z as [->| ->] by lia; discriminate.
  - assert (P : pw2 1024 <= pw2 (E - 1)) by (apply pw2_le; lia).
    destruct (Rtotal_order v 0) as [V|[V|V]]; [|contradiction (v_neq V)|].
    + specialize (B2 V). lra.
    + specialize (B1 V). lra.
Qed.

Lemma near_above : md = RNear -> MAX < Rabs rv -> LIM <= Rabs v.
Proof.
  intros Em B. pose proof MAX_LIM as [ML1 ML2]. pose proof MAX_lt as [ML3 ML4].
  destruct (Rle_or_lt LIM (Rabs v)) as [|G]; [assumption|exfalso].
  assert (E1 : (E - 1 < 1024)%Z) by (apply pw2_lt_inv; lra).
  assert (Q : (quantum <= 971)%Z) by (unfold quantum; lia).
  destruct (Rle_or_lt (Rabs v) MAX) as [L|L].
  - apply Rabs_le_inv in L. unfold MAX in L. rewrite (pw2_int 971 quantum) in L by exact Q.
    rewrite <- Rmult_assoc, <- mult_IZR in L. destruct L as [L1 L2]. apply grid_ge in L2.
    rewrite Ropp_mult_distr_l, <- opp_IZR in L1. apply grid_le in L1. rewrite opp_IZR in L1.
    assert (M : MAX = IZR ((2 ^ 53 - 1) * 2 ^ (971 - quantum)) * pw2 quantum).
    { unfold MAX. rewrite (pw2_int 971 quantum) by exact Q. rewrite mult_IZR. ring. }
    rewrite <- M in L2. rewrite <- Ropp_mult_distr_l, <- M in L1. unfold Rabs in B. destruct (Rcase_abs rv); lra.
  - assert (E2 : (1023 < E)%Z) by (apply pw2_lt_inv; lra).
    assert (Q2 : quantum = 971%Z) by (unfold quantum; lia). pose proof Hk as N. rewrite Em in N. destruct N as [N _]. pose proof v_eq as Ev.
    unfold rv in B. rewrite Q2 in *. set (t := v / pw2 971) in *. clearbody t. pose proof (pw2_pos 971) as P.
    rewrite Ev, Rabs_mult, (Rabs_pos_eq (pw2 971)) in G by lra. rewrite LIM_eq in G.
    assert (G2 : Rabs t < IZR (2 ^ 53) - 1 / 2).
    { apply Rmult_lt_reg_r with (pw2 971); [exact P|]. apply Rlt_le_trans with (1 := G). rewrite (pw2_int 971 970) by lia.
      change (2 ^ (971 - 970))%Z with 2%Z. change (2 ^ 53)%Z with 9007199254740992%Z.
      change (2 ^ 54 - 1)%Z with 18014398509481983%Z. pose proof (pw2_pos 970). lra. }
    rewrite Rabs_mult, (Rabs_pos_eq (pw2 971)), <- abs_IZR in B by lra. unfold MAX in B.
    apply Rmult_lt_reg_r in B; [|exact P]. apply lt_IZR in B. assert (B2 : (2 ^ 53 <= Z.abs k)%Z) by lia.
    apply IZR_le in B2. rewrite abs_IZR in B2. unfold Rabs in *.
    destruct (Rcase_abs t), (Rcase_abs (t - IZR k)), (Rcase_abs (IZR k)); lra.
Qed.

Lemma pack_ok r neg : dyv r = rv -> (neg = true <-> v < 0) -> is_round md v (pack r neg).
Proof.
  intros Hr Hn. destruct md eqn:Em; cbn [is_round]; rewrite <- Em in *.
  - split; intros V; pose proof v_neq as V0; pose proof Hk as K; rewrite Em in K; destruct K as [K1 K2].
    + apply pack_floor; auto; [|right; left; split; [exact Em|lra]]. apply K1. left. apply Rdiv_lt_0_compat; [lra|apply pw2_pos].
    + apply pack_ceil; auto; [|right; right; split; [exact Em|lra]]. apply K2. apply Ropp_lt_cancel. rewrite Ropp_0.
      replace (- (v / pw2 quantum)) with (- v / pw2 quantum) by (field; pose proof (pw2_pos quantum); lra).
      apply Rdiv_lt_0_compat; [lra|apply pw2_pos].
  - split; intros V; pose proof v_neq as V0; pose proof Hk as K; rewrite Em in K; destruct K as [K1 K2].
    + apply pack_ceil; auto; [|right; left; split; [exact Em|lra]]. apply K1. left. apply Rdiv_lt_0_compat; [lra|apply pw2_pos].
    + apply pack_floor; auto; [|right; right; split; [exact Em|lra]]. apply K2. apply Ropp_lt_cancel. rewrite Ropp_0.
      replace (- (v / pw2 quantum)) with (- v / pw2 quantum) by (field; pose proof (pw2_pos quantum); lra).
      apply Rdiv_lt_0_compat; [lra|apply pw2_pos].
  - apply pack_floor; auto. pose proof Hk as K. rewrite Em in K. exact K.
  - apply pack_ceil; auto. pose proof Hk as K. rewrite Em in K. exact K.
  - pose proof Hk as K. rewrite Em in K. destruct K as [K _].
    destruct (pack_cases r neg Hr Hn) as [[B ->]|[(V & B & _ & ->)|(V & B & _ & ->)]].
    + cbn. rewrite Hr. repeat split; [apply rv_double; assumption|apply near_below; assumption|apply near_facts, K].
    + rewrite Em. cbn. rewrite <- (Rabs_pos_eq v) by lra. apply near_above; [exact Em|].
      assert (0 <= rv) by (apply rv_sign, V). rewrite Rabs_pos_eq; lra.
    + rewrite Em. cbn. assert (LIM <= Rabs v); [|rewrite Rabs_left in H; lra]. apply near_above; [exact Em|].
      assert (rv <= 0) by (apply rv_sign, V). rewrite Rabs_left1; lra.
Qed.
End Grid.

Lemma int_round_self md k : int_round md (IZR k) k.
Proof. destruct md; cbn; try lra. replace (IZR k - IZR k) with 0 by ring. rewrite Rabs_R0. lra. Qed.

Lemma round_zero md : is_round md 0 (DF (dz 0)).
Proof.
  assert (Z0 : dyv (dz 0) = 0) by (unfold dyv, dz; cbn; ring).
  pose proof MAX_lt. pose proof MAX_LIM. pose proof (pw2_pos 1023).
  assert (F : round_floor 0 (DF (dz 0))) by (cbn; rewrite Z0; repeat split; [apply zero_double|lra|auto]).
  assert (C : round_ceil 0 (DF (dz 0))) by (cbn; rewrite Z0; repeat split; [apply zero_double|lra|auto]).
  destruct md; cbn [is_round]; auto. cbn. rewrite Z0. repeat split; [apply zero_double|rewrite Rabs_R0; lra|].
  intros y _. replace (0 - 0) with 0 by ring. rewrite Rabs_R0. apply Rabs_pos.
Qed.

(** arf_get_d rounds correctly. *)
Lemma arf_get_d_ok md d : is_round md (dyv d) (arf_get_d md d).
Proof.
  unfold arf_get_d. destruct (Z.eqb_spec (fst d) 0) as [Z0|Z0].
  - assert (dyv d = 0) as -> by (unfold dyv; rewrite Z0; ring). apply round_zero.
  - pose proof (dexp_spec d Z0) as HE. change (Z.max (dexp d - 53) (-1074)) with (quantum (dexp d) (-1074)).
    set (q := quantum (dexp d) (-1074)).
    set (k := if (snd d <? q)%Z then rz md (fst d) (2 ^ (q - snd d)) else dat d q).
    apply (pack_ok (dyv d) (dexp d) HE (-1074) (Z.le_refl _) md k).
    + fold q. unfold k. pose proof (pw2_pos q). destruct (Z.ltb_spec (snd d) q) as [L|L].
      * replace (dyv d / pw2 q) with (IZR (fst d) / IZR (2 ^ (q - snd d))).
        { apply rz_ok, Z.pow_pos_nonneg; lia. }
        unfold dyv. pose proof (pw2_pos (snd d)). pose proof (pw2_pos (q - snd d)). rewrite pw2_IZR by lia.
        rewrite (pw2_split q (snd d)). field. lra.
      * replace (dyv d / pw2 q) with (IZR (dat d q)); [apply int_round_self|]. rewrite (dat_val d q L). field. lra.
    + unfold quantum. lia.
    + reflexivity.
    + pose proof (pw2_pos (snd d)) as P. unfold dyv. rewrite Z.ltb_lt. split; intros H.
      * apply IZR_lt in H. apply Ropp_lt_cancel. rewrite Ropp_0, Ropp_mult_distr_l. apply Rmult_lt_0_compat; lra.
      * apply lt_IZR. destruct (Rlt_or_le (IZR (fst d)) 0) as [|G]; [assumption|].
        pose proof (Rmult_le_pos _ _ G (Rlt_le _ _ P)). lra.
Qed.

(** ** Rationals *)
Lemma q_exp_ok n d : n <> 0%Z -> (0 < d)%Z -> pw2 (q_exp n d - 1) <= Rabs (IZR n / IZR d) < pw2 (q_exp n d).
Proof.
  intros N D. assert (D0 : 0 < IZR d) by (apply IZR_lt, D).
  assert (A : Rabs (IZR n / IZR d) = IZR (Z.abs n) / IZR d).
  { unfold Rdiv. rewrite Rabs_mult, abs_IZR, (Rabs_pos_eq (/ IZR d)); [reflexivity|]. left. apply Rinv_0_lt_compat, D0. }
  rewrite A. clear A. unfold q_exp.
  pose proof (Z.log2_spec (Z.abs n) ltac:(lia)) as [A1 A2]. pose proof (Z.log2_spec d D) as [B1 B2].
  pose proof (Z.log2_nonneg (Z.abs n)). pose proof (Z.log2_nonneg d).
  set (a := Z.log2 (Z.abs n)) in *. set (b := Z.log2 d) in *. set (k := (a - b)%Z).
  apply IZR_le in A1, B1. apply IZR_lt in A2, B2. rewrite pw2_IZR in A1, A2, B1, B2 by lia.
  assert (L : pw2 (k - 1) <= IZR (Z.abs n) / IZR d).
  { apply Rmult_le_reg_r with (IZR d); [exact D0|]. replace (IZR (Z.abs n) / IZR d * IZR d) with (IZR (Z.abs n)) by (field; lra).
    apply Rle_trans with (2 := A1). apply Rle_trans with (pw2 (k - 1) * pw2 (Z.succ b)).
    - apply Rmult_le_compat_l; [left; apply pw2_pos|lra].
    - rewrite <- pw2_add. apply pw2_le. lia. }
  assert (U : IZR (Z.abs n) / IZR d < pw2 (k + 1)).
  { apply Rmult_lt_reg_r with (IZR d); [exact D0|]. replace (IZR (Z.abs n) / IZR d * IZR d) with (IZR (Z.abs n)) by (field; lra).
    apply Rlt_le_trans with (1 := A2). apply Rle_trans with (pw2 (k + 1) * pw2 b).
    - rewrite <- pw2_add. apply pw2_le. lia.
    - apply Rmult_le_compat_l; [left; apply pw2_pos|lra]. }
  assert (C : (if (0 <=? k)%Z then (Z.abs n <? d * 2 ^ k)%Z else (Z.abs n * 2 ^ (- k) <? d)%Z) = true <->
              IZR (Z.abs n) / IZR d < pw2 k).
  { assert (C1 : IZR (Z.abs n) / IZR d < pw2 k <-> IZR (Z.abs n) < pw2 k * IZR d).
    { split; intros H1.
      - apply Rmult_lt_compat_r with (r := IZR d) in H1; [|exact D0].
        replace (IZR (Z.abs n) / IZR d * IZR d) with (IZR (Z.abs n)) in H1 by (field; lra). exact H1.
      - apply Rmult_lt_reg_r with (IZR d); [exact D0|].
        replace (IZR (Z.abs n) / IZR d * IZR d) with (IZR (Z.abs n)) by (field; lra). exact H1. }
    rewrite C1. destruct (Z.leb_spec 0 k) as [K|K]; rewrite Z.ltb_lt.
    - rewrite <- pw2_IZR, <- mult_IZR, Z.mul_comm by exact K. split; [apply IZR_lt|apply lt_IZR].
    - assert (P : pw2 k * pw2 (- k) = 1) by (rewrite Rmult_comm; apply pw2_inv). pose proof (pw2_pos k) as P1. pose proof (pw2_pos (- k)) as P2.
      assert (C2 : (Z.abs n * 2 ^ (- k) < d)%Z <-> IZR (Z.abs n) * pw2 (- k) < IZR d).
      { rewrite <- pw2_IZR, <- mult_IZR by lia. split; [apply IZR_lt|apply lt_IZR]. }
      rewrite C2. split; intros H1.
      + apply Rmult_lt_compat_r with (r := pw2 k) in H1; [|exact P1]. rewrite Rmult_assoc, (Rmult_comm (pw2 (- k))), P in H1. lra.
      + apply Rmult_lt_compat_r with (r := pw2 (- k)) in H1; [|exact P2].
        replace (pw2 k * IZR d * pw2 (- k)) with (IZR d * (pw2 k * pw2 (- k))) in H1 by ring. rewrite P in H1. lra. }
  destruct (if (0 <=? k)%Z then (Z.abs n <? d * 2 ^ k)%Z else (Z.abs n * 2 ^ (- k) <? d)%Z).
  - split; [exact L|]. apply C. reflexivity.
  - replace (k + 1 - 1)%Z with k by lia. split; [|exact U].
    destruct (Rle_or_lt (pw2 k) (IZR (Z.abs n) / IZR d)) as [|G]; [assumption|]. apply C in G. discriminate.
Qed.

Lemma rz_at_ok md n d q : (0 < d)%Z -> int_round md (IZR n / IZR d / pw2 q) (fst (rz_at md n d q)) /\ snd (rz_at md n d q) = q.
Proof.
  intros D. assert (D0 : 0 < IZR d) by (apply IZR_lt, D). pose proof (pw2_pos q). unfold rz_at.
  destruct (Z.leb_spec 0 q) as [Q|Q]; cbn [fst snd]; split; try reflexivity.
  - replace (IZR n / IZR d / pw2 q) with (IZR n / IZR (d * 2 ^ q)).
    + apply rz_ok. apply Z.mul_pos_pos; [exact D|]. apply Z.pow_pos_nonneg; lia.
    + rewrite mult_IZR, pw2_IZR by exact Q. field. lra.
  - replace (IZR n / IZR d / pw2 q) with (IZR (n * 2 ^ (- q)) / IZR d).
    + apply rz_ok, D.
    + rewrite mult_IZR, pw2_IZR by lia. pose proof (pw2_inv q). pose proof (pw2_pos (- q)).
      replace (pw2 (- q)) with (/ pw2 q); [field; lra|]. apply Rmult_eq_reg_r with (pw2 q); [|lra].
      rewrite Rinv_l by lra. symmetry. assumption.
Qed.

Lemma round_double md y d : is_double y -> is_round md y d -> exists x, d = DF x /\ dyv x = y.
Proof.
  intros D H.
  assert (F : round_floor y d -> exists x, d = DF x /\ dyv x = y).
  { destruct d as [x|s]; cbn.
    - intros (D1 & L & U). exists x. split; [reflexivity|]. apply Rle_antisym; [exact L|]. apply U; [exact D|lra].
    - intros [_ U]. specialize (U y D). lra. }
  assert (C : round_ceil y d -> exists x, d = DF x /\ dyv x = y).
  { destruct d as [x|s]; cbn.
    - intros (D1 & L & U). exists x. split; [reflexivity|]. apply Rle_antisym; [|exact L]. apply U; [exact D|lra].
    - intros [_ U]. specialize (U y D). lra. }
  destruct md; cbn [is_round] in H; auto.
  - destruct H as [H1 H2]. destruct (Rle_or_lt 0 y); [auto|apply C, H2; lra].
  - destruct H as [H1 H2]. destruct (Rle_or_lt 0 y); [auto|apply F, H2; lra].
  - pose proof MAX_LIM. pose proof (Rabs_le_inv _ _ (double_max _ D)). destruct d as [x|s]; cbn in H.
    + destruct H as (_ & _ & N). specialize (N y D). replace (y - y) with 0 in N by ring. rewrite Rabs_R0 in N.
      exists x. split; [reflexivity|]. unfold Rabs in N. destruct (Rcase_abs (y - dyv x)); lra.
    + destruct s; lra.
Qed.

(** Rounding to 53 bits and then to a double in the same direction. *)
Lemma twice_floor v r d : r <= v -> (forall y, is_double y -> y <= v -> y <= r) -> round_floor r d -> round_floor v d.
Proof.
  intros L U. destruct d as [x|s]; cbn.
  - intros (D & L2 & U2). repeat split; [exact D|lra|]. intros y Dy Y. apply U2; [exact Dy|]. apply U; assumption.
  - intros [S1 U2]. split; [exact S1|]. intros y D. destruct (Rle_or_lt y v) as [Y|Y]; [|exact Y].
    pose proof (U y D Y). specialize (U2 y D). lra.
Qed.
Lemma twice_ceil v r d : v <= r -> (forall y, is_double y -> v <= y -> r <= y) -> round_ceil r d -> round_ceil v d.
Proof.
  intros L U. destruct d as [x|s]; cbn.
  - intros (D & L2 & U2). repeat split; [exact D|lra|]. intros y Dy Y. apply U2; [exact Dy|]. apply U; assumption.
  - intros [S1 U2]. split; [exact S1|]. intros y D. destruct (Rle_or_lt v y) as [Y|Y]; [|exact Y].
    pose proof (U y D Y). specialize (U2 y D). lra.
Qed.

Lemma get_q_ok md n d : (0 < d)%Z -> (md = RNear -> n <> 0%Z -> pw2 (-1022) <= Rabs (IZR n / IZR d)) ->
  is_round md (IZR n / IZR d) (arf_get_d md (round_q md n d 53)).
Proof.
  intros D Hn. unfold round_q. destruct (Z.eqb_spec n 0) as [->|N].
  { replace (0 / IZR d) with 0 by (unfold Rdiv; ring). apply round_zero. }
  pose proof (q_exp_ok n d N D) as HE. set (E := q_exp n d) in *.
  destruct (rz_at_ok md n d (E - 53) D) as [K Q]. set (r := rz_at md n d (E - 53)) in *.
  pose proof (arf_get_d_ok md r) as A. set (v := IZR n / IZR d) in *. set (k := fst r) in *.
  set (bot := Z.min (-1074) (E - 53)).
  assert (Hb : (bot <= -1074)%Z) by (unfold bot; lia).
  assert (Hq : quantum E bot = (E - 53)%Z) by (unfold quantum, bot; lia).
  assert (K' := K). rewrite <- Hq in K'.
  assert (Hr : dyv r = rv E bot k) by (unfold rv, dyv; rewrite Q, Hq; reflexivity).
  assert (F : IZR k <= v / pw2 (quantum E bot) < IZR k + 1 -> round_floor (dyv r) (arf_get_d md r) -> round_floor v (arf_get_d md r)).
  { intros F1. destruct (floor_facts v E HE bot Hb md k K' F1) as [F2 F3]. rewrite <- Hr in F2, F3. apply twice_floor; assumption. }
  assert (C : IZR k - 1 < v / pw2 (quantum E bot) <= IZR k -> round_ceil (dyv r) (arf_get_d md r) -> round_ceil v (arf_get_d md r)).
  { intros F1. destruct (ceil_facts v E HE bot Hb md k K' F1) as [F2 F3]. rewrite <- Hr in F2, F3. apply twice_ceil; assumption. }
  pose proof (rv_sign v E bot md k K') as [S1 S2]. rewrite <- Hr in S1, S2.
  pose proof (v_neq v E HE) as V0. pose proof (pw2_pos (quantum E bot)) as P.
  assert (Tp : 0 <= v -> 0 <= v / pw2 (quantum E bot)) by (intros; apply Rmult_le_pos; [assumption|left; apply Rinv_0_lt_compat, P]).
  assert (Tn : v < 0 -> v / pw2 (quantum E bot) < 0).
  { intros V. apply Ropp_lt_cancel. rewrite Ropp_0. replace (- (v / pw2 (quantum E bot))) with (- v / pw2 (quantum E bot)) by (field; lra).
    apply Rdiv_lt_0_compat; lra. }
  destruct md; cbn [is_round int_round] in *; auto.
  - destruct K' as [K1 K2], A as [A1 A2]. split; intros V.
    + apply F; [apply K1; auto|apply A1, S1]. destruct (Rdichotomy _ _ V0); lra.
    + assert (V1 : v < 0) by (destruct (Rdichotomy _ _ V0); lra). apply C; auto.
  - destruct K' as [K1 K2], A as [A1 A2]. split; intros V.
    + apply C; [apply K1; auto|apply A1, S1]. destruct (Rdichotomy _ _ V0); lra.
    + assert (V1 : v < 0) by (destruct (Rdichotomy _ _ V0); lra). apply F; auto.
  - specialize (Hn eq_refl N). assert (E0 : (-1022 < E)%Z) by (apply pw2_lt_inv; lra).
    assert (Q0 : (-1074 <= quantum E bot)%Z) by lia. change (round_near v (arf_get_d RNear r)).
    destruct (Rle_or_lt (Rabs (dyv r)) MAX) as [M|M].
    + assert (Dr : is_double (dyv r)) by (rewrite Hr in *; apply (rv_double v E HE bot Hb RNear k K' Q0 M)).
      destruct (round_double RNear (dyv r) _ Dr A) as (x & -> & Ex). cbn. rewrite Ex. rewrite Hr in *. repeat split.
      * exact Dr.
      * apply (near_below v E HE bot Hb RNear k K' Q0 eq_refl M).
      * apply (near_facts v E HE bot Hb k). apply K'.
    + pose proof M as M'. rewrite Hr in M'. pose proof (near_above v E HE bot Hb RNear k K' Q0 eq_refl M') as L.
      assert (E1 : (1023 < E)%Z). { apply pw2_lt_inv. pose proof MAX_lt. pose proof MAX_LIM. lra. }
      assert (G : pw2 1024 <= Rabs (dyv r)).
      { unfold dyv in M |- *. rewrite Q in M |- *. fold k in M |- *. rewrite Rabs_mult, (Rabs_pos_eq (pw2 (E - 53))), <- abs_IZR in M |- * by (left; apply pw2_pos).
        rewrite (pw2_int (E - 53) 971), <- Rmult_assoc, <- mult_IZR in M |- * by lia. unfold MAX in M.
        apply Rmult_lt_reg_r in M; [|apply pw2_pos]. apply lt_IZR in M. rewrite (pw2_int 1024 971) by lia.
        apply Rmult_le_compat_r; [left; apply pw2_pos|]. apply IZR_le. change (2 ^ (1024 - 971))%Z with (2 ^ 53)%Z. lia. }
      pose proof MAX_LIM as [_ ML]. destruct (arf_get_d RNear r) as [x|s]; cbn in A |- *; [destruct A as (_ & A & _); lra|].
      assert (0 < LIM) by (pose proof MAX_LIM; pose proof MAX_lt; pose proof (pw2_pos 1023); lra).
      destruct (Rdichotomy _ _ V0) as [V|V].
      * rewrite Rabs_left in L by exact V. specialize (S2 V). destruct s; lra.
      * rewrite Rabs_pos_eq in L by lra. specialize (S1 V). destruct s; lra.
Qed.

(** Two numbers with the same rounding, and a number between. *)
Lemma sandwich md l u v a b : md = RFloor \/ md = RCeil \/ md = RNear -> l <= v <= u ->
  is_round md l a -> is_round md u b -> dbl_eqb b a = true -> is_round md v a.
Proof.
  intros Hm [L U] A B Eab.
  assert (Q : (exists x y, a = DF x /\ b = DF y /\ dyv y = dyv x) \/ (exists s, a = DInf s /\ b = DInf s)).
  { destruct a as [x|s], b as [y|t]; cbn in Eab; try discriminate.
    - left. exists x, y. repeat split. apply deqb_spec, Eab.
    - right. exists s. split; [reflexivity|]. f_equal. apply eqb_prop, Eab. }
  destruct Hm as [->|[->| ->]]; destruct Q as [(x & y & -> & -> & Exy)|(s & -> & ->)]; cbn in *; rewrite ?Exy in *.
  - destruct A as (D & A1 & A2), B as (_ & B1 & B2). repeat split; [exact D|lra|]. intros z Dz Z. apply B2; [exact Dz|lra].
  - destruct B as [-> B]. split; [reflexivity|]. intros z D. specialize (B z D). lra.
  - destruct A as (D & A1 & A2), B as (_ & B1 & B2). repeat split; [exact D|lra|]. intros z Dz Z. apply A2; [exact Dz|lra].
  - destruct A as [-> A]. split; [reflexivity|]. intros z D. specialize (A z D). lra.
  - destruct A as (D & A1 & A2), B as (_ & B1 & B2). repeat split; [exact D| |].
    + unfold Rabs in *. destruct (Rcase_abs l), (Rcase_abs u), (Rcase_abs v); lra.
    + intros z Dz. specialize (A2 z Dz). specialize (B2 z Dz). clear A1 B1.
      unfold Rabs in *. destruct (Rcase_abs (l - dyv x)), (Rcase_abs (l - z)), (Rcase_abs (u - dyv x)), (Rcase_abs (u - z)),
        (Rcase_abs (v - dyv x)), (Rcase_abs (v - z)); lra.
  - destruct s; lra.
Qed.
