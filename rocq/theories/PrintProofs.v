(** Proofs about the printed numbers. *)
Require Import Reals Lra Lia List ZArith Bool Ascii String.
From Verif Require Import PolyR RootModel RootSpec VcaProofs ExtraModel Dyadic DyadicProofs ArbModel ArbSpec ArbProofs RefineProofs ElemModel ElemSpec ElemProofs ElemLoops ElemHist ElemMore
  GetdModel GetdSpec GetdProofs GetdMore StrModel BufModel BufSpec BufProofs MakeSpec PrintModel PrintSpec.
Import ListNotations.
Open Scope R_scope.

(** * The error of rounding to nearest *)
Lemma exponent_of : forall r, 0 < r -> exists E, pw2 (E - 1) <= r < pw2 E.
Proof.
  intros r Hr.
  assert (up : forall s, 0 < s -> exists k : nat, s < pw2 (Z.of_nat k)).
  { intros s Hs. destruct (archimed s) as [U _]. exists (Z.to_nat (up s)). assert (0 < up s)%Z by (apply lt_IZR; lra).
    rewrite Z2Nat.id by lia. rewrite <- pw2_IZR by lia. apply Rlt_le_trans with (IZR (up s)); [lra|]. apply IZR_le.
    pose proof (Z.pow_gt_lin_r 2 (up s)). lia. }
  destruct (up r Hr) as [a Ha]. destruct (up (/ r) (Rinv_0_lt_compat _ Hr)) as [b Hb].
  assert (L : pw2 (- Z.of_nat b) <= r).
  { pose proof (pw2_inv (Z.of_nat b)) as P. pose proof (pw2_pos (Z.of_nat b)). pose proof (pw2_pos (- Z.of_nat b)).
    apply Rmult_lt_compat_r with (r := r) in Hb; [|exact Hr]. rewrite Rinv_l in Hb by lra.
    apply Rmult_le_reg_l with (pw2 (Z.of_nat b)); [lra|]. lra. }
  clear Hb. revert L. generalize (- Z.of_nat b)%Z. intros c L.
  assert (G : forall k : nat, r < pw2 (c + Z.of_nat k) -> exists E, pw2 (E - 1) <= r < pw2 E).
  { induction k as [|k IH]; intros K.
    - replace (c + Z.of_nat 0)%Z with c in K by lia. lra.
    - destruct (Rlt_le_dec r (pw2 (c + Z.of_nat k))) as [T|T]; [exact (IH T)|]. exists (c + Z.of_nat (S k))%Z. split; [|exact K].
      replace (c + Z.of_nat (S k) - 1)%Z with (c + Z.of_nat k)%Z by lia. exact T. }
  apply (G (Z.to_nat (Z.of_nat a - c))). destruct (Z.le_gt_cases c (Z.of_nat a)) as [W|W].
  - rewrite Z2Nat.id by lia. replace (c + (Z.of_nat a - c))%Z with (Z.of_nat a) by lia. exact Ha.
  - assert (pw2 (Z.of_nat a) <= pw2 c) by (apply pw2_le; lia). lra.
Qed.

Lemma near_int : forall t, exists k, int_round RNear t k.
Proof.
  intros t. destruct (archimed t) as [U1 U2]. set (f := (up t - 1)%Z).
  assert (F : IZR f <= t < IZR f + 1) by (unfold f; rewrite minus_IZR; lra).
  assert (A : t - IZR f < 1 / 2 \/ t - IZR f = 1 / 2 \/ 1 / 2 < t - IZR f) by lra.
  destruct A as [A|[A|A]].
  - exists f. cbn [int_round]. rewrite Rabs_pos_eq by lra. split; [lra|intros; lra].
  - destruct (Z.even f) eqn:Ev.
    + exists f. cbn [int_round]. rewrite Rabs_pos_eq by lra. split; [lra|intros; exact Ev].
    + exists (f + 1)%Z. cbn [int_round]. rewrite plus_IZR, Rabs_left by lra. split; [lra|]. intros _. rewrite Z.even_add, Ev. reflexivity.
  - exists (f + 1)%Z. cbn [int_round]. rewrite plus_IZR, Rabs_left by lra. split; [lra|]. intros; lra.
Qed.

Lemma pw2_neg : forall e, (0 <= e)%Z -> pw2 (- e) = / IZR (2 ^ e).
Proof.
  intros e H. pose proof (pw2_inv e) as P. pose proof (pw2_pos e). rewrite pw2_IZR by exact H.
  apply Rmult_eq_reg_r with (pw2 e); [|lra]. rewrite Rinv_l by lra. lra.
Qed.
Lemma pw2_half : forall e, pw2 (e - 1) = / 2 * pw2 e.
Proof. intros e. replace e with (e - 1 + 1)%Z at 2 by lia. rewrite pw2_add, pw2_1. lra. Qed.

Lemma scaled : forall v k q, Rabs (v / pw2 q - IZR k) <= 1 / 2 -> Rabs (v - IZR k * pw2 q) <= pw2 (q - 1).
Proof.
  intros v k q H. pose proof (pw2_pos q) as P. replace (v - IZR k * pw2 q) with ((v / pw2 q - IZR k) * pw2 q) by (field; lra).
  rewrite Rabs_mult, (Rabs_pos_eq (pw2 q)) by lra. rewrite pw2_half. apply Rmult_le_compat_r; lra.
Qed.

Lemma near_error : forall v d, round_near v (DF d) -> Rabs (v - dyv d) <= pw2 (-53) * Rabs v + pw2 (-1075).
Proof.
  intros v d (_ & Hl & Hn). pose proof (pw2_pos (-53)) as P1. pose proof (pw2_pos (-1075)) as P2.
  destruct (Req_dec v 0) as [->|V].
  { specialize (Hn 0 zero_double). rewrite Rminus_0_r, Rabs_R0 in Hn. rewrite Rabs_R0. lra. }
  destruct (exponent_of (Rabs v) (Rabs_pos_lt _ V)) as [E HE].
  pose (bot := (-1074)%Z). assert (Hb : (bot <= -1074)%Z) by (unfold bot; lia).
  destruct (near_int (v / pw2 (quantum E bot))) as [k K].
  assert (Q0 : (-1074 <= quantum E bot)%Z) by (unfold quantum, bot; lia).
  assert (M : Rabs (rv E bot k) <= MAX).
  { destruct (Rle_or_lt (Rabs (rv E bot k)) MAX) as [M|M]; [exact M|].
    pose proof (near_above v E HE bot Hb RNear k K Q0 eq_refl M). lra. }
  pose proof (rv_double v E HE bot Hb RNear k K Q0 M) as D. specialize (Hn _ D).
  pose proof (scaled v k (quantum E bot) (proj1 K)) as S. fold (rv E bot k) in S.
  assert (B : pw2 (quantum E bot - 1) <= pw2 (-53) * Rabs v + pw2 (-1075)).
  { unfold quantum, bot. destruct (Z.max_spec (E - 53) (-1074)) as [[_ ->]|[_ ->]].
    - change (-1074 - 1)%Z with (-1075)%Z. pose proof (Rabs_pos v). nra.
    - replace (E - 53 - 1)%Z with (-53 + (E - 1))%Z by lia. rewrite pw2_add. nra. }
  lra.
Qed.
Lemma near_sign : forall v d, round_near v (DF d) -> (0 <= v -> 0 <= dyv d) /\ (v <= 0 -> dyv d <= 0).
Proof.
  intros v d (_ & _ & Hn). specialize (Hn 0 zero_double). rewrite Rminus_0_r in Hn.
  split; intros H; apply Rnot_lt_le; intros W; unfold Rabs in Hn; repeat destruct (Rcase_abs _); lra.
Qed.

(** * A fraction is rounded to 53 bits first *)
Lemma round_q_error : forall n d, (0 < d)%Z -> let v := IZR n / IZR d in let r := dyv (round_q RNear n d 53) in
  Rabs (v - r) <= pw2 (-53) * Rabs v /\ (0 <= v -> 0 <= r) /\ (v <= 0 -> r <= 0).
Proof.
  intros n d D v r. unfold r, v. unfold round_q. destruct (Z.eqb_spec n 0) as [->|N].
  { replace (0 / IZR d) with 0 by (unfold Rdiv; ring). rewrite dyv_dz. rewrite Rminus_0_r, Rabs_R0. split; [|split]; lra. }
  pose proof (q_exp_ok n d N D) as HE. set (E := q_exp n d) in *.
  destruct (rz_at_ok RNear n d (E - 53) D) as [[K _] Q]. set (t := rz_at RNear n d (E - 53)) in *.
  unfold dyv. rewrite Q. split; [|split].
  - apply Rle_trans with (1 := scaled _ _ _ K). replace (E - 53 - 1)%Z with (-53 + (E - 1))%Z by lia. rewrite pw2_add.
    pose proof (pw2_pos (-53)). nra.
  - intros H. apply Rmult_le_pos; [|left; apply pw2_pos]. apply IZR_le. apply Z.nlt_ge. intros W. assert (W' : IZR (fst t) <= -1) by (apply IZR_le; lia).
    assert (0 <= IZR n / IZR d / pw2 (E - 53)) by (apply Rmult_le_pos; [exact H|left; apply Rinv_0_lt_compat, pw2_pos]).
    rewrite Rabs_pos_eq in K by lra. lra.
  - intros H. assert (G : IZR (fst t) <= 0).
    { apply IZR_le. apply Z.nlt_ge. intros W. assert (W' : 1 <= IZR (fst t)) by (apply IZR_le; lia).
      assert (0 <= - (IZR n / IZR d) * / pw2 (E - 53)) by (apply Rmult_le_pos; [lra|left; apply Rinv_0_lt_compat, pw2_pos]).
      rewrite Rabs_left in K by (unfold Rdiv in *; lra). unfold Rdiv in *. lra. }
    pose proof (pw2_pos (E - 53)). nra.
Qed.

(** * The double of an element *)
Definition close_to (v : R) (d : dbl) : Prop :=
  match d with
  | DInf false => MAX < v
  | DInf true => v < - MAX
  | DF x => is_double (dyv x) /\ Rabs (dyv x - v) <= pw2 (-51) * Rabs v + pw2 (-1075) /\ (0 <= v -> 0 <= dyv x) /\ (v <= 0 -> dyv x <= 0)
  end.
Lemma round_close : forall v d, is_round RNear v d -> close_to v d.
Proof.
  intros v [x|[|]] H; cbn [close_to is_round] in *.
  - split; [apply H|]. split; [|apply near_sign, H]. pose proof (near_error v x H) as B. rewrite Rabs_minus_sym.
    assert (pw2 (-53) <= pw2 (-51)) by (apply pw2_le; lia). pose proof (Rabs_pos v). nra.
  - cbn in H. pose proof MAX_LIM. lra.
  - cbn in H. pose proof MAX_LIM. lra.
Qed.
Lemma fraction_close : forall n d, (0 < d)%Z -> close_to (IZR n / IZR d) (arf_get_d RNear (round_q RNear n d 53)).
Proof.
  intros n d D. set (v := IZR n / IZR d).
  destruct (Rle_or_lt (pw2 (-1022)) (Rabs v)) as [L|L]; [apply round_close, get_q_ok; [exact D|intros; exact L]|].
  destruct (round_q_error n d D) as (Er & S1 & S2). fold v in Er, S1, S2. set (r := round_q RNear n d 53) in *.
  pose proof (arf_get_d_ok RNear r) as A. cbn [is_round] in A.
  assert (P53 : pw2 (-53) <= / 1024). { apply Rle_trans with (pw2 (-10)); [apply pw2_le; lia|]. change (-10)%Z with (- (10))%Z. rewrite pw2_neg by lia. cbn. lra. }
  assert (P22 : pw2 (-1022) <= 1) by (rewrite <- pw2_0; apply pw2_le; lia).
  pose proof (pw2_pos (-53)) as Q1. pose proof (pw2_pos (-1075)) as Q2. pose proof (Rabs_pos v) as Q3.
  assert (R2 : Rabs (dyv r) <= 2 * Rabs v).
  { replace (dyv r) with (v - (v - dyv r)) by ring. eapply Rle_trans; [apply Rabs_triang|]. rewrite Rabs_Ropp. nra. }
  assert (ML : 2 < LIM).
  { pose proof MAX_LIM as [M _]. pose proof MAX_lt as [M' _]. assert (2 <= pw2 1023) by (rewrite <- pw2_1; apply pw2_le; lia). lra. }
  destruct (arf_get_d RNear r) as [x|[|]]; cbn [close_to].
  - split; [apply A|]. destruct (near_sign _ _ A) as [T1 T2]. split; [|split; auto].
    pose proof (near_error _ _ A) as B. rewrite Rabs_minus_sym.
    replace (v - dyv x) with (v - dyv r + (dyv r - dyv x)) by ring. eapply Rle_trans; [apply Rabs_triang|].
    assert (F : pw2 (-51) = 4 * pw2 (-53)). { replace (-51)%Z with (2 + -53)%Z by lia. rewrite pw2_add. replace (pw2 2) with 4 by (change 2%Z with (1 + 1)%Z; rewrite pw2_add, pw2_1; lra). reflexivity. }
    rewrite F. nra.
  - cbn in A. unfold Rabs in *. repeat destruct (Rcase_abs _); lra.
  - cbn in A. unfold Rabs in *. repeat destruct (Rcase_abs _); lra.
Qed.

Section Texts.
Variables (o : arbops) (n : nfops) (debug : bool) (pol : list Z) (x : R) (N : ball -> Prop).
Hypothesis HS : setting o n pol x N.
Variables (pr : elem -> str) (show8 : dy -> str) (show : ball -> Z -> str).
Hypothesis Hpr : forall e, cstr (pr e).
Hypothesis H8 : show8_ok show8.

Lemma get_d_close : forall fuel nf y nf' y' d, field_ok pol x N nf -> elem_ok pol x y -> get_d o n debug fuel nf y RNear = Val (nf', y', d) ->
  field_ok pol x N nf' /\ elem_ok pol x y' /\ r_elem y' = r_elem y /\ close_to (ev x (r_elem y)) d.
Proof.
  intros fuel nf y nf' y' d G Gy E. destruct HS as [Ho Hm Hn HN].
  destruct (get_d_ok o n debug pol x (on_ball N) Ho Hm Hn (safe_keeps o debug pol x N Ho Hm HN) _ _ _ _ _ _ _ G Gy E) as (A & _ & C & D & F).
  split; [exact A|]. split; [exact C|]. split; [exact D|]. destruct F as [[Re ->]|[_ F]].
  - rewrite (rational_val x _ Re). apply fraction_close, (can_den _ _ (proj1 Gy)).
  - destruct F as [[F ->]|[[F ->]|[_ F]]]; [exact F|exact F|apply round_close, F].
Qed.

Lemma close_text : forall v d, close_to v d -> cstr (double_is (double_part show8 d)) /\ approximates v (double_is (double_part show8 d)).
Proof.
  intros v [t|[|]] C; cbn [close_to double_part double_is] in *.
  - destruct C as (D & C & S1 & S2). destruct (H8 t D) as (T & q & E & B). split; [exact T|]. right. right. exists q. split; [exact E|].
    assert (P51 : pw2 (-51) <= / 10 ^ 10). { apply Rle_trans with (pw2 (-40)); [apply pw2_le; lia|]. change (-40)%Z with (- (40))%Z. rewrite pw2_neg by lia. cbn. lra. }
    assert (P75 : pw2 (-1073) = 4 * pw2 (-1075)). { replace (-1073)%Z with (2 + -1075)%Z by lia. rewrite pw2_add. replace (pw2 2) with 4 by (change 2%Z with (1 + 1)%Z; rewrite pw2_add, pw2_1; lra). reflexivity. }
    pose proof (pw2_pos (-51)) as Q1. pose proof (pw2_pos (-1075)) as Q2. pose proof (Rabs_pos v) as Q3. split; [|split].
    + replace (dec10 q - v) with (dec10 q - dyv t + (dyv t - v)) by ring. eapply Rle_trans; [apply Rabs_triang|].
      assert (B2 : Rabs (dyv t) <= Rabs v + (pw2 (-51) * Rabs v + pw2 (-1075))).
      { replace (dyv t) with (v + (dyv t - v)) by ring. eapply Rle_trans; [apply Rabs_triang|]. lra. }
      assert (B3 : pw2 (-51) * Rabs v <= / 10 ^ 10 * Rabs v) by (apply Rmult_le_compat_r; lra).
      rewrite P75. lra.
    + intros H. specialize (S1 H). rewrite (Rabs_pos_eq (dyv t)) in B by exact S1. apply Rabs_le_inv in B. lra.
    + intros H. specialize (S2 H). rewrite (Rabs_left1 (dyv t)) in B by exact S2. apply Rabs_le_inv in B. lra.
  - split; [lit_cstr|]. right. left. split; [reflexivity|exact C].
  - split; [lit_cstr|]. left. split; [reflexivity|exact C].
Qed.

Lemma text_at_ok : forall s, cstr s -> text_at (map Some (s ++ [nul])) = Val s.
Proof.
  induction s as [|c s IH]; intros H; [reflexivity|]. cbn [map List.app text_at].
  destruct (Ascii.eqb_spec c nul) as [->|_]; [contradiction H; left; reflexivity|]. rewrite IH; [reflexivity|intros W; apply H; right; exact W].
Qed.
Lemma block_text : forall s d b alg dbl arb, cstr s -> cstr (double_is d) -> cstr b ->
  exists t, written s (double_is d) b alg dbl arb t /\ bind (elem_get_str s d b alg dbl arb) text_at = Val t.
Proof.
  intros s d b alg dbl arb Hs Hd Hb. destruct (elem_get_str_holds s d b alg dbl arb Hs Hd Hb) as (t & blk & W & E & T). exists t. split; [exact W|].
  rewrite E. cbn [bind]. rewrite T. apply text_at_ok. destruct W; try assumption; try (intros []); repeat apply cstr_app; try assumption; lit_cstr.
Qed.

Lemma to_text_double : forall fuel nf y alg arb nf' y' s, field_ok pol x N nf -> elem_ok pol x y ->
  to_text o n debug pr show8 show fuel nf y alg true arb = Val (nf', y', s) ->
  field_ok pol x N nf' /\ elem_ok pol x y' /\ r_elem y' = r_elem y /\
  exists t, approximates (ev x (r_elem y)) t /\ string_form (pr (r_elem y)) t [] alg true arb s.
Proof.
  intros fuel nf y alg arb nf' y' s G Gy E. unfold to_text in E. destruct (debug && true && arb); [discriminate E|]. unfold elem_text in E.
  destruct (get_d o n debug fuel nf y RNear) as [[[nf1 y1] d]| | |] eqn:Ed; try discriminate E. cbn [bind] in E.
  destruct (get_d_close _ _ _ _ _ _ G Gy Ed) as (A1 & A2 & A3 & C). destruct (close_text _ _ C) as [T1 T2].
  destruct (block_text (pr (r_elem y)) (double_part show8 d) [] alg true arb (Hpr _) T1 ltac:(intros [])) as (t & W & B).
  destruct (elem_get_str (pr (r_elem y)) (double_part show8 d) [] alg true arb) as [blk| | |]; try discriminate B. cbn [bind] in *. rewrite B in E. cbn [bind] in E.
  injection E as <- <- <-. split; [exact A1|]. split; [exact A2|]. split; [exact A3|]. exists (double_is (double_part show8 d)). split; [exact T2|].
  destruct alg, arb; cbn [andb negb orb]; try (apply (sf_many _ _ _ _ _ _ t); [exact W|discriminate|discriminate|discriminate]).
  apply sf_d. exact W.
Qed.

Lemma to_text_alg : forall fuel nf y, to_text o n debug pr show8 show fuel nf y true false false = 
  bind (bind (elem_get_str (pr (r_elem y)) PlusInf (show (r_emb y) 10) true false false) text_at) (fun s => Val (nf, y, s)).
Proof.
  intros fuel nf y. unfold to_text, elem_text. rewrite !andb_false_r. cbn [orb andb negb].
  destruct (elem_get_str _ _ _ _ _ _) as [t| | |]; try reflexivity. cbn [bind]. destruct (text_at t); reflexivity.
Qed.

Lemma put_text : (forall b k, cstr (show b k)) -> forall fuel nf y nf' y' s, field_ok pol x N nf -> elem_ok pol x y ->
  put o n debug pr show8 show fuel nf y = Val (nf', y', s) ->
  field_ok pol x N nf' /\ elem_ok pol x y' /\ r_elem y' = r_elem y /\
  ((exists z, ev x (r_elem y) = IZR z) /\ s = pr (r_elem y) \/
   ~ (exists z, ev x (r_elem y) = IZR z) /\ exists t, approximates (ev x (r_elem y)) t /\
     s = list_ascii_of_string "(" ++ pr (r_elem y) ++ list_ascii_of_string " ~ " ++ t ++ list_ascii_of_string ")").
Proof.
  intros Hs fuel nf y nf' y' s G Gy E. destruct HS as [Ho Hm Hn HN]. pose proof (is_integer_spec pol x Hm (r_elem y) (proj1 Gy)) as I. unfold put in E.
  destruct (is_integer (r_elem y)).
  - rewrite to_text_alg in E.
    destruct (block_text (pr (r_elem y)) PlusInf (show (r_emb y) 10) true false false (Hpr _) ltac:(lit_cstr) (Hs _ _)) as (t & W & B).
    cbn [double_is] in *. rewrite B in E. cbn [bind] in E. injection E as <- <- <-. split; [exact G|]. split; [exact Gy|]. split; [reflexivity|]. left. split; [apply I; reflexivity|].
    inversion W. reflexivity.
  - destruct (to_text_double _ _ _ _ _ _ _ _ G Gy E) as (A1 & A2 & A3 & t & T & F). split; [exact A1|]. split; [exact A2|]. split; [exact A3|]. right.
    split; [intros Z; apply I in Z; discriminate Z|]. exists t. split; [exact T|]. inversion F as [| | |? ? ? s0 W _ _ _]; subst. inversion W; subst. rewrite <- !app_assoc. reflexivity.
Qed.

(** The enclosure is printed as it is. *)
Lemma to_text_ball : show_ok show -> (forall b k, cstr (show b k)) -> forall fuel nf y alg, elem_ok pol x y -> is_finite (r_emb y) = true ->
  exists t s, to_text o n debug pr show8 show fuel nf y alg false true = Val (nf, y, s) /\
    contains (ev x (r_elem y)) t /\ string_form (pr (r_elem y)) [] t alg false true s.
Proof.
  intros Sh Hs fuel nf y alg [_ Hy] Hf. destruct (Sh (r_emb y) 10%Z ltac:(lia) Hf (ex_intro (fun z => inb z (r_emb y)) _ Hy)) as (q & E1 & E2 & _).
  exists (show (r_emb y) 10%Z). unfold to_text, elem_text. rewrite !andb_false_r. cbn [andb orb].
  destruct (block_text (pr (r_elem y)) PlusInf (show (r_emb y) 10%Z) alg false true (Hpr _) ltac:(lit_cstr) (Hs _ _)) as (t & W & B).
  assert (W' : written (pr (r_elem y)) [] (show (r_emb y) 10%Z) alg false true t) by (inversion W; constructor).
  destruct (elem_get_str _ _ _ _ _ _) as [blk| | |]; try discriminate B. cbn [bind] in *. rewrite B. cbn [bind]. eexists. split; [reflexivity|].
  split; [exists q; split; [exact E1|apply E2, Hy]|]. destruct alg; cbn [negb andb orb].
  - apply (sf_many _ _ _ _ _ _ t); [exact W'|discriminate|discriminate|discriminate].
  - apply sf_arb. exact W'.
Qed.
Lemma elem_text_digits : show_ok show -> (forall b k, cstr (show b k)) -> forall fuel nf y k alg, elem_ok pol x y -> is_finite (r_emb y) = true -> (1 <= k)%Z ->
  exists t s, elem_text o n debug pr show8 show fuel nf y k alg false true = Val (nf, y, s) /\
    contains (ev x (r_elem y)) t /\ at_most k t /\ written (pr (r_elem y)) [] t alg false true s.
Proof.
  intros Sh Hs fuel nf y k alg [_ Hy] Hf Hk. destruct (Sh (r_emb y) k Hk Hf (ex_intro (fun z => inb z (r_emb y)) _ Hy)) as (q & E1 & E2 & E3).
  exists (show (r_emb y) k). unfold elem_text.
  destruct (block_text (pr (r_elem y)) PlusInf (show (r_emb y) k) alg false true (Hpr _) ltac:(lit_cstr) (Hs _ _)) as (t & W & B).
  assert (W' : written (pr (r_elem y)) [] (show (r_emb y) k) alg false true t) by (inversion W; constructor).
  destruct (elem_get_str _ _ _ _ _ _) as [blk| | |]; try discriminate B. cbn [bind] in *. rewrite B. cbn [bind]. eexists. split; [reflexivity|].
  split; [exists q; split; [exact E1|apply E2, Hy]|]. split; [exists q; split; [exact E1|exact E3]|exact W'].
Qed.
End Texts.
