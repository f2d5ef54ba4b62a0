(** Rounding of doubles and the texts of intervals. *)
Require Import Reals List ZArith Bool Lia Lra Ascii.
From Verif Require Import PolyR RootSpec VcaProofs Dyadic DyadicProofs ArbModel ArbSpec ElemModel StrModel StrSpec StrMore CxxModel MakeModel MakeSpec MakeText PyModel PySpec.
Import ListNotations.
Open Scope R_scope.

Lemma nearest_even_ok : forall a b, (0 < b)%Z -> Rabs (IZR (nearest_even a b) * IZR b - IZR a) <= IZR b / 2.
Proof.
  intros a b B. unfold nearest_even. pose proof (Z.div_mod a b ltac:(lia)) as E. pose proof (Z.mod_pos_bound a b B) as M.
  set (q := (a / b)%Z) in *. set (r := (a mod b)%Z) in *.
  assert (K : forall m, (2 * Z.abs (m * b - a) <= b)%Z -> Rabs (IZR m * IZR b - IZR a) <= IZR b / 2).
  { intros m H. rewrite <- mult_IZR, <- minus_IZR, <- abs_IZR. apply IZR_le in H. rewrite mult_IZR in H. lra. }
  apply K. destruct (Z.ltb_spec (2 * r) b); [|destruct (Z.ltb_spec b (2 * r)); [|destruct (Z.even q)]]; nia.
Qed.

Lemma scaled_error : forall m a b, 0 < b -> Rabs (m * b - a) <= b / 2 -> pw2 52 * b <= a -> Rabs (m - a / b) <= pw2 (-53) * (a / b).
Proof.
  intros m a b B H G. assert (E : m - a / b = (m * b - a) / b) by (field; lra). rewrite E. unfold Rdiv at 1. rewrite Rabs_mult, (Rabs_pos_eq (/ b)) by (left; apply Rinv_0_lt_compat, B).
  unfold Rdiv. rewrite <- Rmult_assoc. apply Rmult_le_compat_r; [left; apply Rinv_0_lt_compat, B|].
  assert (P : pw2 (-53) * pw2 52 = 1 / 2) by (rewrite <- pw2_add; replace (-53 + 52)%Z with (-1)%Z by lia; unfold pw2; simpl; lra).
  pose proof (pw2_pos (-53)). pose proof (Rmult_le_compat_l (pw2 (-53)) _ _ ltac:(lra) G) as Q. rewrite <- Rmult_assoc, P in Q. lra.
Qed.

Lemma log2_quot : forall n d k, (0 < n)%Z -> (0 < d)%Z -> k = (Z.log2 n - Z.log2 d - 53)%Z ->
  let a := (if 0 <=? k then n else n * 2 ^ (- k))%Z in let b := (if 0 <=? k then d * 2 ^ k else d)%Z in
  (0 < b)%Z /\ (2 ^ 52 * b <= a < 2 ^ 54 * b)%Z /\ IZR a / IZR b * pw2 k = IZR n / IZR d.
Proof.
  intros n d k N D K a b. destruct (Z.log2_spec n N) as [N1 N2]. destruct (Z.log2_spec d D) as [D1 D2]. unfold Z.succ in *.
  pose proof (Z.log2_nonneg n). pose proof (Z.log2_nonneg d). set (ln := Z.log2 n) in *. set (ld := Z.log2 d) in *.
  assert (Dn : IZR d <> 0) by (apply not_0_IZR; lia).
  subst a b. destruct (Z.leb_spec 0 k) as [H1|H1].
  - assert (P : (0 < 2 ^ k)%Z) by (apply Z.pow_pos_nonneg; lia). split; [nia|]. split.
    + assert (E1 : (2 ^ ln = 2 ^ 52 * (2 ^ (ld + 1) * 2 ^ k))%Z) by (rewrite <- !Z.pow_add_r by lia; f_equal; lia).
      assert (E2 : (2 ^ (ln + 1) = 2 ^ 54 * (2 ^ ld * 2 ^ k))%Z) by (rewrite <- !Z.pow_add_r by lia; f_equal; lia).
      nia.
    + rewrite mult_IZR, pw2_IZR by lia. pose proof (pw2_pos k). field. split; (lra || exact Dn).
  - assert (P : (0 < 2 ^ (- k))%Z) by (apply Z.pow_pos_nonneg; lia). split; [lia|]. split.
    + assert (E1 : (2 ^ ln * 2 ^ (- k) = 2 ^ 52 * 2 ^ (ld + 1))%Z) by (rewrite <- !Z.pow_add_r by lia; f_equal; lia).
      assert (E2 : (2 ^ (ln + 1) * 2 ^ (- k) = 2 ^ 54 * 2 ^ ld)%Z) by (rewrite <- !Z.pow_add_r by lia; f_equal; lia).
      nia.
    + rewrite mult_IZR, pw2_IZR by lia. assert (J : pw2 (- k) * pw2 k = 1) by (rewrite <- pw2_add; replace (- k + k)%Z with 0%Z by lia; reflexivity).
      replace (IZR n * pw2 (- k) / IZR d * pw2 k) with (IZR n / IZR d * (pw2 (- k) * pw2 k)) by (field; exact Dn). rewrite J. ring.
Qed.

Lemma fl_pos : forall n d, (0 < n)%Z -> (0 < d)%Z -> Rabs (dyv (fl n d) - IZR n / IZR d) <= pw2 (-53) * (IZR n / IZR d).
Proof.
  intros n d N D. unfold fl. destruct (Z.eqb_spec n 0) as [|_]; [lia|]. rewrite (Z.abs_eq n), (Z.sgn_pos n) by lia.
  set (k := (Z.log2 n - Z.log2 d - 53)%Z). pose proof (log2_quot n d k N D eq_refl) as (B & AB & V).
  set (a := (if 0 <=? k then n else n * 2 ^ (- k))%Z) in *. set (b := (if 0 <=? k then d * 2 ^ k else d)%Z) in *.
  pose proof (pw2_pos k) as Pk. apply IZR_lt in B as B'.
  assert (K : forall m k' b', (0 < b')%Z -> (2 ^ 52 * b' <= a)%Z -> Rabs (IZR m * IZR b' - IZR a) <= IZR b' / 2 -> IZR a / IZR b' * pw2 k' = IZR n / IZR d ->
            Rabs (dyv (1 * m, k')%Z - IZR n / IZR d) <= pw2 (-53) * (IZR n / IZR d)).
  { intros m k' b' B1 G H E. apply IZR_lt in B1. unfold dyv. cbn [fst snd]. rewrite Z.mul_1_l, <- E.
    rewrite <- Rmult_minus_distr_r, Rabs_mult, (Rabs_pos_eq (pw2 k')) by (left; apply pw2_pos). rewrite <- Rmult_assoc.
    apply Rmult_le_compat_r; [left; apply pw2_pos|]. apply scaled_error; [exact B1|exact H|].
    apply IZR_le in G. rewrite mult_IZR in G. rewrite (pw2_IZR 52) in G by lia. exact G. }
  destruct (Z.ltb_spec a (2 ^ 53 * b)) as [H|H].
  - apply (K _ k b); [exact B|lia|apply nearest_even_ok, B|exact V].
  - apply (K _ (k + 1)%Z (2 * b)%Z); [lia|lia|apply nearest_even_ok; lia|].
    rewrite pw2_add, mult_IZR, <- V. replace (pw2 1) with 2 by (unfold pw2; simpl; lra). field. lra.
Qed.

Lemma fl_opp : forall n d, fl (- n) d = dneg (fl n d).
Proof.
  intros n d. unfold fl. destruct (Z.eqb_spec n 0) as [->|H]; [reflexivity|]. destruct (Z.eqb_spec (- n) 0); [lia|].
  rewrite Z.abs_opp, Z.sgn_opp. cbv zeta. set (t := if (0 <=? _)%Z then Z.abs n else _). destruct (t <? _)%Z; unfold dneg; cbn [fst snd]; f_equal; ring.
Qed.
Lemma dyv_dneg : forall d, dyv (dneg d) = - dyv d.
Proof. intros [m e]. unfold dyv, dneg. cbn [fst snd]. rewrite opp_IZR. ring. Qed.

Lemma fl_ok : forall n d, (0 < d)%Z -> Rabs (dyv (fl n d) - IZR n / IZR d) <= pw2 (-53) * Rabs (IZR n / IZR d).
Proof.
  intros n d D. assert (Dn : 0 < IZR d) by (apply IZR_lt in D; exact D). destruct (Z.lt_trichotomy n 0) as [H|[->|H]].
  - assert (P : (0 < - n)%Z) by lia. pose proof (fl_pos (- n) d P D) as K. rewrite fl_opp, dyv_dneg, opp_IZR in K.
    replace (- IZR n / IZR d) with (- (IZR n / IZR d)) in K by (field; lra).
    replace (- dyv (fl n d) - - (IZR n / IZR d)) with (- (dyv (fl n d) - IZR n / IZR d)) in K by ring. rewrite Rabs_Ropp in K.
    assert (Q : IZR n / IZR d < 0) by (apply IZR_lt in H; unfold Rdiv; pose proof (Rinv_0_lt_compat _ Dn); nra).
    rewrite (Rabs_left (IZR n / IZR d)) by exact Q. exact K.
  - unfold fl, dyv. cbn [Z.eqb fst snd]. unfold Rdiv. rewrite !Rmult_0_l, Rminus_0_r, Rabs_R0. lra.
  - assert (Q : 0 < IZR n / IZR d) by (apply Rdiv_lt_0_compat; [apply IZR_lt in H; exact H|exact Dn]). rewrite (Rabs_pos_eq (IZR n / IZR d)) by lra. apply fl_pos; assumption.
Qed.
Lemma nearest_even_nonneg : forall a b, (0 <= a)%Z -> (0 < b)%Z -> (0 <= nearest_even a b)%Z.
Proof. intros a b A B. unfold nearest_even. pose proof (Z.div_pos a b A B). destruct (_ <? _)%Z; [lia|]. destruct (_ <? _)%Z; [lia|]. destruct (Z.even _); lia. Qed.
Lemma fl_nonneg : forall n d, (0 <= n)%Z -> (0 < d)%Z -> (0 <= fst (fl n d))%Z.
Proof.
  intros n d N D. unfold fl. destruct (Z.eqb_spec n 0); [cbn; lia|]. rewrite (Z.abs_eq n), (Z.sgn_pos n) by lia. cbv zeta.
  set (k := (Z.log2 n - Z.log2 d - 53)%Z). pose proof (log2_quot n d k ltac:(lia) D eq_refl) as (B & _ & _).
  assert (A : (0 <= if 0 <=? k then n else n * 2 ^ (- k))%Z) by (destruct (0 <=? k)%Z; [lia|pose proof (Z.pow_nonneg 2 (- k)); nia]).
  destruct (_ <? _)%Z; cbn [fst]; rewrite Z.mul_1_l; apply nearest_even_nonneg; lia.
Qed.

Lemma fdiv_ok : forall x y, (0 < fst y)%Z -> Rabs (dyv (fdiv x y) - dyv x / dyv y) <= pw2 (-53) * Rabs (dyv x / dyv y).
Proof.
  intros [a e] [b f] B. cbn [fst] in B. unfold fdiv. cbn [fst snd]. pose proof (fl_ok a b B) as K. destruct (fl a b) as [m k].
  assert (Bn : 0 < IZR b) by (apply IZR_lt in B; exact B).
  assert (E1 : dyv (m, k + e - f)%Z = dyv (m, k) * pw2 (e - f)) by (unfold dyv; cbn [fst snd]; replace (k + e - f)%Z with (k + (e - f))%Z by lia; rewrite pw2_add; ring).
  assert (E2 : dyv (a, e) / dyv (b, f) = IZR a / IZR b * pw2 (e - f)).
  { unfold dyv. cbn [fst snd]. replace e with (e - f + f)%Z at 1 by lia. rewrite pw2_add. pose proof (pw2_pos f). field. split; lra. }
  rewrite E1, E2, <- Rmult_minus_distr_r, !Rabs_mult, (Rabs_pos_eq (pw2 (e - f))) by (left; apply pw2_pos). rewrite <- Rmult_assoc.
  apply Rmult_le_compat_r; [left; apply pw2_pos|exact K].
Qed.
Lemma fdiv_nonneg : forall x y, (0 <= fst x)%Z -> (0 < fst y)%Z -> (0 <= fst (fdiv x y))%Z.
Proof. intros [a e] [b f] A B. unfold fdiv. cbn [fst snd] in *. pose proof (fl_nonneg a b A B). destruct (fl a b). exact H. Qed.

(** ** Relative errors *)
Definition near (e a b : R) : Prop := Rabs (a - b) <= e * Rabs b.

Lemma near_trans : forall e f a b c, 0 <= e <= 1 -> 0 <= f <= 1 -> near e a b -> near f b c -> near (2 * e + f) a c.
Proof.
  unfold near. intros e f a b c He Hf H1 H2. replace (a - c) with ((a - b) + (b - c)) by ring. eapply Rle_trans; [apply Rabs_triang|].
  assert (B : Rabs b <= 2 * Rabs c).
  { replace b with ((b - c) + c) by ring. eapply Rle_trans; [apply Rabs_triang|]. pose proof (Rabs_pos c). nra. }
  pose proof (Rabs_pos c). nra.
Qed.
Lemma near_div : forall e f a b c d, 0 <= e <= 1 -> 0 <= f <= / 2 -> 0 < d -> near e a b -> near f c d -> near (2 * e + 2 * f) (a / c) (b / d).
Proof.
  unfold near. intros e f a b c d He Hf D H1 H2. rewrite (Rabs_pos_eq d) in H2 by lra. assert (C : d / 2 <= c) by (pose proof (Rabs_def2 (c - d) (f * d + d * / 1000)) as K; unfold Rabs in H2; destruct (Rcase_abs _) in H2; nra).
  assert (E : a / c - b / d = ((a - b) * d - b * (c - d)) / (c * d)) by (field; lra). rewrite E. unfold Rdiv at 1.
  rewrite Rabs_mult, (Rabs_pos_eq (/ (c * d))) by (left; apply Rinv_0_lt_compat; nra).
  assert (N : Rabs ((a - b) * d - b * (c - d)) <= (e + f) * Rabs b * d).
  { unfold Rminus at 1. eapply Rle_trans; [apply Rabs_triang|]. rewrite Rabs_Ropp, !Rabs_mult, (Rabs_pos_eq d) by lra. pose proof (Rabs_pos b). nra. }
  apply Rle_trans with ((e + f) * Rabs b * d * / (c * d)); [apply Rmult_le_compat_r; [left; apply Rinv_0_lt_compat; nra|exact N]|].
  replace ((e + f) * Rabs b * d * / (c * d)) with ((e + f) * Rabs b * / c) by (field; lra).
  replace (Rabs (b / d)) with (Rabs b * / d) by (unfold Rdiv; rewrite Rabs_mult, (Rabs_pos_eq (/ d)); [reflexivity|left; apply Rinv_0_lt_compat; lra]).
  assert (I : / c <= 2 * / d).
  { replace (2 * / d) with (/ (d / 2)) by (field; lra). apply Rinv_le_contravar; lra. }
  assert (Q : 0 <= (e + f) * Rabs b) by (apply Rmult_le_pos; [lra|apply Rabs_pos]). replace ((2 * e + 2 * f) * (Rabs b * / d)) with ((e + f) * Rabs b * (2 * / d)) by ring. apply Rmult_le_compat_l; assumption.
Qed.

Section Interval.
Variable pow10 : Z -> dy.
Variable show : dy -> str.
Hypothesis Hpow : pow10_ok pow10.
Hypothesis Hshow : show_float_ok show.

Let e := pw2 (-53).
Lemma eps : 0 < e <= / 1000 /\ pw2 (-52) = 2 * e /\ e * pw2 53 = 1.
Proof.
  unfold e. split; [|split].
  - split; [apply pw2_pos|]. apply Rle_trans with (pw2 (-10)); [apply pw2_le; lia|]. unfold pw2. simpl. lra.
  - replace (-52)%Z with (1 + -53)%Z by lia. rewrite pw2_add, pw2_1. reflexivity.
  - exact (pw2_inv 53).
Qed.

Lemma shown_quotient : forall s a p d, near e (dyv a) s -> d = fdiv a (pow10 p) -> exists q, ~ In cblank (show d) /\ signed10 (show d) = Some q /\
  (0 <= fst d -> unsigned10 (show d) = Some q)%Z /\ near (20 * e) (dec10 q) (s / powerRZ 10 p).
Proof.
  intros s a p d Ha Hd. destruct eps as (E & E2 & _). destruct (Hpow p) as [P1 P2]. destruct (Hshow d) as (B & q & Q1 & Q2 & Q3). exists q. repeat split; try assumption.
  assert (N1 : near (2 * e + 2 * (2 * e)) (dyv a / dyv (pow10 p)) (s / powerRZ 10 p)).
  { apply near_div; try lra; [apply powerRZ_lt; lra|exact Ha|]. unfold near. rewrite (Rabs_pos_eq (powerRZ 10 p)) by (left; apply powerRZ_lt; lra). rewrite <- E2. exact P2. }
  assert (N2 : near e (dyv d) (dyv a / dyv (pow10 p))) by (rewrite Hd; apply fdiv_ok, P1).
  assert (N3 : near (2 * e + 6 * e) (dyv d) (s / powerRZ 10 p)).
  { replace (6 * e) with (2 * e + 2 * (2 * e)) by ring. eapply near_trans; [lra|lra|exact N2|exact N1]. }
  assert (N4 : near (2 * e + (2 * e + 6 * e)) (dec10 q) (s / powerRZ 10 p)) by (eapply near_trans; [lra|lra|exact Q3|exact N3]).
  unfold near in *. pose proof (Rabs_pos (s / powerRZ 10 p)). nra.
Qed.

Lemma interval_encloses : forall l u p x, (l <= u)%Z -> (Z.abs (l + u) <= 2 ^ 51 * (u - l))%Z -> IZR l * powerRZ 10 (- p) <= x <= IZR u * powerRZ 10 (- p) ->
  exists q, ball_text (interval_text pow10 show l u p) = Some q /\ in_text x q.
Proof.
  intros l u p x L W X. destruct eps as (E & E2 & E3). unfold interval_text.
  set (c := fdiv (d2exp (fl (l + u) 1) (-1)) (pow10 p)). set (r := fdiv (fl (u - l) 1) (pow10 (p - 1))).
  assert (F : forall z, near e (dyv (fl z 1)) (IZR z)).
  { intros z. pose proof (fl_ok z 1 ltac:(lia)) as K. replace (IZR z / IZR 1) with (IZR z) in K by field. exact K. }
  destruct (shown_quotient (IZR (l + u) / 2) (d2exp (fl (l + u) 1) (-1)) p c) as (qc & B1 & C1 & _ & C2); [|reflexivity|].
  { unfold near. rewrite dyv_2exp. replace (pw2 (-1)) with (/ 2) by (unfold pw2; simpl; lra). specialize (F (l + u)%Z). unfold near in F.
    replace (dyv (fl (l + u) 1) * / 2 - IZR (l + u) / 2) with ((dyv (fl (l + u) 1) - IZR (l + u)) * / 2) by lra. unfold Rdiv. rewrite !Rabs_mult, (Rabs_pos_eq (/ 2)) by lra. lra. }
  destruct (shown_quotient (IZR (u - l)) (fl (u - l) 1) (p - 1) r (F _) eq_refl) as (qr & B2 & _ & R1 & R2).
  assert (R0 : (0 <= fst r)%Z) by (apply fdiv_nonneg; [apply fl_nonneg; lia|apply Hpow]).
  specialize (R1 R0). exists (qc, qr). split.
  - unfold ball_text. cbn [Ascii.eqb Bool.eqb]. change ([cblank; "+"%char; "/"%char; "-"%char; cblank]) with pm. rewrite !app_assoc, rev_app_distr. cbn [rev app Ascii.eqb Bool.eqb].
    rewrite rev_involutive. unfold plain_ball. rewrite <- app_assoc, cut_pm_app by exact B1. rewrite C1, R1. reflexivity.
  - unfold in_text. cbn [fst snd]. set (t := powerRZ 10 (- p)) in *. assert (T : 0 < t) by (apply ten_pos).
    assert (T1 : forall a, a / powerRZ 10 p = a * t).
    { intros a. unfold Rdiv, t. f_equal. pose proof (ten_inv p). pose proof (ten_pos p). apply (Rmult_eq_reg_r (powerRZ 10 p)); [|lra]. rewrite Rinv_l by lra. lra. }
    assert (T2 : forall a, a / powerRZ 10 (p - 1) = 10 * a * t).
    { intros a. replace (p - 1)%Z with (p + -1)%Z by lia. rewrite ten_add. replace (powerRZ 10 (-1)) with (/ 10) by (simpl; lra). rewrite <- (T1 (10 * a)). pose proof (ten_pos p). field. lra. }
    unfold near in C2, R2. rewrite T1 in C2. rewrite T2 in R2. apply IZR_le in L. apply IZR_le in W.
    rewrite abs_IZR, mult_IZR, minus_IZR in W. rewrite (pw2_IZR 51) in W by lia. rewrite minus_IZR in R2. rewrite (Rabs_pos_eq (10 * (IZR u - IZR l) * t)) in R2 by nra.
    set (w := (IZR u - IZR l) * t) in *. assert (W0 : 0 <= w) by (unfold w; nra).
    assert (V1 : Rabs (IZR (l + u) / 2 * t) * e <= / 8 * w).
    { unfold Rdiv. rewrite !Rabs_mult, (Rabs_pos_eq (/ 2)), (Rabs_pos_eq t) by lra.
      assert (E4 : e * pw2 51 = / 4).
      { assert (Q : pw2 53 = 4 * pw2 51) by (replace 53%Z with (2 + 51)%Z by lia; rewrite pw2_add; f_equal; unfold pw2; simpl; lra). rewrite Q in E3. lra. }
      apply Rmult_le_compat_l with (r := e) in W; [|lra]. rewrite <- Rmult_assoc, E4 in W. unfold w. apply Rmult_le_compat_r with (r := t) in W; [|lra]. lra. }
    assert (V2 : Rabs (x - IZR (l + u) / 2 * t) <= w / 2).
    { rewrite plus_IZR. unfold w. apply Rabs_le. lra. }
    replace (x - dec10 qc) with ((x - IZR (l + u) / 2 * t) + - (dec10 qc - IZR (l + u) / 2 * t)) by ring. eapply Rle_trans; [apply Rabs_triang|]. rewrite Rabs_Ropp.
    replace (10 * (IZR u - IZR l) * t) with (10 * w) in R2 by (unfold w; ring).
    assert (V3 : 20 * e * (10 * w) <= w) by nra. pose proof (Rabs_def2 (dec10 qr - 10 * w) (2 * w + 1)) as K. clear K.
    assert (V4 : 10 * w - dec10 qr <= Rabs (dec10 qr - 10 * w)) by (rewrite <- (Rabs_Ropp (dec10 qr - 10 * w)); eapply Rle_trans; [|apply Rle_abs]; lra).
    lra.
Qed.
End Interval.

(** The functions rounded to nearest meet the contracts. *)
Definition pow10_fl (p : Z) : dy := if (0 <=? p)%Z then fl (10 ^ p) 1 else fl 1 (10 ^ (- p)).
Definition show_dec (f : dy) : str := let '(n, k) := dec_of f in text10 n k.

Lemma fl_pos_fst : forall n d, (0 < n)%Z -> (0 < d)%Z -> (0 < fst (fl n d))%Z.
Proof.
  intros n d N D. pose proof (fl_nonneg n d ltac:(lia) D) as G. destruct (Z.eq_dec (fst (fl n d)) 0) as [Z0|]; [|lia]. exfalso.
  pose proof (fl_pos n d N D) as K. apply dyv_eq0 in Z0. rewrite Z0 in K. assert (Q : 0 < IZR n / IZR d) by (apply Rdiv_lt_0_compat; apply IZR_lt; assumption).
  rewrite Rminus_0_l, Rabs_Ropp, Rabs_pos_eq in K by lra. destruct eps as (E & _). nra.
Qed.
Lemma pow10_fl_ok : pow10_ok pow10_fl.
Proof.
  intros p. unfold pow10_fl. destruct eps as (E & E2 & _). pose proof (ten_pos p) as T. destruct (Z.leb_spec 0 p) as [H|H].
  - assert (G : (0 < 10 ^ p)%Z) by (apply Z.pow_pos_nonneg; lia). split; [apply fl_pos_fst; lia|]. pose proof (fl_pos (10 ^ p) 1 G ltac:(lia)) as K.
    rewrite ten_pow in K by lia. replace (powerRZ 10 p / IZR 1) with (powerRZ 10 p) in K by field. rewrite E2. nra.
  - assert (G : (0 < 10 ^ (- p))%Z) by (apply Z.pow_pos_nonneg; lia). split; [apply fl_pos_fst; lia|]. pose proof (fl_pos 1 (10 ^ (- p)) ltac:(lia) G) as K.
    rewrite ten_pow in K by lia. assert (J : 1 / powerRZ 10 (- p) = powerRZ 10 p) by (pose proof (ten_inv p) as I; pose proof (ten_pos (- p)) as I2; apply (Rmult_eq_reg_l (powerRZ 10 (- p))); [rewrite I; field|]; lra).
    rewrite J in K. rewrite E2. nra.
Qed.
Lemma show_dec_ok : show_float_ok show_dec.
Proof.
  intros f. unfold show_dec. destruct (dec_of_ok f) as [V P]. destruct (dec_of f) as [n k]. cbn [fst] in P. split; [apply text10_no_blank|].
  exists (n, k). split; [apply signed10_text|]. split.
  - intros H. specialize (P H). unfold text10, sdec at 1. destruct (Z.ltb_spec n 0); [lia|]. apply unsigned10_text. exact P.
  - rewrite V, Rminus_diag_eq by reflexivity. rewrite Rabs_R0. pose proof (pw2_pos (-53)). pose proof (Rabs_pos (dyv f)). nra.
Qed.

(** The interval of length 10^-15 around 1000 that is lost. *)
Lemma interval_lost : let s := interval_text pow10_fl show_dec (10 ^ 18 + 60) (10 ^ 18 + 61) 15 in exists q, ball_text s = Some q /\
  forall x, IZR (10 ^ 18 + 60) * powerRZ 10 (-15) <= x <= IZR (10 ^ 18 + 61) * powerRZ 10 (-15) -> ~ in_text x q.
Proof.
  intros s. unfold interval_text in s.
  set (c := fdiv (d2exp (fl (10 ^ 18 + 60 + (10 ^ 18 + 61)) 1) (-1)) (pow10_fl 15)) in s. set (r := fdiv (fl (10 ^ 18 + 61 - (10 ^ 18 + 60)) 1) (pow10_fl (15 - 1))) in s.
  assert (Ec : c = (1000 * 2 ^ 43, -43)%Z) by (vm_compute; reflexivity).
  assert (Er : dyv r <= 2 * powerRZ 10 (-14)).
  { assert (F : near (pw2 (-53)) (dyv r) (dyv (fl 1 1) / dyv (pow10_fl 14))) by (apply fdiv_ok; vm_compute; reflexivity).
    replace (dyv (fl 1 1) / dyv (pow10_fl 14)) with (powerRZ 10 (-14)) in F.
    - unfold near in F. rewrite (Rabs_pos_eq (powerRZ 10 (-14))) in F by (left; apply ten_pos). destruct eps as (E & _). pose proof (ten_pos (-14)) as T.
      pose proof (Rle_abs (dyv r - powerRZ 10 (-14))). nra.
    - replace (fl 1 1) with (2 ^ 52, -52)%Z by (vm_compute; reflexivity). replace (pow10_fl 14) with (10 ^ 14 * 2 ^ 6, -6)%Z by (vm_compute; reflexivity).
      unfold dyv. cbn [fst snd]. rewrite mult_IZR, !(pw2_IZR 52), !(pw2_IZR 6) by lia. rewrite Rmult_assoc.
      replace (pw2 6 * pw2 (-6)) with 1 by (rewrite Rmult_comm; symmetry; exact (pw2_inv 6)). replace (pw2 52 * pw2 (-52)) with 1 by (rewrite Rmult_comm; symmetry; exact (pw2_inv 52)).
      rewrite ten_pow by lia. pose proof (ten_inv 14) as I. pose proof (ten_pos 14). change (- (14))%Z with (-14)%Z in I. apply (Rmult_eq_reg_r (powerRZ 10 14)); [|lra]. rewrite I. field. lra. }
  destruct (dec_of_ok c) as [Vc _]. destruct (dec_of_ok r) as [Vr Pr]. specialize (Pr ltac:(apply fdiv_nonneg; [apply fl_nonneg; lia|apply pow10_fl_ok])).
  exists (dec_of c, dec_of r). split.
  - unfold s, show_dec. destruct (dec_of c) as [n k]. destruct (dec_of r) as [m j]. cbn [fst] in Pr.
    pose proof (ball_text_shown n k m j Pr) as T. unfold pm in T. rewrite <- !app_assoc in T. exact T.
  - intros x X I. unfold in_text in I. cbn [fst snd] in I. rewrite Vc, Vr, Ec in I. unfold dyv in I at 1. cbn [fst snd] in I.
    rewrite mult_IZR, (pw2_IZR 43), Rmult_assoc in I by lia. replace (pw2 43 * pw2 (-43)) with 1 in I by (rewrite Rmult_comm; symmetry; exact (pw2_inv 43)).
    replace (powerRZ 10 (-14)) with (10 * powerRZ 10 (-15)) in Er by (simpl; lra). destruct X as [X _]. rewrite plus_IZR, ten_pow in X by lia.
    set (t := powerRZ 10 (-15)) in *. assert (J : powerRZ 10 18 * t = 1000) by (unfold t; rewrite <- ten_add; replace (18 + -15)%Z with 3%Z by lia; simpl; lra).
    pose proof (Rle_abs (x - 1000 * 1)) as A. assert (T : 0 < t) by apply ten_pos. lra.
Qed.

(** The mantissa has 53 bits, no other one is nearer, and it is even if another one is as near. *)
Lemma nearest_even_tie : forall a b, (0 < b)%Z -> (2 * Z.abs (nearest_even a b * b - a) = b)%Z -> Z.even (nearest_even a b) = true.
Proof.
  intros a b B. unfold nearest_even. pose proof (Z.div_mod a b ltac:(lia)) as E. pose proof (Z.mod_pos_bound a b B) as M.
  set (q := (a / b)%Z) in *. set (r := (a mod b)%Z) in *.
  destruct (Z.ltb_spec (2 * r) b); [nia|]. destruct (Z.ltb_spec b (2 * r)); [nia|]. destruct (Z.even q) eqn:V; intros _; [exact V|].
  rewrite Z.even_add, V. reflexivity.
Qed.
Lemma nearest_even_range : forall a b, (0 < b)%Z -> (2 ^ 52 * b <= a < 2 ^ 53 * b)%Z -> (2 ^ 52 <= nearest_even a b <= 2 ^ 53)%Z.
Proof.
  intros a b B H. unfold nearest_even. pose proof (Z.div_mod a b ltac:(lia)) as E. pose proof (Z.mod_pos_bound a b B) as M.
  set (q := (a / b)%Z) in *. set (r := (a mod b)%Z) in *. assert (Q : (2 ^ 52 <= q < 2 ^ 53)%Z) by nia.
  destruct (Z.ltb_spec (2 * r) b); [lia|]. destruct (Z.ltb_spec b (2 * r)); [lia|]. destruct (Z.even q); lia.
Qed.
Lemma fl_pos_even : forall n d m e, (0 < n)%Z -> (0 < d)%Z -> fl n d = (m, e) -> rounded_even m e (IZR n / IZR d).
Proof.
  intros n d m e N D. unfold fl. destruct (Z.eqb_spec n 0) as [|_]; [lia|]. rewrite (Z.abs_eq n), (Z.sgn_pos n) by lia.
  set (k := (Z.log2 n - Z.log2 d - 53)%Z). pose proof (log2_quot n d k N D eq_refl) as (B & AB & V).
  set (a := (if 0 <=? k then n else n * 2 ^ (- k))%Z) in *. set (b := (if 0 <=? k then d * 2 ^ k else d)%Z) in *.
  assert (K : forall k' b', (0 < b')%Z -> (2 ^ 52 * b' <= a < 2 ^ 53 * b')%Z -> IZR a / IZR b' * pw2 k' = IZR n / IZR d ->
            rounded_even (1 * nearest_even a b') k' (IZR n / IZR d)).
  { intros k' b' B1 G E. rewrite Z.mul_1_l. pose proof (nearest_even_range a b' B1 G) as Rg. pose proof (nearest_even_ok a b' B1) as Ok.
    pose proof (nearest_even_tie a b' B1) as Ti. set (q := nearest_even a b') in *. assert (B2 : 0 < IZR b') by (apply IZR_lt in B1; exact B1).
    assert (X : Rabs (dyv (q, k') - IZR n / IZR d) = Rabs (IZR q * IZR b' - IZR a) / IZR b' * (2 * pw2 (k' - 1))).
    { unfold dyv. cbn [fst snd]. rewrite <- E. replace (pw2 k') with (2 * pw2 (k' - 1)) by (replace k' with (1 + (k' - 1))%Z at 2 by lia; rewrite pw2_add; unfold pw2 at 2; simpl; ring).
      pose proof (pw2_pos (k' - 1)). replace (IZR q * (2 * pw2 (k' - 1)) - IZR a / IZR b' * (2 * pw2 (k' - 1))) with ((IZR q * IZR b' - IZR a) * (/ IZR b' * (2 * pw2 (k' - 1)))) by (field; lra).
      rewrite Rabs_mult, (Rabs_pos_eq (/ IZR b' * _)); [unfold Rdiv; ring|]. apply Rmult_le_pos; [left; apply Rinv_0_lt_compat, B2|lra]. }
    pose proof (pw2_pos (k' - 1)) as P. split; [lia|]. rewrite X. set (t := Rabs (IZR q * IZR b' - IZR a)) in *. split.
    - assert (Y : t / IZR b' <= / 2) by (apply (Rmult_le_reg_r (IZR b')); [exact B2|]; replace (t / IZR b' * IZR b') with t by (field; lra); lra). nra.
    - intros T. apply Ti. assert (Y : t / IZR b' * 2 = 1) by (apply (Rmult_eq_reg_r (pw2 (k' - 1))); lra).
      assert (Y2 : 2 * t = IZR b') by (replace t with (t / IZR b' * IZR b') by (field; lra); replace (2 * (t / IZR b' * IZR b')) with (t / IZR b' * 2 * IZR b') by ring; rewrite Y; ring).
      apply eq_IZR. rewrite mult_IZR, abs_IZR, minus_IZR, mult_IZR. exact Y2. }
  destruct (Z.ltb_spec a (2 ^ 53 * b)) as [H|H]; intros J; injection J as <- <-.
  - apply (K k b); [exact B|lia|exact V].
  - apply (K (k + 1)%Z (2 * b)%Z); [lia|lia|]. apply IZR_lt in B. rewrite pw2_add, mult_IZR, <- V. replace (pw2 1) with 2 by (unfold pw2; simpl; lra). field. lra.
Qed.
Lemma fl_even : forall n d m e, n <> 0%Z -> (0 < d)%Z -> fl n d = (m, e) -> rounded_even m e (IZR n / IZR d).
Proof.
  intros n d m e N D E. destruct (Z.lt_ge_cases n 0) as [H|H]; [|apply fl_pos_even; [lia|exact D|exact E]].
  assert (E' : fl (- n) d = (- m, e)%Z) by (rewrite fl_opp, E; reflexivity).
  destruct (fl_pos_even (- n) d (- m) e ltac:(lia) D E') as (A & B & C). rewrite opp_IZR in B, C.
  assert (X : Rabs (dyv (- m, e)%Z - - IZR n / IZR d) = Rabs (dyv (m, e) - IZR n / IZR d)).
  { unfold dyv. cbn [fst snd]. rewrite opp_IZR. rewrite <- Rabs_Ropp. f_equal. unfold Rdiv. ring. }
  rewrite X in B, C. rewrite Z.even_opp in C. split; [lia|]. split; assumption.
Qed.
