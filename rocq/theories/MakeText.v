(** A concrete reader and a concrete printer of balls: the contracts of MakeSpec.v
    can be met, and the model of make can be run. *)
Require Import Reals List ZArith Bool Lia Lra Ascii.
From Verif Require Import PolyR RootSpec VcaProofs Dyadic DyadicProofs ArbModel ArbSpec ArbProofs DyBall DyBallProofs
  ElemModel StrModel StrSpec StrProofs StrMore MakeModel MakeSpec.
Import ListNotations.
Open Scope Z_scope.

(** ** Reading *)
Definition frac10 (q : Z * Z) : Z * Z := if 0 <=? snd q then (fst q * 10 ^ snd q, 1) else (fst q, 10 ^ (- snd q)).
Definition dec_read (s : str) (prec : Z) : option ball :=
  match ball_text s with
  | None => None
  | Some (c, r) =>
      let '(n, d) := frac10 c in
      let '(m, e) := frac10 r in
      match o_set_q dyops n d (prec + 64), o_set_q dyops m e (prec + 64) with
      | Fin mc rc, Fin mr rr => Some (bround prec mc (dadd rc (dadd mr rr)))
      | _, _ => Some Top
      end
  end.

Open Scope R_scope.
Lemma ten_pow : forall t, (0 <= t)%Z -> IZR (10 ^ t) = powerRZ 10 t.
Proof.
  intros t H. rewrite <- (Z2Nat.id t H), <- pow_IZR, <- pow_powerRZ. reflexivity.
Qed.
Lemma ten_add : forall a b, powerRZ 10 (a + b) = powerRZ 10 a * powerRZ 10 b.
Proof. intros. apply powerRZ_add. lra. Qed.
Lemma ten_pos : forall a, 0 < powerRZ 10 a.
Proof. intros. apply powerRZ_lt. lra. Qed.
Lemma ten_inv : forall a, powerRZ 10 (- a) * powerRZ 10 a = 1.
Proof. intros. rewrite <- ten_add. replace (- a + a)%Z with 0%Z by lia. reflexivity. Qed.

Lemma frac10_ok : forall q, snd (frac10 q) <> 0%Z /\ IZR (fst (frac10 q)) / IZR (snd (frac10 q)) = dec10 q.
Proof.
  intros [n k]. unfold frac10, dec10. cbn [fst snd]. destruct (Z.leb_spec 0 k) as [H|H]; cbn [fst snd].
  - split; [lia|]. rewrite mult_IZR, ten_pow by exact H. field.
  - split.
    + pose proof (Z.pow_pos_nonneg 10 (- k)). lia.
    + rewrite ten_pow by lia. pose proof (ten_inv k). pose proof (ten_pos (- k)). pose proof (ten_pos k).
      apply (Rmult_eq_reg_r (powerRZ 10 (- k))); [|lra]. unfold Rdiv.
      rewrite Rmult_assoc, Rinv_l by lra. rewrite Rmult_assoc, (Rmult_comm (powerRZ 10 k)), H0. ring.
Qed.

Lemma dec_read_ok : read_ok dec_read.
Proof.
  intros s [c r] prec Hp E. unfold dec_read. rewrite E.
  destruct (frac10 c) as [n d] eqn:Ec. destruct (frac10 r) as [m e] eqn:Er.
  destruct (frac10_ok c) as [D1 V1]. destruct (frac10_ok r) as [D2 V2]. rewrite Ec in *. rewrite Er in *. cbn [fst snd] in *.
  pose proof (ok_set_q _ dyops_ok n d (prec + 64) ltac:(lia) D1) as I1.
  pose proof (ok_set_q _ dyops_ok m e (prec + 64) ltac:(lia) D2) as I2. rewrite V1 in I1. rewrite V2 in I2.
  destruct (o_set_q dyops n d (prec + 64)) as [mc rc|]; [|exists Top; split; [reflexivity|intros; exact I]].
  destruct (o_set_q dyops m e (prec + 64)) as [mr rr|]; [|exists Top; split; [reflexivity|intros; exact I]].
  eexists. split; [reflexivity|]. intros x Hx. apply bround_in; [lia|]. rewrite !dyv_add.
  unfold in_text in Hx. cbn [fst snd inb] in *. unfold Rabs in *.
  repeat destruct (Rcase_abs _); lra.
Qed.

(** ** Printing *)
Open Scope Z_scope.
Definition dec_of (d : dy) : Z * Z := if 0 <=? snd d then (fst d * 2 ^ snd d, 0) else (fst d * 5 ^ (- snd d), snd d).
Fixpoint drop_digits (fuel : nat) (t n a : Z) : Z :=
  match fuel with
  | O => t
  | S f => if Z.abs a <? 10 ^ (n + t) then t else drop_digits f (t + 1) n a
  end.
Definition sdec (z : Z) : str := if z <? 0 then "-"%char :: dec (- z) else dec z.
Definition text10 (n k : Z) : str := sdec n ++ "e"%char :: sdec k.
Definition dec_show (b : ball) (n : Z) : str :=
  match b with
  | Top => []
  | Fin m r =>
      let '(a, k) := dec_of m in
      let '(q, j) := dec_of r in
      let t := drop_digits (Z.to_nat (Z.log2 (Z.abs a) + 1)) 0 n a in
      let s := Z.min (k + t) j in
      "["%char :: (text10 (Z.quot a (10 ^ t)) (k + t) ++ pm ++
        text10 (q * 10 ^ (j - s) + (if t =? 0 then 0 else 10 ^ (k + t - s))) s) ++ ["]"%char]
  end.

Lemma digit_not : forall c d, digitb c = true -> digitb d = false -> Ascii.eqb c d = false.
Proof. intros c d H1 H2. destruct (Ascii.eqb_spec c d); [subst; congruence|reflexivity]. Qed.

Lemma exponent10_sdec : forall k, exponent10 (sdec k) = Some k.
Proof.
  intros k. unfold sdec. destruct (Z.ltb_spec k 0) as [H|H].
  - destruct (dec_ok (- k)) as [[N D] E]; [lia|]. unfold exponent10. cbn [Ascii.eqb orb Bool.eqb].
    destruct (dec (- k)) as [|c s] eqn:Ed; [congruence|]. rewrite <- Ed in *.
    assert (F : forallb digitb (dec (- k)) = true) by (apply forallb_forall; rewrite Forall_forall in D; exact D).
    rewrite F, E. f_equal. lia.
  - destruct (dec_ok k) as [[N D] E]; [lia|]. unfold exponent10.
    destruct (dec k) as [|c s] eqn:Ed; [congruence|]. inversion D; subst.
    rewrite (digit_not c "-"), (digit_not c "+") by (assumption || reflexivity). cbn [orb].
    assert (F : forallb digitb (c :: s) = true) by (apply forallb_forall; rewrite Forall_forall in D; exact D).
    rewrite F. reflexivity.
Qed.

Lemma unsigned10_text : forall n k, 0 <= n -> unsigned10 (dec n ++ "e"%char :: sdec k) = Some (n, k).
Proof.
  intros n k H. destruct (dec_ok n H) as [[N D] E]. unfold unsigned10.
  rewrite span_app by (exact D || reflexivity). cbn [Ascii.eqb Bool.eqb].
  rewrite app_nil_r. destruct (dec n) as [|c s] eqn:Ed; [congruence|]. cbn [orb].
  rewrite exponent10_sdec, E. cbn [length Z.of_nat]. do 2 f_equal. lia.
Qed.

Lemma signed10_text : forall n k, signed10 (text10 n k) = Some (n, k).
Proof.
  intros n k. unfold text10, sdec at 1. destruct (Z.ltb_spec n 0) as [H|H].
  - cbn [app signed10 Ascii.eqb Bool.eqb]. rewrite unsigned10_text by lia. do 2 f_equal. lia.
  - pose proof (unsigned10_text n k H) as U. destruct (dec_ok n H) as [[N D] E].
    destruct (dec n) as [|c s] eqn:Ed; [congruence|]. cbn [app signed10].
    inversion D; subst. rewrite (digit_not c "-") by (assumption || reflexivity). exact U.
Qed.

Lemma dec_no_blank : forall z, 0 <= z -> ~ In cblank (dec z).
Proof.
  intros z H B. destruct (dec_ok z H) as [[_ D] _]. rewrite Forall_forall in D. specialize (D _ B). discriminate.
Qed.
Lemma sdec_no_blank : forall z, ~ In cblank (sdec z).
Proof.
  intros z. unfold sdec. destruct (Z.ltb_spec z 0); [|apply dec_no_blank; lia].
  intros [E|B]; [discriminate|]. apply (dec_no_blank (- z)) in B; [exact B|lia].
Qed.
Lemma text10_no_blank : forall n k, ~ In cblank (text10 n k).
Proof.
  intros n k B. apply in_app_or in B. destruct B as [B|[E|B]]; [exact (sdec_no_blank _ B)|discriminate|exact (sdec_no_blank _ B)].
Qed.

Lemma cut_pm_app : forall u v, ~ In cblank u -> cut_pm (u ++ pm ++ v) = (u, Some v).
Proof.
  induction u as [|c u IH]; intros v H.
  - reflexivity.
  - cbn [app cut_pm]. rewrite IH by (intros B; apply H; right; exact B).
    assert (E : prefix pm (c :: u ++ pm ++ v) = None).
    { unfold pm at 1. cbn [prefix]. destruct (Ascii.eqb_spec cblank c); [|reflexivity]. subst. exfalso. apply H. left. reflexivity. }
    rewrite E. reflexivity.
Qed.

Lemma ball_text_shown : forall n k m j, 0 <= m ->
  ball_text ("["%char :: (text10 n k ++ pm ++ text10 m j) ++ ["]"%char]) = Some ((n, k), (m, j)).
Proof.
  intros n k m j H. unfold ball_text. cbn [Ascii.eqb Bool.eqb]. rewrite rev_app_distr. cbn [rev app Ascii.eqb Bool.eqb].
  rewrite rev_involutive. unfold plain_ball. rewrite cut_pm_app by apply text10_no_blank.
  rewrite signed10_text. unfold text10, sdec at 1. destruct (Z.ltb_spec m 0); [lia|]. rewrite unsigned10_text by exact H. reflexivity.
Qed.

Lemma drop_digits_ok : forall fuel t n a, 0 <= t -> 1 <= n -> Z.abs a < 2 ^ (Z.of_nat fuel + t) ->
  0 <= drop_digits fuel t n a /\ Z.abs a < 10 ^ (n + drop_digits fuel t n a).
Proof.
  induction fuel as [|f IH]; intros t n a Ht Hn Ha; cbn [drop_digits].
  - split; [exact Ht|]. eapply Z.lt_le_trans; [exact Ha|]. change (Z.of_nat 0) with 0. rewrite Z.add_0_l.
    apply Z.le_trans with (10 ^ t); [apply Z.pow_le_mono_l; lia|apply Z.pow_le_mono_r; lia].
  - destruct (Z.ltb_spec (Z.abs a) (10 ^ (n + t))); [split; assumption|].
    apply IH; try lia. replace (Z.of_nat f + (t + 1)) with (Z.of_nat (S f) + t) by lia. exact Ha.
Qed.

Open Scope R_scope.
Lemma dec_of_ok : forall d, dec10 (dec_of d) = dyv d /\ (0 <= fst d -> 0 <= fst (dec_of d))%Z.
Proof.
  intros [m e]. unfold dec_of, dec10, dyv. cbn [fst snd]. destruct (Z.leb_spec 0 e) as [H|H]; cbn [fst snd].
  - split; [|intros G; apply Z.mul_nonneg_nonneg; [exact G|apply Z.pow_nonneg; lia]].
    rewrite mult_IZR, pw2_IZR by exact H. cbn [powerRZ]. ring.
  - split; [|intros G; apply Z.mul_nonneg_nonneg; [exact G|apply Z.pow_nonneg; lia]].
    rewrite mult_IZR, Rmult_assoc. f_equal. unfold pw2.
    assert (E : IZR (10 ^ (- e)) = IZR (5 ^ (- e)) * pw2 (- e)).
    { rewrite <- pw2_IZR, <- mult_IZR by lia. f_equal. rewrite <- Z.pow_mul_l. reflexivity. }
    rewrite ten_pow in E by lia. pose proof (ten_inv e) as I. rewrite E in I. unfold pw2 in I.
    assert (J : powerRZ 2 (- e) * powerRZ 2 e = 1).
    { rewrite <- powerRZ_add by lra. replace (- e + e)%Z with 0%Z by lia. reflexivity. }
    pose proof (powerRZ_lt 2 (- e) ltac:(lra)) as P.
    apply (Rmult_eq_reg_l (powerRZ 2 (- e))); [|lra]. rewrite J. rewrite <- I. ring.
Qed.

Lemma dec_show_ok : show_ok dec_show.
Proof.
  intros [m r|] n Hn Hf [x0 Hx0]; [|discriminate]. unfold dec_show.
  destruct (dec_of_ok m) as [Vm _]. destruct (dec_of_ok r) as [Vr Pr].
  assert (Hr : (0 <= fst r)%Z).
  { unfold inb in Hx0. pose proof (Rabs_pos (x0 - dyv m)) as A. unfold dyv in Hx0 at 2.
    pose proof (pw2_pos (snd r)). apply le_IZR. apply (Rmult_le_reg_r (pw2 (snd r))); lra. }
  specialize (Pr Hr).
  destruct (dec_of m) as [a k]. destruct (dec_of r) as [q j]. unfold dec10 in Vm, Vr. cbn [fst snd] in *.
  set (t := drop_digits (Z.to_nat (Z.log2 (Z.abs a) + 1)) 0 n a).
  destruct (drop_digits_ok (Z.to_nat (Z.log2 (Z.abs a) + 1)) 0 n a ltac:(lia) Hn) as [T0 T1].
  { rewrite Z2Nat.id by (pose proof (Z.log2_nonneg (Z.abs a)); lia). rewrite Z.add_0_r.
    destruct (Z.eq_dec a 0) as [->|N]; [cbn; lia|]. destruct (Z.log2_spec (Z.abs a)) as [_ L]; [lia|].
    unfold Z.succ in L. exact L. }
  fold t in T0, T1. set (s := Z.min (k + t) j).
  set (u := if (t =? 0)%Z then 0%Z else (10 ^ (k + t - s))%Z).
  assert (Hu : (0 <= u)%Z) by (unfold u; destruct (t =? 0)%Z; [lia|apply Z.pow_nonneg; lia]).
  assert (Hj : (0 <= 10 ^ (j - s))%Z) by (apply Z.pow_nonneg; lia).
  exists ((Z.quot a (10 ^ t), (k + t)%Z), ((q * 10 ^ (j - s) + u)%Z, s)).
  split; [apply ball_text_shown; nia|]. split.
  - intros x Hx. unfold in_text, dec10. cbn [fst snd].
    assert (Ht : (0 < 10 ^ t)%Z) by (apply Z.pow_pos_nonneg; lia).
    assert (Er : IZR (q * 10 ^ (j - s) + u) * powerRZ 10 s = dyv r + IZR u * powerRZ 10 s).
    { rewrite plus_IZR, mult_IZR, ten_pow by lia. rewrite Rmult_plus_distr_r, Rmult_assoc, <- ten_add.
      replace (j - s + s)%Z with j by lia. rewrite Vr. reflexivity. }
    rewrite Er.
    assert (Ec : Rabs (dyv m - IZR (Z.quot a (10 ^ t)) * powerRZ 10 (k + t)) <= IZR u * powerRZ 10 s).
    { rewrite <- Vm, ten_add. rewrite <- (ten_pow t) by lia.
      replace (IZR a * powerRZ 10 k - IZR (Z.quot a (10 ^ t)) * (powerRZ 10 k * IZR (10 ^ t)))
        with ((IZR a - IZR (Z.quot a (10 ^ t)) * IZR (10 ^ t)) * powerRZ 10 k) by ring.
      rewrite <- mult_IZR, <- minus_IZR, Rabs_mult, (Rabs_pos_eq (powerRZ 10 k)) by (left; apply ten_pos).
      rewrite <- abs_IZR.
      assert (Eq : (a - Z.quot a (10 ^ t) * 10 ^ t = Z.rem a (10 ^ t))%Z) by (pose proof (Z.quot_rem' a (10 ^ t)); lia).
      rewrite Eq. unfold u. destruct (Z.eqb_spec t 0) as [e|e].
      - rewrite e. rewrite Z.rem_1_r. cbn. lra.
      - rewrite ten_pow by lia. rewrite <- ten_add. replace (k + t - s + s)%Z with (t + k)%Z by lia.
        rewrite ten_add. apply Rmult_le_compat_r; [left; apply ten_pos|]. rewrite <- ten_pow by lia.
        apply IZR_le. pose proof (Z.rem_bound_abs a (10 ^ t) ltac:(lia)). lia. }
    unfold inb in Hx. replace (x - IZR (Z.quot a (10 ^ t)) * powerRZ 10 (k + t))
      with ((x - dyv m) + (dyv m - IZR (Z.quot a (10 ^ t)) * powerRZ 10 (k + t))) by ring.
    eapply Rle_trans; [apply Rabs_triang|]. lra.
  - exists (Z.quot a (10 ^ t)), (k + t)%Z. split; [reflexivity|].
    assert (Ht : (0 < 10 ^ t)%Z) by (apply Z.pow_pos_nonneg; lia).
    rewrite <- Z.quot_abs by lia. rewrite (Z.abs_eq (10 ^ t)) by lia.
    rewrite Z.quot_div_nonneg by lia. apply Z.div_lt_upper_bound; [lia|].
    rewrite <- Z.pow_add_r by lia. rewrite Z.add_comm. exact T1.
Qed.
