(** What the condition number says about the precision lost when an element is
    evaluated. *)
Require Import Reals List ZArith Lia Lra.
From Verif Require Import PolyR RootSpec Dyadic DyadicProofs ArbModel ArbSpec VcaProofs FieldProofs EvalProofs ElemModel ElemSpec ElemProofs DyRate RefineEnds CxxRefute.
Import ListNotations.
Open Scope R_scope.

(** * Absolute errors *)

Lemma zeval_near : forall p x y M e, Rabs x <= M -> Rabs y <= M -> 0 <= e -> Rabs (y - x) <= M * e ->
  Rabs (zeval p y - zeval p x) <= INR (length p - 1) * zeval (map Z.abs p) M * e.
Proof.
  intros p x y M e Hx Hy He Hd. assert (M0 : 0 <= M) by (pose proof (Rabs_pos x); lra).
  assert (A0 : forall q, 0 <= zeval (map Z.abs q) M).
  { intros q. rewrite <- (Rabs_pos_eq M M0). apply abs_sum_nonneg. }
  induction p as [|c q IH].
  - unfold zeval. cbn. rewrite Rminus_0_r, Rabs_R0. lra.
  - cbn [map]. rewrite !zeval_cons. cbn [length]. rewrite Nat.sub_succ, Nat.sub_0_r.
    replace (IZR c + y * zeval q y - (IZR c + x * zeval q x)) with ((y - x) * zeval q y + x * (zeval q y - zeval q x)) by ring.
    assert (B : Rabs (zeval q y) <= zeval (map Z.abs q) M).
    { clear IH. induction q as [|d q IH]; [unfold zeval; cbn; rewrite Rabs_R0; lra|]. cbn [map]. rewrite !zeval_cons.
      eapply Rle_trans; [apply Rabs_triang|]. rewrite Rabs_mult, abs_IZR. pose proof (Rabs_pos y). pose proof (A0 q). pose proof (Rabs_pos (zeval q y)).
      apply Rplus_le_compat_l, Rmult_le_compat; lra. }
    eapply Rle_trans; [apply Rabs_triang|]. rewrite !Rabs_mult.
    pose proof (Rabs_pos x). pose proof (Rabs_pos (y - x)). pose proof (Rabs_pos (zeval q y)). pose proof (Rabs_pos (zeval q y - zeval q x)).
    assert (U : Rabs (y - x) * Rabs (zeval q y) <= M * e * zeval (map Z.abs q) M) by (apply Rmult_le_compat; lra).
    assert (V : Rabs x * Rabs (zeval q y - zeval q x) <= M * (INR (length q - 1) * zeval (map Z.abs q) M * e)) by (apply Rmult_le_compat; lra).
    destruct q as [|d q].
    + unfold zeval in *. cbn [map peval length Nat.sub INR] in *. lra.
    + set (q' := d :: q) in *. replace (length q') with (S (length q' - 1)) at 1 by (subst q'; cbn [length]; lia). rewrite S_INR.
      set (l := INR (length q' - 1)) in *. assert (0 <= l) by apply pos_INR. set (S := zeval (map Z.abs q') M) in *. pose proof (A0 q') as S0. fold S in S0.
      assert (0 <= IZR (Z.abs c)) by (apply IZR_le; lia). assert (W : 0 <= (l + 1) * IZR (Z.abs c) * e) by (repeat apply Rmult_le_pos; lra).
      apply Rle_trans with (M * e * S + M * (l * S * e)); [lra|].
      replace ((l + 1) * (IZR (Z.abs c) + M * S) * e) with ((l + 1) * IZR (Z.abs c) * e + (M * e * S + M * (l * S * e))) by ring. lra.
Qed.

Lemma loss_absolute : forall nf a x y p, canon (f_pol nf) a -> is_finite (f_emb nf) = true -> inb x (f_emb nf) -> inb y (f_emb nf) ->
  Rabs (y - x) <= Rmax (Rabs x) (Rabs y) * pw2 (- p) ->
  Rabs (ev y a - ev x a) <= INR (length (e_num a) - 1) * pw2 (elem_cond nf a + 1 - p) / IZR (e_den a).
Proof.
  intros nf a x y p Ca Hf Hx Hy Hd. pose proof (can_den _ _ Ca) as D. apply IZR_lt in D. unfold ev.
  replace (zeval (e_num a) y / IZR (e_den a) - zeval (e_num a) x / IZR (e_den a)) with ((zeval (e_num a) y - zeval (e_num a) x) / IZR (e_den a)) by (field; lra).
  unfold Rdiv at 1. rewrite Rabs_mult, (Rabs_pos_eq (/ _)) by (left; apply Rinv_0_lt_compat; lra).
  apply Rmult_le_compat_r; [left; apply Rinv_0_lt_compat; lra|].
  eapply Rle_trans; [apply (zeval_near _ x y (Rmax (Rabs x) (Rabs y)) (pw2 (- p)));
    [apply Rmax_l|apply Rmax_r|left; apply pw2_pos|exact Hd]|].
  destruct (le_lt_dec (length (e_num a)) 1) as [L|L].
  - replace (length (e_num a) - 1)%nat with 0%nat by lia. cbn [INR]. lra.
  - rewrite Rmult_assoc. apply Rmult_le_compat_l; [apply pos_INR|].
    replace (elem_cond nf a + 1 - p)%Z with ((elem_cond nf a + 1) + (- p))%Z by lia. rewrite pw2_add.
    apply Rmult_le_compat_r; [left; apply pw2_pos|].
    assert (E : elem_cond nf a = cond_2exp (e_num a) (f_emb nf) (Z.max (f_prec nf) 16)).
    { unfold elem_cond. destruct (is_rational a) eqn:R; [|reflexivity]. unfold is_rational in R. destruct (e_num a) as [|? [|? ?]]; cbn in *; try lia; discriminate. }
    rewrite E. assert (N : e_num a <> []) by (intros N; rewrite N in L; cbn in L; lia).
    left. unfold Rmax. destruct (Rle_dec _ _).
    + rewrite <- (Rabs_Rabsolu y). change (zeval (map Z.abs (e_num a)) (Rabs (Rabs y))) with (abs_sum (e_num a) (Rabs y)).
      replace (abs_sum (e_num a) (Rabs y)) with (abs_sum (e_num a) y) by (unfold abs_sum; rewrite Rabs_Rabsolu; reflexivity).
      apply cond_2exp_weak; [lia|exact N|exact Hf|exact Hy].
    + rewrite <- (Rabs_Rabsolu x). change (zeval (map Z.abs (e_num a)) (Rabs (Rabs x))) with (abs_sum (e_num a) (Rabs x)).
      replace (abs_sum (e_num a) (Rabs x)) with (abs_sum (e_num a) x) by (unfold abs_sum; rewrite Rabs_Rabsolu; reflexivity).
      apply cond_2exp_weak; [lia|exact N|exact Hf|exact Hx].
Qed.

(** Relative to the value, if its numerator is at least one. *)
Lemma loss_relative : forall nf a x y p, canon (f_pol nf) a -> is_finite (f_emb nf) = true -> inb x (f_emb nf) -> inb y (f_emb nf) ->
  Rabs (y - x) <= Rmax (Rabs x) (Rabs y) * pw2 (- p) -> 1 <= IZR (e_den a) * Rabs (ev x a) ->
  Rabs (ev y a - ev x a) <= INR (length (e_num a) - 1) * pw2 (elem_cond nf a + 1 - p) * Rabs (ev x a).
Proof.
  intros nf a x y p Ca Hf Hx Hy Hd H1. eapply Rle_trans; [apply (loss_absolute nf a x y p Ca Hf Hx Hy Hd)|].
  pose proof (can_den _ _ Ca) as D. apply IZR_lt in D. pose proof (pw2_pos (elem_cond nf a + 1 - p)). pose proof (pos_INR (length (e_num a) - 1)).
  unfold Rdiv. apply Rmult_le_compat_l; [apply Rmult_le_pos; lra|].
  apply Rmult_le_reg_l with (IZR (e_den a)); [lra|]. rewrite Rinv_r by lra. exact H1.
Qed.

Lemma pw2_2 : pw2 2 = 4.
Proof. change 2%Z with (1 + 1)%Z. rewrite pw2_add, pw2_1. lra. Qed.
Lemma pw2_4 : pw2 4 = 16.
Proof. change 4%Z with (2 + 2)%Z. rewrite pw2_add, pw2_2. lra. Qed.

(** * Relative errors under cancellation *)

(** The square root of 4^k+2, and this number minus 2^k. *)
Section Cancel.
Variable k : Z.
Hypothesis k1 : (1 <= k)%Z.

Definition cpol : list Z := [- (2 * (2 * 4 ^ (k - 1) + 1)); 0; 1]%Z.
Definition cball : ball := Fin (4 ^ k + 1, - k)%Z (1, -3 * k)%Z.
Definition cfield : renf := {| f_pol := cpol; f_den := 1; f_emb := cball; f_prec := 64; f_imm := 0 |}.
Definition celem : elem := {| e_num := [- 2 ^ k; 1]%Z; e_den := 1 |}.
Notation t := (pw2 (- k)).
Notation T := (pw2 k).

Lemma tT : T * t = 1.
Proof. rewrite <- pw2_add. replace (k + - k)%Z with 0%Z by lia. apply pw2_0. Qed.
Lemma T2 : 2 <= T.
Proof. rewrite <- pw2_1. apply pw2_le. lia. Qed.
Lemma t2 : 0 < t <= 1 / 2.
Proof. split; [apply pw2_pos|]. pose proof tT. pose proof T2. pose proof (pw2_pos (- k)). assert (0 <= (T - 2) * t) by (apply Rmult_le_pos; lra). lra. Qed.
Lemma IZR_2k : IZR (2 ^ k) = T.
Proof. unfold pw2. rewrite <- (Z2Nat.id k) at 1 by lia. rewrite <- pow_IZR. destruct k; try lia. cbn [powerRZ]. rewrite Z2Nat.inj_pos. reflexivity. Qed.
Lemma IZR_4k : IZR (4 ^ k) = T * T.
Proof. replace (4 ^ k)%Z with (2 ^ k * 2 ^ k)%Z by (change 4%Z with (2 * 2)%Z; rewrite Z.pow_mul_l; reflexivity). rewrite mult_IZR, IZR_2k. reflexivity. Qed.
Lemma mid_val : dyv (4 ^ k + 1, - k)%Z = T + t.
Proof. unfold dyv. cbn [fst snd]. rewrite plus_IZR, IZR_4k. replace ((T * T + 1) * t) with (T * (T * t) + t) by ring. rewrite tT. ring. Qed.
Lemma rad_val : dyv (1, -3 * k)%Z = t * t * t.
Proof. unfold dyv. cbn [fst snd]. replace (-3 * k)%Z with (- k + - k + - k)%Z by lia. rewrite !pw2_add. ring. Qed.

Definition cx : R := sqrt (T * T + 2).
Lemma cx_sq : cx * cx = T * T + 2.
Proof. unfold cx. apply sqrt_sqrt. pose proof T2. nra. Qed.

Lemma cx_minimal : minimal cpol cx.
Proof.
  unfold cpol. apply sq_minimal.
  - rewrite <- Z.negb_even, Z.even_add, Z.even_mul. reflexivity.
  - rewrite cx_sq. replace (2 * (2 * 4 ^ (k - 1) + 1))%Z with (4 ^ k + 2)%Z; [rewrite plus_IZR, IZR_4k; reflexivity|].
    replace (4 ^ k)%Z with (4 * 4 ^ (k - 1))%Z; [lia|]. rewrite <- Z.pow_succ_r by lia. f_equal. lia.
Qed.

Lemma cx_in : inb cx cball.
Proof.
  unfold cball, inb. rewrite mid_val, rad_val. pose proof t2 as [t0 th]. pose proof T2 as HT. pose proof tT as TT. pose proof cx_sq as Q.
  assert (X0 : 0 <= cx) by apply sqrt_pos.
  assert (C3 : t * t * t <= 1 / 8) by nra.
  assert (U : cx <= T + t).
  { apply Rsqr_incr_0_var; [|lra]. unfold Rsqr. rewrite Q. replace ((T + t) * (T + t)) with (T * T + 2 * (T * t) + t * t) by ring. rewrite TT. nra. }
  assert (L : T + t - t * t * t <= cx).
  { apply Rsqr_incr_0_var; [|lra]. unfold Rsqr. rewrite Q.
    replace ((T + t - t * t * t) * (T + t - t * t * t)) with (T * T + 2 * (T * t) + t * t - 2 * ((T * t) * (t * t)) - t * t * t * (2 * t - t * t * t)) by ring.
    rewrite TT. assert (0 <= t * t * t * (2 * t - t * t * t)) by (apply Rmult_le_pos; nra). assert (0 <= t * t) by nra. lra. }
  unfold Rabs. destruct (Rcase_abs _); lra.
Qed.

Lemma celem_canon : canon cpol celem.
Proof.
  split; cbn.
  - lia.
  - discriminate.
  - lia.
  - intros g G _ H. apply Z.divide_1_r_nonneg; [lia|]. apply H. right. left. reflexivity.
Qed.

Lemma ball_accuracy : rel_accuracy cball = (4 * k - 1)%Z.
Proof.
  unfold rel_accuracy, cball, rel_error. cbn [fst].
  assert (P : (0 < 4 ^ k)%Z) by (apply Z.pow_pos_nonneg; lia). destruct (Z.eqb_spec (4 ^ k + 1) 0) as [E|_]; [lia|].
  change (1 =? 0)%Z with false. cbv iota.
  assert (R : dexp (1, -3 * k)%Z = (1 - 3 * k)%Z) by (unfold dexp; cbn [fst snd]; change (1 =? 0)%Z with false; change (zbits 1) with 1%Z; cbv iota; lia).
  assert (M : dexp (4 ^ k + 1, - k)%Z = (k + 1)%Z).
  { destruct (dexp_spec (4 ^ k + 1, - k)%Z ltac:(cbn [fst]; lia)) as [A B]. rewrite mid_val in A, B. pose proof t2. pose proof T2. rewrite Rabs_pos_eq in A, B by lra.
    set (d := dexp (4 ^ k + 1, - k)%Z) in *.
    destruct (Z_lt_le_dec d (k + 1)) as [L|L].
    - pose proof (pw2_le d k ltac:(lia)). lra.
    - destruct (Z_lt_le_dec (k + 1) d) as [G|G]; [|lia]. pose proof (pw2_le (k + 1) (d - 1) ltac:(lia)) as W. rewrite pw2_add, pw2_1 in W. lra. }
  rewrite R, M. lia.
Qed.

(** The condition number is about [k]. *)
Lemma cond_small : (elem_cond cfield celem <= k + 4)%Z.
Proof.
  unfold elem_cond, is_rational, celem, cfield. cbn [e_num f_emb f_prec]. change (Z.max 64 16) with 64%Z. unfold cond_2exp.
  unfold abs_ubound, cball. cbn [cond_sum].
  pose proof t2 as [t0 th]. pose proof T2 as HT.
  assert (W : pw2 (1 - 64) <= 1 / 4) by (rewrite <- pw2_m2; apply pw2_le; lia).
  set (ab := dround RUp 64 (dadd (dabs (4 ^ k + 1, - k)%Z) (1, -3 * k)%Z)).
  assert (Hab : 0 <= dyv ab <= 5 / 4 * (T + t + t * t * t)).
  { destruct (dround_spec RUp 64 (dadd (dabs (4 ^ k + 1, - k)%Z) (1, -3 * k)%Z) ltac:(lia)) as (_ & E & S & _). fold ab in E, S.
    rewrite dyv_add, dyv_abs, mid_val, rad_val in E, S. rewrite (Rabs_pos_eq (T + t)) in E, S by lra.
    assert (0 <= t * t * t) by (repeat apply Rmult_le_pos; lra). split; [apply S; lra|].
    rewrite (Rabs_pos_eq (T + t + t * t * t)) in E by lra. apply Rabs_le_inv2 in E.
    pose proof (pw2_pos (1 - 64)). assert ((T + t + t * t * t) * pw2 (1 - 64) <= (T + t + t * t * t) * (1 / 4)) by (apply Rmult_le_compat_l; lra). lra. }
  assert (C3 : t * t * t <= 1 / 8) by nra.
  change (0 <? 1)%Z with true. cbv iota.
  assert (N : (0 <? - 2 ^ k)%Z = false /\ (- 2 ^ k <? 0)%Z = true).
  { assert (0 < 2 ^ k)%Z by (apply Z.pow_pos_nonneg; lia). split; [apply Z.ltb_ge|apply Z.ltb_lt]; lia. }
  destruct N as [-> ->].
  set (m1 := dround RUp 64 (dmul (dround RUp 64 (dz 1)) ab)).
  assert (Hm : 0 <= dyv m1 <= 5 / 4 * dyv ab).
  { destruct (dround_spec RUp 64 (dmul (dround RUp 64 (dz 1)) ab) ltac:(lia)) as (_ & E & S & _). fold m1 in E, S.
    assert (One : dyv (dround RUp 64 (dz 1)) = 1) by (change (dround RUp 64 (dz 1)) with (dz 1); rewrite dyv_dz; reflexivity).
    rewrite dyv_mul, One, Rmult_1_l in E, S. split; [apply S; lra|]. rewrite (Rabs_pos_eq (dyv ab)) in E by lra. apply Rabs_le_inv2 in E.
    assert (dyv ab * pw2 (1 - 64) <= dyv ab * (1 / 4)) by (apply Rmult_le_compat_l; lra). lra. }
  set (s := dround RUp 64 (dsub m1 (dz (- 2 ^ k)))).
  assert (Hs : 0 <= dyv s <= 5 / 4 * (dyv m1 + T)).
  { destruct (dround_spec RUp 64 (dsub m1 (dz (- 2 ^ k))) ltac:(lia)) as (_ & E & S & _). fold s in E, S.
    rewrite dyv_sub, dyv_dz, opp_IZR, IZR_2k in E, S. split; [apply S; lra|]. rewrite (Rabs_pos_eq (dyv m1 - - T)) in E by lra. apply Rabs_le_inv2 in E.
    assert ((dyv m1 - - T) * pw2 (1 - 64) <= (dyv m1 - - T) * (1 / 4)) by (apply Rmult_le_compat_l; lra). lra. }
  destruct (Z.eq_dec (fst s) 0) as [Z0|Z0].
  - unfold dexp. rewrite Z0. change (0 =? 0)%Z with true. cbv iota. lia.
  - destruct (dexp_spec s Z0) as [A _]. rewrite Rabs_pos_eq in A by lra.
    destruct (Z_le_gt_dec (dexp s) (k + 4)) as [L|L]; [exact L|exfalso].
    pose proof (pw2_le (k + 4) (dexp s - 1) ltac:(lia)) as V. rewrite pw2_add in V. rewrite pw2_4 in V. lra.
Qed.

(** Any enclosure of the values on the ball has few correct bits. *)
Lemma enclosure_poor : forall b, (forall y, inb y cball -> inb (ev y celem) b) -> (rel_accuracy b <= 2 * k)%Z.
Proof.
  intros [m r|] H; unfold rel_accuracy, rel_error; [|unfold WORD_MAX; lia].
  pose proof t2 as [t0 th]. pose proof T2 as HT.
  assert (V : forall y, inb y cball -> Rabs (y - T - dyv m) <= dyv r).
  { intros y Hy. specialize (H y Hy). unfold inb in H. unfold ev, celem, zeval in H. cbn [e_num e_den map peval] in H. rewrite opp_IZR, IZR_2k in H.
    replace (y - T - dyv m) with ((- T + y * (1 + y * 0)) / 1 - dyv m) by field. exact H. }
  assert (C0 : 0 < t * t * t) by (repeat apply Rmult_lt_0_compat; lra). assert (C3 : t * t * t <= t) by nra.
  assert (B1 : inb (T + t + t * t * t) cball) by (unfold inb, cball; rewrite mid_val, rad_val; replace (T + t + t * t * t - (T + t)) with (t * t * t) by ring; rewrite Rabs_pos_eq; lra).
  assert (B2 : inb (T + t - t * t * t) cball) by (unfold inb, cball; rewrite mid_val, rad_val; replace (T + t - t * t * t - (T + t)) with (- (t * t * t)) by ring; rewrite Rabs_Ropp, Rabs_pos_eq; lra).
  apply V in B1. apply V in B2. clear V H. apply Rabs_le_inv2 in B1. apply Rabs_le_inv2 in B2.
  assert (R3 : t * t * t <= dyv r) by lra.
  destruct (Z.eqb_spec (fst r) 0) as [E|Nr]; [apply dyv_eq0 in E; lra|].
  destruct (Z.eqb_spec (fst m) 0) as [E|Nm]; [unfold WORD_MAX; lia|].
  destruct (dexp_spec r Nr) as [_ Er]. rewrite Rabs_pos_eq in Er by lra. destruct (dexp_spec m Nm) as [Em _].
  assert (Am : Rabs (dyv m) <= 2 * t + dyv r) by (unfold Rabs; destruct (Rcase_abs _); lra).
  assert (Lr : (1 - 3 * k <= dexp r)%Z).
  { destruct (Z_le_gt_dec (1 - 3 * k) (dexp r)) as [L|L]; [exact L|exfalso]. pose proof (pw2_le (dexp r) (- k + - k + - k) ltac:(lia)) as W.
    rewrite !pw2_add in W. lra. }
  destruct (Rle_dec (dyv r) t) as [S|S].
  - assert (Lm : (dexp m <= 2 - k)%Z).
    { destruct (Z_le_gt_dec (dexp m) (2 - k)) as [L|L]; [exact L|exfalso]. pose proof (pw2_le (2 + - k) (dexp m - 1) ltac:(lia)) as W. rewrite pw2_add in W.
      rewrite pw2_2 in W. lra. }
    lia.
  - assert (Lm : (dexp m <= dexp r + 2)%Z).
    { destruct (Z_le_gt_dec (dexp m) (dexp r + 2)) as [L|L]; [exact L|exfalso]. pose proof (pw2_le (dexp r + 2) (dexp m - 1) ltac:(lia)) as W. rewrite pw2_add in W.
      rewrite pw2_2 in W. lra. }
    lia.
Qed.

End Cancel.

Lemma loss_refuted : forall o, arb_ok o -> forall K, (0 <= K)%Z -> exists nf a x, minimal (f_pol nf) x /\ inb x (f_emb nf) /\ canon (f_pol nf) a /\
  (forall prec, (2 <= prec)%Z -> exists b, set_evaluation o nf a prec = Val b /\ inb (ev x a) b /\ elem_cond nf a + K <= rel_accuracy (f_emb nf) - rel_accuracy b)%Z.
Proof.
  intros o Ho K HK. set (k := (K + 5)%Z). assert (k1 : (1 <= k)%Z) by (subst k; lia).
  exists (cfield k), (celem k), (cx k). split; [apply (cx_minimal k k1)|]. split; [apply (cx_in k k1)|]. split; [apply celem_canon|].
  intros prec Hp. unfold set_evaluation. destruct (Z.ltb_spec prec 2) as [|_]; [lia|]. cbn [linear quadratic f_pol cfield cpol length Nat.leb Nat.eqb].
  eexists. split; [reflexivity|].
  match goal with |- inb _ ?b /\ _ => assert (H : forall y, inb y (cball k) -> inb (ev y (celem k)) b) end.
  { intros y Hy. unfold ev. cbn [e_den celem]. apply (ok_div_z o Ho); [exact Hp| |lia].
    replace (zeval (e_num (celem k)) y) with (y * IZR (nth 1 (e_num (celem k)) 0%Z) + IZR (nth 0 (e_num (celem k)) 0%Z)) by (unfold celem, zeval; cbn [e_num map peval nth]; ring).
    apply (ok_add_z o Ho); [exact Hp|]. apply (ok_mul_z o Ho); [exact Hp|]. exact Hy. }
  split; [apply H, cx_in; exact k1|]. pose proof (enclosure_poor k k1 _ H) as A. pose proof (ball_accuracy k k1) as B. pose proof (cond_small k k1) as C.
  cbn [f_emb cfield] in *. rewrite B. subst k. lia.
Qed.
