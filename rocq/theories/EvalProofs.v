(** Evaluation of polynomials in floating point numbers and balls, see PropertiesEval.v. *)
Require Import Reals List ZArith Bool Arith Lia Lra.
From Verif Require Import PolyR RootSpec RootModel VcaProofs Dyadic DyadicProofs ArbModel ArbSpec ArbProofs ElemProofs EvalModel EvalSpec.
Import ListNotations.
Open Scope R_scope.

(** * Memory *)
Section Mem.
Variable V : Type.
Variable zero : V.
Variable mul : V -> V -> V.
Variable addz divz : V -> Z -> V.

Fixpoint hval (p : list Z) (x : V) : V := match p with [] => zero | c :: q => addz (mul (hval q x) x) c end.

Lemma put_at : forall (m : nat -> V) i v, put V m i v i = v.
Proof. intros. unfold put. rewrite Nat.eqb_refl. reflexivity. Qed.
Lemma put_other : forall (m : nat -> V) i j v, j <> i -> put V m i v j = m j.
Proof. intros m i j v H. unfold put. apply Nat.eqb_neq in H. rewrite H. reflexivity. Qed.

Lemma eval_in_spec : forall res a, a <> res -> forall p m, eval_in V zero mul addz res a p m res = hval p (m a) /\
  forall j, j <> res -> eval_in V zero mul addz res a p m j = m j.
Proof.
  intros res a Ha p m. unfold eval_in. induction p as [|c q [IH1 IH2]]; cbn [rev fold_left hval].
  - split; [apply put_at|]. intros j Hj. apply put_other, Hj.
  - rewrite fold_left_app. cbn [fold_left]. set (m' := fold_left _ _ _) in *. unfold eval_step. split.
    + rewrite !put_at, IH1, (IH2 a Ha). reflexivity.
    + intros j Hj. rewrite !put_other by exact Hj. apply IH2, Hj.
Qed.

Lemma eval_q_in_spec : forall res a, a <> res -> forall p d m, eval_q_in V zero mul addz divz res a p d m res = divz (hval p (m a)) d /\
  forall j, j <> res -> eval_q_in V zero mul addz divz res a p d m j = m j.
Proof.
  intros res a Ha p d m. destruct (eval_in_spec res a Ha p m) as [A B]. unfold eval_q_in. split; [rewrite put_at, A; reflexivity|].
  intros j Hj. rewrite put_other by exact Hj. apply B, Hj.
Qed.

Lemma aliased_spec : forall f (g : V -> V), (forall res a m, a <> res -> f res a m res = g (m a) /\ forall j, j <> res -> f res a m j = m j) ->
  forall tmp res a m, tmp <> res -> tmp <> a -> aliased V f tmp res a m res = g (m a) /\
  forall j, j <> res -> j <> tmp -> aliased V f tmp res a m j = m j.
Proof.
  intros f g H tmp res a m H1 H2. unfold aliased. destruct (Nat.eqb_spec a res) as [->|N].
  - destruct (H tmp res m ltac:(congruence)) as [A B]. unfold swap_in. split.
    + rewrite put_at. exact A.
    + intros j Hj Ht. rewrite !put_other by assumption. apply B, Ht.
  - destruct (H res a m N) as [A B]. split; [exact A|]. intros j Hj _. apply B, Hj.
Qed.

Lemma evaluate_spec : forall tmp res a p m, tmp <> res -> tmp <> a -> evaluate V zero mul addz tmp res a p m res = hval p (m a) /\
  forall j, j <> res -> j <> tmp -> evaluate V zero mul addz tmp res a p m j = m j.
Proof.
  intros tmp res a p m. apply (aliased_spec (fun res a => eval_in V zero mul addz res a p) (hval p)).
  intros res' a' m' N. apply eval_in_spec, N.
Qed.
Lemma evaluate_q_spec : forall tmp res a p d m, tmp <> res -> tmp <> a -> evaluate_q V zero mul addz divz tmp res a p d m res = divz (hval p (m a)) d /\
  forall j, j <> res -> j <> tmp -> evaluate_q V zero mul addz divz tmp res a p d m j = m j.
Proof.
  intros tmp res a p d m. apply (aliased_spec (fun res a => eval_q_in V zero mul addz divz res a p d) (fun x => divz (hval p x) d)).
  intros res' a' m' N. apply eval_q_in_spec, N.
Qed.
End Mem.

(** * Balls *)
Lemma hval_arb : forall o prec p x, hval ball bzero (fun x y => o_mul o x y prec) (fun x c => o_add_z o x c prec) p x = eval_arb o p x prec.
Proof. intros o prec p x. induction p as [|c q IH]; [reflexivity|]. cbn [hval eval_arb]. rewrite IH. reflexivity. Qed.

(** * Rounding to nearest *)
Lemma zround_near : forall m s, (0 < s)%Z -> 2 * Rabs (IZR m - IZR (zround RNear m s) * pw2 s) <= pw2 s.
Proof.
  intros m s Hs. rewrite zround_eq by lia. assert (Hp2 : (0 < 2 ^ s)%Z) by (apply Z.pow_pos_nonneg; lia).
  set (q := (m / 2 ^ s)%Z). assert (Em : (m = 2 ^ s * q + m mod 2 ^ s)%Z) by (apply Z.div_mod; lia).
  pose proof (Z.mod_pos_bound m (2 ^ s) Hp2) as Hb. set (r := (m mod 2 ^ s)%Z) in *.
  assert (K : forall z, (2 * Z.abs (m - z * 2 ^ s) <= 2 ^ s)%Z -> 2 * Rabs (IZR m - IZR z * pw2 s) <= pw2 s).
  { intros z Hz. rewrite <- pw2_IZR by lia. rewrite <- mult_IZR, <- minus_IZR, <- abs_IZR, <- mult_IZR. apply IZR_le, Hz. }
  cbn beta iota. destruct (2 * r ?= 2 ^ s)%Z eqn:E.
  - apply Z.compare_eq in E. destruct (Z.even q); apply K; nia.
  - rewrite Z.compare_lt_iff in E. apply K. nia.
  - rewrite Z.compare_gt_iff in E. apply K. nia.
Qed.

Lemma dround_near : forall prec d, (1 <= prec)%Z -> Rabs (dyv (dround RNear prec d) - dyv d) <= pw2 (- prec) * Rabs (dyv d).
Proof.
  intros prec [m e] Hprec. unfold dround. cbn [fst snd]. pose proof (pw2_pos (- prec)) as Hpp. pose proof (Rabs_pos (dyv (m, e))) as Hab.
  destruct (Z.leb_spec (zbits m - prec) 0) as [Hs|Hs].
  - rewrite Rminus_diag_eq, Rabs_R0 by reflexivity. apply Rmult_le_pos; lra.
  - assert (Hm : m <> 0%Z). { intros ->. unfold zbits in Hs. simpl in Hs. lia. }
    destruct (zbits_spec m Hm) as [[B1 B2] B3]. set (s := (zbits m - prec)%Z) in *.
    pose proof (zround_near m s Hs) as R. pose proof (pw2_pos e) as He.
    assert (E : dyv (zround RNear m s, (e + s)%Z) = IZR (zround RNear m s) * pw2 s * pw2 e).
    { unfold dyv. cbn [fst snd]. rewrite pw2_add. ring. }
    rewrite E, Rabs_minus_sym. unfold dyv. cbn [fst snd].
    rewrite <- Rmult_minus_distr_r, !Rabs_mult, (Rabs_pos_eq (pw2 e)) by lra.
    rewrite <- Rmult_assoc. apply Rmult_le_compat_r; [lra|].
    apply Rle_trans with (pw2 (- prec) * pw2 (zbits m - 1)).
    + rewrite <- pw2_add. replace (- prec + (zbits m - 1))%Z with (s + - 1)%Z by (unfold s; lia). rewrite pw2_add.
      assert (Hh : pw2 (-1) * 2 = 1) by (rewrite <- pw2_1, <- pw2_add; reflexivity).
      assert (E1 : pw2 (-1) = / 2) by lra. rewrite E1. lra.
    + apply Rmult_le_compat_l; [lra|]. rewrite <- pw2_IZR, <- abs_IZR by lia. apply IZR_le. assumption.
Qed.

Lemma dround_wide : forall md prec d, (zbits (fst d) <= prec)%Z -> dround md prec d = d.
Proof. intros md prec d H. unfold dround. destruct (Z.leb_spec (zbits (fst d) - prec) 0); [reflexivity|lia]. Qed.

(** * The error of Horner's scheme *)
Definition arf_val (prec : Z) (p : list Z) (a : dy) : dy := hval dy (dz 0) (arf_mul prec) (arf_addz prec) p a.

Lemma near_factor : forall prec d, (1 <= prec)%Z -> exists t, dyv (dround RNear prec d) = dyv d * (1 + t) /\ Rabs t <= pw2 (- prec).
Proof.
  intros prec d H. pose proof (dround_near prec d H) as B. destruct (Req_dec (dyv d) 0) as [Z|N].
  - exists 0. rewrite Rabs_R0. pose proof (pw2_pos (- prec)). split; [|lra]. rewrite Z in *. rewrite Rabs_R0, Rmult_0_r in B.
    pose proof (Rabs_pos (dyv (dround RNear prec d) - 0)). assert (Rabs (dyv (dround RNear prec d) - 0) = 0) as E by lra.
    destruct (Req_dec (dyv (dround RNear prec d) - 0) 0) as [|C]; [lra|]. apply Rabs_no_R0 in C. lra.
  - exists ((dyv (dround RNear prec d) - dyv d) / dyv d). split; [field; exact N|].
    unfold Rdiv. rewrite Rabs_mult, Rabs_inv. pose proof (Rabs_pos_lt _ N). apply Rmult_le_reg_r with (Rabs (dyv d)); [assumption|].
    rewrite Rmult_assoc, Rinv_l, Rmult_1_r by lra. exact B.
Qed.

Lemma abs_sum_cons : forall c q x, abs_sum (c :: q) x = Rabs (IZR c) + Rabs x * abs_sum q x.
Proof. intros. unfold abs_sum. cbn [map]. rewrite zeval_cons, abs_IZR. reflexivity. Qed.
Lemma abs_sum_nonneg : forall q x, 0 <= abs_sum q x.
Proof.
  intros q x. induction q as [|c q IH]; [unfold abs_sum; cbn; lra|]. rewrite abs_sum_cons. pose proof (Rabs_pos (IZR c)). pose proof (Rabs_pos x). nra.
Qed.
Lemma zeval_abs_sum : forall q x, Rabs (zeval q x) <= abs_sum q x.
Proof.
  intros q x. induction q as [|c q IH]; [unfold abs_sum, zeval; cbn; rewrite Rabs_R0; lra|]. rewrite abs_sum_cons, zeval_cons.
  eapply Rle_trans; [apply Rabs_triang|]. rewrite Rabs_mult. pose proof (Rabs_pos x). apply Rplus_le_compat_l, Rmult_le_compat_l; assumption.
Qed.

Lemma arf_error : forall prec p a, (1 <= prec)%Z ->
  Rabs (dyv (arf_val prec p a) - zeval p (dyv a)) <= ((1 + pw2 (- prec)) ^ (2 * length p) - 1) * abs_sum p (dyv a).
Proof.
  intros prec p a H. set (u := pw2 (- prec)). assert (U : 0 < u) by apply pw2_pos. set (x := dyv a).
  assert (P1 : forall n, 1 <= (1 + u) ^ n) by (intros n; apply pow_R1_Rle; lra).
  induction p as [|c q IH].
  - unfold arf_val, abs_sum, zeval. cbn [hval map peval length Nat.mul pow]. rewrite dyv_dz, Rminus_0_r, Rabs_R0. lra.
  - rewrite abs_sum_cons, zeval_cons. change (arf_val prec (c :: q) a) with (arf_addz prec (arf_mul prec (arf_val prec q a) a) c).
    unfold arf_addz, arf_mul. destruct (near_factor prec (dmul (arf_val prec q a) a) H) as (t1 & E1 & T1).
    destruct (near_factor prec (dadd (dround RNear prec (dmul (arf_val prec q a) a)) (dz c)) H) as (t2 & E2 & T2).
    rewrite E2, dyv_add, dyv_dz, E1, dyv_mul. fold u in T1, T2. set (v := dyv (arf_val prec q a)) in *. fold x.
    replace (2 * length (c :: q))%nat with (2 + 2 * length q)%nat by (cbn [length]; lia). rewrite pow_add.
    set (K := (1 + u) ^ (2 * length q)) in *. assert (K1 : 1 <= K) by apply P1. replace ((1 + u) ^ 2) with ((1 + u) * (1 + u)) by ring.
    set (A := abs_sum q x) in *. assert (A0 : 0 <= A) by apply abs_sum_nonneg. pose proof (zeval_abs_sum q x) as ZA. fold A in ZA.
    assert (V : Rabs v <= K * A).
    { replace v with ((v - zeval q x) + zeval q x) by ring. eapply Rle_trans; [apply Rabs_triang|]. lra. }
    replace ((v * x * (1 + t1) + IZR c) * (1 + t2) - (IZR c + x * zeval q x)) with
      (IZR c * t2 + x * (v * (t1 + t2 + t1 * t2) + (v - zeval q x))) by ring.
    eapply Rle_trans; [apply Rabs_triang|]. rewrite !Rabs_mult.
    assert (T12 : Rabs (t1 + t2 + t1 * t2) <= 2 * u + u * u).
    { eapply Rle_trans; [apply Rabs_triang|]. rewrite Rabs_mult. pose proof (Rabs_triang t1 t2). pose proof (Rabs_pos t1). pose proof (Rabs_pos t2).
      assert (Rabs t1 * Rabs t2 <= u * u) by (apply Rmult_le_compat; assumption). lra. }
    assert (W : Rabs (v * (t1 + t2 + t1 * t2) + (v - zeval q x)) <= ((1 + u) * (1 + u) * K - 1) * A).
    { eapply Rle_trans; [apply Rabs_triang|]. rewrite Rabs_mult.
      assert (Rabs v * Rabs (t1 + t2 + t1 * t2) <= K * A * (2 * u + u * u)) by (apply Rmult_le_compat; try apply Rabs_pos; assumption).
      replace (((1 + u) * (1 + u) * K - 1) * A) with (K * A * (2 * u + u * u) + (K - 1) * A) by ring. lra. }
    assert (G : u <= (1 + u) * (1 + u) * K - 1) by nra.
    rewrite (Rmult_plus_distr_l _ (Rabs (IZR c))). apply Rplus_le_compat.
    + rewrite Rmult_comm. apply Rmult_le_compat_r; [apply Rabs_pos|lra].
    + replace (((1 + u) * (1 + u) * K - 1) * (Rabs x * A)) with (Rabs x * (((1 + u) * (1 + u) * K - 1) * A)) by ring.
      apply Rmult_le_compat_l; [apply Rabs_pos|exact W].
Qed.

Lemma arf_exact : forall p a, exists P v, dyv v = zeval p (dyv a) /\ forall prec, (P <= prec)%Z -> arf_val prec p a = v.
Proof.
  intros p a. induction p as [|c q (P & v & Ev & H)].
  - exists 0%Z, (dz 0). split; [rewrite dyv_dz; reflexivity|reflexivity].
  - set (w := dadd (dmul v a) (dz c)). exists (Z.max P (Z.max (zbits (fst (dmul v a))) (zbits (fst w)))), w. split.
    + unfold w. rewrite dyv_add, dyv_mul, dyv_dz, Ev, zeval_cons. ring.
    + intros prec Hp. change (arf_val prec (c :: q) a) with (arf_addz prec (arf_mul prec (arf_val prec q a) a) c).
      rewrite H by lia. unfold arf_mul. rewrite dround_wide by lia. unfold arf_addz. fold w. apply dround_wide. lia.
Qed.

(** * Statements *)
Lemma evaluate_arf_error : forall prec tmp res a p m, (2 <= prec)%Z -> tmp <> res -> tmp <> a ->
  exists m', evaluate_arf prec tmp res a p m = Val m' /\
  Rabs (dyv (m' res) - zeval p (dyv (m a))) <= ((1 + pw2 (- prec)) ^ (2 * length p) - 1) * abs_sum p (dyv (m a)) /\
  forall j, j <> res -> j <> tmp -> m' j = m j.
Proof.
  intros prec tmp res a p m Hp H1 H2. unfold evaluate_arf. destruct (Z.ltb_spec prec 2); [lia|]. eexists. split; [reflexivity|].
  destruct (evaluate_spec dy (dz 0) (arf_mul prec) (arf_addz prec) tmp res a p m H1 H2) as [A B]. rewrite A. split; [|exact B].
  apply arf_error. lia.
Qed.

Lemma evaluate_arf_exact : forall p a, exists P, forall prec tmp res i m, (P <= prec)%Z -> tmp <> res -> tmp <> i -> m i = a ->
  exists m', evaluate_arf prec tmp res i p m = Val m' /\ dyv (m' res) = zeval p (dyv a).
Proof.
  intros p a. destruct (arf_exact p a) as (P & v & Ev & H). exists (Z.max P 2). intros prec tmp res i m Hp H1 H2 Hi.
  unfold evaluate_arf. destruct (Z.ltb_spec prec 2); [lia|]. eexists. split; [reflexivity|].
  rewrite (proj1 (evaluate_spec dy (dz 0) (arf_mul prec) (arf_addz prec) tmp res i p m H1 H2)), Hi. fold (arf_val prec p a).
  rewrite H by lia. exact Ev.
Qed.

Lemma evaluate_q_arf_error : forall div, div_near div -> forall prec tmp res a p d m, (2 <= prec)%Z -> tmp <> res -> tmp <> a -> d <> 0%Z ->
  exists m', evaluate_q_arf div prec tmp res a p d m = Val m' /\
  Rabs (dyv (m' res) - zeval p (dyv (m a)) / IZR d) <= ((1 + pw2 (- prec)) ^ (2 * length p + 1) - 1) * (abs_sum p (dyv (m a)) / Rabs (IZR d)) /\
  forall j, j <> res -> j <> tmp -> m' j = m j.
Proof.
  intros div Hd prec tmp res a p d m Hp H1 H2 Nd. unfold evaluate_q_arf. destruct (Z.ltb_spec prec 2); [lia|]. eexists. split; [reflexivity|].
  destruct (evaluate_q_spec dy (dz 0) (arf_mul prec) (arf_addz prec) (fun x d => div x d prec) tmp res a p d m H1 H2) as [A B]. rewrite A. split; [|exact B].
  fold (arf_val prec p (m a)). pose proof (Hd (arf_val prec p (m a)) d prec Hp Nd) as D. pose proof (arf_error prec p (m a) ltac:(lia)) as E.
  set (v := dyv (arf_val prec p (m a))) in *. set (w := dyv (div (arf_val prec p (m a)) d prec)) in *.
  set (u := pw2 (- prec)) in *. assert (U : 0 < u) by apply pw2_pos. rewrite pow_add, pow_1. set (K := (1 + u) ^ (2 * length p)) in *.
  assert (K1 : 1 <= K) by (apply pow_R1_Rle; lra). set (x := dyv (m a)) in *. set (S := abs_sum p x) in *.
  pose proof (zeval_abs_sum p x) as ZA. fold S in ZA. pose proof (abs_sum_nonneg p x) as S0. fold S in S0.
  assert (N : IZR d <> 0) by (apply not_0_IZR; exact Nd). pose proof (Rabs_pos_lt _ N) as Np. set (t := / Rabs (IZR d)) in *.
  assert (T0 : 0 < t) by (apply Rinv_0_lt_compat, Np).
  assert (X1 : Rabs (v / IZR d) = Rabs v * t) by (unfold Rdiv; rewrite Rabs_mult, Rabs_inv; reflexivity).
  assert (X2 : Rabs (v / IZR d - zeval p x / IZR d) = Rabs (v - zeval p x) * t).
  { replace (v / IZR d - zeval p x / IZR d) with ((v - zeval p x) * / IZR d) by (field; exact N). rewrite Rabs_mult, Rabs_inv. reflexivity. }
  assert (V : Rabs v <= K * S).
  { replace v with ((v - zeval p x) + zeval p x) by ring. eapply Rle_trans; [apply Rabs_triang|]. lra. }
  replace (w - zeval p x / IZR d) with ((w - v / IZR d) + (v / IZR d - zeval p x / IZR d)) by ring.
  eapply Rle_trans; [apply Rabs_triang|]. rewrite X2. rewrite X1 in D. unfold Rdiv. fold t.
  assert (Y1 : Rabs v * t <= K * S * t) by (apply Rmult_le_compat_r; lra).
  assert (Y2 : u * (Rabs v * t) <= u * (K * S * t)) by (apply Rmult_le_compat_l; lra).
  assert (Y3 : Rabs (v - zeval p x) * t <= (K - 1) * S * t) by (apply Rmult_le_compat_r; lra).
  replace ((K * (1 + u) - 1) * (S * t)) with (u * (K * S * t) + (K - 1) * S * t) by ring. lra.
Qed.

Lemma evaluate_arb_ok : forall o, arb_ok o -> forall prec tmp res a p m, (2 <= prec)%Z -> tmp <> res -> tmp <> a ->
  exists m', evaluate_arb o prec tmp res a p m = Val m' /\ (forall x, inb x (m a) -> inb (zeval p x) (m' res)) /\
  forall j, j <> res -> j <> tmp -> m' j = m j.
Proof.
  intros o Ho prec tmp res a p m Hp H1 H2. unfold evaluate_arb. destruct (Z.ltb_spec prec 2); [lia|]. eexists. split; [reflexivity|].
  destruct (evaluate_spec ball bzero (fun x y => o_mul o x y prec) (fun x c => o_add_z o x c prec) tmp res a p m H1 H2) as [A B].
  rewrite A, hval_arb. split; [|exact B]. intros x Hx. apply eval_arb_ok; assumption.
Qed.

Lemma evaluate_q_arb_ok : forall o, arb_ok o -> forall prec tmp res a p d m, (2 <= prec)%Z -> tmp <> res -> tmp <> a -> d <> 0%Z ->
  exists m', evaluate_q_arb o prec tmp res a p d m = Val m' /\ (forall x, inb x (m a) -> inb (zeval p x / IZR d) (m' res)) /\
  forall j, j <> res -> j <> tmp -> m' j = m j.
Proof.
  intros o Ho prec tmp res a p d m Hp H1 H2 Nd. unfold evaluate_q_arb. destruct (Z.ltb_spec prec 2); [lia|]. eexists. split; [reflexivity|].
  destruct (evaluate_q_spec ball bzero (fun x y => o_mul o x y prec) (fun x c => o_add_z o x c prec) (fun x d => o_div_z o x d prec) tmp res a p d m H1 H2) as [A B].
  rewrite A, hval_arb. split; [|exact B]. intros x Hx. apply eval_arb_q_ok; assumption.
Qed.

(** * A division within the contract: the quotient rounded down with enough bits *)
Definition qdiv (x : dy) (d prec : Z) : dy :=
  let k := Z.max 0 (prec + zbits d - zbits (fst x) + 1) in ((fst x * 2 ^ k) / d, snd x - k)%Z.

Lemma qdiv_near : div_near qdiv.
Proof.
  intros [m e] d prec Hp Nd. unfold qdiv. cbn [fst snd]. set (k := Z.max 0 _). assert (Hk : (0 <= k)%Z) by (unfold k; lia).
  unfold dyv. cbn [fst snd]. pose proof (pw2_pos e) as He. set (q := ((m * 2 ^ k) / d)%Z).
  assert (N : IZR d <> 0) by (apply not_0_IZR; exact Nd).
  assert (E : (m * 2 ^ k = d * q + (m * 2 ^ k) mod d)%Z) by (apply Z.div_mod; exact Nd).
  assert (Hr : (Z.abs ((m * 2 ^ k) mod d) <= Z.abs d)%Z).
  { destruct (Z.lt_trichotomy d 0) as [L|[L|L]]; [|lia|]; [pose proof (Z.mod_neg_bound (m * 2 ^ k) d L)|pose proof (Z.mod_pos_bound (m * 2 ^ k) d L)]; lia. }
  set (r := ((m * 2 ^ k) mod d)%Z) in *.
  assert (P : pw2 (e - k) = pw2 e * / pw2 k).
  { apply (Rmult_eq_reg_r (pw2 k)); [|pose proof (pw2_pos k); lra]. rewrite <- pw2_add. replace (e - k + k)%Z with e by lia.
    field. pose proof (pw2_pos k). lra. }
  rewrite P. assert (Ek : pw2 k = IZR (2 ^ k)) by (symmetry; apply pw2_IZR; exact Hk). pose proof (pw2_pos k) as Pk.
  assert (ER : IZR m * pw2 k = IZR d * IZR q + IZR r) by (rewrite Ek, <- !mult_IZR, <- plus_IZR; apply IZR_eq; exact E).
  replace (IZR q * (pw2 e * / pw2 k) - IZR m * pw2 e / IZR d) with (- (IZR r / IZR d) * (pw2 e * / pw2 k)).
  2:{ replace (IZR q) with ((IZR m * pw2 k - IZR r) / IZR d) by (rewrite ER; field; exact N). field. repeat split; try exact N; apply Rgt_not_eq; assumption. }
  assert (B : Rabs (IZR r / IZR d) <= 1).
  { unfold Rdiv. rewrite Rabs_mult, Rabs_inv. pose proof (Rabs_pos_lt _ N). apply Rmult_le_reg_r with (Rabs (IZR d)); [assumption|].
    rewrite Rmult_assoc, Rinv_l, Rmult_1_r, Rmult_1_l by lra. rewrite <- !abs_IZR. apply IZR_le, Hr. }
  rewrite Rabs_mult, Rabs_Ropp. pose proof (Rinv_0_lt_compat _ Pk) as Ik.
  assert (Q0 : 0 < pw2 e * / pw2 k) by (apply Rmult_lt_0_compat; lra). rewrite (Rabs_pos_eq (pw2 e * / pw2 k)) by lra.
  destruct (Z.eq_dec m 0) as [->|Nm].
  { assert (r = 0%Z) as -> by (unfold r; apply Z.mod_0_l; exact Nd). unfold Rdiv. rewrite !Rmult_0_l, Rabs_R0. lra. }
  eapply Rle_trans; [apply Rmult_le_compat_r; [lra|exact B]|]. rewrite Rmult_1_l.
  destruct (zbits_spec m Nm) as [[M1 _] M3]. destruct (zbits_spec d Nd) as [[_ D2] D3].
  assert (G : pw2 prec <= Rabs (IZR m) * pw2 k / Rabs (IZR d)).
  { pose proof (Rabs_pos_lt _ N) as Np. apply Rmult_le_reg_r with (Rabs (IZR d)); [exact Np|]. unfold Rdiv. rewrite Rmult_assoc, Rinv_l, Rmult_1_r by lra.
    rewrite <- !abs_IZR. apply Rle_trans with (pw2 prec * pw2 (zbits d)).
    - apply Rmult_le_compat_l; [left; apply pw2_pos|]. rewrite <- pw2_IZR by lia. apply IZR_le. lia.
    - apply Rle_trans with (pw2 (zbits m - 1) * pw2 k).
      + rewrite <- !pw2_add. apply pw2_le. unfold k. lia.
      + apply Rmult_le_compat_r; [lra|]. rewrite <- pw2_IZR by lia. apply IZR_le, M1. }
  unfold Rdiv. rewrite !Rabs_mult, Rabs_inv, (Rabs_pos_eq (pw2 e)) by lra.
  replace (pw2 (- prec) * (Rabs (IZR m) * pw2 e * / Rabs (IZR d))) with (pw2 (- prec) * (Rabs (IZR m) * pw2 k / Rabs (IZR d)) * (pw2 e * / pw2 k)).
  2:{ field. split; [apply Rabs_no_R0; exact N|lra]. }
  apply Rle_trans with (1 * (pw2 e * / pw2 k)); [lra|]. apply Rmult_le_compat_r; [lra|].
  rewrite <- (pw2_0). replace 0%Z with (- prec + prec)%Z by lia. rewrite pw2_add. apply Rmult_le_compat_l; [left; apply pw2_pos|exact G].
Qed.
