(** What renf_elem_set_nf_elem does with the precision it is given. *)
Require Import Reals List ZArith Bool Lia Lra Psatz.
From Verif Require Import PolyR RootSpec RootModel ExtraModel Dyadic DyadicProofs VcaProofs ArbModel ArbSpec ArbProofs FieldProofs
  DyRate ArbRefute ElemModel ElemSpec ElemProofs EndsProofs RefineEnds CxxRefute CondLoss FlSpec FlProofs FlRefute.
Import ListNotations.
Open Scope R_scope.

(** * A field that is not sharp enough *)

(** Around the square root of 2. *)
Definition two_ball : ball := Fin (1709679290002018430137083, -80)%Z (1, -66)%Z.
Definition two_field : renf := {| f_pol := [-2; 0; 1]%Z; f_den := 1; f_emb := two_ball; f_prec := 64; f_imm := 0 |}.

Lemma two_in : inb (sqrt 2) two_ball.
Proof.
  assert (S2 : sqrt 2 * sqrt 2 = 2) by (apply sqrt_sqrt; lra). pose proof (sqrt_pos 2) as S0.
  unfold two_ball. apply inb_bounds. change (-80)%Z with (- (80))%Z. change (-66)%Z with (- (66))%Z.
  rewrite (dyv_neg_exp _ 80), (dyv_neg_exp _ 66) by lia.
  change (2 ^ 80)%Z with 1208925819614629174706176%Z. change (2 ^ 66)%Z with 73786976294838206464%Z.
  set (l := 1709679290002018430137083 / 1208925819614629174706176 - 1 / 73786976294838206464).
  set (h := 1709679290002018430137083 / 1208925819614629174706176 + 1 / 73786976294838206464).
  assert (Hl : 0 < l /\ l * l < 2) by (unfold l; split; lra). assert (Hh : 0 < h /\ 2 < h * h) by (unfold h; split; lra).
  split; nra.
Qed.

Lemma two_made : forall o, arb_fl o -> forall debug fuel, renf_init o debug (S fuel) [-2; 0; 1]%Z 1 two_ball 64 = Val two_field.
Proof.
  intros o Hf debug fuel. apply init_sharp with (c := 139%Z).
  - unfold check_unique. change (64 <? 2)%Z with false.
    change (interval two_ball 64) with (Some ((13043817825332782212, -63), (13043817825332782213, -63)))%Z. cbv iota zeta. change (2 * 64)%Z with 128%Z.
    rewrite (sgn2_fl o Hf [-2; 0; 1]%Z (13043817825332782212, -63)%Z 128 (-1) ltac:(lia) ltac:(vm_compute; reflexivity) ltac:(vm_compute; reflexivity)).
    rewrite (sgn2_fl o Hf [-2; 0; 1]%Z (13043817825332782213, -63)%Z 128 1 ltac:(lia) ltac:(vm_compute; reflexivity) ltac:(vm_compute; reflexivity)).
    change (-1 * 1 =? -1)%Z with true. cbv iota.
    assert (B : below two_ball two_ball).
    { unfold two_ball, below. split; [reflexivity|]. split; [|lra]. apply dyv_nonneg. cbn [fst]. lia. }
    destruct (below_sign _ _ (eval_below o Hf (zderiv [-2; 0; 1]%Z) _ _ 64 ltac:(lia) B) ltac:(vm_compute; reflexivity)) as [-> _]. reflexivity.
  - reflexivity.
  - vm_compute. discriminate.
  - intros i. vm_compute. reflexivity.
Qed.

(** A ball with two points of size at most 2 and distance 2^-65. *)
Lemma wide_ball : forall b u v, inb u b -> inb v b -> Rabs u <= 2 -> u - v = pw2 (-65) -> (rel_accuracy b <= 68)%Z.
Proof.
  intros [m r|] u v Hu Hv U D; unfold rel_accuracy, rel_error; [|unfold WORD_MAX; lia].
  unfold inb in Hu, Hv. pose proof (pw2_pos (-65)) as P.
  assert (R : pw2 (-66) <= dyv r).
  { assert (E : pw2 (-65) = 2 * pw2 (-66)) by (change (-65)%Z with (1 + -66)%Z; rewrite pw2_add, pw2_1; ring).
    apply Rabs_le_inv2 in Hu. apply Rabs_le_inv2 in Hv. lra. }
  pose proof (pw2_pos (-66)) as P6.
  destruct (Z.eqb_spec (fst r) 0) as [E|Nr]; [apply dyv_eq0 in E; lra|].
  destruct (Z.eqb_spec (fst m) 0) as [E|Nm]; [unfold WORD_MAX; lia|].
  destruct (dexp_spec r Nr) as [_ Er]. rewrite Rabs_pos_eq in Er by lra. destruct (dexp_spec m Nm) as [Em _].
  assert (Am : Rabs (dyv m) <= 2 + dyv r).
  { replace (dyv m) with (u - (u - dyv m)) by ring. eapply Rle_trans; [apply Rabs_triang|]. rewrite Rabs_Ropp. lra. }
  assert (Lr : (-65 <= dexp r)%Z).
  { destruct (Z_le_gt_dec (-65) (dexp r)) as [L|L]; [exact L|exfalso]. pose proof (pw2_le (dexp r) (-66) ltac:(lia)). lra. }
  destruct (Rle_dec (dyv r) 2) as [S|S].
  - assert (Lm : (dexp m <= 3)%Z).
    { destruct (Z_le_gt_dec (dexp m) 3) as [L|L]; [exact L|exfalso]. pose proof (pw2_le 3 (dexp m - 1) ltac:(lia)) as W.
      change 3%Z with (2 + 1)%Z in W. rewrite pw2_add, pw2_2, pw2_1 in W. lra. }
    lia.
  - assert (Lm : (dexp m <= dexp r + 2)%Z).
    { destruct (Z_le_gt_dec (dexp m) (dexp r + 2)) as [L|L]; [exact L|exfalso]. pose proof (pw2_le (dexp r + 2) (dexp m - 1) ltac:(lia)) as W.
      rewrite pw2_add, pw2_2 in W. lra. }
    lia.
Qed.

Definition two_gen : elem := {| e_num := [0; 1]%Z; e_den := 1 |}.

Lemma two_poor : forall o, arb_ok o -> forall prec, (2 <= prec)%Z -> exists b, set_evaluation o two_field two_gen prec = Val b /\ (rel_accuracy b <= 68)%Z.
Proof.
  intros o Ho prec Hp. unfold set_evaluation. destruct (Z.ltb_spec prec 2) as [|_]; [lia|]. cbn [linear quadratic f_pol two_field length Nat.leb Nat.eqb].
  eexists. split; [reflexivity|].
  match goal with |- (rel_accuracy ?b <= _)%Z => assert (H : forall y, inb y two_ball -> inb y b) end.
  { intros y Hy. replace y with ((y * IZR (nth 1 (e_num two_gen) 0%Z) + IZR (nth 0 (e_num two_gen) 0%Z)) / IZR (e_den two_gen)) at 1 by (cbn [e_num e_den nth two_gen]; field).
    apply (ok_div_z o Ho); [exact Hp| |cbn; lia]. apply (ok_add_z o Ho); [exact Hp|]. apply (ok_mul_z o Ho); [exact Hp|exact Hy]. }
  set (c := dyv (1709679290002018430137083, -80)%Z) in *. set (r := dyv (1, -66)%Z).
  assert (Er : r = pw2 (-66)) by (unfold r, dyv; cbn [fst snd]; ring).
  assert (R0 : 0 < r) by (rewrite Er; apply pw2_pos).
  assert (Ec : c = 1709679290002018430137083 / 1208925819614629174706176).
  { unfold c. change (-80)%Z with (- (80))%Z. rewrite (dyv_neg_exp _ 80) by lia. reflexivity. }
  assert (R1 : r <= 1 / 2) by (rewrite Er; replace (1 / 2) with (pw2 (-1)) by (rewrite pw2_m1; lra); apply pw2_le; lia).
  apply (wide_ball _ (c + r) (c - r)).
  - apply H. unfold inb, two_ball. fold c r. replace (c + r - c) with r by ring. rewrite Rabs_pos_eq; lra.
  - apply H. unfold inb, two_ball. fold c r. replace (c - r - c) with (- r) by ring. rewrite Rabs_Ropp, Rabs_pos_eq; lra.
  - rewrite Rabs_pos_eq; lra.
  - rewrite Er. change (-65)%Z with (1 + -66)%Z. rewrite pw2_add, pw2_1. ring.
Qed.

Lemma two_min : minimal [-2; 0; 1]%Z (sqrt 2).
Proof. exact (sq_minimal 1 (sqrt 2) eq_refl (sqrt_sqrt 2 ltac:(lra))). Qed.

Lemma two_only : forall y, inb y two_ball -> zeval [-2; 0; 1]%Z y = 0 -> y = sqrt 2.
Proof.
  intros y Hy E. rewrite zeval2 in E. assert (S2 : sqrt 2 * sqrt 2 = 2) by (apply sqrt_sqrt; lra). pose proof (sqrt_pos 2) as S0.
  assert (P : 0 < y).
  { unfold two_ball in Hy. apply inb_bounds in Hy. change (-80)%Z with (- (80))%Z in Hy. change (-66)%Z with (- (66))%Z in Hy.
    rewrite (dyv_neg_exp _ 80), (dyv_neg_exp _ 66) in Hy by lia.
    change (2 ^ 80)%Z with 1208925819614629174706176%Z in Hy. change (2 ^ 66)%Z with 73786976294838206464%Z in Hy. lra. }
  assert (F : (y - sqrt 2) * (y + sqrt 2) = 0) by lra. apply Rmult_integral in F. destruct F; lra.
Qed.

Lemma gen_canon : canon [-2; 0; 1]%Z two_gen.
Proof.
  constructor; cbn.
  - lia.
  - discriminate.
  - lia.
  - intros g G D _. apply Z.divide_1_r_nonneg; [lia|exact D].
Qed.

Lemma set_nf_poor : exists pol a x e, minimal pol x /\ inb x a /\ (forall y, inb y a -> zeval pol y = 0 -> y = x) /\ canon pol e /\
  forall o, arb_ok o -> arb_fl o -> forall debug fuel, exists nf, renf_init o debug (S fuel) pol 1 a 64 = Val nf /\
    forall n m i prec, (2 <= prec)%Z -> exists m', run o n debug fuel nf m (KSetNf i e prec) = Val (nf, m') /\ (rel_accuracy (r_emb (m' i)) <= 68)%Z.
Proof.
  exists [-2; 0; 1]%Z, two_ball, (sqrt 2), two_gen. split; [exact two_min|]. split; [exact two_in|]. split; [exact two_only|]. split; [exact gen_canon|].
  intros o Ho Hf debug fuel. exists two_field. split; [apply two_made, Hf|].
  intros n m i prec Hp. destruct (two_poor o Ho prec Hp) as (b & E & A). cbn [run].
  replace (r_elem (upd_elem m i two_gen i)) with two_gen by (unfold upd_elem, upd; rewrite Nat.eqb_refl; reflexivity).
  rewrite E. cbn [bind]. eexists. split; [reflexivity|]. unfold upd_emb, upd. rewrite Nat.eqb_refl. exact A.
Qed.

(** * Fields that are sharp enough *)
Lemma set_nf_sharp : forall o pol x, arb_ok o -> arb_conv o -> minimal pol x -> forall e, canon pol e -> ev x e <> 0 ->
  forall acc, (0 <= acc)%Z -> (acc + 2 < WORD_MAX)%Z -> exists P, forall n debug fuel nf m i prec,
  f_pol nf = pol -> inb x (f_emb nf) -> (2 <= f_prec nf)%Z -> (P <= rel_accuracy (f_emb nf))%Z -> (P <= prec)%Z ->
  exists m', run o n debug fuel nf m (KSetNf i e prec) = Val (nf, m') /\ r_elem (m' i) = e /\ inb (ev x e) (r_emb (m' i)) /\ (acc <= rel_accuracy (r_emb (m' i)))%Z.
Proof.
  intros o pol x Ho Hc Hm e He Hv acc H0 Hw.
  destruct (error_small (ev x e) acc Hv H0 Hw) as (eps & Heps & HU).
  destruct (sharp_after o pol x (fun _ => True) Ho Hc e He eps Heps) as (P & HP).
  exists P. intros n debug fuel nf m i prec G1 G2 G3 HA Hp.
  assert (G : good pol x (fun _ => True) nf) by (repeat split; assumption).
  destruct (HP nf P (prec - P)%Z G HA ltac:(lia) ltac:(lia)) as (b & E & R). replace (P + (prec - P))%Z with prec in E by lia.
  pose proof (set_eval_ok o pol x (fun _ => True) Ho Hm nf e prec b G He E) as I.
  cbn [run]. replace (r_elem (upd_elem m i e i)) with e by (unfold upd_elem, upd; rewrite Nat.eqb_refl; reflexivity).
  rewrite E. cbn [bind]. eexists. split; [reflexivity|]. unfold upd_emb, upd_elem, upd. rewrite !Nat.eqb_refl. cbn [r_elem r_emb].
  split; [reflexivity|]. split; [exact I|]. specialize (HU b I R). unfold rel_accuracy. lia.
Qed.
