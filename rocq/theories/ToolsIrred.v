(** Polynomials irreducible modulo a prime. *)
Require Import Reals List ZArith Znumtheory Lia Lra.
From Verif Require Import PolyR RootSpec Dyadic ArbModel ArbSpec ElemModel ElemSpec ToolsModel ToolsSpec.
Import ListNotations.
Open Scope Z_scope.

Lemma peval_cons : forall a p x, peval (a :: p) x = (a + x * peval p x)%R.
Proof. reflexivity. Qed.

Lemma conv_nil : forall b i, conv_coeff [] b i = 0.
Proof.
  intros b i. unfold conv_coeff. generalize (seq 0 (S i)). intros l. induction l as [|j l IH]; [reflexivity|].
  cbn [map fold_right]. rewrite IH. destruct j; reflexivity.
Qed.
Lemma conv_0 : forall a b, conv_coeff a b 0 = nth 0 a 0 * nth 0 b 0.
Proof. intros a b. unfold conv_coeff. cbn. ring. Qed.
Lemma conv_consl : forall u a b i, conv_coeff (u :: a) b (S i) = u * nth (S i) b 0 + conv_coeff a b i.
Proof.
  intros u a b i. unfold conv_coeff. change (seq 0 (S (S i))) with (0%nat :: seq 1 (S i)). cbn [map fold_right]. f_equal.
  rewrite <- (seq_shift (S i)), map_map. reflexivity.
Qed.
Lemma conv_consr : forall u a b i, conv_coeff a (u :: b) (S i) = nth (S i) a 0 * u + conv_coeff a b i.
Proof.
  intros u a b i. unfold conv_coeff. rewrite seq_S, map_app. rewrite fold_right_app. cbn [map fold_right plus].
  replace (S i - S i)%nat with 0%nat by lia. cbn [nth].
  assert (G : forall l s, fold_right Z.add s l = fold_right Z.add 0 l + s).
  { induction l as [|z l IH]; intros s; [cbn; ring|]. cbn [fold_right]. rewrite IH. ring. }
  rewrite G. rewrite Z.add_0_r, Z.add_comm. f_equal. f_equal. apply map_ext_in. intros j Hj. apply in_seq in Hj.
  replace (S i - j)%nat with (S (i - j)) by lia. reflexivity.
Qed.
Lemma nth_map_mul : forall k l i, nth i (map (Z.mul k) l) 0 = k * nth i l 0.
Proof. intros k l i. replace 0 with (k * 0) at 1 by ring. apply map_nth. Qed.
Lemma conv_scale_l : forall k a b i, conv_coeff (map (Z.mul k) a) b i = k * conv_coeff a b i.
Proof.
  intros k a. induction a as [|u a IH]; intros b i; cbn [map]; [rewrite conv_nil; ring|].
  destruct i as [|i]; [rewrite !conv_0; cbn [nth]; ring|rewrite !conv_consl, IH; ring].
Qed.
Lemma conv_scale_r : forall k a b i, conv_coeff a (map (Z.mul k) b) i = k * conv_coeff a b i.
Proof.
  intros k a. induction a as [|u a IH]; intros b i; [rewrite !conv_nil; ring|].
  destruct i as [|i]; [rewrite !conv_0; cbn [nth]; rewrite nth_map_mul; ring|rewrite !conv_consl, IH, nth_map_mul; ring].
Qed.

(** A prime divides a product only if it divides a factor. *)
Lemma prime_factor : forall c, prime c -> forall a b, (forall i, (c | conv_coeff a b i)) ->
  (forall i, (c | nth i a 0)) \/ (forall i, (c | nth i b 0)).
Proof.
  intros c Pc a. induction a as [|u a IH]; intros b H.
  { left. intros [|i]; apply Z.divide_0_r. }
  destruct (Zdivide_dec c u) as [D|D].
  - assert (Hb : forall i, (c | conv_coeff a b i)).
    { intros i. specialize (H (S i)). rewrite conv_consl in H. apply (Z.divide_add_cancel_r _ (u * nth (S i) b 0)); [|exact H].
      apply Z.divide_mul_l. exact D. }
    destruct (IH b Hb) as [A|B]; [left|right; exact B]. intros [|i]; [exact D|apply A].
  - right. induction b as [|v b IHb]; [intros [|i]; apply Z.divide_0_r|].
    assert (V : (c | v)).
    { specialize (H 0%nat). rewrite conv_0 in H. cbn [nth] in H. destruct (prime_mult c Pc u v H) as [W|W]; [contradiction|exact W]. }
    intros [|i]; [exact V|]. cbn [nth]. revert i. apply IHb. intros i. specialize (H (S i)). rewrite conv_consr in H.
    apply (Z.divide_add_cancel_r _ (nth (S i) (u :: a) 0 * v)); [apply Z.divide_mul_r; exact V|exact H].
Qed.

Lemma divide_out : forall c a, 0 < c -> (forall i, (c | nth i a 0)) -> exists a', a = map (Z.mul c) a' /\ length a' = length a.
Proof.
  intros c a Hc H. exists (map (fun z => z / c) a). split; [|apply map_length]. rewrite map_map. rewrite <- (map_id a) at 1.
  apply map_ext_in. intros z Hz. apply (In_nth _ _ 0) in Hz. destruct Hz as (i & _ & <-). destruct (H i) as (t & Et). rewrite Et.
  rewrite Z.div_mul by lia. ring.
Qed.

Lemma mod_irreducible : forall c q p, prime c -> irreducible_mod c q -> length p = length q -> (forall i, (c | nth i p 0 - nth i q 0)) -> irreducible p.
Proof.
  intros c q p Pc Hq Lp Hpq k. pose proof (prime_ge_2 c Pc) as G2.
  assert (Ind : forall n k, (Z.abs_nat k < n)%nat -> forall a b, k <> 0 -> (2 <= length a)%nat -> (2 <= length b)%nat -> (length a + length b = length p + 1)%nat ->
    ~ (forall i, conv_coeff a b i = k * nth i p 0)); [|intros a b; apply (Ind (S (Z.abs_nat k))); lia].
  clear k. induction n as [|n IH]; intros k Hk a b K0 La Lb Lab H; [lia|]. destruct (Zdivide_dec c k) as [(t & Et)|D].
  - assert (T0 : t <> 0) by (intros W; rewrite W in Et; lia). assert (Tk : (Z.abs_nat t < n)%nat).
    { assert (Z.abs t < Z.abs k) by (rewrite Et, Z.abs_mul; nia). lia. }
    assert (Hd : forall i, (c | conv_coeff a b i)) by (intros i; rewrite H, Et; exists (t * nth i p 0); ring).
    destruct (prime_factor c Pc a b Hd) as [A|A]; destruct (divide_out c _ ltac:(lia) A) as (a' & Ea & L').
    + apply (IH t Tk a' b); try lia. intros i. specialize (H i). rewrite Ea, conv_scale_l, Et in H.
      apply (Z.mul_reg_l _ _ c); [lia|]. rewrite H. ring.
    + apply (IH t Tk a a'); try lia. intros i. specialize (H i). rewrite Ea, conv_scale_r, Et in H.
      apply (Z.mul_reg_l _ _ c); [lia|]. rewrite H. ring.
  - destruct (rel_prime_bezout c k) as [u v E]; [apply prime_rel_prime; assumption|].
    apply (Hq (map (Z.mul v) a) b); [rewrite map_length; exact La|exact Lb|rewrite map_length; lia|].
    intros i. rewrite conv_scale_l, H. destruct (Hpq i) as (s & Es).
    exists (s - u * nth i p 0). replace (v * (k * nth i p 0)) with ((1 - u * c) * nth i p 0) by (rewrite <- E; ring).
    replace (nth i p 0) with (s * c + nth i q 0) by lia. ring.
Qed.

(** The lifted polynomial. *)
Lemma lift_length : forall c q t, length (lift_mod c q t) = length q.
Proof. intros. unfold lift_mod. rewrite map_length. apply seq_length. Qed.
Lemma lift_nth : forall c q t i, nth i (lift_mod c q t) 0 = if (Nat.ltb i (length q) && t i)%bool then nth i q 0 - c else nth i q 0.
Proof.
  intros c q t i. unfold lift_mod. destruct (Nat.ltb_spec i (length q)) as [L|L]; cbn [andb].
  - rewrite (nth_indep _ 0 (if t 0%nat then nth 0 q 0 - c else nth 0 q 0)) by (rewrite map_length, seq_length; exact L).
    rewrite (map_nth (fun i => if t i then nth i q 0 - c else nth i q 0)), seq_nth by exact L. reflexivity.
  - rewrite !nth_overflow; [reflexivity|exact L|rewrite map_length, seq_length; exact L].
Qed.
Lemma lift_cong : forall c q t i, (c | nth i (lift_mod c q t) 0 - nth i q 0).
Proof. intros. rewrite lift_nth. destruct (_ && _)%bool; [exists (-1)|exists 0]; ring. Qed.

(** Pseudo-division of [low ++ r0] by [g]. *)
Lemma pseudo_div : forall g, last g 0 <> 0 -> (2 <= length g)%nat -> forall r0 low, S (length r0) = length g ->
  exists N h r, N <> 0 /\ length h = length low /\ S (length r) = length g /\
    (forall i, N * nth i (low ++ r0) 0 = conv_coeff g h i + nth i r 0) /\
    (forall x, IZR N * zeval (low ++ r0) x = zeval g x * zeval h x + zeval r x)%R.
Proof.
  intros g Hg Lg r0 low L0. induction low as [|a p IH].
  - exists 1, [], r0. split; [lia|]. split; [reflexivity|]. split; [exact L0|]. split.
    + intros i. cbn [app]. assert (Cn : forall g i, conv_coeff g [] i = 0); [|rewrite Cn; ring].
      intros g'. induction g' as [|u g' IHg]; intros j; [apply conv_nil|]. destruct j; [rewrite conv_0|rewrite conv_consl, IHg]; cbn [nth]; ring.
    + intros x. cbn [app]. unfold zeval. cbn. lra.
  - destruct IH as (N & h & r & HN & Lh & Lr & Hc & He). set (l := last g 0) in *.
    destruct (exists_last (l := N * a :: r) ltac:(discriminate)) as (s & t & Es).
    assert (Ls : length s = length r) by (apply (f_equal (@length Z)) in Es; rewrite app_length in Es; cbn in Es; lia).
    destruct (exists_last (l := g) ltac:(intros W; rewrite W in Lg; cbn in Lg; lia)) as (g0 & l' & Eg).
    assert (El : l' = l) by (unfold l; rewrite Eg, last_last; reflexivity). subst l'.
    assert (Lg0 : length g0 = length s) by (apply (f_equal (@length Z)) in Eg; rewrite app_length in Eg; cbn in Eg; lia).
    assert (Sub : forall (u v : list Z), length v = length u -> exists w, length w = length u /\ (forall i, nth i w 0 = l * nth i u 0 - t * nth i v 0) /\
       (forall x, zeval w x = IZR l * zeval u x - IZR t * zeval v x)%R).
    { induction u as [|b u IHu]; intros [|b' v] Luv; try discriminate.
      - exists []. split; [reflexivity|]. split; [intros [|i]; cbn; ring|intros x; unfold zeval; cbn; lra].
      - destruct (IHu v) as (w & Lw & Hw & Ew); [cbn in Luv; lia|]. exists (l * b - t * b' :: w). split; [cbn; lia|]. split.
        + intros [|i]; [reflexivity|apply Hw].
        + intros x. specialize (Ew x). unfold zeval in *. cbn [map]. rewrite !peval_cons, Ew, minus_IZR, !mult_IZR. ring. }
    destruct (Sub s g0 Lg0) as (w & Lw & Hw & Ew).
    exists (l * N), (t :: map (Z.mul l) h), w. split; [nia|]. split; [cbn; rewrite map_length; lia|]. split; [lia|].
    assert (Hall : forall i, l * nth i (N * a :: r) 0 - t * nth i g 0 = nth i w 0).
    { intros i. rewrite Es, Eg. destruct (Nat.lt_ge_cases i (length s)) as [Hi|Hi].
      - rewrite !app_nth1 by lia. symmetry. apply Hw.
      - rewrite (nth_overflow w) by lia. rewrite !app_nth2 by lia. rewrite Lg0. destruct (i - length s)%nat as [|[|j]]; cbn [nth]; ring. }
    split.
    + intros i. rewrite <- Hall. destruct i as [|i].
      * rewrite conv_0. cbn [nth app]. ring.
      * rewrite conv_consr, conv_scale_r. cbn [app nth]. specialize (Hc i). rewrite <- Z.mul_assoc, Hc. ring.
    + intros x. rewrite Ew. specialize (He x). unfold zeval in *. cbn [app map]. rewrite !peval_cons. rewrite mult_IZR.
      assert (Q1 : peval (map IZR (N * a :: r)) x = (peval (map IZR s) x + x ^ length s * IZR t)%R).
      { rewrite Es, map_app. rewrite peval_app. cbn [map]. rewrite map_length. cbn. ring. }
      assert (Q2 : peval (map IZR g) x = (peval (map IZR g0) x + x ^ length s * IZR l)%R).
      { rewrite Eg, map_app. rewrite peval_app. cbn [map]. rewrite map_length, Lg0. cbn. ring. }
      assert (Q3 : peval (map IZR (map (Z.mul l) h)) x = (IZR l * peval (map IZR h) x)%R).
      { clear. induction h as [|b h IH]; [cbn; lra|]. cbn [map]. rewrite !peval_cons, IH, mult_IZR. ring. }
      cbn [map] in Q1. rewrite peval_cons, mult_IZR in Q1. rewrite Q3.
      replace (IZR l * IZR N * (IZR a + x * peval (map IZR (p ++ r0)) x))%R with
        (IZR l * (IZR N * IZR a) + IZR l * x * (IZR N * peval (map IZR (p ++ r0)) x))%R by ring.
      rewrite He. replace (IZR l * peval (map IZR s) x)%R with (IZR l * (IZR N * IZR a + x * peval (map IZR r) x) - IZR l * (x ^ length s * IZR t))%R by (rewrite Q1; ring).
      rewrite Q2. ring.
Qed.

Lemma irreducible_minimal : forall p x, irreducible p -> last p 0 <> 0 -> (2 <= length p)%nat -> zeval p x = 0%R -> minimal p x.
Proof.
  intros p x Hi Hl Lp Hx. split; try assumption.
  assert (Ind : forall n g, (length g <= n)%nat -> (length g < length p)%nat -> zeval g x = 0%R -> Forall (fun c => c = 0) g).
  2:{ intros g. apply (Ind (length g)). lia. }
  induction n as [|n IH]; intros g Lg Lgp Hg; [destruct g; [constructor|cbn in Lg; lia]|].
  destruct g as [|u g1] eqn:Eg0; [constructor|]. rewrite <- Eg0 in *. clear Eg0 u g1.
  destruct (list_eq_dec Z.eq_dec g []) as [->|Gn]; [constructor|].
  destruct (exists_last Gn) as (g0 & l & Eg). destruct (Z.eq_dec l 0) as [El|El].
  - rewrite Eg in Lg, Lgp. rewrite app_length in Lg, Lgp. cbn in Lg, Lgp. rewrite Eg. apply Forall_app. split; [|repeat constructor; exact El].
    apply IH; [lia|lia|]. rewrite Eg in Hg. unfold zeval in *. rewrite map_app, peval_app in Hg. cbn in Hg. rewrite El in Hg. lra.
  - exfalso. destruct (Nat.lt_ge_cases (length g) 2) as [L2|L2].
    + rewrite Eg in L2, Hg. rewrite app_length in L2. cbn in L2. destruct g0; [|cbn in L2; lia]. unfold zeval in Hg. cbn in Hg.
      apply El. apply eq_IZR. lra.
    + set (m := (length p - (length g - 1))%nat). pose proof (firstn_skipn m p) as Ep.
      assert (L0 : S (length (skipn m p)) = length g) by (rewrite skipn_length; unfold m; lia).
      assert (Hgl : last g 0 <> 0) by (rewrite Eg, last_last; exact El).
      destruct (pseudo_div g Hgl L2 (skipn m p) (firstn m p) L0) as (N & h & r & HN & Lh & Lr & Hc & He). rewrite Ep in Hc, He.
      rewrite firstn_length_le in Lh by (unfold m; lia).
      assert (Zr : Forall (fun c => c = 0) r).
      { apply IH; [lia|lia|]. specialize (He x). rewrite Hx, Hg in He. lra. }
      apply (Hi N g h HN); [exact L2|unfold m in Lh; lia|unfold m in Lh; lia|]. intros i. rewrite Hc.
      assert (nth i r 0 = 0); [|lia]. destruct (Nat.lt_ge_cases i (length r)) as [Hlt|Hge]; [|apply nth_overflow; exact Hge].
      rewrite Forall_forall in Zr. apply Zr, nth_In. exact Hlt.
Qed.

Lemma last_nth : forall (l : list Z) d, last l d = nth (length l - 1) l d.
Proof.
  intros l d. destruct (list_eq_dec Z.eq_dec l []) as [->|H]; [reflexivity|]. destruct (exists_last H) as (l0 & u & ->).
  rewrite last_last, app_length. cbn [length]. rewrite app_nth2 by lia. replace (length l0 + 1 - 1 - length l0)%nat with 0%nat by lia. reflexivity.
Qed.

Lemma lift_irreducible : forall c q t, prime c -> irreducible_mod c q -> 0 < last q 0 < c ->
  length (lift_mod c q t) = length q /\ (last (lift_mod c q t) 0 = last q 0 \/ last (lift_mod c q t) 0 = last q 0 - c) /\
  irreducible (lift_mod c q t) /\ (forall x, zeval (lift_mod c q t) x = 0%R -> minimal (lift_mod c q t) x).
Proof.
  intros c q t Pc Hq Hl. pose proof (lift_length c q t) as L. split; [exact L|].
  assert (A : last (lift_mod c q t) 0 = last q 0 \/ last (lift_mod c q t) 0 = last q 0 - c).
  { rewrite !last_nth, L, lift_nth. destruct (_ && _)%bool; auto. }
  assert (I : irreducible (lift_mod c q t)) by (apply (mod_irreducible c q); [exact Pc|exact Hq|exact L|apply lift_cong]).
  split; [exact A|]. split; [exact I|]. intros x Hx. apply irreducible_minimal; [exact I|lia| |exact Hx].
  destruct (lift_mod c q t) as [|u [|v p]] eqn:E; [cbn in A; lia| |cbn; lia]. exfalso. unfold zeval in Hx. cbn in Hx, A.
  assert (u = 0) by (apply eq_IZR; lra). lia.
Qed.

(** x^2 + x + 1 modulo 2. *)
Lemma ex_prime2 : prime 2. Proof. exact prime_2. Qed.
Lemma ex_irreducible : irreducible_mod 2 [1; 1; 1].
Proof.
  intros [|a0 [|a1 a]] [|b0 [|b1 b]] La Lb Lab H; cbn [length] in *; try lia.
  assert (a = []) by (destruct a; cbn in Lab; [reflexivity|lia]). assert (b = []) by (destruct b; cbn in Lab; [reflexivity|lia]). subst a b.
  pose proof (H 0%nat) as (u & E0). pose proof (H 1%nat) as (v & E1). pose proof (H 2%nat) as (w & E2).
  rewrite conv_0 in E0. rewrite conv_consl, conv_0 in E1. rewrite conv_consl, conv_consl, conv_nil in E2. cbn [nth] in E0, E1, E2.
  destruct (Z.Even_or_Odd a0) as [(a & ->)|(a & ->)]; [lia|]. destruct (Z.Even_or_Odd b0) as [(b & ->)|(b & ->)]; [lia|].
  destruct (Z.Even_or_Odd a1) as [(a' & ->)|(a' & ->)]; [lia|]. destruct (Z.Even_or_Odd b1) as [(b' & ->)|(b' & ->)]; [lia|]. lia.
Qed.

Lemma conv_comm : forall a b i, conv_coeff a b i = conv_coeff b a i.
Proof.
  induction a as [|u a IH]; intros b i.
  - rewrite conv_nil. revert i. induction b as [|v b IHb]; intros i; [rewrite conv_nil; reflexivity|].
    destruct i; [rewrite conv_0; cbn [nth]; ring|rewrite conv_consl, <- IHb; cbn [nth]; ring].
  - destruct i; [rewrite !conv_0; ring|]. rewrite conv_consl, conv_consr, IH. ring.
Qed.
