(** Random fields. *)
Require Import Reals List ZArith Znumtheory Bool Lia Lra.
From Verif Require Import PolyR RootSpec RootModel ExtraModel VcaProofs IsoAll Dyadic DyadicProofs ArbModel ArbSpec ArbProofs ArbRefute EmbModel EmbProofs DyBall
  ElemModel ElemSpec ToolsModel ToolsSpec ToolsIrred.
Import ListNotations.
Open Scope R_scope.

Lemma rand_pol_in : forall has ds p, rand_pol has ds = Val p -> exists d, In d ds /\ p = drawn d.
Proof.
  intros has ds p. induction ds as [|d ds IH]; intros E; [discriminate|]. cbn in E. destruct (has (drawn d)).
  - injection E as <-. exists d. split; [left|]; reflexivity.
  - destruct (IH E) as (d' & H & ->). exists d'. split; [right; exact H|reflexivity].
Qed.

Lemma no_dyadic_root : forall p d, minimal p (dyv d) -> (3 <= length p)%nat -> False.
Proof.
  intros p [m k] Hm L. destruct (Z.le_gt_cases 0 k) as [K|K].
  - assert (F : Forall (fun c => c = 0%Z) [- (m * 2 ^ k); 1]%Z).
    { apply (min_short _ _ Hm); [cbn; lia|]. unfold zeval. cbn. rewrite opp_IZR, mult_IZR. unfold dyv. cbn [fst snd]. rewrite <- (pw2_IZR k K). ring. }
    inversion_clear F as [|? ? _ F']. inversion_clear F' as [|? ? E _]. discriminate.
  - assert (F : Forall (fun c => c = 0%Z) [- m; 2 ^ (- k)]%Z).
    { apply (min_short _ _ Hm); [cbn; lia|]. unfold zeval. cbn [map peval]. rewrite opp_IZR.
      replace k with (- (- k))%Z at 1 by lia. rewrite dyv_neg_exp by lia.
      assert (0 < IZR (2 ^ (- k))) by (apply (IZR_lt 0), Z.pow_pos_nonneg; lia). field. lra. }
    inversion_clear F as [|? ? _ F']. inversion_clear F' as [|? ? E _]. assert (0 < 2 ^ (- k))%Z by (apply Z.pow_pos_nonneg; lia). lia.
Qed.

Lemma randtest_spec : forall o debug flog0 has fuel ds pick len prec nf, Forall draw_ok ds ->
  Forall (fun d => good_bound flog0 (snd (low_zeros (drawn d))) /\ good_bound flog0 (flip (snd (low_zeros (drawn d))))) ds ->
  randtest o debug flog0 has fuel ds pick len prec = Val nf ->
  exists d b x, In d ds /\ irreducible (drawn d) /\ length (drawn d) = length (dr_pol d) /\ minimal (drawn d) x /\
    unique_root (drawn d) b /\ inb x b /\ renf_init o debug fuel (drawn d) 1 b prec = Val nf.
Proof.
  intros o debug flog0 has fuel ds pick len prec nf Hok Hb E. unfold randtest in E. destruct (len <=? 1)%Z; [discriminate|].
  destruct (rand_pol has ds) as [p| | |] eqn:Ep; try discriminate. cbn [bind] in E.
  destruct (rand_pol_in has ds p Ep) as (d & Hd & ->). rewrite Forall_forall in Hok, Hb.
  destruct (Hok d Hd) as (Pc & Hi & Hl). destruct (Hb d Hd) as [G1 G2].
  destruct (lift_irreducible (dr_prime d) (dr_pol d) (dr_take d) Pc Hi Hl) as (A & B & C & D). fold (drawn d) in A, B, C, D.
  assert (Hp : nonzero (drawn d)).
  { intros F. pose proof (prime_ge_2 _ Pc). assert (last (drawn d) 0%Z = 0%Z); [|lia]. rewrite last_nth. rewrite Forall_forall in F. apply F, nth_In. destruct (drawn d); [cbn in B; lia|cbn; lia]. }
  pose proof (isolate_correct flog0 fuel (drawn d) Hp G1 G2) as I.
  destruct (isolate flog0 fuel (drawn d)) as [ex ints| | |] eqn:Ei; try discriminate.
  destruct (nth_error ints (pick mod length ints)) as [i|] eqn:En; [|discriminate]. apply nth_error_In in En.
  destruct ex as [|e ex].
  2:{ exfalso. destruct (iso_exact_root _ _ _ _ I e (or_introl eq_refl)) as [_ Ze].
      destruct (iso_int_root _ _ _ _ I i En) as (x & [Hx Zx] & _). pose proof (iso_exclusive _ _ _ _ I e i (or_introl eq_refl) En) as Hex.
      pose proof (D _ Ze) as M. destruct (le_lt_dec 3 (length (drawn d))) as [L3|L3]; [exact (no_dyadic_root (drawn d) e M L3)|].
      destruct (drawn d) as [|u [|v [|w p]]]; [cbn in B; lia| | |cbn in L3; lia].
      - unfold zeval in Zx. cbn in Zx, B. assert (u = 0%Z) by (apply eq_IZR; lra). lia.
      - apply Hex. replace (dyv e) with x; [exact Hx|]. unfold zeval in Zx, Ze. cbn in Zx, Ze, B.
        assert (V : IZR v <> 0) by (apply not_0_IZR; lia). apply (Rmult_eq_reg_l (IZR v)); [lra|exact V]. }
  unfold from_interval in E. destruct (_ || _)%bool; [discriminate|]. cbn [bind] in E.
  destruct (iso_int_root _ _ _ _ I i En) as (x & [Hx Zx] & _). set (pr := (zbits (fst i) + Z.max (snd i) 0 + 2)%Z) in *.
  assert (Hpr : (1 <= pr)%Z /\ (zbits (2 * fst i + 1) <= pr)%Z).
  { assert (B0 : (0 <= zbits (fst i))%Z) by (unfold zbits; destruct (fst i =? 0)%Z; [lia|pose proof (Z.log2_nonneg (Z.abs (fst i))); lia]).
    split; [unfold pr; lia|]. assert (zbits (2 * fst i + 1) <= zbits (fst i) + 2)%Z; [|unfold pr; lia].
    destruct (zbits_spec (2 * fst i + 1) ltac:(lia)) as [[Z1 _] _]. destruct (Z.eq_dec (fst i) 0) as [->|N0]; [cbn; lia|].
    destruct (zbits_spec (fst i) N0) as [[_ Z2] Z3]. apply Z.lt_pred_le. apply (Z.pow_lt_mono_r_iff 2); [lia|lia|].
    apply Z.le_lt_trans with (Z.abs (2 * fst i + 1)); [replace (Z.pred (zbits (2 * fst i + 1))) with (zbits (2 * fst i + 1) - 1)%Z by lia; exact Z1|].
    replace (zbits (fst i) + 2)%Z with (Z.succ (Z.succ (zbits (fst i)))) by lia. rewrite !Z.pow_succ_r by lia. lia. }
  assert (Hin : forall y, inb y (embed_ball pr i) <-> ilo i <= y <= ihi i) by (intros y; apply embed_ball_in; apply Hpr).
  exists d, (embed_ball pr i), x. split; [exact Hd|]. split; [exact C|]. split; [exact A|]. split; [apply D; exact Zx|].
  assert (Hxb : inb x (embed_ball pr i)) by (apply Hin; unfold in_int in Hx; lra).
  split; [|split; [exact Hxb|exact E]]. exists x. split; [split; assumption|]. intros y [Hy Zy]. symmetry.
  apply (closed_unique (drawn d) ints i x I En Hx Zx); [apply Hin; exact Hy|exact Zy].
Qed.

(** The polynomial x is irreducible, its root is found exactly and there is no interval. *)
Definition draw_x : draw := {| dr_prime := 2; dr_pol := [0; 1]%Z; dr_take := fun _ => false |}.
Lemma draw_x_ok : draw_ok draw_x.
Proof.
  split; [exact prime_2|]. split; [|cbn; lia]. intros a b La Lb Lab. cbn in Lab. lia.
Qed.
Lemma randtest_aborts : exists ds, Forall draw_ok ds /\ forall o debug num pick prec, (exists p, rand_pol (has_real_root num) ds = Val p) /\
  randtest o debug 0 (has_real_root num) 100 ds pick 2 prec = Abort.
Proof.
  exists [draw_x]. split; [apply Forall_cons; [exact draw_x_ok|constructor]|]. intros o debug num pick prec. split; [exists [0; 1]%Z; reflexivity|].
  unfold randtest. cbn [Z.leb Z.compare Pos.compare Pos.compare_cont rand_pol].
  replace (has_real_root num (drawn draw_x)) with true by reflexivity. cbn [bind]. replace (isolate 0 100 (drawn draw_x)) with (VDone [(0, 0)%Z] []) by reflexivity.
  replace (nth_error [] (pick mod length (@nil dyadic))) with (@None dyadic) by (destruct (pick mod _)%nat; reflexivity). reflexivity.
Qed.

(** A draw of degree two: x^2 + x + 1 modulo 2, lifted to x^2 + x - 1. *)
Definition draw_2 : draw := {| dr_prime := 2; dr_pol := [1; 1; 1]%Z; dr_take := fun i => Nat.eqb i 0 |}.
Lemma draw_2_ok : draw_ok draw_2.
Proof. split; [exact prime_2|]. split; [exact ex_irreducible|cbn; lia]. Qed.
Lemma draw_2_case : exists nf, randtest dyops true 0 (has_real_root (fun _ => 0%Z)) 100 [draw_2] 0 3 64 = Val nf.
Proof. eexists. vm_compute. reflexivity. Qed.
Lemma draw_2_bound : good_bound 0 (snd (low_zeros (drawn draw_2))).
Proof.
  change (forall x, 0 < x -> zeval [-1; 1; 1]%Z x = 0 -> x < pw2 1). intros x Hx H. unfold zeval in H. cbn in H. change (pw2 1) with (2 * 1). nra.
Qed.
Lemma draw_2_bound' : good_bound 0 (flip (snd (low_zeros (drawn draw_2)))).
Proof.
  change (forall x, 0 < x -> zeval [-1; -1; 1]%Z x = 0 -> x < pw2 1). intros x Hx H. unfold zeval in H. cbn in H. change (pw2 1) with (2 * 1). nra.
Qed.

(** The ball is exactly the interval, or the call aborts for want of precision. *)
Lemma bits_below : forall c p, (zbits c + 2 <= p <-> Z.abs c < 2 ^ (p - 2))%Z.
Proof.
  intros c p. destruct (Z.lt_ge_cases p 2) as [L|L].
  { rewrite (Z.pow_neg_r 2 (p - 2)) by lia. unfold zbits. destruct (c =? 0)%Z; pose proof (Z.log2_nonneg (Z.abs c)); lia. }
  destruct (Z.eq_dec c 0) as [->|N]; [cbn; pose proof (Z.pow_pos_nonneg 2 (p - 2) ltac:(lia) ltac:(lia)); lia|].
  destruct (zbits_spec c N) as [[B1 B2] B3]. split; intros H.
  - apply Z.lt_le_trans with (2 ^ zbits c)%Z; [exact B2|]. apply Z.pow_le_mono_r; lia.
  - assert (zbits c - 1 < p - 2)%Z; [|lia]. apply (Z.pow_lt_mono_r_iff 2); lia.
Qed.
Lemma from_interval_spec : forall c k prec,
  ((Z.abs c < 2 ^ (prec - 2))%Z -> exists b, from_interval (c, k) prec = Val b /\ forall y, inb y b <-> IZR c * pw2 k <= y <= IZR (c + 1) * pw2 k) /\
  ((2 ^ (prec - 2) <= Z.abs c)%Z -> from_interval (c, k) prec = Abort).
Proof.
  intros c k prec. unfold from_interval. cbn [fst]. pose proof (bits_below c prec) as B.
  assert (B0 : (0 <= zbits c)%Z) by (unfold zbits; destruct (c =? 0)%Z; pose proof (Z.log2_nonneg (Z.abs c)); lia). split; intros H.
  - apply B in H. destruct (Z.leb_spec prec 0); [lia|]. destruct (Z.ltb_spec prec (zbits c + 2)); [lia|]. cbn [orb]. eexists. split; [reflexivity|].
    intros y. rewrite embed_ball_in; [unfold ilo, ihi; cbn [fst snd]; rewrite ?plus_IZR; reflexivity|lia|]. cbn [fst]. apply Z.le_trans with (zbits c + 2)%Z; [|exact H].
    destruct (zbits_spec (2 * c + 1) ltac:(lia)) as [[Z1 _] _]. destruct (Z.eq_dec c 0) as [->|N0]; [cbn; lia|].
    destruct (zbits_spec c N0) as [[_ Z2] Z3]. assert (zbits (2 * c + 1) - 1 < zbits c + 2)%Z; [|lia]. apply (Z.pow_lt_mono_r_iff 2); [lia|lia|].
    apply Z.le_lt_trans with (Z.abs (2 * c + 1)); [exact Z1|]. replace (zbits c + 2)%Z with (Z.succ (Z.succ (zbits c))) by lia. rewrite !Z.pow_succ_r by lia. lia.
  - destruct (Z.ltb_spec prec (zbits c + 2)) as [|G]; [rewrite orb_true_r; reflexivity|]. apply B in G. lia.
Qed.
