(** The renf_class of a SageMath number field. *)
Require Import Reals List ZArith Bool Lia Lra Ascii String.
From Verif Require Import PolyR RootSpec RootModel VcaProofs Dyadic DyadicProofs ArbModel ArbSpec ArbProofs FieldProofs DyBall DyBallProofs RateSpec DyRate
  ElemModel ElemSpec ElemProofs DefSpec EndsSpec EndsProofs ToolsSpec StrModel StrSpec StrProofs StrMore CxxModel MakeModel MakeSpec MakeText StrRefute MakeRefute
  ArchiveProofs ArchiveRefute CreateSpec CreateMain CreateMake CreateEx CallSpec CallProofs PyModel PySpec PyProofs PyField PyRefute.
Import ListNotations.
Open Scope R_scope.

Lemma sage_makes : forall o zd read repr, arb_ok o -> arb_rate o -> repr_ok repr ->
  forall p a, irreducible (e_num p) -> last (e_num p) 0%Z <> 0%Z -> (3 <= List.length (e_num p))%nat -> (Z.of_nat (List.length (e_num p)) <= long_max)%Z ->
  lowest_terms p -> zeval (e_num p) a = 0 ->
  exists w c P, 0 < w /\ 0 < c /\ forall var ball_str k balls, sage_name var -> (P <= 64 * 2 ^ Z.of_nat k)%Z ->
  closing_in read (fun prec => Ret (ball_str a prec)) (e_num p) a w c 64 k balls ->
  forall debug n, (k < n)%nat ->
  DefSpec.answers (fun fuel => sage_renf o debug zd read fuel n repr ball_str var p a)
    (fun res => snd res = O /\ exists j nf, (j <= k)%nat /\ fst res = Ret nf /\ embedded (e_num p) (e_den p) a (64 * 2 ^ Z.of_nat j) nf)
    ((exists j, (j <= k)%nat /\ word_overflow o (e_num p) (balls j)) \/ (WORD_MAX < 64 * 2 ^ Z.of_nat k)%Z).
Proof.
  intros o zd read repr Ho Hrt Hre p a Hi Hl Hdeg Hlen Lt Za.
  destruct (make_callback o zd read Ho Hrt (e_num p) a Hi Hl Hdeg Za) as (w & c & P & W0 & C0 & H).
  exists w, c, P. split; [exact W0|]. split; [exact C0|]. intros var ball_str k balls Hv HP Hc debug n Hn.
  destruct (Hre var p Hv Lt Hlen) as (ts & Fm & Vm). destruct (set_str_value zd false var _ ts (proj1 Hv) Fm) as (q & Eq & [Lq Vq]).
  assert (q = p) as -> by (apply lowest_unique; [exact Lq|exact Lt|intros y; rewrite Vq; apply Vm]).
  unfold sage_renf. apply (H (repr var p) var p (fun prec => Ret (ball_str a prec)) 64%Z k balls Eq eq_refl ltac:(lia) HP Hc debug n Hn).
Qed.

Lemma sage_returns : forall print_ball read_ball poly_ring roots enclose, sage_ok print_ball read_ball poly_ring enclose ->
  forall var p a prec nf, sage_name var -> lowest_terms p -> (3 <= List.length (e_num p))%nat -> (Z.of_nat (List.length (e_num p)) <= long_max)%Z ->
  (0 < last (e_num p) 0)%Z -> (e_den p | last (e_num p) 0)%Z -> zeval (e_num p) a = 0 -> roots_ok p (roots p) ->
  embedded (e_num p) (e_den p) a prec nf ->
  (forall r, normalize print_ball read_ball poly_ring roots enclose var nf = Ret r -> r = (p, var, a)) /\
  (told_apart print_ball read_ball enclose nf a -> normalize print_ball read_ball poly_ring roots enclose var nf = Ret (p, var, a)).
Proof.
  intros print_ball read_ball poly_ring roots enclose Hs var p a prec nf Hv Lt Hdeg Hlen Lp Ld Za Ro [E1 E2 _ _ E5 E6 _ _].
  assert (Ep : pol_of nf = p) by (unfold pol_of; rewrite E1, E2; destruct p; reflexivity).
  destruct (normalize_ok print_ball read_ball poly_ring roots enclose Hs var nf a Hv) as [A B]; rewrite ?Ep, ?E1, ?E2; try assumption; [lia|lia|].
  split.
  - intros [[q v] b] E. destruct (A q v b E) as (-> & -> & ->). rewrite Ep. reflexivity.
  - intros T. rewrite (B T), Ep. reflexivity.
Qed.

Lemma pretty_repr : repr_ok pretty.
Proof. intros v p Hv Lt Hlen. apply pretty_form; [apply Hv|exact Lt|exact Hlen]. Qed.

(** ** Callbacks that close in on the square root of two *)
Definition wide_text : str := lit "0 +/- 2".
Lemma closing_case : forall w c P, 0 < w -> 0 < c -> exists emb p0 balls, (2 <= p0)%Z /\ (P <= p0 * 2 ^ Z.of_nat 1)%Z /\
  closing_in dec_read emb [-2; 0; 1]%Z (sqrt 2) w c p0 1 balls /\ inb (- sqrt 2) (balls 0%nat).
Proof.
  intros w c P W0 C0. pose proof sqrt2_bounds as [SB _].
  destruct (sq_text (w / 4) ltac:(lra)) as (s & q & Eq & Hq & Hw). set (d := dec10 (snd q) - Rabs (sqrt 2 - dec10 (fst q))).
  assert (Hd : 0 < d) by (unfold d; lra).
  assert (Et : exists q0, ball_text wide_text = Some q0 /\ dec10 (fst q0) = 0 /\ dec10 (snd q0) = 2).
  { eexists. split; [vm_compute; reflexivity|]. unfold dec10. cbn [fst snd]. simpl. split; lra. }
  destruct Et as (q0 & Eq0 & F0 & S0).
  destruct (dec_read_sharp wide_text q0 1 Eq0 ltac:(lra)) as (P0 & H0). destruct (dec_read_sharp s q (w / 4) Eq ltac:(lra)) as (P1 & H1).
  destruct (pw2_neg_small (d / c)) as (P2 & H2); [apply Rdiv_lt_0_compat; lra|].
  set (p0 := Z.max 2 (Z.max P (Z.max P0 (Z.max P1 P2)))). assert (Hp : (2 <= p0 /\ P <= p0 /\ P0 <= p0 /\ P1 <= p0 /\ P2 <= p0)%Z) by (unfold p0; lia).
  clearbody p0. destruct (H0 p0 ltac:(lia)) as (m0 & r0 & R0 & _ & _). destruct (H1 (2 * p0)%Z ltac:(lia)) as (m1 & r1 & R1 & _ & W1).
  destruct (dec_read_ok wide_text q0 p0 ltac:(lia) Eq0) as (b0 & B0 & I0). rewrite R0 in B0. injection B0 as <-.
  destruct (dec_read_ok s q (2 * p0)%Z ltac:(lia) Eq) as (b1 & B1 & I1). rewrite R1 in B1. injection B1 as <-.
  exists (fun prec => Ret (if (prec =? p0)%Z then wide_text else s)), p0, (fun j => match j with O => Fin m0 r0 | S _ => Fin m1 r1 end).
  change (2 ^ Z.of_nat 1)%Z with 2%Z. split; [lia|]. split; [lia|].
  assert (J0 : inb (sqrt 2) (Fin m0 r0)) by (apply I0; unfold in_text; rewrite F0, S0, Rminus_0_r, Rabs_pos_eq; lra).
  assert (J1 : inb (- sqrt 2) (Fin m0 r0)) by (apply I0; unfold in_text; rewrite F0, S0, Rminus_0_r, Rabs_Ropp, Rabs_pos_eq; lra).
  split; [|exact J1]. split; [|split].
  - intros j Hj. destruct j as [|[|j]]; [| |lia].
    + change (2 ^ Z.of_nat 0)%Z with 1%Z. rewrite Z.mul_1_r, Z.eqb_refl. exists wide_text. split; [reflexivity|]. split; [exact R0|].
      split; [reflexivity|]. split; [exact J0|]. right. exists (- sqrt 2). split; [exact J1|]. split; [apply sq_roots; left; reflexivity|lra].
    + change (2 ^ Z.of_nat 1)%Z with 2%Z. rewrite Z.mul_comm. destruct (Z.eqb_spec (2 * p0) p0); [lia|]. exists s. split; [reflexivity|]. split; [exact R1|].
      split; [reflexivity|]. split; [apply I1; unfold in_text; lra|]. left. cbn. lra.
  - cbn. lra.
  - intros y Hy. apply I1. unfold in_text. change (2 ^ Z.of_nat 1)%Z with 2%Z in Hy.
    specialize (H2 (2 * (p0 * 2))%Z ltac:(lia)). assert (B : c * pw2 (- (2 * (p0 * 2))) <= d).
    { apply Rle_trans with (c * (d / c)); [apply Rmult_le_compat_l; lra|]. right. field. lra. }
    pose proof (Rabs_triang (y - sqrt 2) (sqrt 2 - dec10 (fst q))) as T. replace (y - sqrt 2 + (sqrt 2 - dec10 (fst q))) with (y - dec10 (fst q)) in T by ring.
    unfold d in B. lra.
Qed.

(** A run: the first ball has two roots. *)
Definition two_step (prec : Z) : exc str := Ret (if (prec =? 8)%Z then wide_text else lit "1.4 +/- 0.1").
Lemma two_step_made : exists nf, make_loop dyops true zd0 dec_read 50 2 (lit "x^2 - 2") (lit "x") two_step 8 = Val (Ret nf, O) /\ f_prec nf = 16%Z /\
  check_unique dyops 50 [-2; 0; 1]%Z (match dec_read wide_text 8 with Some b => b | None => Top end) 8 = Val false.
Proof. eexists. split; [vm_compute; reflexivity|]. split; [reflexivity|]. vm_compute. reflexivity. Qed.
