(** Calls on elements neither abort nor leave the defined behaviour. *)
Require Import Reals List ZArith Bool Lia Lra.
From Verif Require Import PolyR RootSpec RootModel ExtraModel Dyadic DyadicProofs ArbModel ArbSpec ArbProofs FieldProofs RefineProofs
  ElemModel ElemSpec ElemProofs ElemLoops ElemHist ElemMore GetdModel GetdSpec GetdProofs GetdMore EndsSpec EndsProofs EndsGetd DefSpec.
Import ListNotations.
Open Scope R_scope.

Section Elem.
Variables (o : arbops) (n : nfops) (debug : bool) (pol : list Z) (x : R) (N : ball -> Prop) (P : Z) (S : Prop).
Hypothesis Ho : arb_ok o.
Hypothesis Hm : minimal pol x.
Hypothesis Hn : nf_ok pol x n.
Hypothesis HN : safe_balls o pol x N.
Let HJ : keeps o debug pol x (on_ball N) := safe_keeps o debug pol x N Ho Hm HN.
Hypothesis HP : pw2 (2 - P) <= Rabs x ^ (length pol - 2).
Hypothesis Hd : forall fuel nf p, field_ok pol x N nf -> f_imm nf = 0%Z -> defined S (refine o debug fuel nf p).

Notation good := (good pol x (on_ball N)).
Notation goodr := (goodr pol x).
Notation defined := (defined S).

Definition ok (nf : renf) : Prop := good nf /\ f_imm nf = 0%Z /\ f_prec nf = P.

Lemma defined_bind : forall A B (r : out A) (f : A -> out B), defined r -> (forall v, r = Val v -> defined (f v)) -> defined (bind r f).
Proof. intros A B [v| | |] f H1 H2; cbn [bind]; try assumption. apply H2. reflexivity. Qed.
Lemma ok_kept : forall nf nf', ok nf -> good nf' -> kept nf nf' -> ok nf'.
Proof. intros nf nf' (_ & A & B) G ((_ & _ & K1) & K2). repeat split; try assumption; try apply G; congruence. Qed.

(** * Precisions *)
Lemma abs_sum_lower : forall p y, p <> [] -> last p 1%Z <> 0%Z -> Rabs y ^ (length p - 1) <= abs_sum p y.
Proof.
  induction p as [|c q IH]; intros y Hp Hl; [contradiction|]. rewrite abs_sum_cons.
  destruct q as [|c' q'].
  - cbn in *. pose proof (abs_sum_nonneg [] y). pose proof (Rabs_pos y).
    assert (1 <= Rabs (IZR c)) by (rewrite <- abs_IZR; apply IZR_le; lia). nra.
  - specialize (IH y ltac:(discriminate) Hl). pose proof (Rabs_pos (IZR c)). pose proof (Rabs_pos y).
    replace (length (c :: c' :: q') - 1)%nat with (Datatypes.S (length (c' :: q') - 1)) by (cbn [length]; lia). cbn [pow]. nra.
Qed.

Lemma pow_lower : forall y i j, 0 <= y -> (i <= j)%nat -> 1 <= y ^ i \/ y ^ j <= y ^ i.
Proof.
  intros y i j Hy Hij. destruct (Rle_lt_dec y 1) as [L|L].
  - right. replace j with (i + (j - i))%nat by lia. rewrite pow_add. pose proof (pow_le y i Hy).
    assert (y ^ (j - i) <= 1). { replace 1 with (1 ^ (j - i)) by apply pow1. apply pow_incr. lra. }
    nra.
  - left. apply pow_R1_Rle. lra.
Qed.

Lemma ok_prec : forall nf, ok nf -> (2 <= P)%Z.
Proof. intros nf ((_ & _ & _ & A) & _ & B). lia. Qed.
Lemma cond_ge : forall nf e, ok nf -> canon pol e -> (2 - P <= elem_cond nf e)%Z.
Proof.
  intros nf e Hok He. pose proof (ok_prec nf Hok) as HP2. unfold elem_cond. destruct (is_rational e) eqn:Re; [lia|].
  destruct (is_finite (f_emb nf)) eqn:Fi; [|destruct (f_emb nf); [discriminate|unfold cond_2exp; cbn [abs_ubound]; lia]].
  assert (Np : e_num e <> []) by (intros W; unfold is_rational in Re; rewrite W in Re; discriminate).
  pose proof (cond_2exp_weak (e_num e) (f_emb nf) (Z.max (f_prec nf) 16) x ltac:(lia) Np Fi (proj1 (proj2 (proj1 Hok)))) as W.
  pose proof (abs_sum_lower (e_num e) x Np (can_last _ _ He)) as L. pose proof (can_len _ _ He) as Len.
  assert (B : pw2 (2 - P) <= abs_sum (e_num e) x).
  { destruct (pow_lower (Rabs x) (length (e_num e) - 1) (length pol - 2) (Rabs_pos x) ltac:(lia)) as [A|A].
    - assert (pw2 (2 - P) <= pw2 0) by (apply pw2_le; lia). change (pw2 0) with 1 in *. lra.
    - lra. }
  destruct (Z.le_gt_cases (2 - P) (cond_2exp (e_num e) (f_emb nf) (Z.max (f_prec nf) 16))) as [|G]; [assumption|exfalso].
  assert (pw2 (cond_2exp (e_num e) (f_emb nf) (Z.max (f_prec nf) 16) + 1) <= pw2 (2 - P)) by (apply pw2_le; lia). lra.
Qed.
Lemma start_P : forall nf, ok nf -> (P <= start_prec nf)%Z.
Proof. intros nf (_ & _ & E). unfold start_prec. lia. Qed.

Lemma eval_def : forall nf e p, (2 <= p)%Z -> exists b, set_evaluation o nf e p = Val b.
Proof.
  intros nf e p Hp. unfold set_evaluation. destruct (Z.ltb_spec p 2); [lia|].
  destruct (linear (f_pol nf)); [|destruct (quadratic (f_pol nf))]; eexists; reflexivity.
Qed.
Lemma def_eval : forall A nf e p (G : ball -> out A), canon pol e -> good nf -> (2 <= p)%Z ->
  (forall b, set_evaluation o nf e p = Val b -> inb (ev x e) b -> defined (G b)) -> defined (bind (set_evaluation o nf e p) G).
Proof.
  intros A nf e p G He Hg Hp H. destruct (eval_def nf e p Hp) as (b & E). rewrite E. cbn [bind]. apply H; [exact E|].
  apply (set_eval_ok o pol x (on_ball N) Ho Hm _ _ _ _ Hg He E).
Qed.
Lemma def_refine : forall A fuel nf p (G : renf -> out A), ok nf -> (forall nf', ok nf' -> defined (G nf')) ->
  defined (bind (refine o debug fuel nf p) G).
Proof.
  intros A fuel nf p G Hok H. apply defined_bind; [apply Hd; apply Hok|]. intros nf' E. apply H.
  destruct (HJ _ _ _ _ (proj1 Hok) E) as [G' K]. apply (ok_kept nf); assumption.
Qed.

(** The loops that test an enclosure, refine and evaluate. *)
Lemma test_def : forall A e c (L : nat -> renf -> ball -> Z -> out A) (stop : ball -> bool) (res : renf -> ball -> Z -> A),
  canon pol e -> (2 - P <= c)%Z -> (forall nf b p, L O nf b p = Fuel) ->
  (forall f nf b p, L (Datatypes.S f) nf b p = if stop b then Val (res nf b p)
     else bind (refine o debug f nf (2 * p)) (fun nf' => bind (set_evaluation o nf' e (2 * p + c)) (fun b' => L f nf' b' (2 * p)%Z))) ->
  forall fuel nf b p, ok nf -> (P <= p)%Z -> defined (L fuel nf b p).
Proof.
  intros A e c L stop res He Hc H0 HS. induction fuel as [|f IH]; intros nf b p Hok Hp; [rewrite H0; exact I|].
  rewrite HS. destruct (stop b); [exact I|]. pose proof (ok_prec nf Hok). apply def_refine; [exact Hok|]. intros nf' Hok'.
  apply def_eval; [exact He|apply Hok'|lia|]. intros b' _ _. apply IH; [exact Hok'|lia].
Qed.

(** * Sign and comparison *)
Lemma sgn_def : forall fuel nf y, ok nf -> goodr y -> defined (sgn o debug fuel nf y).
Proof.
  intros fuel nf [e b] Hok [He Hb]. cbn [r_elem r_emb] in *. unfold sgn. cbn [r_elem r_emb].
  destruct (e_num e) as [|c [|c' l]]; try exact I. destruct (negb (contains_zero b)); [exact I|].
  pose proof (cond_ge nf e Hok He). pose proof (start_P nf Hok).
  apply def_eval; [exact He|apply Hok|lia|]. intros b' _ _.
  apply (test_def _ e (elem_cond nf e) (fun f nf' b p => sgn_loop o debug f nf' e b p (elem_cond nf e)) (fun b => negb (contains_zero b)) (fun nf b p => (nf, b, msgn b)));
    try assumption; reflexivity.
Qed.

Lemma cmp_def : forall fuel nf y z, ok nf -> goodr y -> goodr z -> defined (cmp o n debug fuel nf y z).
Proof.
  intros fuel nf [a ea] [b eb] Hok [Ha Hea] [Hb Heb]. cbn [r_elem r_emb] in *. unfold cmp. cbn [r_elem r_emb].
  destruct (elem_eqb a b); [exact I|]. destruct (blt ea eb); [exact I|]. destruct (blt eb ea); [exact I|].
  destruct (is_rational a && is_rational b).
  - destruct (is_zero a); [apply defined_bind; [apply sgn_def; [exact Hok|split; assumption]|intros [[? ?] ?] _; exact I]|].
    destruct (is_zero b); [apply defined_bind; [apply sgn_def; [exact Hok|split; assumption]|intros [[? ?] ?] _; exact I]|exact I].
  - pose proof (cond_ge nf a Hok Ha). pose proof (cond_ge nf b Hok Hb). pose proof (start_P nf Hok).
    apply def_eval; [exact Ha|apply Hok|lia|]. intros ea' _ Ia. apply def_eval; [exact Hb|apply Hok|lia|]. intros eb' _ Ib.
    destruct (blt ea' eb'); [exact I|]. destruct (blt eb' ea'); [exact I|].
    apply defined_bind; [|intros [[? ?] ?] _; exact I]. apply sgn_def; [exact Hok|]. unfold relem_sub. cbn [r_elem r_emb].
    destruct (nk_sub _ _ _ Hn a b Ha Hb) as [C V]. split; cbn [r_elem r_emb]; [exact C|]. rewrite V.
    apply (ok_sub o Ho); [apply Hok|exact Ia|exact Ib].
Qed.

Lemma cmp_q_def : forall fuel nf y qn qd, ok nf -> goodr y -> (0 < qd)%Z -> defined (cmp_q o n debug fuel nf y qn qd).
Proof.
  intros fuel nf [a ea] qn qd Hok [Ha Hea] Hq. cbn [r_elem r_emb] in *. unfold cmp_q. cbn [r_elem r_emb].
  destruct (qn =? 0)%Z; [apply sgn_def; [exact Hok|split; assumption]|].
  destruct (is_zero a); [exact I|]. destruct (is_rational a); [exact I|]. destruct (negb (contains_zero _)); [exact I|].
  pose proof (cond_ge nf a Hok Ha). pose proof (start_P nf Hok).
  destruct (Z.eqb_spec (start_prec nf) (- elem_cond nf a)); [lia|]. rewrite andb_false_r.
  apply def_eval; [exact Ha|apply Hok|lia|]. intros ea' _ Ia.
  destruct (negb (contains_zero _)); [exact I|].
  apply defined_bind; [|intros [[? ?] ?] _; exact I]. apply sgn_def; [exact Hok|].
  destruct (nk_sub_q _ _ _ Hn a qn qd Ha Hq) as [C V]. split; cbn [r_elem r_emb]; [exact C|]. rewrite V.
  apply (ok_sub o Ho); [apply Hok|exact Ia|]. apply (ok_set_q o Ho); [apply Hok|lia].
Qed.

(** * Integer parts *)
Lemma round_loop_def : forall rd e, canon pol e -> forall fuel nf sz p c, ok nf -> (P <= p)%Z -> (2 - P <= c)%Z ->
  defined (round_loop o debug rd fuel nf e sz p c).
Proof.
  intros rd e He. induction fuel as [|f IH]; intros nf sz p c Hok Hp Hc; [exact I|]. cbn [round_loop].
  apply def_eval; [exact He|apply Hok|lia|]. intros b _ _. pose proof (ok_prec nf Hok).
  assert (Ha : defined (bind (refine o debug f nf (2 * p)) (fun nf' => round_loop o debug rd f nf' e sz (2 * p) c))).
  { apply def_refine; [exact Hok|]. intros nf' Hok'. apply IH; [exact Hok'|lia|exact Hc]. }
  destruct (unique_int rd b (Z.max sz p)) as [[l r]|]; [|exact Ha]. destruct (l =? r)%Z; [exact I|exact Ha].
Qed.

Definition has_coeff0 (e : elem) : Prop := ev x e <> 0 \/ (length pol <= 3)%nat.

Lemma coeff0_def : forall e, canon pol e -> has_coeff0 e -> exists c, coeff0 pol e = Val c.
Proof.
  intros e He H. unfold coeff0. destruct (e_num e) as [|c l] eqn:E; [|exists c; reflexivity].
  unfold generic. destruct H as [H|H].
  - exfalso. apply H. unfold ev. rewrite E. unfold zeval. cbn. unfold Rdiv. ring.
  - destruct (Nat.leb_spec 4 (length pol)); [lia|]. exists 0%Z. reflexivity.
Qed.

Lemma round_int_def : forall rd fuel nf y, ok nf -> goodr y -> has_coeff0 (r_elem y) -> defined (round_int o debug rd fuel nf y).
Proof.
  intros rd fuel nf [e b0] Hok [He Hb] H0. unfold round_int. cbn [r_elem r_emb] in *.
  destruct (is_rational e) eqn:Re.
  { assert (Ep : f_pol nf = pol) by apply Hok. rewrite Ep. destruct (coeff0_def e He H0) as (c & ->). exact I. }
  pose proof (cond_ge nf e Hok He) as Hc. pose proof (start_P nf Hok) as Hs.
  apply defined_bind.
  - destruct (is_finite b0); [exact I|]. apply def_eval; [exact He|apply Hok|lia|]. intros b _ _.
    apply (test_def _ e (elem_cond nf e) (fun f nf' b p => finite_loop o debug f nf' e b p (elem_cond nf e)) is_finite (fun nf b p => (nf, b)));
      try assumption; reflexivity.
  - intros [nf1 b1] E1.
    assert (G1 : ok nf1 /\ is_finite b1 = true).
    { destruct (is_finite b0) eqn:F0; [injection E1 as <- <-; split; assumption|].
      destruct (set_evaluation o nf e (start_prec nf + elem_cond nf e)) as [b2| | |] eqn:Ee; try discriminate. cbn [bind] in E1.
      destruct (finite_loop_ok o debug pol x (on_ball N) Ho Hm HJ e He _ _ _ _ _ _ _ (proj1 Hok) (set_eval_ok o pol x (on_ball N) Ho Hm _ _ _ _ (proj1 Hok) He Ee) E1) as (A & B & _ & D).
      split; [apply (ok_kept nf); assumption|exact D]. }
    destruct G1 as [Hok1 F1]. destruct b1 as [m r|]; [|discriminate]. unfold unique_int. destruct (interval (Fin m r) (f_prec nf1)) as [[l u]|] eqn:Ei; [|discriminate].
    destruct (rd_dy rd l =? rd_dy rd u)%Z; [exact I|]. apply round_loop_def; try assumption; [apply start_P; exact Hok1|].
    destruct (is_finite b0); [apply cond_ge; assumption|exact Hc].
Qed.

(** * Floor division *)
Lemma quot_loop_def : forall b c, canon pol b -> canon pol c -> forall fuel nf eb ec q p k1 k2, ok nf -> (P <= p)%Z -> (2 - P <= k1)%Z -> (2 - P <= k2)%Z ->
  defined (quot_loop o debug fuel nf b c eb ec q p k1 k2).
Proof.
  intros b c Hb Hc. induction fuel as [|f IH]; intros nf eb ec q p k1 k2 Hok Hp H1 H2; [exact I|]. cbn [quot_loop].
  destruct (rad_ge_half q); [|exact I]. pose proof (ok_prec nf Hok). apply def_refine; [exact Hok|]. intros nf' Hok'.
  apply def_eval; [exact Hb|apply Hok'|lia|]. intros eb' _ _. apply def_eval; [exact Hc|apply Hok'|lia|]. intros ec' _ _.
  apply IH; try assumption. lia.
Qed.

Lemma finite_loop_p_prec : forall e c fuel nf b p nf' b' p', (0 <= P)%Z -> (P <= p)%Z -> finite_loop_p o debug fuel nf e b p c = Val (nf', b', p') -> (P <= p')%Z.
Proof.
  intros e c. induction fuel as [|f IH]; intros nf b p nf' b' p' H0 Hp E; [discriminate|]. cbn [finite_loop_p] in E.
  destruct (is_finite b); [injection E as <- <- <-; exact Hp|].
  destruct (refine o debug f nf (2 * p)) as [nf1| | |]; try discriminate. cbn [bind] in E.
  destruct (set_evaluation o nf1 e (2 * p + c)) as [b1| | |]; try discriminate. cbn [bind] in E.
  apply IH in E; [exact E|exact H0|lia].
Qed.
Lemma nonzero_loop_prec : forall e c fuel nf b p nf' b' p', (0 <= P)%Z -> (P <= p)%Z -> nonzero_loop o debug fuel nf e b p c = Val (nf', b', p') -> (P <= p')%Z.
Proof.
  intros e c. induction fuel as [|f IH]; intros nf b p nf' b' p' H0 Hp E; [discriminate|]. cbn [nonzero_loop] in E.
  destruct (negb (contains_zero b)); [injection E as <- <- <-; exact Hp|].
  destruct (refine o debug f nf (2 * p)) as [nf1| | |]; try discriminate. cbn [bind] in E.
  destruct (set_evaluation o nf1 e (2 * p + c)) as [b1| | |]; try discriminate. cbn [bind] in E.
  apply IH in E; [exact E|exact H0|lia].
Qed.

Lemma fdiv_def : forall same fuel nf y z, ok nf -> goodr y -> goodr z -> (same = true -> r_elem y = r_elem z) ->
  ev x (r_elem z) <> 0 -> has_coeff0 (r_elem y) -> defined (fdiv o n debug same fuel nf y z).
Proof.
  intros same fuel nf [b b0] [c c0] Hok [Hb Hb0] [Hcc Hc0] Hsame Hz H0. unfold fdiv. cbn [r_elem r_emb] in *.
  pose proof (proj1 Hok) as Hg. assert (Gp : (2 <= f_prec nf)%Z) by apply Hg. pose proof (ok_prec nf Hok) as P2.
  destruct (is_rational c) eqn:Rc.
  { destruct (is_zero c) eqn:Zc; [exfalso; apply Hz, (is_zero_spec pol x Hm c Hcc), Zc|].
    destruct (nk_div _ _ _ Hn b c Hb Hcc Hz) as [Cq Vq].
    apply defined_bind; [|intros [[? ?] ?] _; exact I]. apply round_int_def; [exact Hok| |].
    - split; cbn [div_elem r_elem r_emb]; [exact Cq|]. rewrite Vq. apply (ok_div o Ho); assumption.
    - cbn [div_elem r_elem]. destruct H0 as [H0|H0]; [left|right; exact H0]. rewrite Vq. intros W.
      apply Rmult_integral in W. destruct W as [W|W]; [contradiction|]. revert W. apply Rinv_neq_0_compat, Hz. }
  pose proof (cond_ge nf b Hok Hb) as Kb. pose proof (cond_ge nf c Hok Hcc) as Kc. pose proof (start_P nf Hok) as Hs.
  apply def_eval; [exact Hb|exact Hg|lia|]. intros b1 E1 I1.
  apply defined_bind.
  { apply (test_def _ b (elem_cond nf b) (fun f nf' e p => finite_loop_p o debug f nf' b e p (elem_cond nf b)) is_finite (fun nf b p => (nf, b, p)));
      try assumption; reflexivity. }
  intros [[nf2 b2] p2] E2. assert (Ps : (2 <= start_prec nf)%Z) by lia.
  destruct (finite_loop_p_ok o debug pol x (on_ball N) Ho Hm HJ b Hb _ _ _ _ _ _ _ _ Hg I1 Ps E2) as (G2 & K2 & Hb2 & _).
  apply finite_loop_p_prec in E2; [|lia|exact Hs]. pose proof (ok_kept _ _ Hok G2 K2) as Hok2.
  apply def_eval; [exact Hcc|exact G2|lia|]. intros c1 E3 I3.
  apply defined_bind.
  { apply (test_def _ c (elem_cond nf c) (fun f nf' e p => nonzero_loop o debug f nf' c e p (elem_cond nf c)) (fun b => negb (contains_zero b)) (fun nf b p => (nf, b, p)));
      try assumption; reflexivity. }
  intros [[nf3 c3] p3] E4. assert (Ps2 : (2 <= p2)%Z) by lia.
  destruct (nonzero_loop_ok o debug pol x (on_ball N) Ho Hm HJ c Hcc _ _ _ _ _ _ _ _ G2 I3 Ps2 E4) as (G3 & K3 & Hc3 & _).
  apply nonzero_loop_prec in E4; [|lia|exact E2]. pose proof (ok_kept _ _ Hok2 G3 K3) as Hok3.
  cbv zeta.
  assert (Hb3 : inb (ev x b) (if same then c3 else b2)) by (destruct same; [rewrite (Hsame eq_refl); exact Hc3|exact Hb2]).
  set (b3 := if same then c3 else b2) in *.
  apply defined_bind; [apply quot_loop_def; assumption|].
  intros [[[nf4 b4] c4] qb] E5.
  destruct (quot_loop_ok o debug pol x (on_ball N) Ho Hm HJ b c Hb Hcc Hz fuel nf3 b3 c3 (o_div o b3 c3 p3) p3 _ _ _ _ _ _ G3 Hb3 Hc3 ltac:(apply (ok_div o Ho); [lia|assumption..]) ltac:(lia) E5)
    as (G4 & K4 & Hb4 & Hc4 & _ & Rq). pose proof (ok_kept _ _ Hok3 G4 K4) as Hok4.
  destruct qb as [m r|]; [|discriminate].
  destruct (dceil (dsub m r) <=? dfloor (dadd m r))%Z; [|exact I].
  set (l := dceil (dsub m r)).
  destruct (nk_mul_q _ _ _ Hn c l 1 Hcc ltac:(lia)) as [Cm Vm].
  assert (Vm' : ev x (n_mul_q n c l 1) = ev x c * IZR l) by (rewrite Vm; field).
  assert (Gm : goodr {| r_elem := n_mul_q n c l 1; r_emb := o_mul_z o c4 l (f_prec nf4) |}).
  { apply goodr_intro; [exact Cm|]. rewrite Vm'. apply (ok_mul_z o Ho); [apply G4|exact Hc4]. }
  apply defined_bind; [apply cmp_def; [exact Hok4|exact Gm|apply goodr_intro; assumption]|].
  intros [[[nf5 a5] b5] s] E6.
  destruct (cmp_ok o n debug pol x (on_ball N) Ho Hm Hn HJ _ _ _ _ _ _ _ _ G4 Gm (goodr_intro pol x _ _ Hb Hb4) E6) as (G5 & K5 & _ & Hb5 & _).
  cbn [r_elem] in Hb5. apply defined_bind; [|intros [[? ?] ?] _; exact I].
  apply sgn_def; [apply (ok_kept nf4); assumption|]. apply goodr_intro; [exact Hcc|].
  destruct same; [rewrite <- (Hsame eq_refl); exact Hb5|exact Hc4].
Qed.

(** * Balls *)
Lemma get_arb_def : forall fuel nf y prec, ok nf -> goodr y -> defined (get_arb o debug fuel nf y prec).
Proof.
  intros fuel nf [e b0] prec Hok [He Hb]. unfold get_arb. cbn [r_elem r_emb] in *.
  destruct (is_zero e); [exact I|]. destruct (rel_error b0 <? - prec - 2)%Z; [exact I|].
  pose proof (cond_ge nf e Hok He) as Hc. pose proof (start_P nf Hok) as Hs. revert Hc Hs.
  generalize (elem_cond nf e) (start_prec nf). intros c p Hc. revert nf p Hok.
  induction fuel as [|f IH]; intros nf p Hok Hs; [exact I|]. cbn [get_arb_loop].
  apply def_eval; [exact He|apply Hok|lia|]. intros b _ _. destruct (rel_error b <? - prec - 2)%Z; [exact I|].
  pose proof (ok_prec nf Hok). apply def_refine; [exact Hok|]. intros nf' Hok'. apply IH; [exact Hok'|lia].
Qed.

(** * Continued fractions *)
Lemma cfrac_loop_def : forall k fuel nf y, ok nf -> goodr y -> ev x (r_elem y) <> 0 -> defined (cfrac_loop o n debug fuel nf y k).
Proof.
  induction k as [|k IH]; intros fuel nf y Hok Hy Hnz; cbn [cfrac_loop]; [exact I|].
  apply defined_bind; [apply round_int_def; [exact Hok|exact Hy|left; exact Hnz]|].
  intros [[nf1 b1] c] Ef.
  destruct (round_int_ok o debug pol x (on_ball N) Ho Hm HJ _ _ rd_floor_ok _ _ _ _ _ _ (proj1 Hok) Hy Ef) as (G1 & K1 & Hb1 & _).
  pose proof (ok_kept _ _ Hok G1 K1) as Hok1.
  destruct Hy as [Hy _]. destruct (nk_sub_q _ _ _ Hn (r_elem y) c 1 Hy ltac:(lia)) as [Cs Vs].
  assert (Vs' : ev x (n_sub_q n (r_elem y) c 1) = ev x (r_elem y) - IZR c) by (rewrite Vs; field).
  assert (Hs : inb (ev x (n_sub_q n (r_elem y) c 1)) (o_sub_z o b1 c (f_prec nf1))).
  { rewrite Vs'. apply (ok_sub_z o Ho); [apply G1|exact Hb1]. }
  cbn [r_elem r_emb]. destruct (is_zero (n_sub_q n (r_elem y) c 1)) eqn:Z; [exact I|].
  assert (Nz : ev x (n_sub_q n (r_elem y) c 1) <> 0) by (intros W; apply (is_zero_spec pol x Hm _ Cs) in W; congruence).
  destruct (nk_inv _ _ _ Hn _ Cs Nz) as [Ci Vi].
  apply defined_bind; [|intros [[? ?] ?] _; exact I]. apply IH; [exact Hok1| |].
  - apply goodr_intro; [exact Ci|]. rewrite Vi. apply (ok_inv o Ho); [apply G1|exact Hs|exact Nz].
  - cbn [r_elem]. rewrite Vi. apply Rinv_neq_0_compat, Nz.
Qed.
Lemma cfrac_def : forall k fuel nf y, ok nf -> goodr y -> defined (cfrac o n debug fuel nf y k).
Proof.
  intros k fuel nf y Hok Hy. unfold cfrac. destruct (is_zero (r_elem y)) eqn:Z; [exact I|].
  apply cfrac_loop_def; try assumption. intros W. apply (is_zero_spec pol x Hm _ (proj1 Hy)) in W. congruence.
Qed.

(** * Conversion to double *)
Lemma overflows_def : forall depth fuel nf y, ok nf -> goodr y -> defined (overflows o n debug depth fuel nf y).
Proof.
  induction depth as [|k IH]; intros fuel nf y Hok Hy; cbn [overflows]; [exact I|].
  apply defined_bind; [apply sgn_def; assumption|]. intros [[nf1 b1] s] E1.
  destruct (sgn_ok o debug pol x (on_ball N) Ho Hm HJ _ _ _ _ _ _ (proj1 Hok) Hy E1) as (G1 & K1 & H1 & Es).
  pose proof (ok_kept _ _ Hok G1 K1) as Hok1. cbv zeta. cbn [r_elem r_emb].
  destruct (0 <=? s)%Z.
  - assert (Gy : goodr {| r_elem := r_elem y; r_emb := b1 |}) by (split; [apply Hy|exact H1]).
    apply defined_bind; [apply cmp_q_def; [exact Hok1|exact Gy|lia]|]. intros [[nf2 b2] c] E2. cbn [r_elem r_emb].
    destruct (cmp_q_ok o n debug pol x (on_ball N) Ho Hm Hn HJ _ _ _ _ 1 _ _ _ G1 Gy ltac:(lia) E2) as (G2 & K2 & H2 & _).
    destruct (c <=? 0)%Z; [exact I|].
    apply defined_bind; [|intros [[? ?] ?] _; exact I].
    apply cmp_q_def; [apply (ok_kept nf1); assumption|split; [apply Hy|exact H2]|lia].
  - apply defined_bind; [|intros [[? ?] ?] _; exact I]. apply IH; [exact Hok1|].
    destruct (nk_neg _ _ _ Hn (r_elem y) (proj1 Hy)) as [Cn Vn]. split; cbn [r_elem r_emb]; [exact Cn|rewrite Vn; apply inb_neg, H1].
Qed.

Lemma double_loop_def : forall md e, canon pol e -> forall fuel nf b p, ok nf -> (P <= p)%Z -> defined (double_loop o debug md fuel nf e b p).
Proof.
  intros md e He. induction fuel as [|f IH]; intros nf b p Hok Hp; [exact I|]. cbn [double_loop]. pose proof (ok_prec nf Hok).
  assert (Ha : defined (bind (refine o debug f nf (2 * p)) (fun nf' => bind (set_evaluation o nf' e (2 * p)) (fun b' => double_loop o debug md f nf' e b' (2 * p))))).
  { apply def_refine; [exact Hok|]. intros nf' Hok'. apply def_eval; [exact He|apply Hok'|lia|]. intros b' _ _. apply IH; [exact Hok'|lia]. }
  destruct (interval b p) as [[l u]|]; [|exact Ha]. destruct (dbl_eqb _ _); [exact I|exact Ha].
Qed.
Lemma accuracy_loop_def : forall e, canon pol e -> forall fuel nf b p, ok nf -> (P <= p)%Z -> defined (accuracy_loop o debug fuel nf e b p).
Proof.
  intros e He. induction fuel as [|f IH]; intros nf b p Hok Hp; [exact I|]. cbn [accuracy_loop]. pose proof (ok_prec nf Hok).
  destruct (rel_accuracy b <? 55)%Z; [|exact I]. apply def_refine; [exact Hok|]. intros nf' Hok'.
  apply def_eval; [exact He|apply Hok'|lia|]. intros b' _ _. apply IH; [exact Hok'|lia].
Qed.

Lemma get_d_def : forall fuel nf y md, ok nf -> goodr y -> defined (get_d o n debug fuel nf y md).
Proof.
  intros fuel nf y md Hok Hy. unfold get_d. destruct (is_zero (r_elem y)); [exact I|]. destruct (is_rational (r_elem y)); [exact I|]. cbv zeta.
  apply defined_bind.
  { destruct md; cbn [reduce_rnd]; try exact I; (apply defined_bind; [apply sgn_def; assumption|intros [[? ?] ?] _; exact I]). }
  intros [[nf1 y1] md1] E1.
  assert (H1 : ok nf1 /\ goodr y1 /\ r_elem y1 = r_elem y).
  { destruct md; cbn [reduce_rnd] in E1; try (injection E1 as <- <- <-; repeat split; try apply Hok; try apply Hy; auto; fail);
      (destruct (sgn o debug fuel nf y) as [[[nf2 b2] s]| | |] eqn:Es; try discriminate; cbn [bind] in E1; injection E1 as <- <- <-;
       destruct (sgn_ok o debug pol x (on_ball N) Ho Hm HJ _ _ _ _ _ _ (proj1 Hok) Hy Es) as (G1 & K1 & H1 & _);
       split; [apply (ok_kept nf); assumption|]; split; [split; [apply Hy|exact H1]|reflexivity]). }
  destruct H1 as (Hok1 & Gy1 & Q1).
  apply defined_bind; [apply overflows_def; assumption|]. intros [[nf2 y2] v] E2.
  destruct (over_ok o n debug pol x (on_ball N) Ho Hm Hn HJ _ _ _ _ _ _ _ (proj1 Hok1) Gy1 E2) as (G2 & K2 & Gy2 & Q2 & _).
  pose proof (ok_kept _ _ Hok1 G2 K2) as Hok2.
  destruct (v =? 1)%Z; [exact I|]. destruct (v =? -1)%Z; [exact I|].
  assert (Q : r_elem y2 = r_elem y) by congruence. rewrite Q in *. destruct Gy2 as [_ Hb2]. rewrite Q in Hb2. destruct Hy as [He _].
  assert (Ep : f_prec nf = P) by apply Hok. pose proof (ok_prec nf Hok) as HP2. rewrite Ep.
  apply defined_bind.
  - destruct (rel_accuracy (r_emb y2) <? 55)%Z; [|exact I].
    apply defined_bind; [destruct (2 * mid_bits (r_emb y2) <? P)%Z; [|exact I]; destruct (eval_def nf2 (r_elem y) P HP2) as (b & ->); exact I|].
    intros b _. apply accuracy_loop_def; [exact He|exact Hok2|lia].
  - intros [nf3 b3] E3.
    assert (Hok3 : ok nf3).
    { destruct (rel_accuracy (r_emb y2) <? 55)%Z; [|injection E3 as <- <-; exact Hok2].
      match type of E3 with bind ?t _ = _ => destruct t as [b4| | |] eqn:E4; try discriminate end. cbn [bind] in E3.
      assert (I4 : inb (ev x (r_elem y)) b4).
      { destruct (2 * mid_bits (r_emb y2) <? P)%Z; [apply (set_eval_ok o pol x (on_ball N) Ho Hm _ _ _ _ G2 He E4)|injection E4 as <-; exact Hb2]. }
      destruct (acc_ok o debug pol x (on_ball N) Ho Hm HJ (r_elem y) He _ _ _ _ _ _ G2 I4 E3) as (G3 & K3 & _).
      apply (ok_kept nf2); assumption. }
    apply defined_bind; [|intros [[? ?] ?] _; exact I]. apply double_loop_def; [exact He|exact Hok3|].
    assert (f_prec nf3 = P) by apply Hok3. lia.
Qed.

(** * Calls and histories *)
Hypothesis Hlen : (3 <= length pol)%nat.

Lemma nonzero_is : forall y, goodr y -> ev x (r_elem y) <> 0 -> is_zero (r_elem y) = false.
Proof. intros y Hy Hv. destruct (is_zero (r_elem y)) eqn:Z; [|reflexivity]. exfalso. apply Hv, (is_zero_spec pol x Hm _ (proj1 Hy)), Z. Qed.

Lemma run_def : forall fuel nf m k, ok nf -> (forall i, goodr (m i)) -> call_ok pol k -> allowed pol (values x m) k ->
  defined (run o n debug fuel nf m k).
Proof.
  intros fuel nf m k Hok Hmem Hk Ha. destruct k; cbn [run call_ok allowed] in *; try exact I;
    try (match goal with |- context [is_zero (r_elem (m ?c))] => rewrite (nonzero_is (m c) (Hmem c) Ha); exact I end);
    try (match goal with |- context [(?z =? 0)%Z] => destruct (Z.eqb_spec z 0); [contradiction|exact I] end).
  - apply defined_bind; [|intros; exact I]. unfold gen. assert (Ep : f_pol nf = pol) by apply Hok. rewrite Ep.
    destruct pol as [|c0 [|c1 [|c2 q]]]; cbn [length] in Hlen; try lia. exact I.
  - destruct (eval_def nf (r_elem (upd_elem m a e a)) prec Ha) as (b & E). rewrite E. exact I.
  - apply defined_bind; [|intros; exact I]. unfold do_inv.
    assert (Ez : r_elem (do_set m a c a) = r_elem (m c)) by (unfold do_set, upd_elem, upd_emb; rewrite Nat.eqb_refl; cbn [r_elem]; reflexivity).
    rewrite Ez, (nonzero_is (m c) (Hmem c) Ha). exact I.
  - apply defined_bind; [|intros; exact I]. unfold do_inv. rewrite (nonzero_is (m b) (Hmem b) Ha). exact I.
  - destruct (eval_def nf (r_elem (m a)) prec Ha) as (b & E). rewrite E. exact I.
  - apply def_refine; [exact Hok|intros; exact I].
  - apply defined_bind; [apply sgn_def; [exact Hok|apply Hmem]|intros [[? ?] ?] _; exact I].
  - apply defined_bind; [apply cmp_def; [exact Hok|apply Hmem|apply Hmem]|intros [[[? ?] ?] ?] _; exact I].
  - apply defined_bind; [apply cmp_q_def; [exact Hok|apply Hmem|exact Hk]|intros [[? ?] ?] _; exact I].
  - apply defined_bind; [apply round_int_def; [exact Hok|apply Hmem|exact Ha]|intros [[? ?] ?] _; exact I].
  - apply defined_bind; [apply round_int_def; [exact Hok|apply Hmem|exact Ha]|intros [[? ?] ?] _; exact I].
  - apply defined_bind; [|intros [[[? ?] ?] ?] _; exact I]. destruct Ha as [Hc Hb].
    apply fdiv_def; [exact Hok|apply Hmem|apply Hmem|intros E; apply Nat.eqb_eq in E; subst; reflexivity|exact Hc|exact Hb].
  - apply defined_bind; [apply get_arb_def; [exact Hok|apply Hmem]|intros [[? ?] ?] _; exact I].
  - apply defined_bind; [apply cfrac_def; [exact Hok|apply Hmem]|intros [[? ?] ?] _; exact I].
Qed.

Lemma runs_def : forall fuel l nf m, ok nf -> (forall i, goodr (m i)) -> Forall (call_ok pol) l -> Forall (sound_call pol) l ->
  legal pol x (values x m) l ->
  match runs o n debug fuel nf m l with
  | Val (nf', m') => ok nf' /\ (forall i, goodr (m' i)) /\ effects x (values x m) l (values x m')
  | Undef => S
  | Abort => False
  | Fuel => True
  end.
Proof.
  intros fuel. induction l as [|k l IH]; intros nf m Hok Hmem Hl Hs Hleg; cbn [runs].
  { split; [exact Hok|]. split; [exact Hmem|constructor]. }
  inversion Hl as [|? ? Hk Hl']; subst. inversion Hs as [|? ? Hsk Hs']; subst. inversion Hleg as [|? ? ? Ha Hnext]; subst.
  pose proof (run_def fuel nf m k Hok Hmem Hk Ha) as Hdef.
  destruct (run o n debug fuel nf m k) as [[nf1 m1]| | |] eqn:E; cbn [bind defined] in *; try assumption.
  destruct (run_ok o n debug pol x (on_ball N) Ho Hm Hn HJ fuel nf m k nf1 m1 (proj1 Hok) Hmem Hk E) as (G1 & K1 & Gm1 & F).
  specialize (F Hsk). change (effect x (values x m) k (values x m1)) in F.
  specialize (IH nf1 m1 (ok_kept _ _ Hok G1 K1) Gm1 Hl' Hs' (Hnext _ F)).
  destruct (runs o n debug fuel nf1 m1 l) as [[nf2 m2]| | |]; try assumption.
  destruct IH as (A & B & C). split; [exact A|]. split; [exact B|]. econstructor; eassumption.
Qed.
End Elem.
