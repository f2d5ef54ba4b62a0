(** The functions on elements end if the refinement of the field does. *)
Require Import Reals List ZArith Bool Lia Lra.
From Verif Require Import PolyR RootSpec RootModel VcaProofs Dyadic DyadicProofs ArbModel ArbSpec ArbProofs FieldProofs RefineProofs
  ElemModel ElemSpec ElemProofs ElemLoops ElemHist EndsSpec.
Import ListNotations.
Open Scope R_scope.

(** * Results that do not depend on the fuel *)
Lemma ends_val : forall A (v : out A), v <> Fuel -> ends (fun _ => v).
Proof. intros A v H. exists O, v. split; [exact H|reflexivity]. Qed.
Lemma ends_S : forall A (F : nat -> out A), ends (fun f => F (S f)) -> ends F.
Proof.
  intros A F (f0 & r & H & E). exists (S f0), r. split; [exact H|]. intros f Hf.
  destruct f as [|f]; [lia|]. apply E. lia.
Qed.
Lemma ends_ext : forall A (F G : nat -> out A), (forall f, F f = G f) -> ends F -> ends G.
Proof. intros A F G H (f0 & r & R & E). exists f0, r. split; [exact R|]. intros f Hf. rewrite <- H. apply E. exact Hf. Qed.
Lemma ends_bind : forall A B (F : nat -> out A) (G : A -> nat -> out B), ends F ->
  (forall f v, F f = Val v -> ends (G v)) -> ends (fun f => bind (F f) (fun v => G v f)).
Proof.
  intros A B F G (f0 & r & R & E) H. destruct r as [v| | |].
  - destruct (H f0 v (E f0 (Nat.le_refl _))) as (f1 & r & R1 & E1). exists (Nat.max f0 f1), r. split; [exact R1|].
    intros f Hf. rewrite E by lia. cbn [bind]. apply E1. lia.
  - exists f0, Undef. split; [discriminate|]. intros f Hf. rewrite E by exact Hf. reflexivity.
  - exists f0, Abort. split; [discriminate|]. intros f Hf. rewrite E by exact Hf. reflexivity.
  - contradiction.
Qed.
(** A part that does not use the fuel. *)
Lemma ends_bind_const : forall A B (v : out A) (G : A -> nat -> out B), v <> Fuel ->
  (forall w, v = Val w -> ends (G w)) -> ends (fun f => bind v (fun w => G w f)).
Proof. intros A B v G Hv H. apply (ends_bind A B (fun _ => v)); [apply ends_val; exact Hv|]. intros _ w E. apply H. exact E. Qed.
Lemma ends_bind_val : forall A B (F : nat -> out A) (G : A -> out B), ends F -> (forall v, G v <> Fuel) ->
  ends (fun f => bind (F f) G).
Proof. intros A B F G HF HG. apply (ends_bind A B F (fun v _ => G v) HF). intros f v _. apply ends_val. apply HG. Qed.

Section Elem.
Variables (o : arbops) (n : nfops) (debug : bool) (pol : list Z) (x : R) (N : ball -> Prop).
Hypothesis Ho : arb_ok o.
Hypothesis Hc : arb_conv o.
Hypothesis Hm : minimal pol x.
Hypothesis Hn : nf_ok pol x n.
Hypothesis HN : safe_balls o pol x N.
Let HJ : keeps o debug pol x (on_ball N) := safe_keeps o debug pol x N Ho Hm HN.
Hypothesis Hr : refines_end o debug pol x N.

Notation good := (good pol x (on_ball N)).
Notation goodr := (goodr pol x).

(** * Evaluation converges *)
Lemma eval_conv : forall p, conv1 (eval_arb o p) x.
Proof.
  induction p as [|c p IH]; intros e He.
  - exists 1, 2%Z. split; [lra|]. intros a q _ _ _. cbn. unfold dyv. cbn. lra.
  - destruct (cv_add_z o Hc (zeval p x * x) c e He) as (d1 & P1 & D1 & H1).
    destruct (cv_mul o Hc (zeval p x) x d1 D1) as (d2 & P2 & D2 & H2).
    destruct (IH d2 D2) as (d3 & P3 & D3 & H3).
    exists (Rmin d2 d3), (Z.max (Z.max P1 P2) (Z.max P3 2)). split; [apply Rmin_glb_lt; assumption|].
    assert (Hle : forall a e1 e2, e1 <= e2 -> rad_le a e1 -> rad_le a e2).
    { intros [m r|] e1 e2 L R; [|exact R]. cbn in *. lra. }
    intros a q Hq Ha Hrad. cbn [eval_arb].
    pose proof (eval_arb_ok o Ho p a x q ltac:(lia) Ha) as Hv.
    apply H1; [lia|apply (ok_mul o Ho); [lia|exact Hv|exact Ha]|].
    apply H2; [lia|exact Hv|exact Ha| |].
    + apply H3; [lia|exact Ha|]. apply (Hle a (Rmin d2 d3)); [apply Rmin_r|exact Hrad].
    + apply (Hle a (Rmin d2 d3)); [apply Rmin_l|exact Hrad].
Qed.

Lemma rad_le_mono : forall a e1 e2, e1 <= e2 -> rad_le a e1 -> rad_le a e2.
Proof. intros [m r|] e1 e2 L R; [|exact R]. cbn in *. lra. Qed.

Lemma set_eval_conv : forall e, canon pol e -> forall eps, 0 < eps -> exists d P, 0 < d /\
  forall nf p, good nf -> (P <= p)%Z -> rad_le (f_emb nf) d -> exists b, set_evaluation o nf e p = Val b /\ rad_le b eps.
Proof.
  intros e He eps Heps. pose proof (can_den _ _ He) as Hd.
  destruct (cv_div_z o Hc (zeval (e_num e) x) (e_den e) ltac:(lia) eps Heps) as (d1 & P1 & D1 & H1).
  destruct (eval_conv (e_num e) d1 D1) as (d2 & P2 & D2 & H2).
  set (c0 := nth 0 (e_num e) 0%Z). set (c1 := nth 1 (e_num e) 0%Z).
  destruct (cv_div_z o Hc (x * IZR c1 + IZR c0) (e_den e) ltac:(lia) eps Heps) as (d3 & P3 & D3 & H3).
  destruct (cv_add_z o Hc (x * IZR c1) c0 d3 D3) as (d4 & P4 & D4 & H4).
  destruct (cv_mul_z o Hc x c1 d4 D4) as (d5 & P5 & D5 & H5).
  destruct (cv_set_q o Hc c0 (e_den e) ltac:(lia) eps Heps) as (P6 & H6).
  exists (Rmin d2 d5), (Z.max 2 (Z.max (Z.max P1 P2) (Z.max (Z.max P3 P4) (Z.max P5 P6)))).
  split; [apply Rmin_glb_lt; assumption|]. intros nf p (G1 & G2 & _) Hp Hrad. unfold set_evaluation.
  destruct (Z.ltb_spec p 2) as [L|L]; [lia|].
  destruct (linear (f_pol nf)); [|destruct (quadratic (f_pol nf))]; (eexists; split; [reflexivity|]).
  - apply H6. lia.
  - fold c0 c1. apply H3; [lia| |].
    + apply (ok_add_z o Ho); [lia|]. apply (ok_mul_z o Ho); [lia|exact G2].
    + apply H4; [lia|apply (ok_mul_z o Ho); [lia|exact G2]|].
      apply H5; [lia|exact G2|]. apply (rad_le_mono _ (Rmin d2 d5)); [apply Rmin_r|exact Hrad].
  - unfold eval_arb_q. apply H1; [lia|apply (eval_arb_ok o Ho); [lia|exact G2]|].
    apply H2; [lia|exact G2|]. apply (rad_le_mono _ (Rmin d2 d5)); [apply Rmin_l|exact Hrad].
Qed.

(** * Accurate balls are small *)
Lemma pw2_neg_small : forall e, 0 < e -> exists P, forall p, (P <= p)%Z -> pw2 (- p) < e.
Proof.
  intros e He. destruct (archimed (/ e)) as [A _]. set (k := up (/ e)) in *.
  assert (0 < / e) by (apply Rinv_0_lt_compat; exact He).
  assert (Hk : (0 < k)%Z) by (apply lt_IZR; lra).
  exists k. intros p Hp. apply Rle_lt_trans with (pw2 (- k)); [apply pw2_le; lia|].
  assert (Hb : IZR k < pw2 k).
  { rewrite <- pw2_IZR by lia. apply IZR_lt. apply Z.pow_gt_lin_r; lia. }
  pose proof (pw2_inv k) as I. pose proof (pw2_pos (- k)) as P1. pose proof (pw2_pos k) as P2.
  apply Rmult_lt_reg_r with (pw2 k); [exact P2|]. 
  assert (pw2 (- k) * pw2 k = 1) as -> by (pose proof (pw2_inv k); lra).
  replace 1 with (e * / e) by (rewrite Rinv_r; lra).
  apply Rmult_lt_compat_l; [exact He|]. lra.
Qed.

Lemma accurate_small : forall b p, (1 <= p)%Z -> inb x b -> (p <= rel_accuracy b)%Z -> rad_le b (2 * Rabs x * pw2 (- p)).
Proof.
  intros [m r|] p Hp Hx Ha; unfold rel_accuracy, rel_error in Ha; cbn [rad_le].
  2:{ unfold WORD_MAX in Ha. lia. }
  pose proof (inb_rad _ _ _ Hx) as Hr0. pose proof (Rabs_pos x) as Hx0. pose proof (pw2_pos (- p)) as Hpp.
  destruct (Z.eqb_spec (fst r) 0) as [E|E].
  { apply dyv_eq0 in E. rewrite E. apply Rmult_le_pos; lra. }
  destruct (Z.eqb_spec (fst m) 0) as [E'|E']; [unfold WORD_MAX in Ha; lia|].
  destruct (dexp_spec m E') as [Hm1 _]. pose proof (dexp_bound r Hr0) as Hrb.
  assert (H1 : pw2 (dexp r) <= pw2 (dexp m - 1) * pw2 (- p)) by (rewrite <- pw2_add; apply pw2_le; lia).
  assert (H2 : dyv r <= Rabs (dyv m) * pw2 (- p)).
  { apply Rle_trans with (pw2 (dexp m - 1) * pw2 (- p)); [lra|]. apply Rmult_le_compat_r; lra. }
  assert (H3 : Rabs (dyv m) <= Rabs x + dyv r).
  { cbn in Hx. replace (dyv m) with (x - (x - dyv m)) at 1 by ring.
    pose proof (Rabs_triang x (- (x - dyv m))) as T. rewrite Rabs_Ropp in T.
    replace (x - (x - dyv m)) with (x + - (x - dyv m)) by ring. lra. }
  assert (Hh : pw2 (- p) <= / 2).
  { replace (/ 2) with (pw2 (-1)) by (unfold pw2; simpl; lra). apply pw2_le. lia. }
  nra.
Qed.

(** With enough precision the evaluation after a refinement is as sharp as wanted. *)
Lemma sharp_after : forall e, canon pol e -> forall eps, 0 < eps -> exists P, forall nf p c, good nf ->
  (p <= rel_accuracy (f_emb nf))%Z -> (P <= p)%Z -> (P <= p + c)%Z ->
  exists b, set_evaluation o nf e (p + c) = Val b /\ rad_le b eps.
Proof.
  intros e He eps Heps. destruct (set_eval_conv e He eps Heps) as (d & P & Hd & H).
  assert (Hx0 : 0 < 2 * Rabs x + 1) by (pose proof (Rabs_pos x); lra).
  destruct (pw2_neg_small (d / (2 * Rabs x + 1)) ltac:(apply Rdiv_lt_0_compat; assumption)) as (P' & HP').
  exists (Z.max (Z.max P P') 1). intros nf p c G Ha Hp Hpc. apply H; [exact G|lia|].
  apply (rad_le_mono _ (2 * Rabs x * pw2 (- p))).
  - specialize (HP' p ltac:(lia)). pose proof (Rabs_pos x). pose proof (pw2_pos (- p)).
    assert (pw2 (- p) * (2 * Rabs x + 1) < d).
    { apply Rmult_lt_reg_r with (/ (2 * Rabs x + 1)); [apply Rinv_0_lt_compat; exact Hx0|].
      rewrite Rmult_assoc, Rinv_r, Rmult_1_r by lra. exact HP'. }
    nra.
  - apply accurate_small; [lia|apply G|exact Ha].
Qed.

Lemma refine_sharp : forall fuel nf p nf', good nf -> refine o debug fuel nf p = Val nf' -> (p <= rel_accuracy (f_emb nf'))%Z.
Proof.
  intros fuel nf p nf' (G1 & G2 & G3 & G4) E.
  apply (refine_spec o Ho pol x N HN (minimal_simple pol x Hm) debug fuel nf p nf' G1 G2 G3 E).
Qed.
Lemma refine_good' : forall fuel nf p nf', good nf -> refine o debug fuel nf p = Val nf' -> good nf'.
Proof. intros fuel nf p nf' G E. apply (HJ _ _ _ _ G E). Qed.

Lemma eval_no_fuel : forall nf e p, set_evaluation o nf e p <> Fuel.
Proof. intros nf e p. unfold set_evaluation. repeat match goal with |- context [if ?b then _ else _] => destruct b end; discriminate. Qed.

(** Loops that double the precision until it is at least [P]. *)
Lemma doubling : forall A St (inv sharp : St -> Prop) (pr : St -> Z) (P : Z) (L : St -> nat -> out A),
  (forall s, inv s -> (2 <= pr s)%Z) ->
  (forall s, inv s -> sharp s -> (P <= pr s)%Z -> ends (L s)) ->
  (forall s, inv s -> (forall s', inv s' -> sharp s' -> pr s' = (2 * pr s)%Z -> ends (L s')) -> ends (L s)) ->
  forall s, inv s -> ends (L s).
Proof.
  intros A St inv sharp pr P L H2 Hend Hstep.
  assert (Hind : forall k s, inv s -> sharp s -> (P <= pr s + Z.of_nat k)%Z -> ends (L s)).
  { induction k as [|k IH]; intros s Hi Hs Hk; [apply Hend; try assumption; lia|].
    apply Hstep; [exact Hi|]. intros s' Hi' Hs' E. pose proof (H2 s Hi). apply IH; try assumption. lia. }
  intros s Hi. apply Hstep; [exact Hi|]. intros s' Hi' Hs' _.
  apply (Hind (Z.to_nat (P - pr s'))); try assumption. lia.
Qed.

(** Refine and evaluate: the step of every loop. *)
Lemma step_ends : forall A e p c nf (G : renf -> ball -> nat -> out A), canon pol e -> good nf ->
  (forall nf' b, good nf' -> (p <= rel_accuracy (f_emb nf'))%Z -> set_evaluation o nf' e (p + c) = Val b ->
     inb (ev x e) b -> ends (G nf' b)) ->
  ends (fun f => bind (refine o debug f nf p) (fun nf' => bind (set_evaluation o nf' e (p + c)) (fun b => G nf' b f))).
Proof.
  intros A e p c nf G He Hg H.
  apply (ends_bind _ _ _ (fun nf' f => bind (set_evaluation o nf' e (p + c)) (fun b => G nf' b f)) (Hr nf p Hg)).
  intros f nf' E. apply ends_bind_const; [apply eval_no_fuel|]. intros b Eb.
  pose proof (refine_good' _ _ _ _ Hg E) as G'. apply H; try assumption.
  - exact (refine_sharp _ _ _ _ Hg E).
  - apply (set_eval_ok o pol x (on_ball N) Ho Hm _ _ _ _ G' He Eb).
Qed.

(** * Sign *)
Lemma small_nonzero : forall b v, v <> 0 -> inb v b -> rad_le b (Rabs v / 4) -> contains_zero b = false.
Proof.
  intros [m r|] v Hv Hb Hrad; [|contradiction]. unfold contains_zero. apply dleb_false. cbn in Hrad, Hb. rewrite dyv_abs.
  assert (0 < Rabs v) by (apply Rabs_pos_lt; exact Hv).
  replace v with (dyv m + (v - dyv m)) in Hrad, H by ring.
  pose proof (Rabs_triang (dyv m) (v - dyv m)). lra.
Qed.

(** The loops that test an enclosure, refine and evaluate. *)
Lemma test_ends : forall A e c (L : nat -> renf -> ball -> Z -> out A) (stop : ball -> bool) (res : renf -> ball -> Z -> A) eps,
  canon pol e -> 0 < eps -> (forall b, inb (ev x e) b -> rad_le b eps -> stop b = true) ->
  (forall f nf b p, L (S f) nf b p = if stop b then Val (res nf b p)
     else bind (refine o debug f nf (2 * p)) (fun nf' => bind (set_evaluation o nf' e (2 * p + c)) (fun b' => L f nf' b' (2 * p)%Z))) ->
  forall nf b p, good nf -> (2 <= p)%Z -> ends (fun f => L f nf b p).
Proof.
  intros A e c L stop res eps He Heps Hstop HL nf b p Hg Hp.
  destruct (sharp_after e He _ Heps) as (P & HP).
  apply (doubling A (renf * ball * Z) (fun '(nf, b, p) => good nf /\ (2 <= p)%Z)
    (fun '(nf, b, p) => (p <= rel_accuracy (f_emb nf))%Z /\ set_evaluation o nf e (p + c) = Val b)
    (fun '(_, _, p) => p) (Z.max P (P - c)) (fun '(nf, b, p) f => L f nf b p)) with (s := (nf, b, p)); [| | |split; assumption].
  - intros [[nf1 b1] p1] [_ H]. exact H.
  - intros [[nf1 b1] p1] [G1 _] [Ha Eb] Hp1. apply ends_S.
    destruct (HP nf1 p1 c G1 Ha ltac:(lia) ltac:(lia)) as (b2 & E2 & R2). rewrite Eb in E2. injection E2 as <-.
    apply (ends_ext _ (fun _ => Val (res nf1 b1 p1))); [|apply ends_val; discriminate].
    intros f. rewrite HL, Hstop; [reflexivity| |exact R2]. apply (set_eval_ok o pol x (on_ball N) Ho Hm _ _ _ _ G1 He Eb).
  - intros [[nf1 b1] p1] [G1 Hp1] IH. apply ends_S.
    destruct (stop b1) eqn:Es.
    + apply (ends_ext _ (fun _ => Val (res nf1 b1 p1))); [|apply ends_val; discriminate]. intros f. rewrite HL, Es. reflexivity.
    + apply (ends_ext _ (fun f => bind (refine o debug f nf1 (2 * p1)) (fun nf' => bind (set_evaluation o nf' e (2 * p1 + c))
        (fun b' => L f nf' b' (2 * p1)%Z)))); [intros f; rewrite HL, Es; reflexivity|].
      apply (step_ends _ e (2 * p1) c nf1 (fun nf' b' f => L f nf' b' (2 * p1)%Z) He G1).
      intros nf' b' G' Ha Eb Hb. apply (IH (nf', b', (2 * p1)%Z)); [split; [exact G'|lia]|split; assumption|reflexivity].
Qed.

Lemma sgn_loop_ends : forall e, canon pol e -> ev x e <> 0 -> forall nf b p c, good nf -> (2 <= p)%Z ->
  ends (fun f => sgn_loop o debug f nf e b p c).
Proof.
  intros e He Hv nf b p c Hg Hp.
  apply (test_ends _ e c (fun f nf b p => sgn_loop o debug f nf e b p c) (fun b => negb (contains_zero b)) (fun nf b p => (nf, b, msgn b))
    (Rabs (ev x e) / 4)); try assumption; [pose proof (Rabs_pos_lt _ Hv); lra| |reflexivity].
  intros b1 Hb Hrad. rewrite (small_nonzero b1 _ Hv Hb Hrad). reflexivity.
Qed.

Lemma sgn_ends : forall nf y, good nf -> goodr y -> ends (fun f => sgn o debug f nf y).
Proof.
  intros nf [e b] Hg [He Hb]. cbn [r_elem r_emb] in *. unfold sgn. cbn [r_elem r_emb].
  destruct (e_num e) as [|c [|c' l]] eqn:En; try (apply ends_val; discriminate).
  destruct (negb (contains_zero b)); [apply ends_val; discriminate|].
  apply ends_bind_const; [apply eval_no_fuel|]. intros b' Eb.
  apply sgn_loop_ends; try assumption; [|apply (start_ge pol x (on_ball N)); exact Hg].
  intros Hz. apply (ev_zero_num pol x Hm e He) in Hz. congruence.
Qed.

(** * Comparison *)
Lemma cmp_ends : forall nf y z, good nf -> goodr y -> goodr z -> ends (fun f => cmp o n debug f nf y z).
Proof.
  intros nf [a ea] [b eb] Hg [Ha Hea] [Hb Heb]. cbn [r_elem r_emb] in *. unfold cmp. cbn [r_elem r_emb].
  destruct (elem_eqb a b); [apply ends_val; discriminate|].
  destruct (blt ea eb); [apply ends_val; discriminate|].
  destruct (blt eb ea); [apply ends_val; discriminate|].
  destruct (is_rational a && is_rational b).
  - destruct (is_zero a).
    { apply ends_bind_val; [apply sgn_ends; [exact Hg|split; assumption]|]. intros [[? ?] ?]. discriminate. }
    destruct (is_zero b).
    { apply ends_bind_val; [apply sgn_ends; [exact Hg|split; assumption]|]. intros [[? ?] ?]. discriminate. }
    apply ends_val. discriminate.
  - apply ends_bind_const; [apply eval_no_fuel|]. intros ea' Ea. apply ends_bind_const; [apply eval_no_fuel|]. intros eb' Eb.
    pose proof (set_eval_ok o pol x (on_ball N) Ho Hm _ _ _ _ Hg Ha Ea) as Ia. pose proof (set_eval_ok o pol x (on_ball N) Ho Hm _ _ _ _ Hg Hb Eb) as Ib.
    destruct (blt ea' eb'); [apply ends_val; discriminate|]. destruct (blt eb' ea'); [apply ends_val; discriminate|].
    apply ends_bind_val; [|intros [[? ?] ?]; discriminate]. apply sgn_ends; [exact Hg|]. unfold relem_sub. cbn [r_elem r_emb].
    destruct (nk_sub _ _ _ Hn a b Ha Hb) as [C V]. split; cbn [r_elem r_emb]; [exact C|]. rewrite V.
    apply (ok_sub o Ho); [apply Hg|exact Ia|exact Ib].
Qed.

Lemma cmp_q_ends : forall nf y qn qd, good nf -> goodr y -> (0 < qd)%Z -> ends (fun f => cmp_q o n debug f nf y qn qd).
Proof.
  intros nf [a ea] qn qd Hg [Ha Hea] Hq. cbn [r_elem r_emb] in *. unfold cmp_q. cbn [r_elem r_emb].
  destruct (qn =? 0)%Z; [apply sgn_ends; [exact Hg|split; assumption]|].
  destruct (is_zero a); [apply ends_val; discriminate|]. destruct (is_rational a); [apply ends_val; discriminate|].
  destruct (negb (contains_zero _)); [apply ends_val; discriminate|].
  destruct (debug && _)%bool; [apply ends_val; discriminate|].
  apply ends_bind_const; [apply eval_no_fuel|]. intros ea' Ea.
  pose proof (set_eval_ok o pol x (on_ball N) Ho Hm _ _ _ _ Hg Ha Ea) as Ia.
  destruct (negb (contains_zero _)); [apply ends_val; discriminate|].
  apply ends_bind_val; [|intros [[? ?] ?]; discriminate]. apply sgn_ends; [exact Hg|].
  destruct (nk_sub_q _ _ _ Hn a qn qd Ha Hq) as [C V]. split; cbn [r_elem r_emb]; [exact C|]. rewrite V.
  apply (ok_sub o Ho); [apply Hg|exact Ia|]. apply (ok_set_q o Ho); [apply Hg|lia].
Qed.

(** * Integer parts *)
Definition rd_const (rd : roundop) : Prop := forall l r k, IZR k < dyv l -> dyv r < IZR k + 1 -> dyv l <= dyv r -> rd_dy rd l = rd_dy rd r.

Lemma floor_const : rd_const rd_floor.
Proof.
  intros l r k H1 H2 H3. cbn [rd_floor rd_dy].
  apply (floor_unique (dyv l)); [exact (dfloor_spec l)|].
  pose proof (dfloor_spec r) as [A B].
  assert (dfloor r <= k)%Z by (apply le_IZR; assert (dfloor r < k + 1)%Z by (apply lt_IZR; rewrite plus_IZR; lra); apply IZR_le; lia).
  assert (k <= dfloor r)%Z by (assert (k < dfloor r + 1)%Z by (apply lt_IZR; rewrite plus_IZR; lra); lia).
  assert (dfloor r = k) by lia. unfold is_floor. rewrite H4 in *. subst k. lra.
Qed.
Lemma ceil_const : rd_const rd_ceil.
Proof.
  intros l r k H1 H2 H3. cbn [rd_ceil rd_dy].
  pose proof (dceil_spec r) as [A B]. pose proof (dceil_spec l) as [C D].
  assert (dceil r = k + 1)%Z.
  { assert (dceil r < k + 2)%Z by (apply lt_IZR; rewrite plus_IZR; lra). assert (k < dceil r)%Z by (apply lt_IZR; lra). lia. }
  assert (dceil l = k + 1)%Z.
  { assert (dceil l < k + 2)%Z by (apply lt_IZR; rewrite plus_IZR; lra). assert (k < dceil l)%Z by (apply lt_IZR; lra). lia. }
  lia.
Qed.

Lemma interval_small : forall v d, 0 < d -> exists eps P, 0 < eps /\
  forall b p, inb v b -> rad_le b eps -> (P <= p)%Z -> exists l r, interval b p = Some (l, r) /\ v - d < dyv l /\ dyv l <= dyv r /\ dyv r < v + d.
Proof.
  intros v d Hd. assert (Hv2 : 0 < Rabs v + 2) by (pose proof (Rabs_pos v); lra).
  destruct (pw2_neg_small (d / 4 / (Rabs v + 2))) as (P & HP). { apply Rdiv_lt_0_compat; lra. }
  exists (Rmin 1 (d / 4)), (Z.max 1 (P + 1)). split; [apply Rmin_glb_lt; lra|].
  intros [m r|] p Hb Hrad Hp; [|contradiction]. cbn in Hrad. pose proof (inb_rad _ _ _ Hb) as R0. apply inb_bounds in Hb.
  pose proof (Rmin_l 1 (d / 4)). pose proof (Rmin_r 1 (d / 4)).
  specialize (HP (p - 1)%Z ltac:(lia)). replace (- (p - 1))%Z with (1 - p)%Z in HP by lia.
  assert (HE : (Rabs v + 2) * pw2 (1 - p) < d / 4).
  { apply Rmult_lt_reg_r with (/ (Rabs v + 2)); [apply Rinv_0_lt_compat; exact Hv2|].
    replace ((Rabs v + 2) * pw2 (1 - p) * / (Rabs v + 2)) with (pw2 (1 - p)) by (field; lra). exact HP. }
  pose proof (pw2_pos (1 - p)) as Hpp.
  assert (Hrnd : forall md q, v - 2 * dyv r <= dyv q <= v + 2 * dyv r -> Rabs (dyv q - dyv (dround md p q)) < d / 4).
  { intros md q Hq. destruct (dround_spec md p q ltac:(lia)) as (_ & E & _).
    assert (Rabs (dyv q) <= Rabs v + 2) by (unfold Rabs; destruct (Rcase_abs (dyv q)), (Rcase_abs v); lra). nra. }
  unfold interval.
  pose proof (Hrnd RFloor (dsub m r) ltac:(rewrite dyv_sub; lra)) as L1. pose proof (Hrnd RCeil (dadd m r) ltac:(rewrite dyv_add; lra)) as L2.
  pose proof (dround_floor_le p (dsub m r) ltac:(lia)) as L3. pose proof (dround_ceil_ge p (dadd m r) ltac:(lia)) as L4.
  rewrite dyv_sub in L1, L3. rewrite dyv_add in L2, L4. apply Rabs_def2 in L1. apply Rabs_def2 in L2.
  eexists _, _. split; [reflexivity|]. lra.
Qed.

Lemma unique_small : forall rd, rd_const rd -> forall v, (forall k, v <> IZR k) -> exists eps P, 0 < eps /\
  forall b p, inb v b -> rad_le b eps -> (P <= p)%Z -> exists l, unique_int rd b p = Some (l, l).
Proof.
  intros rd Hrd v Hv. destruct (archimed v) as [A1 A2]. set (k := (up v - 1)%Z).
  assert (Hk : IZR k < v < IZR k + 1).
  { unfold k. rewrite minus_IZR. pose proof (Hv (up v - 1)%Z) as V. rewrite minus_IZR in V. lra. }
  set (d := Rmin (v - IZR k) (IZR k + 1 - v)). assert (Hd : 0 < d) by (apply Rmin_glb_lt; lra).
  assert (Hd1 : d <= v - IZR k) by apply Rmin_l. assert (Hd2 : d <= IZR k + 1 - v) by apply Rmin_r.
  destruct (interval_small v d Hd) as (eps & P & Heps & H). exists eps, P. split; [exact Heps|].
  intros b p Hb Hrad Hp. destruct (H b p Hb Hrad Hp) as (l & r & E & L1 & L2 & L3).
  unfold unique_int. rewrite E. exists (rd_dy rd r). rewrite (Hrd l r k) by lra. reflexivity.
Qed.

Lemma irrational_not_int : forall e, canon pol e -> is_rational e = false -> forall k, ev x e <> IZR k.
Proof.
  intros e He H k E. assert (is_rational e = true); [|congruence]. apply (is_rational_spec pol x Hm e He).
  exists k, 1%Z. split; [lia|]. rewrite E. field.
Qed.

Lemma round_loop_ends : forall rd, rd_const rd -> forall e, canon pol e -> is_rational e = false -> forall nf sz p c, good nf -> (2 <= p)%Z ->
  ends (fun f => round_loop o debug rd f nf e sz p c).
Proof.
  intros rd Hrd e He Hirr nf sz p c Hg Hp.
  destruct (unique_small rd Hrd (ev x e) (irrational_not_int e He Hirr)) as (eps & P1 & Heps & HU).
  destruct (sharp_after e He _ Heps) as (P & HP).
  apply (doubling _ (renf * Z) (fun '(nf, p) => good nf /\ (2 <= p)%Z) (fun '(nf, p) => (p <= rel_accuracy (f_emb nf))%Z)
    snd (Z.max P1 (Z.max P (P - c))) (fun '(nf, p) f => round_loop o debug rd f nf e sz p c)) with (s := (nf, p)); [| | |split; assumption].
  - intros [nf1 p1] [_ H]. exact H.
  - intros [nf1 p1] [G1 _] Ha Hp1. apply ends_S. cbn [snd] in Hp1.
    destruct (HP nf1 p1 c G1 Ha ltac:(lia) ltac:(lia)) as (b2 & E2 & R2).
    destruct (HU b2 (Z.max sz p1) (set_eval_ok o pol x (on_ball N) Ho Hm _ _ _ _ G1 He E2) R2 ltac:(lia)) as (l & El).
    cbn [round_loop]. rewrite E2. cbn [bind]. rewrite El, Z.eqb_refl. apply ends_val. discriminate.
  - intros [nf1 p1] [G1 Hp1] IH. apply ends_S. cbn [round_loop].
    apply (ends_bind_const _ _ _ (fun b f => match unique_int rd b (Z.max sz p1) with
      | Some (l, r) => if (l =? r)%Z then Val (nf1, b, l) else bind (refine o debug f nf1 (2 * p1)) (fun nf' => round_loop o debug rd f nf' e sz (2 * p1) c)
      | None => bind (refine o debug f nf1 (2 * p1)) (fun nf' => round_loop o debug rd f nf' e sz (2 * p1) c) end)); [apply eval_no_fuel|].
    intros b Eb.
    assert (Ha : ends (fun f => bind (refine o debug f nf1 (2 * p1)) (fun nf' => round_loop o debug rd f nf' e sz (2 * p1) c))).
    { apply (ends_bind _ _ _ (fun nf' f => round_loop o debug rd f nf' e sz (2 * p1) c) (Hr nf1 (2 * p1)%Z G1)).
      intros f nf' E. apply (IH (nf', (2 * p1)%Z)); [split; [exact (refine_good' _ _ _ _ G1 E)|lia]|exact (refine_sharp _ _ _ _ G1 E)|reflexivity]. }
    destruct (unique_int rd b (Z.max sz p1)) as [[l r]|]; [|exact Ha]. destruct (l =? r)%Z; [apply ends_val; discriminate|exact Ha].
Qed.

Lemma finite_loop_ends : forall e, canon pol e -> forall nf b p c, good nf -> (2 <= p)%Z -> ends (fun f => finite_loop o debug f nf e b p c).
Proof.
  intros e He nf b p c Hg Hp.
  apply (test_ends _ e c (fun f nf b p => finite_loop o debug f nf e b p c) is_finite (fun nf b p => (nf, b)) 1); try assumption; [lra| |reflexivity].
  intros [m r|] _ H; [reflexivity|contradiction].
Qed.
Lemma finite_loop_p_ends : forall e, canon pol e -> forall nf b p c, good nf -> (2 <= p)%Z -> ends (fun f => finite_loop_p o debug f nf e b p c).
Proof.
  intros e He nf b p c Hg Hp.
  apply (test_ends _ e c (fun f nf b p => finite_loop_p o debug f nf e b p c) is_finite (fun nf b p => (nf, b, p)) 1); try assumption; [lra| |reflexivity].
  intros [m r|] _ H; [reflexivity|contradiction].
Qed.
Lemma nonzero_loop_ends : forall e, canon pol e -> ev x e <> 0 -> forall nf b p c, good nf -> (2 <= p)%Z ->
  ends (fun f => nonzero_loop o debug f nf e b p c).
Proof.
  intros e He Hv nf b p c Hg Hp.
  apply (test_ends _ e c (fun f nf b p => nonzero_loop o debug f nf e b p c) (fun b => negb (contains_zero b)) (fun nf b p => (nf, b, p))
    (Rabs (ev x e) / 4)); try assumption; [pose proof (Rabs_pos_lt _ Hv); lra| |reflexivity].
  intros b1 Hb Hrad. rewrite (small_nonzero b1 _ Hv Hb Hrad). reflexivity.
Qed.

Lemma round_int_ends : forall rd, rd_const rd -> forall nf y, good nf -> goodr y -> ends (fun f => round_int o debug rd f nf y).
Proof.
  intros rd Hrd nf [e b0] Hg [He Hb]. unfold round_int. cbn [r_elem r_emb] in *.
  destruct (is_rational e) eqn:Re.
  { apply ends_val. unfold coeff0. destruct (e_num e); [destruct (generic (f_pol nf))|]; discriminate. }
  match goal with |- ends (fun f => bind (@?F f) (@?G f)) => apply (ends_bind _ _ F (fun v f => G f v)) end.
  - destruct (is_finite b0); [apply ends_val; discriminate|].
    apply ends_bind_const; [apply eval_no_fuel|]. intros b Eb. apply finite_loop_ends; try assumption. apply (start_ge pol x (on_ball N)). exact Hg.
  - intros f [nf1 b1] E1.
    assert (G1 : good nf1).
    { destruct (is_finite b0); [injection E1 as <- <-; exact Hg|].
      destruct (set_evaluation o nf e (start_prec nf + elem_cond nf e)) as [b2| | |] eqn:Ee; try discriminate. cbn [bind] in E1.
      apply (finite_loop_ok o debug pol x (on_ball N) Ho Hm HJ e He _ _ _ _ _ _ _ Hg (set_eval_ok o pol x (on_ball N) Ho Hm _ _ _ _ Hg He Ee) E1). }
    destruct (unique_int rd b1 (f_prec nf1)) as [[l r]|]; [|apply ends_val; discriminate].
    destruct (l =? r)%Z; [apply ends_val; discriminate|]. apply round_loop_ends; try assumption. apply (start_ge pol x (on_ball N)). exact G1.
Qed.

(** * Floor division *)
Lemma quot_loop_ends : forall b c, canon pol b -> canon pol c -> ev x c <> 0 -> forall nf eb ec q p k1 k2, good nf -> (2 <= p)%Z ->
  ends (fun f => quot_loop o debug f nf b c eb ec q p k1 k2).
Proof.
  intros b c Hb Hcc Hz nf eb ec q p k1 k2 Hg Hp.
  destruct (cv_div o Hc (ev x b) (ev x c) Hz (1 / 4) ltac:(lra)) as (d & Pd & Hd & HD).
  destruct (sharp_after b Hb _ Hd) as (P1 & HP1). destruct (sharp_after c Hcc _ Hd) as (P2 & HP2).
  apply (doubling _ (renf * ball * ball * ball * Z) (fun '(nf, _, _, _, p) => good nf /\ (2 <= p)%Z)
    (fun '(nf, eb, ec, q, p) => (p <= rel_accuracy (f_emb nf))%Z /\ set_evaluation o nf b (p + k1) = Val eb /\
       set_evaluation o nf c (p + k2) = Val ec /\ q = o_div o eb ec p)
    snd (Z.max Pd (Z.max (Z.max P1 (P1 - k1)) (Z.max P2 (P2 - k2))))
    (fun '(nf, eb, ec, q, p) f => quot_loop o debug f nf b c eb ec q p k1 k2)) with (s := (nf, eb, ec, q, p)); [| | |split; assumption].
  - intros [[[[nf1 eb1] ec1] q1] p1] [_ H]. exact H.
  - intros [[[[nf1 eb1] ec1] q1] p1] [G1 _] (Ha & E1 & E2 & ->) Hp1. apply ends_S. cbn [snd] in Hp1.
    destruct (HP1 nf1 p1 k1 G1 Ha ltac:(lia) ltac:(lia)) as (b1 & F1 & R1). rewrite E1 in F1. injection F1 as <-.
    destruct (HP2 nf1 p1 k2 G1 Ha ltac:(lia) ltac:(lia)) as (c1 & F2 & R2). rewrite E2 in F2. injection F2 as <-.
    pose proof (HD eb1 ec1 p1 ltac:(lia) (set_eval_ok o pol x (on_ball N) Ho Hm _ _ _ _ G1 Hb E1) (set_eval_ok o pol x (on_ball N) Ho Hm _ _ _ _ G1 Hcc E2) R1 R2) as RQ.
    cbn [quot_loop]. assert (Eh : rad_ge_half (o_div o eb1 ec1 p1) = false).
    { destruct (o_div o eb1 ec1 p1) as [m r|]; [|contradiction]. cbn in RQ |- *. apply dleb_false. unfold dyv, pw2. cbn [fst snd powerRZ].
      change (Pos.to_nat 1) with 1%nat. rewrite pow_1. unfold dyv, pw2 in RQ. lra. }
    rewrite Eh. apply ends_val. discriminate.
  - intros [[[[nf1 eb1] ec1] q1] p1] [G1 Hp1] IH. apply ends_S. cbn [quot_loop].
    destruct (rad_ge_half q1); [|apply ends_val; discriminate].
    apply (step_ends _ b (2 * p1) k1 nf1 (fun nf' eb' f => bind (set_evaluation o nf' c (2 * p1 + k2)) (fun ec' =>
        quot_loop o debug f nf' b c eb' ec' (o_div o eb' ec' (2 * p1)) (2 * p1) k1 k2)) Hb G1).
    intros nf' eb' G' Ha Eb _. apply ends_bind_const; [apply eval_no_fuel|]. intros ec' Ec.
    apply (IH (nf', eb', ec', o_div o eb' ec' (2 * p1), (2 * p1)%Z)); [split; [exact G'|lia]|repeat split; assumption|reflexivity].
Qed.

Lemma floor_ends : forall nf y, good nf -> goodr y -> ends (fun f => floor o debug f nf y).
Proof. intros nf y. apply (round_int_ends rd_floor floor_const). Qed.
Lemma ceil_ends : forall nf y, good nf -> goodr y -> ends (fun f => ceil o debug f nf y).
Proof. intros nf y. apply (round_int_ends rd_ceil ceil_const). Qed.

Lemma fdiv_ends : forall same nf y z, good nf -> goodr y -> goodr z -> (same = true -> r_elem y = r_elem z) ->
  ends (fun f => fdiv o n debug same f nf y z).
Proof.
  intros same nf [b b0] [c c0] Hg [Hb Hb0] [Hcc Hc0] Hsame. unfold fdiv. cbn [r_elem r_emb] in *.
  assert (Gp : (2 <= f_prec nf)%Z) by apply Hg.
  destruct (is_rational c) eqn:Rc.
  { destruct (is_zero c) eqn:Zc; [apply ends_val; discriminate|].
    assert (Hz : ev x c <> 0) by (intros Z; apply (is_zero_spec pol x Hm c Hcc) in Z; congruence).
    apply ends_bind_val; [|intros [[? ?] ?]; discriminate]. apply floor_ends; [exact Hg|].
    destruct (nk_div _ _ _ Hn b c Hb Hcc Hz) as [Cq Vq]. split; cbn [div_elem r_elem r_emb]; [exact Cq|]. rewrite Vq.
    apply (ok_div o Ho); assumption. }
  assert (Hz : ev x c <> 0).
  { intros Z. apply (is_zero_spec pol x Hm c Hcc) in Z. unfold is_zero, is_rational in *. destruct (e_num c); discriminate. }
  pose proof (start_ge pol x (on_ball N) nf Hg) as Hp.
  apply ends_bind_const; [apply eval_no_fuel|]. intros b1 E1.
  match goal with |- ends (fun f => bind (@?F f) (@?G f)) => apply (ends_bind _ _ F (fun v f => G f v)) end; [apply finite_loop_p_ends; assumption|].
  intros f2 [[nf2 b2] p2] E2.
  destruct (finite_loop_p_ok o debug pol x (on_ball N) Ho Hm HJ b Hb _ _ _ _ _ _ _ _ Hg (set_eval_ok o pol x (on_ball N) Ho Hm _ _ _ _ Hg Hb E1) Hp E2) as (G2 & _ & Hb2 & P2).
  apply ends_bind_const; [apply eval_no_fuel|]. intros c1 E3.
  match goal with |- ends (fun f => bind (@?F f) (@?G f)) => apply (ends_bind _ _ F (fun v f => G f v)) end; [apply nonzero_loop_ends; assumption|].
  intros f3 [[nf3 c3] p3] E4.
  destruct (nonzero_loop_ok o debug pol x (on_ball N) Ho Hm HJ c Hcc _ _ _ _ _ _ _ _ G2 (set_eval_ok o pol x (on_ball N) Ho Hm _ _ _ _ G2 Hcc E3) P2 E4) as (G3 & _ & Hc3 & P3).
  cbv zeta.
  assert (Hb3 : inb (ev x b) (if same then c3 else b2)).
  { destruct same; [rewrite (Hsame eq_refl); exact Hc3|exact Hb2]. }
  set (b3 := if same then c3 else b2) in *.
  match goal with |- ends (fun f => bind (@?F f) (@?G f)) => apply (ends_bind _ _ F (fun v f => G f v)) end; [apply quot_loop_ends; assumption|].
  intros f4 [[[nf4 b4] c4] qb] E5.
  destruct (quot_loop_ok o debug pol x (on_ball N) Ho Hm HJ b c Hb Hcc Hz f4 nf3 b3 c3 (o_div o b3 c3 p3) p3 _ _ _ _ _ _ G3 Hb3 Hc3 ltac:(apply (ok_div o Ho); assumption) P3 E5)
    as (G4 & _ & Hb4 & Hc4 & _ & _).
  destruct qb as [m r|]; [|apply ends_val; discriminate].
  destruct (dceil (dsub m r) <=? dfloor (dadd m r))%Z; [|apply ends_val; discriminate].
  set (l := dceil (dsub m r)).
  destruct (nk_mul_q _ _ _ Hn c l 1 Hcc ltac:(lia)) as [Cm Vm].
  assert (Vm' : ev x (n_mul_q n c l 1) = ev x c * IZR l) by (rewrite Vm; field).
  assert (Gm : goodr {| r_elem := n_mul_q n c l 1; r_emb := o_mul_z o c4 l (f_prec nf4) |}).
  { apply goodr_intro; [exact Cm|]. rewrite Vm'. apply (ok_mul_z o Ho); [apply G4|exact Hc4]. }
  match goal with |- ends (fun f => bind (@?F f) (@?G f)) => apply (ends_bind _ _ F (fun v f => G f v)) end;
    [apply cmp_ends; [exact G4|exact Gm|apply goodr_intro; assumption]|].
  intros f5 [[[nf5 a5] b5] s] E6.
  destruct (cmp_ok o n debug pol x (on_ball N) Ho Hm Hn HJ _ _ _ _ _ _ _ _ G4 Gm (goodr_intro pol x _ _ Hb Hb4) E6) as (G5 & _ & _ & Hb5 & _).
  cbn [r_elem] in Hb5. apply ends_bind_val; [|intros [[? ?] ?]; discriminate].
  apply sgn_ends; [exact G5|]. apply goodr_intro; [exact Hcc|].
  destruct same; [rewrite <- (Hsame eq_refl); exact Hb5|exact Hc4].
Qed.

(** * Balls *)
Lemma error_small : forall v prec, v <> 0 -> (0 <= prec)%Z -> (prec + 2 < WORD_MAX)%Z -> exists eps, 0 < eps /\
  forall b, inb v b -> rad_le b eps -> (rel_error b < - prec - 2)%Z.
Proof.
  intros v prec Hv Hp Hw. pose proof (Rabs_pos_lt v Hv) as Hv0. pose proof (pw2_pos (- (prec + 8))) as Hpp.
  exists (Rabs v / 2 * pw2 (- (prec + 8))). split; [apply Rmult_lt_0_compat; lra|].
  intros [m r|] Hb Hrad; [|contradiction]. cbn [rad_le] in Hrad. pose proof (inb_rad _ _ _ Hb) as R0.
  assert (Hsm : pw2 (- (prec + 8)) <= 1) by (change 1 with (pw2 0); apply pw2_le; lia).
  assert (Hmv : Rabs v / 2 <= Rabs (dyv m)).
  { cbn in Hb. replace v with (dyv m + (v - dyv m)) at 1 by ring. pose proof (Rabs_triang (dyv m) (v - dyv m)).
    assert (Rabs v = Rabs (dyv m + (v - dyv m))) as E by (f_equal; ring). rewrite <- E in *. nra. }
  cbn [rel_error]. destruct (Z.eqb_spec (fst r) 0) as [E|E]; [lia|].
  destruct (Z.eqb_spec (fst m) 0) as [E'|E'].
  { exfalso. apply dyv_eq0 in E'. rewrite E', Rabs_R0 in Hmv. lra. }
  destruct (dexp_spec m E') as [_ M2]. destruct (dexp_spec r E) as [M1 _]. rewrite (Rabs_pos_eq (dyv r)) in M1 by exact R0.
  assert (Hlt : pw2 (dexp r - 1) < pw2 (dexp m - (prec + 8))).
  { replace (dexp m - (prec + 8))%Z with (dexp m + - (prec + 8))%Z by lia. rewrite pw2_add. nra. }
  destruct (Z.lt_ge_cases (dexp r - 1) (dexp m - (prec + 8))) as [L|L]; [lia|].
  apply pw2_le in L. lra.
Qed.

Lemma get_arb_loop_ends : forall e, canon pol e -> ev x e <> 0 -> forall nf p c prec, good nf -> (2 <= p)%Z -> (0 <= prec)%Z -> (prec + 2 < WORD_MAX)%Z ->
  ends (fun f => get_arb_loop o debug f nf e p c prec).
Proof.
  intros e He Hv nf p c prec Hg Hp H0 Hw.
  destruct (error_small (ev x e) prec Hv H0 Hw) as (eps & Heps & HU).
  destruct (sharp_after e He _ Heps) as (P & HP).
  apply (doubling _ (renf * Z) (fun '(nf, p) => good nf /\ (2 <= p)%Z) (fun '(nf, p) => (p <= rel_accuracy (f_emb nf))%Z)
    snd (Z.max P (P - c)) (fun '(nf, p) f => get_arb_loop o debug f nf e p c prec)) with (s := (nf, p)); [| | |split; assumption].
  - intros [nf1 p1] [_ H]. exact H.
  - intros [nf1 p1] [G1 _] Ha Hp1. apply ends_S. cbn [snd] in Hp1.
    destruct (HP nf1 p1 c G1 Ha ltac:(lia) ltac:(lia)) as (b2 & E2 & R2).
    cbn [get_arb_loop]. rewrite E2. cbn [bind].
    pose proof (HU b2 (set_eval_ok o pol x (on_ball N) Ho Hm _ _ _ _ G1 He E2) R2) as L. apply Z.ltb_lt in L. rewrite L. apply ends_val. discriminate.
  - intros [nf1 p1] [G1 Hp1] IH. apply ends_S. cbn [get_arb_loop].
    apply (ends_bind_const _ _ _ (fun b f => if (rel_error b <? - prec - 2)%Z then Val (nf1, b, o_round o b (prec + 2))
      else bind (refine o debug f nf1 (2 * p1)) (fun nf' => get_arb_loop o debug f nf' e (2 * p1) c prec))); [apply eval_no_fuel|].
    intros b Eb. destruct (rel_error b <? - prec - 2)%Z; [apply ends_val; discriminate|].
    apply (ends_bind _ _ _ (fun nf' f => get_arb_loop o debug f nf' e (2 * p1) c prec) (Hr nf1 (2 * p1)%Z G1)).
    intros f nf' E. apply (IH (nf', (2 * p1)%Z)); [split; [exact (refine_good' _ _ _ _ G1 E)|lia]|exact (refine_sharp _ _ _ _ G1 E)|reflexivity].
Qed.

Lemma get_arb_ends : forall nf y prec, good nf -> goodr y -> (0 <= prec)%Z -> (prec + 2 < WORD_MAX)%Z ->
  ends (fun f => get_arb o debug f nf y prec).
Proof.
  intros nf [e b0] prec Hg [He Hb] H0 Hw. unfold get_arb. cbn [r_elem r_emb] in *.
  destruct (is_zero e) eqn:Z; [apply ends_val; discriminate|].
  destruct (rel_error b0 <? - prec - 2)%Z; [apply ends_val; discriminate|].
  apply get_arb_loop_ends; try assumption; [|apply (start_ge pol x (on_ball N)); exact Hg].
  intros E. apply (is_zero_spec pol x Hm e He) in E. congruence.
Qed.

(** * Continued fractions *)
Lemma cfrac_loop_ends : forall k nf y, good nf -> goodr y -> ends (fun f => cfrac_loop o n debug f nf y k).
Proof.
  induction k as [|k IH]; intros nf y Hg Hy; cbn [cfrac_loop]; [apply ends_val; discriminate|].
  match goal with |- ends (fun f => bind (@?F f) (@?G f)) => apply (ends_bind _ _ F (fun v f => G f v)) end; [apply floor_ends; assumption|].
  intros f1 [[nf1 b1] c] Ef.
  destruct (round_int_ok o debug pol x (on_ball N) Ho Hm HJ _ _ rd_floor_ok _ _ _ _ _ _ Hg Hy Ef) as (G1 & _ & Hb1 & _).
  destruct Hy as [Hy _]. destruct (nk_sub_q _ _ _ Hn (r_elem y) c 1 Hy ltac:(lia)) as [Cs Vs].
  assert (Vs' : ev x (n_sub_q n (r_elem y) c 1) = ev x (r_elem y) - IZR c) by (rewrite Vs; field).
  assert (Hs : inb (ev x (n_sub_q n (r_elem y) c 1)) (o_sub_z o b1 c (f_prec nf1))).
  { rewrite Vs'. apply (ok_sub_z o Ho); [apply G1|exact Hb1]. }
  cbn [r_elem r_emb]. destruct (is_zero (n_sub_q n (r_elem y) c 1)) eqn:Z; [apply ends_val; discriminate|].
  assert (Nz : ev x (n_sub_q n (r_elem y) c 1) <> 0) by (intros W; apply (is_zero_spec pol x Hm _ Cs) in W; congruence).
  destruct (nk_inv _ _ _ Hn _ Cs Nz) as [Ci Vi].
  apply ends_bind_val; [|intros [[? ?] ?]; discriminate]. apply IH; [exact G1|].
  apply goodr_intro; [exact Ci|]. rewrite Vi. apply (ok_inv o Ho); [apply G1|exact Hs|exact Nz].
Qed.

Lemma cfrac_ends : forall k nf y, good nf -> goodr y -> ends (fun f => cfrac o n debug f nf y k).
Proof.
  intros k nf y Hg Hy. unfold cfrac. destruct (is_zero (r_elem y)); [apply ends_val; discriminate|].
  apply cfrac_loop_ends; assumption.
Qed.

(** * Calls and histories *)
Lemma gen_no_fuel : forall nf, gen o n nf <> Fuel.
Proof.
  intros nf. unfold gen, canonicalise. repeat (match goal with |- context [match ?t with _ => _ end] => destruct t end; cbn [bind]; try discriminate).
Qed.

Lemma run_ends : forall nf m k, good nf -> (forall i, goodr (m i)) -> call_ok pol k -> modest k -> ends (fun f => run o n debug f nf m k).
Proof.
  intros nf m k Hg Hmem Hk Hmod. destruct k; cbn [run call_ok modest] in *; try (apply ends_val; discriminate);
    try (apply ends_val; match goal with |- (if ?b then _ else _) <> _ => destruct b end; discriminate);
    (apply ends_bind_val; [|intros; repeat match goal with t : (_ * _)%type |- _ => destruct t end; discriminate]).
  - apply ends_val. apply gen_no_fuel.
  - apply ends_val. apply eval_no_fuel.
  - apply ends_val. unfold do_inv. match goal with |- (if ?b then _ else _) <> _ => destruct b end; discriminate.
  - apply ends_val. unfold do_inv. match goal with |- (if ?b then _ else _) <> _ => destruct b end; discriminate.
  - apply ends_val. apply eval_no_fuel.
  - apply Hr. exact Hg.
  - apply sgn_ends; [exact Hg|apply Hmem].
  - apply cmp_ends; [exact Hg|apply Hmem|apply Hmem].
  - apply cmp_q_ends; [exact Hg|apply Hmem|exact Hk].
  - apply floor_ends; [exact Hg|apply Hmem].
  - apply ceil_ends; [exact Hg|apply Hmem].
  - apply fdiv_ends; [exact Hg|apply Hmem|apply Hmem|]. intros E. apply Nat.eqb_eq in E. subst. reflexivity.
  - apply get_arb_ends; [exact Hg|apply Hmem|exact Hk|exact Hmod].
  - apply cfrac_ends; [exact Hg|apply Hmem].
Qed.

Lemma runs_end : forall l nf m, good nf -> (forall i, goodr (m i)) -> Forall (call_ok pol) l -> Forall modest l ->
  ends (fun f => runs o n debug f nf m l).
Proof.
  induction l as [|k l IH]; intros nf m Hg Hmem Hl Hml; cbn [runs]; [apply ends_val; discriminate|].
  inversion_clear Hl. inversion_clear Hml.
  match goal with |- ends (fun f => bind (@?F f) (@?G f)) => apply (ends_bind _ _ F (fun v f => G f v)) end; [apply run_ends; assumption|].
  intros f1 [nf1 m1] E. destruct (run_ok o n debug pol x (on_ball N) Ho Hm Hn HJ f1 nf m k nf1 m1 Hg Hmem H E) as (G1 & _ & Gm1 & _).
  apply IH; assumption.
Qed.
End Elem.
