(** Refinement and equality of fields. *)
Require Import Reals List ZArith Bool Lia Lra.
From Verif Require Import PolyR RootSpec RootModel ExtraModel Dyadic DyadicProofs ArbModel ArbSpec ArbProofs FieldProofs.
Import ListNotations.
Open Scope R_scope.

(** Precisions tried by the refinement for the ball [a]: computed from the ball
    (line 34 or 59 of refine_embedding.c) and then doubled some number of times. *)
Definition tried (pol : list Z) (a : ball) (p : Z) : Prop := exists c k, (2 <= c)%Z /\ (0 <= k)%Z /\
  p = (2 ^ k * (2 * Z.abs (rel_accuracy a) + cond_2exp pol a c * Z.of_nat (length pol)))%Z.

(** A set of balls in which no step can confuse the root [x] with another one:
    each isolates [x], also when the endpoints are rounded outwards to a
    precision that is tried, and the steps of the refinement lead from these balls
    to others of the set. *)
Record safe_balls (o : arbops) (pol : list Z) (x : R) (N : ball -> Prop) : Prop := {
  safe_here : forall a y, N a -> inb x a -> is_finite a = true -> inb y a -> zeval pol y = 0 -> y = x;
  safe_newton : forall a p t, N a -> inb x a -> (2 <= p)%Z -> tried pol a p ->
    newton_step o pol (zderiv pol) a p = Val (true, Some t) -> inb x t -> N t;
  safe_bisect : forall a p t, N a -> inb x a -> (2 <= p)%Z -> tried pol a p ->
    (forall t', newton_step o pol (zderiv pol) a p <> Val (true, Some t')) ->
    bisection_step o pol a p = Val (true, Some t) -> inb x t -> N t;
  safe_only : forall a p l r, N a -> inb x a -> (2 <= p)%Z -> tried pol a p -> interval a p = Some (l, r) ->
    only_root pol (dyv l) (dyv r) x
}.

Lemma comp_prec_tried : forall nf c cp, (2 <= c)%Z -> comp_prec nf c = Val cp -> tried (f_pol nf) (f_emb nf) cp.
Proof.
  intros nf c cp Hc E. unfold comp_prec in E. destruct (WORD_MAX <? _)%Z; [discriminate|]. injection E as <-.
  exists c, 0%Z. split; [exact Hc|]. split; [lia|]. change (2 ^ 0)%Z with 1%Z. rewrite Z.mul_1_l. reflexivity.
Qed.
Lemma tried_double : forall pol a p, tried pol a p -> tried pol a (2 * p).
Proof.
  intros pol a p (c & k & Hc & Hk & ->). exists c, (k + 1)%Z. split; [exact Hc|]. split; [lia|].
  rewrite Z.pow_add_r by lia. change (2 ^ 1)%Z with 2%Z. ring.
Qed.

Definition same_field (nf nf' : renf) : Prop :=
  f_pol nf' = f_pol nf /\ f_den nf' = f_den nf /\ f_prec nf' = f_prec nf.

Lemma refine_loop_spec : forall o, arb_ok o -> forall pol x N, safe_balls o pol x N -> simple_root pol x ->
  forall fuel nf prec cp nf', f_pol nf = pol -> inb x (f_emb nf) -> N (f_emb nf) -> tried pol (f_emb nf) cp ->
  refine_loop o fuel nf prec cp = Val nf' ->
  inb x (f_emb nf') /\ N (f_emb nf') /\ (prec <= rel_accuracy (f_emb nf'))%Z /\ same_field nf nf' /\ f_imm nf' = f_imm nf.
Proof.
  intros o Ho pol x N HN Hs. induction fuel as [|fuel IH]; intros nf prec cp nf' Hpol Hx HNe Ht0 E; [discriminate|].
  cbn [refine_loop] in E. destruct (Z.ltb_spec (rel_accuracy (f_emb nf)) prec) as [Hacc|Hacc].
  2:{ injection E as <-. repeat split; try assumption; lia. }
  assert (Hnext : forall t, inb x t -> N t ->
    bind (comp_prec (with_emb nf t) 32) (fun cp' => refine_loop o fuel (with_emb nf t) prec cp') = Val nf' ->
    inb x (f_emb nf') /\ N (f_emb nf') /\ (prec <= rel_accuracy (f_emb nf'))%Z /\ same_field nf nf' /\ f_imm nf' = f_imm nf).
  { intros t Ht HNt E'. destruct (comp_prec (with_emb nf t) 32) as [cp'| | |] eqn:Ec; try discriminate. cbn [bind] in E'.
    pose proof (comp_prec_tried (with_emb nf t) 32 cp' ltac:(lia) Ec) as Ht'. cbn [with_emb f_pol f_emb] in Ht'. rewrite Hpol in Ht'.
    destruct (IH (with_emb nf t) prec cp' nf' Hpol Ht HNt Ht' E') as (A & B & C & D & F).
    repeat split; try assumption; apply D. }
  assert (Hbis : (forall t', newton_step o pol (zderiv pol) (f_emb nf) cp <> Val (true, Some t')) ->
    bind (bisection_step o (f_pol nf) (f_emb nf) cp) (fun bs =>
                match bs with
                | (true, Some t) => bind (comp_prec (with_emb nf t) 32) (fun cp' => refine_loop o fuel (with_emb nf t) prec cp')
                | _ => refine_loop o fuel nf prec (2 * cp)
                end) = Val nf' ->
    inb x (f_emb nf') /\ N (f_emb nf') /\ (prec <= rel_accuracy (f_emb nf'))%Z /\ same_field nf nf' /\ f_imm nf' = f_imm nf).
  { clear E. intros Hnw E. destruct (bisection_step o (f_pol nf) (f_emb nf) cp) as [[b t]| | |] eqn:Eb; try discriminate.
    cbn [bind] in E. pose proof (tried_double _ _ _ Ht0) as Ht2.
    destruct b; [destruct t as [t|]|]; try (apply (IH nf prec (2 * cp)%Z nf'); assumption).
    assert (Hcp : (2 <= cp)%Z).
    { unfold bisection_step in Eb. destruct (Z.ltb_spec cp 2); [discriminate|lia]. }
    destruct (interval (f_emb nf) cp) as [[l r]|] eqn:Ei.
    2:{ unfold bisection_step in Eb. rewrite Ei in Eb. destruct (cp <? 2)%Z; discriminate. }
    rewrite Hpol in Eb.
    pose proof (safe_only _ _ _ _ HN (f_emb nf) cp l r HNe Hx Hcp Ht0 Ei) as Hon.
    pose proof (bisection_encloses o Ho pol (f_emb nf) x cp l r t Eb Ei Hon Hs Hx) as Ht.
    apply (Hnext t Ht); [|exact E].
    apply (safe_bisect _ _ _ _ HN (f_emb nf) cp); assumption. }
  destruct (newton_step o (f_pol nf) (zderiv (f_pol nf)) (f_emb nf) cp) as [[b t]| | |] eqn:En; try discriminate.
  cbn [bind] in E. rewrite Hpol in En.
  destruct b; [destruct t as [t|]|]; try (apply Hbis; [intros t' Q; rewrite En in Q; discriminate|exact E]).
  assert (Ht : inb x t).
  { eapply (newton_encloses o Ho); [exact En|exact Hx|]. apply Hs. }
  apply (Hnext t Ht); [|exact E].
  apply (safe_newton _ _ _ _ HN (f_emb nf) cp); try assumption.
  unfold newton_step in En. destruct (Z.leb_spec cp 0); [discriminate|]. destruct (Z.ltb_spec cp 2); [discriminate|lia].
Qed.

Lemma refine_spec : forall o, arb_ok o -> forall pol x N, safe_balls o pol x N -> simple_root pol x ->
  forall debug fuel nf prec nf', f_pol nf = pol -> inb x (f_emb nf) -> N (f_emb nf) ->
  refine o debug fuel nf prec = Val nf' ->
  inb x (f_emb nf') /\ N (f_emb nf') /\ (prec <= rel_accuracy (f_emb nf'))%Z /\ same_field nf nf' /\ f_imm nf' = f_imm nf.
Proof.
  intros o Ho pol x N HN Hs debug fuel nf prec nf' Hpol Hx HNe E. unfold refine in E.
  destruct debug.
  - cbn [set_immutable] in E. destruct (Z.eqb_spec (f_imm nf) 0) as [Hi|]; [|discriminate].
    destruct (comp_prec (with_imm nf 1) (Z.max (f_prec (with_imm nf 1)) 64)) as [cp| | |] eqn:Ec; try discriminate.
    cbn [bind] in E. apply comp_prec_tried in Ec; [|lia]. cbn [with_imm f_pol f_emb] in Ec. rewrite Hpol in Ec.
    destruct (refine_loop o fuel (with_imm nf 1) prec cp) as [nf2| | |] eqn:El; try discriminate. cbn [bind] in E.
    destruct (refine_loop_spec o Ho pol x N HN Hs fuel (with_imm nf 1) prec cp nf2 Hpol Hx HNe Ec El) as (A & B & C & D & F).
    unfold set_immutable in E. destruct (f_imm nf2 =? 0)%Z; [discriminate|]. injection E as <-.
    repeat split; try assumption; try apply D. cbn [with_imm f_imm]. congruence.
  - destruct (comp_prec nf (Z.max (f_prec nf) 64)) as [cp| | |] eqn:Ec; try discriminate. cbn [bind] in E.
    apply comp_prec_tried in Ec; [|lia]. rewrite Hpol in Ec. eapply refine_loop_spec; eassumption.
Qed.

(** Any number of refinement requests. *)
Fixpoint refines (o : arbops) (debug : bool) (fuel : nat) (nf : renf) (precs : list Z) : out renf :=
  match precs with
  | [] => Val nf
  | p :: l => bind (refine o debug fuel nf p) (fun nf' => refines o debug fuel nf' l)
  end.

Lemma refines_spec : forall o, arb_ok o -> forall pol x N, safe_balls o pol x N -> simple_root pol x ->
  forall debug fuel precs nf nf', f_pol nf = pol -> inb x (f_emb nf) -> N (f_emb nf) ->
  refines o debug fuel nf precs = Val nf' ->
  inb x (f_emb nf') /\ N (f_emb nf') /\ same_field nf nf' /\ f_imm nf' = f_imm nf /\
  (forall ps p, precs = ps ++ [p] -> (p <= rel_accuracy (f_emb nf'))%Z).
Proof.
  intros o Ho pol x N HN Hs debug fuel. induction precs as [|p l IH]; intros nf nf' Hpol Hx HNe E.
  - injection E as <-. repeat split; try assumption. intros [|? ?] q Hq; discriminate.
  - cbn [refines] in E. destruct (refine o debug fuel nf p) as [nf1| | |] eqn:E1; try discriminate. cbn [bind] in E.
    destruct (refine_spec o Ho pol x N HN Hs debug fuel nf p nf1 Hpol Hx HNe E1) as (A & B & C & D & F).
    destruct D as (D1 & D2 & D3).
    destruct (IH nf1 nf' ltac:(congruence) A B E) as (A' & B' & (G1 & G2 & G3) & F' & C').
    repeat split; try congruence.
    intros ps q Hq. destruct l as [|p' l'].
    + cbn [refines] in E. injection E as <-. destruct ps as [|? [|? ?]]; inversion Hq; subst; assumption.
    + destruct ps as [|p0 ps']; [discriminate|]. injection Hq as _ Hq. apply (C' ps' q Hq).
Qed.

(** Refinement keeps an isolating ball isolating. *)
Lemma refines_isolates : forall o, arb_ok o -> forall pol x N, safe_balls o pol x N -> simple_root pol x ->
  forall debug fuel precs nf nf', f_pol nf = pol -> inb x (f_emb nf) -> N (f_emb nf) ->
  refines o debug fuel nf precs = Val nf' ->
  inb x (f_emb nf') /\ (is_finite (f_emb nf') = true -> forall y, inb y (f_emb nf') -> zeval pol y = 0 -> y = x) /\
  same_field nf nf' /\ f_imm nf' = f_imm nf /\
  (forall ps p, precs = ps ++ [p] -> (p <= rel_accuracy (f_emb nf'))%Z).
Proof.
  intros o Ho pol x N HN Hs debug fuel precs nf nf' Hpol Hx HNe E.
  destruct (refines_spec o Ho pol x N HN Hs debug fuel precs nf nf' Hpol Hx HNe E) as (A & B & C & D & F).
  split; [exact A|]. split; [|split; [exact C|split; [exact D|exact F]]].
  intros Hf y Hy Zy. apply (safe_here _ _ _ _ HN (f_emb nf')); assumption.
Qed.

(** A polynomial with only one real root: every ball is safe. *)
Lemma single_root_safe : forall o pol x, zeval pol x = 0 -> (forall y, zeval pol y = 0 -> y = x) ->
  safe_balls o pol x (fun _ => True).
Proof.
  intros o pol x Hx Hu. constructor; try (intros; exact I).
  { intros a y _ _ _ _ Hy. apply Hu. exact Hy. }
  intros a p l r _ _ _ _ _. split; [exact Hx|]. intros y _ Hy. apply Hu. exact Hy.
Qed.

(** * Equality of fields (C19) *)
Lemma zlist_eqb_spec : forall p q, zlist_eqb p q = true <-> p = q.
Proof.
  induction p as [|a p IH]; intros [|b q]; cbn [zlist_eqb]; split; intros H; try reflexivity; try discriminate.
  - apply andb_true_iff in H. destruct H as [H1 H2]. apply Z.eqb_eq in H1. apply IH in H2. congruence.
  - injection H as -> ->. rewrite Z.eqb_refl. cbn [andb]. apply IH. reflexivity.
Qed.

Lemma renf_equal_same : forall nf1 nf2 x, f_pol nf1 = f_pol nf2 -> f_den nf1 = f_den nf2 ->
  inb x (f_emb nf1) -> inb x (f_emb nf2) -> renf_equal nf1 nf2 = true.
Proof.
  intros nf1 nf2 x H1 H2 A B. unfold renf_equal. rewrite H2, Z.eqb_refl.
  rewrite (proj2 (zlist_eqb_spec _ _) H1), (boverlaps_common _ _ x A B). reflexivity.
Qed.

Definition ball_rad (b : ball) : R := match b with Fin _ r => dyv r | Top => 0 end.

Lemma renf_equal_close : forall nf1 nf2 x y, renf_equal nf1 nf2 = true ->
  is_finite (f_emb nf1) = true -> is_finite (f_emb nf2) = true ->
  inb x (f_emb nf1) -> inb y (f_emb nf2) ->
  f_pol nf1 = f_pol nf2 /\ f_den nf1 = f_den nf2 /\
  Rabs (x - y) <= 2 * (ball_rad (f_emb nf1) + ball_rad (f_emb nf2)).
Proof.
  intros nf1 nf2 x y E F1 F2 Hx Hy. unfold renf_equal in E. apply andb_true_iff in E. destruct E as [E E3].
  apply andb_true_iff in E. destruct E as [E1 E2]. apply zlist_eqb_spec in E1. apply Z.eqb_eq in E2.
  split; [exact E1|]. split; [exact E2|].
  destruct (f_emb nf1) as [m r|]; [|discriminate]. destruct (f_emb nf2) as [n s|]; [|discriminate].
  cbn [boverlaps ball_rad] in *. apply dleb_spec in E3. rewrite dyv_abs, dyv_sub, dyv_add in E3.
  apply inb_bounds in Hx. apply inb_bounds in Hy. unfold Rabs in E3. destruct (Rcase_abs _) in E3; apply Rabs_le; lra.
Qed.

(** * Arithmetic on accuracies (C49) *)
Lemma comp_prec_defined : forall nf m r c, f_emb nf = Fin m r -> fst m <> 0%Z -> fst r <> 0%Z ->
  (Z.abs (dexp r + 1 - dexp m) < 2 ^ 62)%Z -> exists cp, comp_prec nf c = Val cp.
Proof.
  intros nf m r c Em Hm Hr Hb. unfold comp_prec, rel_accuracy, rel_error. rewrite Em.
  destruct (Z.eqb_spec (fst r) 0); [contradiction|]. destruct (Z.eqb_spec (fst m) 0); [contradiction|].
  cbv zeta. destruct (Z.ltb_spec WORD_MAX (2 * Z.abs (- (dexp r + 1 - dexp m)))) as [L|L].
  - unfold WORD_MAX in L. change (2 ^ 63)%Z with (2 * 2 ^ 62)%Z in L. lia.
  - eexists. reflexivity.
Qed.
