(** Histories on which element functions go wrong, and examples.  All are run
    with the concrete operations of DyBall.v and NfArith.v. *)
Require Import Reals List ZArith Bool Lia Lra Psatz Znumtheory.
From Verif Require Import PolyR RootSpec RootModel ExtraModel VcaProofs Dyadic DyadicProofs ArbModel ArbSpec ArbProofs
  FieldProofs RefineProofs DyBall DyBallProofs ArbRefute ElemModel ElemSpec ElemProofs ElemLoops ElemHist NfArith NfArithProofs ElemMore.
Import ListNotations.
Open Scope R_scope.

(** Fresh elements are zero (renf_elem/init.c). *)
Definition mem0 : mem := fun _ => {| r_elem := {| e_num := []; e_den := 1 |}; r_emb := bzero |}.

(** What a program can reach: a field with the polynomial [pol], irreducible and
    with the only root [x] in the ball [a], is made at the default precision, and
    the calls [l] return. *)
Definition reached (pol : list Z) (a : ball) (x : R) (l : list call) (nf : renf) (m : mem) : Prop :=
  minimal pol x /\ inb x a /\ (forall z, inb z a -> zeval pol z = 0 -> z = x) /\
  exists nf0, renf_init dyops true 100 pol 1 a 64 = Val nf0 /\ runs dyops (nfc pol) true 100 nf0 mem0 l = Val (nf, m).

Lemma canon_intro : forall pol p d, (0 < d)%Z -> last p 1%Z <> 0%Z -> (length p < length pol)%nat ->
  fold_right Z.gcd d p = 1%Z -> canon pol {| e_num := p; e_den := d |}.
Proof.
  intros pol p d Hd Hl Hn Hg. constructor; cbn [e_num e_den]; try assumption.
  intros g Pg D1 D2. assert (D : (g | fold_right Z.gcd d p)%Z).
  { clear Hl Hn Hg. induction p as [|c p IH]; [exact D1|]. cbn [fold_right]. apply Z.gcd_greatest; [apply D2; left; reflexivity|].
    apply IH. intros c' Hc. apply D2. right. exact Hc. }
  rewrite Hg in D. apply Z.divide_1_r_nonneg in D; lia.
Qed.

Lemma elem_eqb_eq : forall a b, elem_eqb a b = true -> a = b.
Proof.
  intros [p d] [q e] H. unfold elem_eqb in H. apply andb_true_iff in H. destruct H as [H1 H2]. cbn [e_num e_den] in *.
  apply zlist_eqb_spec in H1. apply Z.eqb_eq in H2. congruence.
Qed.

(** * Irrationality *)
Lemma even_square : forall w, (exists k, w * w = 2 * k)%Z -> exists w', (w = 2 * w')%Z.
Proof.
  intros w (k & E). assert (D : (2 | w * w)%Z) by (exists k; lia). apply prime_mult in D; [|exact prime_2].
  destruct D as [[w' D]|[w' D]]; exists w'; lia.
Qed.

Lemma square_descent : forall m, Z.odd m = true -> forall w c, (w * w = 2 * m * (c * c))%Z -> c = 0%Z.
Proof.
  intros m Hm w c. remember (Z.abs_nat c) as k eqn:Ek. revert w c Ek. induction k as [k IH] using lt_wf_ind. intros w c Ek E.
  destruct (Z.eq_dec c 0) as [|Nc]; [assumption|exfalso].
  destruct (even_square w) as (w' & ->); [exists (m * (c * c))%Z; lia|].
  assert (E1 : (2 * (w' * w') = m * (c * c))%Z) by lia.
  assert (D : (2 | m * (c * c))%Z) by (exists (w' * w')%Z; lia).
  apply prime_mult in D; [|exact prime_2]. destruct D as [[q D]|[q D]].
  - subst m. rewrite Z.odd_mul in Hm. cbn in Hm. rewrite andb_false_r in Hm. discriminate.
  - destruct (even_square c) as (c' & ->); [exists q; lia|].
    assert (c' = 0%Z); [|lia]. apply (IH (Z.abs_nat c')) with (w := w'); [lia|reflexivity|lia].
Qed.

Lemma even_cube : forall w, (exists k, w * w * w = 2 * k)%Z -> exists w', (w = 2 * w')%Z.
Proof.
  intros w (k & E). assert (D : (2 | w * w * w)%Z) by (exists k; lia). apply prime_mult in D; [|exact prime_2].
  destruct D as [[q D]|[w' D]]; [apply even_square; exists q; lia|exists w'; lia].
Qed.

Lemma cube_descent : forall u v, (u * u * u = 2 * (v * v * v))%Z -> v = 0%Z.
Proof.
  intros u v. remember (Z.abs_nat v) as k eqn:Ek. revert u v Ek. induction k as [k IH] using lt_wf_ind. intros u v Ek E.
  destruct (Z.eq_dec v 0) as [|Nv]; [assumption|exfalso].
  destruct (even_cube u) as (u' & ->); [eexists; exact E|].
  destruct (even_cube v) as (v' & ->); [exists (2 * (u' * u' * u'))%Z; lia|].
  assert (v' = 0%Z); [|lia]. apply (IH (Z.abs_nat v')) with (u := u'); [lia|reflexivity|lia].
Qed.

(** Numbers z with z^3 = 2. *)
Lemma cube_indep : forall z a b c, z * z * z = 2 -> IZR a + IZR b * z + IZR c * (z * z) = 0 -> a = 0%Z /\ b = 0%Z /\ c = 0%Z.
Proof.
  intros z a b c Hz E.
  assert (L : forall p q, IZR p + IZR q * z = 0 -> p = 0%Z /\ q = 0%Z).
  { intros p q H. assert (q = 0%Z).
    { apply (cube_descent (- p) q). apply eq_IZR. rewrite !mult_IZR, opp_IZR.
      assert (Hp : IZR p = - (IZR q * z)) by lra. rewrite Hp.
      replace (- - (IZR q * z) * - - (IZR q * z) * - - (IZR q * z)) with (IZR q * IZR q * IZR q * (z * z * z)) by ring.
      rewrite Hz. ring. }
    subst q. split; [|reflexivity]. apply eq_IZR. lra. }
  assert (L2 : IZR (2 * c * c - a * b) + IZR (a * c - b * b) * z = 0).
  { rewrite !minus_IZR, !mult_IZR.
    replace (2 * IZR c * IZR c - IZR a * IZR b + (IZR a * IZR c - IZR b * IZR b) * z) with
      (IZR c * (IZR a * z + IZR b * (z * z) + IZR c * 2) - IZR b * (IZR a + IZR b * z + IZR c * (z * z))) by ring.
    rewrite E. replace (IZR a * z + IZR b * (z * z) + IZR c * 2) with (z * (IZR a + IZR b * z + IZR c * (z * z))); [rewrite E; ring|].
    rewrite <- Hz. ring. }
  apply L in L2. destruct L2 as [L2 L3].
  assert (c = 0%Z) by (apply (cube_descent b c); transitivity (a * b * c)%Z; [replace (b * b * b)%Z with (b * (b * b))%Z by ring; replace (b * b)%Z with (a * c)%Z by lia; ring|replace (a * b)%Z with (2 * c * c)%Z by lia; ring]). subst c.
  destruct (L a b) as [-> ->]; [lra|]. auto.
Qed.

Lemma short3 : forall (p : list Z), (length p < 4)%nat -> exists a b c, (p = [] \/ p = [a] \/ p = [a; b] \/ p = [a; b; c]) /\
  (forall x, zeval p x = IZR a + IZR b * x + IZR c * (x * x)) /\ (a = 0 -> b = 0 -> c = 0 -> Forall (fun t => t = 0) p)%Z.
Proof.
  intros p L. destruct p as [|a [|b [|c [|? ?]]]]; [exists 0%Z, 0%Z, 0%Z|exists a, 0%Z, 0%Z|exists a, b, 0%Z|exists a, b, c|cbn in L; lia];
    (split; [tauto|split; [intros x; unfold zeval; simpl; ring|intros; repeat constructor; assumption]]).
Qed.

Definition cube_pol : list Z := [-2; 0; 0; 1]%Z.
Lemma cube_minimal : forall z, z * z * z = 2 -> minimal cube_pol z.
Proof.
  intros z Hz. constructor.
  - unfold zeval, cube_pol. simpl. lra.
  - cbn. lia.
  - cbn. lia.
  - intros p L E. destruct (short3 p L) as (a & b & c & _ & V & F). rewrite V in E.
    destruct (cube_indep z a b c Hz E) as (-> & -> & ->). apply F; reflexivity.
Qed.

Lemma cube_root : exists z, 1 < z < 2 /\ z * z * z = 2.
Proof.
  destruct (peval_ivt (map IZR cube_pol) 1 2) as (z & Hz & E); [lra|simpl; lra|]. exists z. split; [exact Hz|]. simpl in E. lra.
Qed.

Lemma minimal_cube_unique : forall z y, z * z * z = 2 -> zeval cube_pol y = 0 -> y = z.
Proof.
  intros z y Hz Hy. unfold zeval, cube_pol in Hy. simpl in Hy.
  assert (E : (y - z) * (y * y + y * z + z * z) = 0) by lra. apply Rmult_integral in E. destruct E as [E|E]; [lra|]. exfalso.
  assert (z <> 0) by (intros ->; lra). assert (0 < z * z) by nra. nra.
Qed.

Lemma cube_safe : forall o z, z * z * z = 2 -> safe_balls o cube_pol z (fun _ => True).
Proof.
  intros o z Hz. apply single_root_safe; [apply (min_root _ _ (cube_minimal z Hz))|].
  intros y Hy. apply minimal_cube_unique; assumption.
Qed.

Lemma cube_setting : forall z, z * z * z = 2 -> setting dyops (nfc cube_pol) cube_pol z (fun _ => True).
Proof.
  intros z Hz. constructor; [exact dyops_ok|exact (cube_minimal z Hz)|apply nfc_ok, cube_minimal, Hz|apply cube_safe, Hz].
Qed.

Definition cube_nf : renf :=
  {| f_pol := cube_pol; f_den := 1; f_emb := Fin (5, -2) (1, -2); f_prec := 64; f_imm := 0 |}%Z.

Lemma cube_field_ok : forall z, 1 < z < 2 -> z * z * z = 2 -> field_ok cube_pol z (fun _ => True) cube_nf.
Proof.
  intros z Hz E. split; [reflexivity|]. split; [|split; [exact I|cbn; lia]]. apply inb_bounds.
  change (-2)%Z with (- (2))%Z. rewrite !(dyv_neg_exp _ 2) by lia. change (2 ^ 2)%Z with 4%Z.
  assert (z < 1.5) by nra. lra.
Qed.

Lemma mem0_ok : forall pol x, minimal pol x -> mem_ok pol x mem0.
Proof.
  intros pol x Hm i. pose proof (min_len _ _ Hm). split; cbn [mem0 r_elem r_emb].
  - apply canon_intro; cbn; lia.
  - unfold ev. cbn [e_num e_den]. rewrite zeval_nil. replace (0 / 1) with 0 by field. apply inb_zero.
Qed.

(** The example state: 2^(1/3), 1/3, and their sum and product. *)
Definition cube_calls : list call := [KGen 0; KSetQ 1 1 3; KAdd 2 0 1; KMul 3 2 0]%Z.
Definition cube_state : renf * mem :=
  match runs dyops (nfc cube_pol) true 100 cube_nf mem0 cube_calls with Val s => s | _ => (cube_nf, mem0) end.

Lemma cube_run : runs dyops (nfc cube_pol) true 100 cube_nf mem0 cube_calls = Val cube_state.
Proof.
  unfold cube_state. destruct (runs _ _ _ _ _ _ _) as [s| | |] eqn:E; [reflexivity| | |];
    exfalso; revert E; vm_compute; discriminate.
Qed.

Lemma cube_state_ok : forall z, 1 < z < 2 -> z * z * z = 2 ->
  field_ok cube_pol z (fun _ => True) (fst cube_state) /\ mem_ok cube_pol z (snd cube_state).
Proof.
  intros z Hz E. eapply (hist_ok _ _ true _ _ _ (cube_setting z E) 100 cube_calls cube_nf mem0).
  - apply cube_field_ok; assumption.
  - apply mem0_ok, cube_minimal, E.
  - repeat constructor.
  - rewrite cube_run. destruct cube_state. reflexivity.
Qed.

(** * A field whose refinement leaves its root:
      2^40 (10 y^2 - 7 y) - 1 with y = x - 2^66; the roots are y = 0.7... and
      y = -1/(7*2^40)...; the ball has radius 1. *)
Definition jG : Z := Eval vm_compute in (2 ^ 66)%Z.
Definition jpol : list Z := Eval vm_compute in
  (let A := 10 * 2 ^ 40 in let B := 7 * 2 ^ 40 in [A * jG * jG + B * jG - 1; -2 * A * jG - B; A])%Z.
Definition jball : ball := Eval vm_compute in Fin ((jG + 1) * 2 ^ 598 + 3, -598)%Z (1, 0)%Z.

Lemma jG_pos : 1 < IZR jG.
Proof. apply IZR_lt. reflexivity. Qed.

Lemma jval : forall x, zeval jpol x = 1099511627776 * (10 * ((x - IZR jG) * (x - IZR jG)) - 7 * (x - IZR jG)) - 1.
Proof. intros x. unfold jpol. rewrite zeval2. unfold jG. ring. Qed.

Lemma jroot : exists x, IZR jG + 0.7 < x < IZR jG + 0.71 /\ zeval jpol x = 0.
Proof. apply root_between; [lra|]. fold jpol. rewrite !jval. lra. Qed.

Lemma jin : forall x, inb x jball <-> IZR jG <= x - 3 / IZR (2 ^ 598) <= IZR jG + 2.
Proof.
  intros x. unfold jball. rewrite inb_bounds, dyv_int. change (-598)%Z with (- (598))%Z. rewrite dyv_neg_exp by lia.
  match goal with |- context [IZR ?a / _] => replace a with ((jG + 1) * 2 ^ 598 + 3)%Z by (vm_compute; reflexivity) end.
  rewrite plus_IZR, mult_IZR, plus_IZR.
  assert (P : IZR (2 ^ 598) <> 0) by (apply not_0_IZR; discriminate).
  replace (((IZR jG + 1) * IZR (2 ^ 598) + 3) / IZR (2 ^ 598)) with (IZR jG + 1 + 3 / IZR (2 ^ 598)) by (field; exact P). split; intros; lra.
Qed.

Lemma jtiny : 0 < 3 / IZR (2 ^ 598) < 0.001.
Proof.
  assert (H : 10000 < IZR (2 ^ 598)) by (apply IZR_lt; reflexivity). split.
  - apply Rdiv_lt_0_compat; lra.
  - apply (Rmult_lt_reg_r (IZR (2 ^ 598))); [lra|]. unfold Rdiv. rewrite Rmult_assoc, Rinv_l by lra. lra.
Qed.

Lemma jirr : forall y a b, 1099511627776 * (10 * (y * y) - 7 * y) - 1 = 0 -> IZR a + IZR b * y = 0 -> a = 0%Z /\ b = 0%Z.
Proof.
  intros y a b Hy E. assert (b = 0%Z).
  { (* (20*2^40*y - 7*2^40)^2 = 2^80*49 + 40*2^40 = 2^43*(49*2^37+5) *)
    assert (W : ((20 * 2 ^ 40 * - a - 7 * 2 ^ 40 * b) * (20 * 2 ^ 40 * - a - 7 * 2 ^ 40 * b)
       = 2 * (49 * 2 ^ 37 + 5) * ((2 ^ 21 * b) * (2 ^ 21 * b)))%Z).
    { apply eq_IZR. rewrite !mult_IZR, !minus_IZR, !mult_IZR, !opp_IZR.
      assert (Ha : IZR a = - (IZR b * y)) by lra. rewrite Ha.
      change (IZR (2 ^ 40)) with 1099511627776. change (IZR (49 * 2 ^ 37 + 5)) with 6734508720133. change (IZR (2 ^ 21)) with 2097152.
      replace (1099511627776 * (10 * (y * y) - 7 * y) - 1) with (1099511627776 * (10 * (y * y) - 7 * y) - 1) in Hy by reflexivity.
      assert (Hy2 : 10 * (y * y) = 7 * y + / 1099511627776) by lra.
      replace (y * y) with ((7 * y + / 1099511627776) / 10) in Hy2 by lra.
      assert (Q : y * y = (7 * y + / 1099511627776) / 10) by lra.
      transitivity (1099511627776 * 1099511627776 * (IZR b * IZR b) * (400 * (y * y) - 280 * y + 49)); [ring|]. rewrite Q. field. }
    apply (square_descent (49 * 2 ^ 37 + 5) eq_refl) in W. lia. }
  subst b. split; [|reflexivity]. apply eq_IZR. lra.
Qed.

Lemma jminimal : forall x, zeval jpol x = 0 -> minimal jpol x.
Proof.
  intros x Hx. constructor; [exact Hx|cbn; lia|cbn; lia|]. intros p L E. rewrite jval in Hx.
  assert (K : forall a b, IZR a + IZR b * x = 0 -> a = 0%Z /\ b = 0%Z).
  { intros a b H. destruct (jirr (x - IZR jG) (a + b * jG) b Hx) as [A ->]; [rewrite plus_IZR, mult_IZR; lra|]. split; lia. }
  cbn [length jpol] in L. destruct p as [|a [|b [|? ?]]]; [constructor| | |cbn in L; lia].
  - rewrite zeval_cons, zeval_nil in E. destruct (K a 0%Z); [lra|]. subst. repeat constructor.
  - rewrite !zeval_cons, zeval_nil in E. destruct (K a b); [lra|]. subst. repeat constructor.
Qed.

Lemma junique : forall x, IZR jG + 0.7 < x -> zeval jpol x = 0 -> forall z, inb z jball -> zeval jpol z = 0 -> z = x.
Proof.
  intros x Hx Zx z Hz Zz. apply jin in Hz. pose proof jtiny. rewrite jval in Zx, Zz. set (u := x - IZR jG) in *. set (v := z - IZR jG) in *.
  assert (E : (u - v) * (10 * (u + v) - 7) = 0) by lra. apply Rmult_integral in E. unfold u, v in *. destruct E; lra.
Qed.

Definition jstate (l : list call) : out (renf * mem) :=
  bind (renf_init dyops true 100 jpol 1 jball 64) (fun nf => runs dyops (nfc jpol) true 100 nf mem0 l).

Lemma jreached : forall x l nf m, IZR jG + 0.7 < x < IZR jG + 0.71 -> zeval jpol x = 0 -> jstate l = Val (nf, m) ->
  reached jpol jball x l nf m.
Proof.
  intros x l nf m Hx Zx E. split; [apply jminimal; exact Zx|]. split; [apply jin; pose proof jtiny; lra|].
  split; [apply junique; [lra|exact Zx]|]. unfold jstate in E.
  destruct (renf_init dyops true 100 jpol 1 jball 64) as [nf0| | |]; try discriminate. exists nf0. split; [reflexivity|exact E].
Qed.

Ltac calc := match goal with |- _ = ?r => vm_cast_no_check (eq_refl r) end.

(** The field after its first refinement, which has left the root. *)
Definition jbad : renf :=
  {| f_pol := jpol; f_den := 1;
     f_emb := Fin
       (1412006979354108748474554421102311445342666736109717107879836993956508987385384662704283221255926312358773601706144581708752919911776434607193899137749475232721134278576269136897573064693230432770292796737801378729332738,
        -662) (782527117, -94);
     f_prec := 64; f_imm := 0 |}%Z.

Lemma jbad_eq : bind (renf_init dyops true 100 jpol 1 jball 64) (fun nf => refine dyops true 100 nf 128) = Val jbad.
Proof. calc. Qed.

Lemma jstate_bad : forall l, jstate (KRefine 128 :: l) = runs dyops (nfc jpol) true 100 jbad mem0 l.
Proof.
  intros l. pose proof jbad_eq as E. unfold jstate. destruct (renf_init dyops true 100 jpol 1 jball 64) as [nf| | |]; try discriminate.
  cbn [bind] in *. cbn [runs run]. rewrite E. reflexivity.
Qed.

(** An answer computed in a reached state. *)
Definition ask {A B} (s : out (renf * mem)) (f : renf -> mem -> out A) (h : A -> B) : out (elem * elem * B) :=
  bind s (fun '(nf, m) => bind (f nf m) (fun a => Val (r_elem (m 0%nat), r_elem (m 1%nat), h a))).

Lemma ask_inv : forall A B s (f : renf -> mem -> out A) (h : A -> B) e0 e1 b, ask s f h = Val (e0, e1, b) ->
  exists nf m a, s = Val (nf, m) /\ r_elem (m 0%nat) = e0 /\ r_elem (m 1%nat) = e1 /\ f nf m = Val a /\ h a = b.
Proof.
  intros A B s f h e0 e1 b E. unfold ask in E. destruct s as [[nf m]| | |]; try discriminate. cbn [bind] in E.
  destruct (f nf m) as [a| | |] eqn:F; try discriminate. cbn [bind] in E. exists nf, m, a. injection E as <- <- <-. auto 6.
Qed.

(** The generator minus 2^66 + 7/20; its value is 0.35.... *)
Definition jd : elem := Eval vm_compute in {| e_num := [- (20 * jG + 7); 20]; e_den := 20 |}%Z.
Definition jg : elem := {| e_num := [0; 1]; e_den := 1 |}%Z.
Lemma jd_val : forall x, ev x jd = x - IZR jG - 0.35.
Proof. intros x. unfold ev, jd. cbn [e_num e_den]. rewrite !zeval_cons, zeval_nil. unfold jG. lra. Qed.
Lemma jg_val : forall x, ev x jg = x.
Proof. intros x. unfold ev, jg. cbn [e_num e_den]. rewrite !zeval_cons, zeval_nil. field. Qed.

Lemma sgn_refuted : exists pol a x l nf m nf' b s, reached pol a x l nf m /\
  sgn dyops true 100 nf (m 0%nat) = Val (nf', b, s) /\ s <> Rsgn (ev x (r_elem (m 0%nat))).
Proof.
  destruct jroot as (x & Hx & Zx).
  pose (l := [KRefine 128; KGen 0; KSubQ 0 0 (20 * jG + 7) 20]%Z).
  assert (E : ask (jstate l) (fun nf m => sgn dyops true 100 nf (m 0%nat)) (fun r => (snd r)) =
    Val (jd, {| e_num := []; e_den := 1 |}, (-1)%Z)) by (unfold l; rewrite jstate_bad; calc).
  apply ask_inv in E. destruct E as (nf & m & a & Hr & E0 & E1 & Hs & E2).
  destruct a as [[nf' b] s]. cbn [fst snd] in E2. subst.
  exists jpol, jball, x, l, nf, m, nf', b, (-1)%Z. split; [exact (jreached x l nf m Hx Zx Hr)|]. split; [exact Hs|].
  rewrite E0, jd_val. rewrite Rsgn_pos by lra. discriminate.
Qed.

Lemma cmp_refuted : exists pol a x l nf m nf' b c s, reached pol a x l nf m /\
  cmp dyops (nfc pol) true 100 nf (m 0%nat) (m 1%nat) = Val (nf', b, c, s) /\
  s <> Rsgn (ev x (r_elem (m 0%nat)) - ev x (r_elem (m 1%nat))).
Proof.
  destruct jroot as (x & Hx & Zx). pose (l := [KRefine 128; KGen 0; KSetQ 1 (20 * jG + 7) 20]%Z).
  assert (E : ask (jstate l) (fun nf m => cmp dyops (nfc jpol) true 100 nf (m 0%nat) (m 1%nat)) (fun r => (snd r)) =
    Val (jg, {| e_num := [20 * jG + 7]; e_den := 20 |}, (-1))%Z) by (unfold l; rewrite jstate_bad; calc).
  apply ask_inv in E. destruct E as (nf & m & a & Hr & E0 & E1 & Hs & E2).
  destruct a as [[[nf' b] c] s]. cbn [fst snd] in E2. subst.
  exists jpol, jball, x, l, nf, m, nf', b, c, (-1)%Z. split; [exact (jreached x l nf m Hx Zx Hr)|]. split; [exact Hs|].
  rewrite E0, E1, jg_val. unfold ev. cbn [e_num e_den]. rewrite zeval_cons, zeval_nil, plus_IZR, mult_IZR. rewrite Rsgn_pos by lra. discriminate.
Qed.

Lemma cmp_q_refuted : exists pol a x l nf m p q nf' b s, reached pol a x l nf m /\ (0 < q)%Z /\
  cmp_q dyops (nfc pol) true 100 nf (m 0%nat) p q = Val (nf', b, s) /\
  s <> Rsgn (ev x (r_elem (m 0%nat)) - IZR p / IZR q).
Proof.
  destruct jroot as (x & Hx & Zx). pose (l := [KRefine 128; KGen 0]%Z).
  assert (E : ask (jstate l) (fun nf m => cmp_q dyops (nfc jpol) true 100 nf (m 0%nat) (20 * jG + 7)%Z 20) (fun r => (snd r)) =
    Val (jg, {| e_num := []; e_den := 1 |}, (-1)%Z)) by (unfold l; rewrite jstate_bad; calc).
  apply ask_inv in E. destruct E as (nf & m & a & Hr & E0 & E1 & Hs & E2).
  destruct a as [[nf' b] s]. cbn [fst snd] in E2. subst.
  exists jpol, jball, x, l, nf, m, (20 * jG + 7)%Z, 20%Z, nf', b, (-1)%Z. split; [exact (jreached x l nf m Hx Zx Hr)|].
  split; [lia|]. split; [exact Hs|]. rewrite E0, jg_val, plus_IZR, mult_IZR. rewrite Rsgn_pos by lra. discriminate.
Qed.

Lemma floor_refuted : exists pol a x l nf m nf' b z, reached pol a x l nf m /\
  floor dyops true 100 nf (m 0%nat) = Val (nf', b, z) /\ ~ is_floor (ev x (r_elem (m 0%nat))) z.
Proof.
  destruct jroot as (x & Hx & Zx). pose (l := [KRefine 128; KGen 0]%Z).
  assert (E : ask (jstate l) (fun nf m => floor dyops true 100 nf (m 0%nat)) (fun r => (snd r)) =
    Val (jg, {| e_num := []; e_den := 1 |}, (jG - 1)%Z)) by (unfold l; rewrite jstate_bad; calc).
  apply ask_inv in E. destruct E as (nf & m & a & Hr & E0 & E1 & Hs & E2).
  destruct a as [[nf' b] s]. cbn [fst snd] in E2. subst.
  exists jpol, jball, x, l, nf, m, nf', b, (jG - 1)%Z. split; [exact (jreached x l nf m Hx Zx Hr)|]. split; [exact Hs|].
  rewrite E0, jg_val. unfold is_floor. rewrite minus_IZR. lra.
Qed.

Lemma ceil_refuted : exists pol a x l nf m nf' b z, reached pol a x l nf m /\
  ceil dyops true 100 nf (m 0%nat) = Val (nf', b, z) /\ ~ is_ceil (ev x (r_elem (m 0%nat))) z.
Proof.
  destruct jroot as (x & Hx & Zx). pose (l := [KRefine 128; KGen 0]%Z).
  assert (E : ask (jstate l) (fun nf m => ceil dyops true 100 nf (m 0%nat)) (fun r => (snd r)) =
    Val (jg, {| e_num := []; e_den := 1 |}, jG)) by (unfold l; rewrite jstate_bad; calc).
  apply ask_inv in E. destruct E as (nf & m & a & Hr & E0 & E1 & Hs & E2).
  destruct a as [[nf' b] s]. cbn [fst snd] in E2. subst.
  exists jpol, jball, x, l, nf, m, nf', b, jG. split; [exact (jreached x l nf m Hx Zx Hr)|]. split; [exact Hs|].
  rewrite E0, jg_val. unfold is_ceil. lra.
Qed.

Lemma fdiv_refuted : exists pol a x l nf m nf' b c z, reached pol a x l nf m /\
  fdiv dyops (nfc pol) true false 100 nf (m 0%nat) (m 1%nat) = Val (nf', b, c, z) /\ ev x (r_elem (m 1%nat)) <> 0 /\
  ~ is_floor (ev x (r_elem (m 0%nat)) / ev x (r_elem (m 1%nat))) z.
Proof.
  destruct jroot as (x & Hx & Zx). pose (l := [KRefine 128; KOne 0; KGen 1; KInv 1 1]%Z). pose proof (jminimal x Zx) as Hm.
  destruct (nk_inv _ _ _ (nfc_ok jpol x Hm) jg) as [_ V]; [apply canon_intro; cbn; lia|rewrite jg_val; pose proof jG_pos; lra|].
  assert (E : ask (jstate l) (fun nf m => fdiv dyops (nfc jpol) true false 100 nf (m 0%nat) (m 1%nat)) (fun r => (snd r)) =
    Val ({| e_num := [1]; e_den := 1 |}, n_inv (nfc jpol) jg, (jG - 1))%Z) by (unfold l; rewrite jstate_bad; calc).
  apply ask_inv in E. destruct E as (nf & m & a & Hr & E0 & E1 & Hs & E2).
  destruct a as [[[nf' b] c] s]. cbn [fst snd] in E2. subst.
  exists jpol, jball, x, l, nf, m, nf', b, c, (jG - 1)%Z. split; [exact (jreached x l nf m Hx Zx Hr)|]. split; [exact Hs|].
  rewrite E0, E1, V, jg_val. assert (x <> 0) by (pose proof jG_pos; lra). split; [apply Rinv_neq_0_compat; assumption|].
  replace (ev x {| e_num := [1%Z]; e_den := 1 |} / / x) with x; [unfold is_floor; rewrite minus_IZR; lra|].
  unfold ev. cbn [e_num e_den]. rewrite zeval_cons, zeval_nil. field. assumption.
Qed.

Lemma cfrac_refuted : exists pol a x l nf m nf' z w, reached pol a x l nf m /\
  cfrac dyops (nfc pol) true 100 nf (m 0%nat) 1 = Val (nf', [z], w) /\
  ~ is_floor (ev x (r_elem (m 0%nat))) z.
Proof.
  destruct jroot as (x & Hx & Zx). pose (l := [KRefine 128; KGen 0]%Z).
  assert (E : ask (jstate l) (fun nf m => cfrac dyops (nfc jpol) true 100 nf (m 0%nat) 1) (fun r => (snd (fst r))) =
    Val (jg, {| e_num := []; e_den := 1 |}, [(jG - 1)%Z])) by (unfold l; rewrite jstate_bad; calc).
  apply ask_inv in E. destruct E as (nf & m & a & Hr & E0 & E1 & Hs & E2).
  destruct a as [[nf' b] s]. cbn [fst snd] in E2. subst.
  exists jpol, jball, x, l, nf, m, nf', (jG - 1)%Z, s. split; [exact (jreached x l nf m Hx Zx Hr)|]. split; [exact Hs|].
  rewrite E0, jg_val. unfold is_floor. rewrite minus_IZR. lra.
Qed.

Lemma get_arb_refuted : exists pol a x l nf m nf' b r, reached pol a x l nf m /\
  get_arb dyops true 100 nf (m 0%nat) 10 = Val (nf', b, r) /\ ~ inb (ev x (r_elem (m 0%nat))) r.
Proof.
  destruct jroot as (x & Hx & Zx). pose (l := [KRefine 128; KGen 0; KSubQ 0 0 (20 * jG + 7) 20]%Z).
  assert (E : ask (jstate l) (fun nf m => get_arb dyops true 100 nf (m 0%nat) 10) (fun r => (snd r)) =
    Val (jd, {| e_num := []; e_den := 1 |}, Fin (-2867, -13) (858993464, -45))%Z) by (unfold l; rewrite jstate_bad; calc).
  apply ask_inv in E. destruct E as (nf & m & a & Hr & E0 & E1 & Hs & E2).
  destruct a as [[nf' b] s]. cbn [fst snd] in E2. subst.
  exists jpol, jball, x, l, nf, m, nf', b, (Fin (-2867, -13) (858993464, -45))%Z. split; [exact (jreached x l nf m Hx Zx Hr)|]. split; [exact Hs|].
  rewrite E0, jd_val. intros H. apply inb_bounds in H. change (-13)%Z with (- (13))%Z in H. change (-45)%Z with (- (45))%Z in H.
  rewrite (dyv_neg_exp _ 13), (dyv_neg_exp _ 45) in H by lia. change (IZR (2 ^ 13)) with 8192 in H. change (IZR (2 ^ 45)) with 35184372088832 in H. lra.
Qed.

Lemma enclosure_refuted : exists pol a x l nf m, reached pol a x l nf m /\ ~ inb (ev x (r_elem (m 0%nat))) (r_emb (m 0%nat)).
Proof.
  destruct jroot as (x & Hx & Zx). pose (l := [KRefine 128; KGen 0; KSubQ 0 0 (20 * jG + 7) 20; KEval 0 200]%Z).
  assert (E : ask (jstate l) (fun nf m => Val (r_emb (m 0%nat))) (fun b => match b with Fin c r => dltb (dadd c r) (0, 0)%Z | Top => false end) =
    Val (jd, {| e_num := []; e_den := 1 |}, true)) by (unfold l; rewrite jstate_bad; calc).
  apply ask_inv in E. destruct E as (nf & m & b & Hr & E0 & E1 & Hs & E2). exists jpol, jball, x, l, nf, m. split; [exact (jreached x l nf m Hx Zx Hr)|].
  rewrite E0, jd_val. intros H. injection Hs as Hs. rewrite Hs in H. destruct b as [c r|]; [|discriminate]. apply inb_bounds in H.
  apply dltb_spec in E2. rewrite dyv_add, dyv_int in E2. lra.
Qed.
