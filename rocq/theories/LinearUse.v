(** Programs on a field of degree one. *)
Require Import Reals List ZArith Bool Lia Lra.
From Verif Require Import PolyR RootSpec RootModel ExtraModel Dyadic DyadicProofs ArbModel ArbSpec ArbProofs RefineProofs
  ElemModel ElemSpec ElemProofs ElemLoops ElemHist ElemMore GetdModel EndsSpec DefSpec ConcModel ConcSpec ConcRight MarginUse.
Import ListNotations.
Open Scope R_scope.

(** The calls that do not look at the generator or its enclosure. *)
Definition rational_call (k : call) : Prop := match k with KGen _ | KRefine _ | KGetArb _ _ => False | _ => True end.

Section Linear.
Variables (o : arbops) (n : nfops) (debug : bool) (pol : list Z) (x : R).
Hypothesis Ho : arb_ok o.
Hypothesis Hm : minimal pol x.
Hypothesis Hn : nf_ok pol x n.
Hypothesis Hlen : length pol = 2%nat.

Lemma lin_one_root : forall y, zeval pol y = 0 -> y = x.
Proof.
  clear Hn. intros y Hy. destruct pol as [|c0 [|c1 [|]]] eqn:E; try discriminate Hlen. pose proof (min_root _ _ Hm) as Hx.
  assert (Hc : IZR c1 <> 0).
  { intros W. apply eq_IZR_R0 in W. pose proof (min_lead _ _ Hm) as M. cbn in M. contradiction. }
  unfold zeval in *. cbn in *. apply Rmult_eq_reg_l with (IZR c1); [lra|exact Hc].
Qed.
Lemma lin_safe : safe_balls o pol x (fun _ => True).
Proof.
  constructor; try (intros; exact I).
  - intros a y _ _ _ _ Hy. apply lin_one_root. exact Hy.
  - intros a p l r _ _ _ _ _. split; [apply (min_root _ _ Hm)|]. intros y _ Hy. apply lin_one_root. exact Hy.
Qed.
Lemma lin_rational : forall e, canon pol e -> is_rational e = true.
Proof. intros e H. pose proof (can_len _ _ H) as W. rewrite Hlen in W. unfold is_rational. destruct (e_num e) as [|? [|]]; cbn in W; try reflexivity. lia. Qed.
Lemma lin_coeff : forall e, exists c, coeff0 pol e = Val c.
Proof.
  intros e. unfold coeff0. destruct (e_num e); [|eexists; reflexivity]. unfold generic.
  destruct pol as [|? [|? [|]]]; try discriminate Hlen. eexists; reflexivity.
Qed.

Notation good := (good pol x (on_ball (fun _ => True))).

Lemma lin_eval : forall nf e p, good nf -> (2 <= p)%Z -> exists b, set_evaluation o nf e p = Val b.
Proof.
  intros nf e p (G & _) Hp. unfold set_evaluation. rewrite (proj2 (Z.ltb_ge _ _) Hp). rewrite G.
  destruct pol as [|? [|? [|]]]; try discriminate Hlen. eexists; reflexivity.
Qed.
Lemma lin_round : forall rd fuel nf y, good nf -> canon pol (r_elem y) -> exists z, round_int o debug rd fuel nf y = Val (nf, r_emb y, z).
Proof.
  intros rd fuel nf y (G & _) Hy. unfold round_int. cbv zeta. rewrite (lin_rational _ Hy), G. destruct (lin_coeff (r_elem y)) as (c & ->).
  eexists; reflexivity.
Qed.
Lemma lin_sgn : forall fuel nf y, canon pol (r_elem y) -> exists s, sgn o debug fuel nf y = Val (nf, r_emb y, s).
Proof.
  intros fuel nf y Hy. pose proof (lin_rational _ Hy) as W. unfold sgn, is_rational in *. cbv zeta.
  destruct (e_num (r_elem y)) as [|? [|]]; try discriminate W; eexists; reflexivity.
Qed.
Lemma lin_cmp : forall fuel nf y z, canon pol (r_elem y) -> canon pol (r_elem z) -> exists v, cmp o n debug fuel nf y z = Val v.
Proof.
  intros fuel nf y z Hy Hz. unfold cmp. cbv zeta. destruct (elem_eqb _ _); [eexists; reflexivity|].
  destruct (blt (r_emb y) (r_emb z)); [eexists; reflexivity|]. destruct (blt (r_emb z) (r_emb y)); [eexists; reflexivity|].
  rewrite (lin_rational _ Hy), (lin_rational _ Hz). cbn [andb].
  destruct (is_zero (r_elem y)); [destruct (lin_sgn fuel nf z Hz) as (s & ->); eexists; reflexivity|].
  destruct (is_zero (r_elem z)); [destruct (lin_sgn fuel nf y Hy) as (s & ->); eexists; reflexivity|]. eexists; reflexivity.
Qed.
Lemma lin_cmp_q : forall fuel nf y p q, canon pol (r_elem y) -> exists v, cmp_q o n debug fuel nf y p q = Val v.
Proof.
  intros fuel nf y p q Hy. unfold cmp_q. cbv zeta. destruct (p =? 0)%Z; [destruct (lin_sgn fuel nf y Hy) as (s & ->); eexists; reflexivity|].
  destruct (is_zero (r_elem y)); [eexists; reflexivity|]. rewrite (lin_rational _ Hy). eexists; reflexivity.
Qed.
Lemma lin_fdiv : forall same fuel nf y z, good nf -> canon pol (r_elem y) -> canon pol (r_elem z) -> ev x (r_elem z) <> 0 ->
  exists v, fdiv o n debug same fuel nf y z = Val v.
Proof.
  intros same fuel nf y z G Hy Hz Nz. unfold fdiv. cbv zeta. rewrite (lin_rational _ Hz).
  destruct (is_zero (r_elem z)) eqn:Z0; [apply (is_zero_spec pol x Hm _ Hz) in Z0; contradiction|].
  destruct (lin_round rd_floor fuel nf (div_elem o n nf y z) G) as (q & E); [apply (nk_div _ _ _ Hn _ _ Hy Hz Nz)|].
  unfold floor. rewrite E. eexists; reflexivity.
Qed.
Lemma lin_cfrac_loop : forall k fuel nf y, good nf -> canon pol (r_elem y) -> exists v, cfrac_loop o n debug fuel nf y k = Val v.
Proof.
  induction k as [|k IH]; intros fuel nf y G Hy; cbn [cfrac_loop]; [eexists; reflexivity|].
  destruct (lin_round rd_floor fuel nf y G Hy) as (c & E). unfold floor. rewrite E. cbn [bind]. cbv zeta. cbn [r_elem].
  destruct (nk_sub_q _ _ _ Hn (r_elem y) c 1%Z Hy ltac:(lia)) as [C1 V1].
  destruct (is_zero (n_sub_q n (r_elem y) c 1)) eqn:Z0; [eexists; reflexivity|].
  assert (Nz : ev x (n_sub_q n (r_elem y) c 1) <> 0) by (intros W; apply (is_zero_spec pol x Hm _ C1) in W; congruence).
  destruct (nk_inv _ _ _ Hn _ C1 Nz) as [C2 V2]. cbn [r_emb].
  match goal with |- context [cfrac_loop _ _ _ _ _ ?w _] => destruct (IH fuel nf w G C2) as ([[? ?] ?] & ->) end. eexists; reflexivity.
Qed.

Lemma lin_run : forall fuel nf m k, good nf -> mem_ok pol x m -> call_ok pol k -> rational_call k -> allowed pol (values x m) k ->
  exists p, run o n debug fuel nf m k = Val p.
Proof.
  intros fuel nf m k G Gm Hk Hr Ha. assert (Hc : forall i, canon pol (r_elem (m i))) by (intros i; apply Gm).
  assert (Hz : forall i, values x m i <> 0 -> is_zero (r_elem (m i)) = false).
  { intros i W. destruct (is_zero (r_elem (m i))) eqn:Z0; [|reflexivity]. apply (is_zero_spec pol x Hm _ (Hc i)) in Z0. contradiction. }
  destruct k; cbn [run rational_call allowed call_ok] in *; try contradiction; try (eexists; reflexivity).
  - match goal with |- context [set_evaluation o nf ?e ?p] => destruct (lin_eval nf e p G Ha) as (b & ->) end. eexists; reflexivity.
  - rewrite (Hz _ Ha). eexists; reflexivity.
  - destruct (Z.eqb_spec z 0); [contradiction|]. eexists; reflexivity.
  - destruct (Z.eqb_spec qn 0); [contradiction|]. eexists; reflexivity.
  - unfold do_inv. assert (E : r_elem (do_set m a c a) = r_elem (m c)).
    { unfold do_set, upd_emb, upd_elem. rewrite Nat.eqb_refl. reflexivity. }
    rewrite E, (Hz _ Ha). eexists; reflexivity.
  - unfold do_inv. rewrite (Hz _ Ha). eexists; reflexivity.
  - match goal with |- context [set_evaluation o nf ?e ?p] => destruct (lin_eval nf e p G Ha) as (b & ->) end. eexists; reflexivity.
  - destruct (lin_sgn fuel nf (m a) (Hc a)) as (s & ->). eexists; reflexivity.
  - destruct (lin_cmp fuel nf (m a) (m b) (Hc a) (Hc b)) as ([[[? ?] ?] ?] & ->). eexists; reflexivity.
  - destruct (lin_cmp_q fuel nf (m a) qn qd (Hc a)) as ([[? ?] ?] & ->). eexists; reflexivity.
  - unfold floor. destruct (lin_round rd_floor fuel nf (m a) G (Hc a)) as (s & ->). eexists; reflexivity.
  - unfold ceil. destruct (lin_round rd_ceil fuel nf (m a) G (Hc a)) as (s & ->). eexists; reflexivity.
  - destruct (lin_fdiv (Nat.eqb b c) fuel nf (m b) (m c) G (Hc b) (Hc c) (proj1 Ha)) as ([[[? ?] ?] ?] & ->). eexists; reflexivity.
  - unfold cfrac. destruct (is_zero (r_elem (m a))); [eexists; reflexivity|].
    destruct (lin_cfrac_loop k fuel nf (m a) G (Hc a)) as ([[? ?] ?] & ->). eexists; reflexivity.
Qed.

Lemma lin_runs : forall fuel l nf m, good nf -> mem_ok pol x m -> Forall (call_ok pol) l -> Forall (sound_call pol) l -> Forall rational_call l ->
  legal pol x (values x m) l -> exists p, runs o n debug fuel nf m l = Val p.
Proof.
  intros fuel. induction l as [|k l IH]; intros nf m G Gm Hl Hs Hr Hleg; cbn [runs]; [eexists; reflexivity|].
  inversion Hl as [|? ? Hk Hl']; subst. inversion Hs as [|? ? Hsk Hs']; subst. inversion Hr as [|? ? Hrk Hr']; subst. inversion Hleg as [|? ? ? Ha Hnext]; subst.
  destruct (lin_run fuel nf m k G Gm Hk Hrk Ha) as ([nf1 m1] & E). rewrite E. cbn [bind].
  destruct (run_ok o n debug pol x _ Ho Hm Hn (safe_keeps o debug pol x _ Ho Hm lin_safe) fuel nf m k nf1 m1 G Gm Hk E) as (G1 & _ & Gm1 & F).
  apply IH; try assumption. apply Hnext. apply F. exact Hsk.
Qed.
End Linear.

Lemma linear_programs : forall o n pol x, arb_ok o -> minimal pol x -> nf_ok pol x n -> length pol = 2%nat ->
  forall debug fuel nf m l, f_pol nf = pol -> inb x (f_emb nf) -> (2 <= f_prec nf)%Z -> mem_ok pol x m ->
  Forall (call_ok pol) l -> Forall (sound_call pol) l -> Forall rational_call l -> legal pol x (values x m) l ->
  exists nf' m' r, calls o n debug fuel nf m l = Val (nf', m', r) /\ mem_ok pol x m' /\ history x (values x m) l (values x m') r.
Proof.
  intros o n pol x Ho Hm Hn Hlen debug fuel nf m l Hp Hx Hf Gm Hl Hs Hr Hleg.
  assert (G : good pol x (on_ball (fun _ => True)) nf) by (repeat split; assumption).
  destruct (lin_runs o n debug pol x Ho Hm Hn Hlen fuel l nf m G Gm Hl Hs Hr Hleg) as ([nf' m'] & E).
  pose proof (calls_runs o n debug fuel l nf m) as C. rewrite E in C. destruct C as (r & C). exists nf', m', r. split; [exact C|].
  apply (calls_right o n debug pol x _ Ho Hm Hn (safe_keeps o debug pol x _ Ho Hm (lin_safe o pol x Hm Hlen)) fuel l nf m nf' m' r G Gm Hl Hs C).
Qed.
