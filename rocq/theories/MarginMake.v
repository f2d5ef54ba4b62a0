(** Fields are created from balls below the explicit radius, and calls on them end. *)
Require Import Reals List ZArith Bool Lia Lra Psatz.
From Verif Require Import PolyR RootSpec RootModel ExtraModel SquarefreeProofs ExtraProofs VcaProofs Dyadic DyadicProofs ArbModel ArbSpec ArbProofs FieldProofs RefineProofs
  ElemModel ElemSpec ElemProofs CondTight EndsSpec EndsProofs EndsMain EndsGetd RefineEnds GetdModel RateSpec DefSpec ToolsProofs CreateProofs CreateMain FlSpec FineSpec MarginEval Margin.
Import ListNotations.
Open Scope R_scope.

Section Make.
Variables (o : arbops) (pol : list Z) (x X r0 : R).
Hypothesis Ho : arb_ok o.
Hypothesis Hf : arb_fl o.
Hypothesis Hg : arb_fine o.
Hypothesis Hm : minimal pol x.
Hypothesis Hdeg : (3 <= length pol)%nat.
Hypothesis Hmg : margin pol x X r0.

Let Safe := margin_safe o pol x X r0 Ho Hf Hg Hm Hdeg Hmg.

Lemma margin_setting : forall n, nf_ok pol x n -> setting o n pol x (fun a => rad_le a r0).
Proof. intros n Hn. constructor; try assumption. exact (proj1 Safe). Qed.

Lemma margin_refine : forall debug nf prec, f_pol nf = pol -> inb x (f_emb nf) -> rad_le (f_emb nf) r0 -> (2 <= f_prec nf)%Z -> f_imm nf = 0%Z ->
  exists fuel0 r, (forall fuel, (fuel0 <= fuel)%nat -> refine o debug fuel nf prec = r) /\
    ((exists nf', r = Val nf' /\ inb x (f_emb nf') /\ rad_le (f_emb nf') r0 /\ (prec <= rel_accuracy (f_emb nf'))%Z) \/
     (r = Undef /\ word_overflow o pol (f_emb nf))).
Proof.
  destruct Safe as (Hs & He0 & Hd0). intros debug nf prec Hpol Hx Hr Hp Hi.
  destruct (He0 debug nf prec) as (f0 & r & Nf & E); [repeat split; assumption|]. exists f0, r. split; [exact E|].
  specialize (E f0 (Nat.le_refl _)). destruct (Hd0 debug f0 nf prec Hpol Hx Hr Hi) as [A B]. rewrite E in A, B.
  destruct r as [nf'| | |]; [left|right|contradiction|contradiction].
  - exists nf'. split; [reflexivity|]. destruct (refine_spec o Ho pol x _ Hs (minimal_simple pol x Hm) debug f0 nf prec nf' Hpol Hx Hr E) as (I & R & P & _).
    split; [exact I|]. split; [exact R|exact P].
  - split; [reflexivity|]. apply B. reflexivity.
Qed.

Lemma margin_histories : forall n debug nf m l, arb_conv o -> nf_ok pol x n -> field_ok pol x (fun a => rad_le a r0) nf -> mem_ok pol x m ->
  Forall (call_ok pol) l -> Forall modest l -> ends (fun fuel => runs o n debug fuel nf m l).
Proof.
  intros n debug nf m l Hc Hn Hok Hmem Hl Hml. apply (histories_end o n debug pol x (small r0)); try assumption; [apply margin_setting; exact Hn|apply Safe].
Qed.

(** The value at a point close to the root, but not too close, has a sign. *)
Lemma sign_fine : forall v mu prec, enough pol x X r0 mu prec -> Rabs (dyv v - x) <= 4 * r0 -> mu <= Rabs (dyv v - x) ->
  sgn2 (eval_arb o pol (bexact v) (2 * prec)) = Rsgn (zeval pol (dyv v)) /\ zeval pol (dyv v) <> 0.
Proof.
  intros v mu prec [E2 E0 Ee Es] Hv Hmu. destruct (mg_facts pol x X r0 Hm Hdeg Hmg) as (HD & HN & HL & HS & HA1 & HA2 & R0 & B & Hxp).
  destruct (value_near pol x X r0 Hm Hdeg Hmg (dyv v) Hv) as [W _].
  assert (W' : Rabs (D pol x) / 2 * mu <= Rabs (zeval pol (dyv v))) by (eapply Rle_trans; [|exact W]; apply Rmult_le_compat_l; lra).
  assert (Dm : 0 < Rabs (D pol x) * mu) by (apply Rmult_lt_0_compat; lra).
  assert (Nv : zeval pol (dyv v) <> 0) by (intros Z; rewrite Z, Rabs_R0 in W'; lra). split; [|exact Nv].
  assert (Iv : inb (dyv v) (bexact v)) by (apply inb_exact; reflexivity).
  pose proof (eval_arb_ok o Ho pol (bexact v) (dyv v) (2 * prec) ltac:(lia) Iv) as Ev.
  assert (Bv : Rabs (dyv v) <= X) by (pose proof (Rabs_triang_inv (dyv v) x); lra).
  destruct (eval_fine o Hf pol v (dz 0) X (2 * prec) ltac:(lia)) as (n & s & E & _ & S0' & S1); [rewrite dyv_dz; simpl; lra|rewrite dyv_dz; simpl; lra|].
  rewrite dyv_dz in S1. change (IZR 0) with 0 in S1. change (slack ^ (2 * length pol)) with (growth pol) in S1. fold (D pol x) in Es.
  assert (Cz : contains_zero (eval_arb o pol (bexact v) (2 * prec)) = false).
  { apply (small_nonzero _ (zeval pol (dyv v)) Nv Ev). unfold bexact. rewrite E. cbn [rad_le]. nra. }
  unfold sgn2. rewrite Cz. apply (contains_zero_false _ _ Cz Ev).
Qed.

Lemma margin_init : forall debug den m r mu prec, enough pol x X r0 mu prec -> mu <= x - (dyv m - dyv r) -> mu <= dyv m + dyv r - x -> dyv r <= r0 ->
  (exists f0, forall fuel, (f0 <= fuel)%nat -> check_unique o fuel pol (Fin m r) prec = Val true) /\
  answers (fun fuel => renf_init o debug fuel pol den (Fin m r) prec) (CreateProofs.made pol x r0 den prec) (word_overflow o pol (Fin m r)).
Proof.
  intros debug den m r mu prec En M1 M2 Hr. pose proof En as [E2 E0 Ee Es].
  destruct (mg_facts pol x X r0 Hm Hdeg Hmg) as (HD & HN & HL & HS & HA1 & HA2 & R0 & B & Hxp).
  assert (Hxa : inb x (Fin m r)) by (apply inb_bounds; lra).
  pose proof (Rabs_le_inv2 _ _ (Rle_refl (Rabs x))) as Bx.
  assert (B1 : Rabs (dyv m - dyv r) <= X) by (apply Rabs_le; lra). assert (B2 : Rabs (dyv m + dyv r) <= X) by (apply Rabs_le; lra).
  assert (Hrnd : forall md v, Rabs (dyv v) <= X -> Rabs (dyv v - dyv (dround md prec v)) <= r0).
  { intros md v Hv. destruct (dround_spec md prec v ltac:(lia)) as (_ & E & _). eapply Rle_trans; [exact E|]. pose proof (pw2_pos (1 - prec)).
    apply Rle_trans with (X * pw2 (1 - prec)); [apply Rmult_le_compat_r; lra|exact Ee]. }
  set (l := dround RFloor prec (dsub m r)). set (u := dround RCeil prec (dadd m r)).
  assert (Ei : interval (Fin m r) prec = Some (l, u)) by reflexivity.
  pose proof (Hrnd RFloor (dsub m r) ltac:(rewrite dyv_sub; exact B1)) as Hl. pose proof (Hrnd RCeil (dadd m r) ltac:(rewrite dyv_add; exact B2)) as Hu.
  fold l in Hl. fold u in Hu. rewrite dyv_sub in Hl. rewrite dyv_add in Hu.
  assert (I1 : inb (dyv m - dyv r) (Fin m r)) by (apply inb_bounds; lra). assert (I2 : inb (dyv m + dyv r) (Fin m r)) by (apply inb_bounds; lra).
  destruct (interval_spec (Fin m r) prec l u _ ltac:(lia) Ei I1) as [Ol _]. destruct (interval_spec (Fin m r) prec l u _ ltac:(lia) Ei I2) as [_ Ou].
  apply Rabs_le_inv2 in Hl. apply Rabs_le_inv2 in Hu.
  assert (El : Rabs (dyv l - x) <= 4 * r0) by (apply Rabs_le; lra). assert (Eu : Rabs (dyv u - x) <= 4 * r0) by (apply Rabs_le; lra).
  assert (Fl : Rabs (dyv l - x) = x - dyv l) by (rewrite Rabs_left1; lra). assert (Fu : Rabs (dyv u - x) = dyv u - x) by (rewrite Rabs_pos_eq; lra).
  assert (Hon : forall y, dyv l <= y <= dyv u -> zeval pol y = 0 -> y = x).
  { intros y Hy. apply (apart pol x X r0 Hm Hdeg Hmg). rewrite Fl in El. rewrite Fu in Eu. apply Rabs_le. lra. }
  assert (Hneg : zeval pol (dyv l) * zeval pol (dyv u) < 0) by (apply (sides pol x); [apply (minimal_simple pol x Hm)|lra|exact Hon]).
  destruct (sign_fine l mu prec En El ltac:(rewrite Fl; lra)) as [Sl Nl]. destruct (sign_fine u mu prec En Eu ltac:(rewrite Fu; lra)) as [Su Nu].
  assert (Hprod : (Rsgn (zeval pol (dyv l)) * Rsgn (zeval pol (dyv u)) = -1)%Z).
  { destruct (Rtotal_order (zeval pol (dyv l)) 0) as [A|[A|A]]; [|contradiction|].
    - rewrite (Rsgn_neg (zeval pol (dyv l)) A), (Rsgn_pos (zeval pol (dyv u))); [reflexivity|nra].
    - rewrite (Rsgn_pos (zeval pol (dyv l)) A), (Rsgn_neg (zeval pol (dyv u))); [reflexivity|nra]. }
  assert (U : exists! y, dyv l <= y < dyv u /\ zeval pol y = 0).
  { exists x. split; [split; [lra|apply (minimal_simple pol x Hm)]|]. intros y [Hy Zy]. symmetry. apply Hon; [lra|exact Zy]. }
  destruct (count_is_one pol l u (min_lead _ _ Hm) ltac:(lia) ltac:(lra) (minimal_simple_roots pol x Hm) U) as (f0 & Hf0).
  assert (Hck : exists f0, forall fuel, (f0 <= fuel)%nat -> check_unique o fuel pol (Fin m r) prec = Val true).
  { exists f0. intros fuel Hfu. unfold check_unique. destruct (Z.ltb_spec prec 2) as [|_]; [lia|]. rewrite Ei, Sl, Su, Hprod.
    destruct pol as [|c0 [|c1 [|c2 p']]]; cbn [length] in Hdeg; try lia. cbn [Z.eqb Pos.eqb]. destruct (negb _); [reflexivity|]. rewrite (Hf0 fuel Hfu). reflexivity. }
  split; [exact Hck|]. destruct Hck as (f1 & Hf1). destruct Safe as (Hsafe & He & Hd).
  set (nf := {| f_pol := pol; f_den := den; f_emb := Fin m r; f_prec := prec; f_imm := 0 |}).
  assert (Hok : field_ok pol x (fun a => rad_le a r0) nf) by (repeat split; [exact Hxa|exact Hr|exact E2]).
  destruct (He debug nf prec Hok) as (f2 & res & Nf & Hf2).
  exists (Nat.max f1 f2), res.
  assert (L2 : Nat.eqb (length pol) 2 = false) by (apply Nat.eqb_neq; lia).
  split.
  { intros f Hff. unfold renf_init. rewrite Hf1 by lia. cbn [bind]. rewrite L2. apply Hf2. lia. }
  specialize (Hf2 f2 (Nat.le_refl _)). destruct (Hd debug f2 nf prec eq_refl Hxa Hr eq_refl) as [HA HU]. rewrite Hf2 in HA, HU.
  destruct res as [nf'| | |]; [|apply HU; reflexivity|contradiction|contradiction].
  destruct (refine_spec o Ho pol x _ Hsafe (minimal_simple pol x Hm) debug f2 nf prec nf' eq_refl Hxa Hr Hf2) as (A & C & P & (G1 & G2 & G3) & F).
  cbn in G1, G2, G3, F. split; [repeat split; [exact G1|exact A|exact C|rewrite G3; exact E2]|]. repeat split; assumption.
Qed.
End Make.
