(** Creating a field is defined unless a word overflows. *)
Require Import Reals List ZArith Bool Lia Lra.
From Verif Require Import PolyR RootSpec RootModel ExtraModel Dyadic DyadicProofs ArbModel ArbSpec ArbProofs FieldProofs VcaProofs EndsSpec.
Import ListNotations.
Open Scope R_scope.

Lemma cond_sum_nonneg : forall prec, (2 <= prec)%Z -> forall p m r, 0 <= dyv r -> 0 <= dyv (cond_sum p (dround RUp prec (dadd (dabs m) r)) prec).
Proof.
  intros prec Hp p m r Hr. destruct p as [|c q]; [cbn [cond_sum]; rewrite dyv_dz; lra|].
  assert (Ha : Rabs (dyv m) <= dyv (dround RUp prec (dadd (dabs m) r))).
  { apply (abs_ubound_spec (Fin m r) prec _ (dyv m) ltac:(lia) eq_refl). cbn. rewrite Rminus_diag_eq, Rabs_R0 by reflexivity. exact Hr. }
  pose proof (proj1 (cond_lead (last (c :: q) 0%Z) (dround RUp prec (dadd (dabs m) r)) prec Hp)) as Hl.
  pose proof (cond_sum_ge prec (/ 2) ltac:(lia) ltac:(lra) (c :: q) _ (dyv m) Ha Hl ltac:(discriminate)) as G.
  pose proof (abs_sum_nonneg (c :: q) (dyv m)). lra.
Qed.

Lemma cond_positive : forall c q m r prec, (2 <= prec)%Z -> c <> 0%Z -> q <> [] -> 0 <= dyv r -> (1 <= cond_2exp (c :: q) (Fin m r) prec)%Z.
Proof.
  intros c q m r prec Hp Hc Hq Hr. unfold cond_2exp. cbn [abs_ubound]. set (a := dround RUp prec (dadd (dabs m) r)).
  assert (G : 1 <= dyv (cond_sum (c :: q) a prec)).
  { pose proof (cond_sum_nonneg prec Hp q m r Hr) as Hn. fold a in Hn.
    assert (A0 : 0 <= dyv a).
    { pose proof (abs_ubound_spec (Fin m r) prec a (dyv m) ltac:(lia) eq_refl) as H. cbn [inb] in H. rewrite Rminus_diag_eq, Rabs_R0 in H by reflexivity.
      specialize (H Hr). pose proof (Rabs_pos (dyv m)). lra. }
    destruct q as [|c' q']; [contradiction|]. set (q := c' :: q') in *.
    change (cond_sum (c :: q) a prec) with
      (let res := dround RUp prec (dmul (cond_sum q a prec) a) in
       if (0 <? c)%Z then dround RUp prec (dadd res (dz c))
       else if (c <? 0)%Z then dround RUp prec (dsub res (dz c)) else res).
    cbv zeta. set (cs := cond_sum q a prec) in *.
    assert (R0 : 0 <= dyv (dround RUp prec (dmul cs a))).
    { apply Rle_trans with (dyv (dmul cs a)); [rewrite dyv_mul; apply Rmult_le_pos; assumption|].
      apply dround_up_ge; [lia|]. rewrite dyv_mul. apply Rmult_le_pos; assumption. }
    set (res := dround RUp prec (dmul cs a)) in *.
    destruct (Z.ltb_spec 0 c) as [H|H]; [|destruct (Z.ltb_spec c 0) as [H'|H']; [|lia]].
    - assert (1 <= IZR c) by (apply IZR_le; lia).
      apply Rle_trans with (dyv (dadd res (dz c))); [rewrite dyv_add, dyv_dz; lra|]. apply dround_up_ge; [lia|]. rewrite dyv_add, dyv_dz. lra.
    - assert (IZR c <= -1) by (apply IZR_le; lia).
      apply Rle_trans with (dyv (dsub res (dz c))); [rewrite dyv_sub, dyv_dz; lra|]. apply dround_up_ge; [lia|]. rewrite dyv_sub, dyv_dz. lra. }
  pose proof (dexp_bound _ ltac:(apply Rle_trans with 1; [lra|exact G])) as B.
  destruct (Z.le_gt_cases 1 (dexp (cond_sum (c :: q) a prec))) as [L|L]; [exact L|exfalso].
  assert (pw2 (dexp (cond_sum (c :: q) a prec)) <= pw2 0) by (apply pw2_le; lia). rewrite pw2_0 in *. lra.
Qed.

Section Init.
Variables (o : arbops) (pol : list Z) (a : ball).
Hypothesis Hc0 : hd 0%Z pol <> 0%Z.
Hypothesis Hlen : (3 <= length pol)%nat.
Notation Bad := (overflow_or_empty o pol a).

Lemma comp_prec_ok : forall nf c, (2 <= c)%Z -> f_pol nf = pol -> sharpened o pol a (f_emb nf) ->
  (comp_prec nf c = Undef /\ Bad) \/ exists cp, comp_prec nf c = Val cp /\ ((2 <= cp)%Z \/ Bad).
Proof.
  intros nf c Hc Ep Hs. unfold comp_prec. destruct (Z.ltb_spec WORD_MAX (2 * Z.abs (rel_accuracy (f_emb nf)))) as [L|L].
  - left. split; [reflexivity|]. exists (f_emb nf). split; [exact Hs|left; exact L].
  - right. eexists. split; [reflexivity|]. destruct (f_emb nf) as [m r|] eqn:E.
    + destruct (Rle_lt_dec 0 (dyv r)) as [Hr|Hr].
      * left. rewrite Ep. destruct pol as [|c0 q] eqn:P; [contradiction Hc0; reflexivity|]. cbn [hd] in Hc0.
        pose proof (cond_positive c0 q m r c Hc Hc0 ltac:(destruct q; [cbn in Hlen; lia|discriminate]) Hr). nia.
      * right. exists (Fin m r). split; [exact Hs|]. right. intros y W. cbn in W. pose proof (Rabs_pos (y - dyv m)). lra.
    + exfalso. cbn in L. unfold WORD_MAX in L. lia.
Qed.

Lemma loop_imm : forall fuel nf prec cp v, refine_loop o fuel nf prec cp = Val v -> f_imm v = f_imm nf.
Proof.
  induction fuel as [|fuel IH]; intros nf prec cp v H; [discriminate|]. cbn [refine_loop] in H.
  destruct (rel_accuracy (f_emb nf) <? prec)%Z; [|injection H as <-; reflexivity].
  assert (N : forall t v, bind (comp_prec (with_emb nf t) 32) (fun cp' => refine_loop o fuel (with_emb nf t) prec cp') = Val v -> f_imm v = f_imm nf).
  { intros t w W. destruct (comp_prec (with_emb nf t) 32); try discriminate. cbn [bind] in W. apply IH in W. exact W. }
  destruct (newton_step _ _ _ _ _) as [[[|] [t|]]| | |]; try discriminate; cbn [bind] in H; try (apply (N t), H);
  destruct (bisection_step _ _ _ _) as [[[|] [t'|]]| | |]; try discriminate; cbn [bind] in H; try (apply (N t'), H); apply IH in H; exact H.
Qed.

Lemma loop_ok : forall fuel nf prec cp, f_pol nf = pol -> sharpened o pol a (f_emb nf) -> (2 <= cp)%Z \/ Bad ->
  refine_loop o fuel nf prec cp = Undef \/ refine_loop o fuel nf prec cp = Abort -> Bad.
Proof.
  induction fuel as [|fuel IH]; intros nf prec cp Ep Hs Hcp; [intros [W|W]; discriminate|].
  destruct Hcp as [Hcp|B]; [|intros _; exact B].
  cbn [refine_loop]. destruct (rel_accuracy (f_emb nf) <? prec)%Z; [|intros [W|W]; discriminate].
  assert (N : forall t, sharpened o pol a t ->
    bind (comp_prec (with_emb nf t) 32) (fun cp' => refine_loop o fuel (with_emb nf t) prec cp') = Undef \/
    bind (comp_prec (with_emb nf t) 32) (fun cp' => refine_loop o fuel (with_emb nf t) prec cp') = Abort -> Bad).
  { intros t Ht W. destruct (comp_prec_ok (with_emb nf t) 32 ltac:(lia) Ep Ht) as [[_ B]|(cp' & E & Hcp')]; [exact B|].
    rewrite E in W. cbn [bind] in W. apply (IH (with_emb nf t) prec cp' Ep Ht Hcp' W). }
  assert (En : newton_step o (f_pol nf) (zderiv (f_pol nf)) (f_emb nf) cp <> Undef /\ newton_step o (f_pol nf) (zderiv (f_pol nf)) (f_emb nf) cp <> Abort /\
               newton_step o (f_pol nf) (zderiv (f_pol nf)) (f_emb nf) cp <> Fuel).
  { unfold newton_step. destruct (Z.leb_spec cp 0); [lia|]. destruct (Z.ltb_spec cp 2); [lia|]. cbv zeta. destruct (contains_zero _); repeat split; discriminate. }
  assert (Eb : exists bs, bisection_step o (f_pol nf) (f_emb nf) cp = Val bs).
  { unfold bisection_step. destruct (Z.ltb_spec cp 2); [lia|]. destruct (interval _ _) as [[l r]|]; [|eexists; reflexivity]. cbv zeta.
    destruct (contains_zero _); [eexists; reflexivity|]. destruct (contains_zero _); [eexists; reflexivity|]. destruct (bisection_arf _ _ _ _ _ _). eexists. reflexivity. }
  destruct Eb as (bs & Eb). destruct En as (E1 & E2 & E3). rewrite Eb.
  destruct (newton_step o (f_pol nf) (zderiv (f_pol nf)) (f_emb nf) cp) as [nw| | |] eqn:En; try contradiction. cbn [bind].
  assert (T : match bs with (true, Some t) => bind (comp_prec (with_emb nf t) 32) (fun cp' => refine_loop o fuel (with_emb nf t) prec cp')
              | _ => refine_loop o fuel nf prec (2 * cp) end = Undef \/
              match bs with (true, Some t) => bind (comp_prec (with_emb nf t) 32) (fun cp' => refine_loop o fuel (with_emb nf t) prec cp')
              | _ => refine_loop o fuel nf prec (2 * cp) end = Abort -> Bad).
  { destruct bs as [[|] [t|]]; try (apply IH; [exact Ep|exact Hs|left; lia]). apply N. rewrite Ep in Eb. apply (sharp_bisect _ _ _ _ cp t Hs Eb). }
  destruct nw as [[|] [t|]]; try exact T. apply N. rewrite Ep in En. apply (sharp_newton _ _ _ _ cp t Hs En).
Qed.

Lemma refine_ok : forall debug fuel nf prec, f_pol nf = pol -> f_emb nf = a -> f_imm nf = 0%Z ->
  refine o debug fuel nf prec = Undef \/ refine o debug fuel nf prec = Abort -> Bad.
Proof.
  intros debug fuel nf prec Ep Ee Hi. unfold refine.
  assert (G : forall i, bind (comp_prec (with_imm nf i) (Z.max (f_prec (with_imm nf i)) 64)) (fun cp => refine_loop o fuel (with_imm nf i) prec cp) = Undef \/
                       bind (comp_prec (with_imm nf i) (Z.max (f_prec (with_imm nf i)) 64)) (fun cp => refine_loop o fuel (with_imm nf i) prec cp) = Abort -> Bad).
  { intros i W. assert (Hs : sharpened o pol a (f_emb (with_imm nf i))) by (cbn; rewrite Ee; constructor).
    destruct (comp_prec_ok (with_imm nf i) (Z.max (f_prec (with_imm nf i)) 64) ltac:(lia) Ep Hs) as [[_ B]|(cp & E & Hcp)]; [exact B|].
    rewrite E in W. cbn [bind] in W. apply (loop_ok fuel (with_imm nf i) prec cp Ep Hs Hcp W). }
  destruct debug.
  - cbn [set_immutable]. rewrite Hi. cbn [Z.eqb]. specialize (G 1%Z).
    destruct (bind (comp_prec (with_imm nf 1) _) _) as [v| | |] eqn:E; cbn [bind]; try exact G.
    cbn [set_immutable]. destruct (comp_prec (with_imm nf 1) _) as [cp| | |]; try discriminate. cbn [bind] in E. apply loop_imm in E. cbn [with_imm f_imm] in E.
    rewrite E. cbn [Z.eqb]. intros [W|W]; discriminate.
  - replace nf with (with_imm nf 0) by (destruct nf; cbn in *; subst; reflexivity). apply G.
Qed.
End Init.

(** The refinement in renf_init is undefined, or aborts, only then. *)
Lemma init_defined : forall o debug fuel pol den a prec, hd 0%Z pol <> 0%Z -> (2 <= prec)%Z ->
  (renf_init o debug fuel pol den a prec = Undef -> overflow_or_empty o pol a) /\
  (renf_init o debug fuel pol den a prec = Abort -> check_unique o fuel pol a prec = Val false \/ overflow_or_empty o pol a).
Proof.
  intros o debug fuel pol den a prec Hc Hp. unfold renf_init.
  assert (K : check_unique o fuel pol a prec <> Undef /\ check_unique o fuel pol a prec <> Abort).
  { unfold check_unique. destruct pol as [|c0 [|c1 [|c2 q]]]; try (split; discriminate). destruct (Z.ltb_spec prec 2); [lia|].
    destruct (interval a prec) as [[l r]|]; [|split; discriminate]. cbv zeta. destruct (_ =? -1)%Z; [|split; discriminate].
    destruct (negb _); [split; discriminate|]. destruct (num_real_roots_0_1 _ _); split; discriminate. }
  destruct K as [K1 K2]. destruct (check_unique o fuel pol a prec) as [[|]| | |] eqn:E; try contradiction; cbn [bind]; try (split; discriminate);
    [|split; [discriminate|intros _; left; reflexivity]].
  destruct (Nat.eqb_spec (length pol) 2) as [L2|L2]; [split; discriminate|].
  assert (L3 : (3 <= length pol)%nat) by (destruct pol as [|c0 [|c1 [|c2 q]]]; cbn in *; try discriminate; lia).
  split; intros W; [|right]; apply (refine_ok o pol a Hc L3 debug fuel {| f_pol := pol; f_den := den; f_emb := a; f_prec := prec; f_imm := 0 |} prec eq_refl eq_refl eq_refl); [left|right]; exact W.
Qed.
