(** Making fields from strings (C48, C51). *)
Require Import Reals List ZArith Bool Lia Lra Ascii.
From Verif Require Import PolyR RootSpec RootModel ExtraModel ExtraProofs VcaProofs IsoProofs CountAll Dyadic DyadicProofs
  ArbModel ArbSpec ArbProofs FieldProofs RefineProofs ElemModel StrModel StrSpec StrProofs StrMore CxxModel
  MakeModel MakeSpec.
Import ListNotations.
Open Scope R_scope.

Lemma last_default : forall (p : list Z) d d', p <> [] -> last p d = last p d'.
Proof.
  induction p as [|a p IH]; intros d d' H; [contradiction|]. destruct p; [reflexivity|]. apply (IH d d'). discriminate.
Qed.

(** The test for a unique root ends when the roots are simple. *)
Lemma check_ends : forall o, arb_ok o -> forall pol a prec, last pol 1%Z <> 0%Z -> simple_roots pol reals ->
  (exists x, inb x a) -> exists f0, forall fuel, (f0 <= fuel)%nat -> check_unique o fuel pol a prec <> Fuel.
Proof.
  intros o Ho pol a prec Hl HS [z Hz].
  destruct pol as [|c0 [|c1 [|c2 p']]]; try (exists O; intros fuel _; discriminate). set (pol := c0 :: c1 :: c2 :: p') in *.
  assert (Hl0 : last pol 0%Z <> 0%Z) by (rewrite (last_default pol 0%Z 1%Z); [exact Hl|discriminate]).
  unfold check_unique, pol at 1. destruct (Z.ltb_spec prec 2) as [|Hp]; [exists O; intros; discriminate|].
  fold pol. destruct (interval a prec) as [[l r]|] eqn:Ei; [|exists O; intros; discriminate].
  destruct (Z.eqb_spec (sgn2 (eval_arb o pol (bexact l) (2 * prec)) * sgn2 (eval_arb o pol (bexact r) (2 * prec))) (-1)) as [Hs|];
    [|exists O; intros; discriminate].
  destruct (negb (contains_zero (eval_arb o (zderiv pol) a prec))); [exists O; intros; discriminate|].
  pose proof (interval_spec a prec l r z ltac:(lia) Ei Hz) as Hlr.
  assert (Hlt : dyv l < dyv r).
  { pose proof (eval_arb_ok o Ho pol (bexact l) (dyv l) (2 * prec) ltac:(lia) ltac:(apply inb_exact; reflexivity)) as Vl.
    pose proof (eval_arb_ok o Ho pol (bexact r) (dyv r) (2 * prec) ltac:(lia) ltac:(apply inb_exact; reflexivity)) as Vr.
    destruct (sgn2_spec _ _ Vl) as [L1 L2]. destruct (sgn2_spec _ _ Vr) as [R1 R2].
    destruct (Req_dec (dyv l) (dyv r)) as [e|]; [|lra]. exfalso. rewrite e in *.
    destruct (sgn2_range (eval_arb o pol (bexact l) (2 * prec))) as [e1|[e1|e1]]; rewrite e1 in *;
    destruct (sgn2_range (eval_arb o pol (bexact r) (2 * prec))) as [e2|[e2|e2]]; rewrite e2 in *; try lia.
    - pose proof (L2 eq_refl). pose proof (R1 eq_refl). lra.
    - pose proof (L1 eq_refl). pose proof (R2 eq_refl). lra. }
  destruct (dy_fmpq_spec l) as [Dl Vl]. destruct (dy_fmpq_spec r) as [Dr Vr].
  destruct (scale_0_1_spec pol (dy_fmpq l) (dy_fmpq r) Dl Dr ltac:(lra) Hl0 ltac:(unfold pol; cbn [length]; lia)) as (c & Hc & Hv).
  rewrite Vl, Vr in Hv. set (q := scale_0_1 pol (dy_fmpq l) (dy_fmpq r)) in *.
  assert (Hsg : IZR (Z.sgn (last pol 0%Z)) <> 0).
  { intros H. apply eq_IZR in H. apply Hl0. lia. }
  assert (Hroot : forall x, zeval q x = 0 -> zeval pol (dyv l + (dyv r - dyv l) * x) = 0).
  { intros x H. specialize (Hv x). rewrite H, Rmult_0_l in Hv. symmetry in Hv. apply Rmult_integral in Hv. tauto. }
  assert (Hq : nonzero q).
  { intros Hz0. apply (last_nonzero pol Hl0).
    assert (Hpz : forall y, zeval pol y = 0).
    { intros y. replace y with (dyv l + (dyv r - dyv l) * ((y - dyv l) / (dyv r - dyv l))) by (field; lra).
      apply Hroot. unfold zeval. apply peval_pzero. apply Forall_map. eapply Forall_impl; [|exact Hz0].
      intros b ->. reflexivity. }
    pose proof (peval_zero_interval (map IZR pol) 0 1 ltac:(lra)) as Hpi.
    assert (Hpz' : pzero (map IZR pol)) by (apply Hpi; intros; apply Hpz).
    unfold pzero in Hpz'. rewrite Forall_map in Hpz'. eapply Forall_impl; [|exact Hpz'].
    intros b Hb. apply eq_IZR. exact Hb. }
  assert (HSq : simple_roots q unit_cc).
  { apply (simple_roots_affine pol q (dyv r - dyv l) (dyv l) (c / IZR (Z.sgn (last pol 0%Z))) reals unit_cc).
    - lra.
    - intros H. apply Rmult_integral in H. destruct H as [H|H]; [lra|]. apply (Rinv_neq_0_compat _ Hsg H).
    - intros x. specialize (Hv x). replace ((dyv r - dyv l) * x + dyv l) with (dyv l + (dyv r - dyv l) * x) by ring.
      apply (Rmult_eq_reg_l (IZR (Z.sgn (last pol 0%Z)))); [|exact Hsg]. rewrite <- Hv. field. exact Hsg.
    - intros; exact I.
    - exact HS. }
  destruct (count_unit_correct q Hq HSq) as (f0 & roots & _ & Hf).
  exists f0. intros fuel Hfu. rewrite (Hf fuel Hfu). discriminate.
Qed.

Section Make.
Variables (o : arbops) (debug : bool) (zd : Z -> out (option (Z * Z))) (read : str -> Z -> option ball).
Hypothesis Ho : arb_ok o.
Hypothesis Hzd : zero_den_ok zd.

(** The runs of make. *)
Lemma make_cases : forall fuel n minpoly gen emb prec, (2 <= n)%nat ->
  make_str o debug zd read fuel n minpoly gen emb prec =
  bind (set_str zd gen minpoly) (fun r =>
    match r with
    | None => Val (Throw, O)
    | Some p =>
        if (prec <? 2)%Z then Undef
        else match read emb prec with
             | None => Val (Throw, O)
             | Some e =>
                 bind (check_unique o fuel (e_num p) e prec) (fun ok =>
                   if ok then bind (renf_init o debug fuel (e_num p) (e_den p) e prec) (fun nf => Val (Ret nf, O))
                   else if (WORD_MAX <? 2 * prec)%Z then Undef else Val (Throw, 2%nat))
             end
    end).
Proof.
  intros fuel n minpoly gen emb prec Hn. destruct n as [|[|n]]; try lia.
  unfold make_str. cbn [make_loop]. destruct (set_str zd gen minpoly) as [[p|]| | |]; try reflexivity. cbn [bind].
  unfold fixed at 1. rewrite Z.eqb_refl. destruct (Z.ltb_spec prec 2); [reflexivity|].
  destruct (read emb prec) as [e|]; [|reflexivity].
  destruct (check_unique o fuel (e_num p) e prec) as [[|]| | |]; try reflexivity. cbn [bind].
  destruct (WORD_MAX <? 2 * prec)%Z; [reflexivity|].
  unfold fixed at 1. destruct (Z.eqb_spec (2 * prec) prec); [lia|reflexivity].
Qed.

Lemma make_more : forall fuel n minpoly gen emb prec r, make_str o debug zd read fuel n minpoly gen emb prec = Val r ->
  make_str o debug zd read fuel (n + 2) minpoly gen emb prec = Val r.
Proof.
  intros fuel [|[|n]] minpoly gen emb prec r E; [discriminate| |].
  - rewrite make_cases by lia. unfold make_str in E. cbn [make_loop] in E.
    destruct (set_str zd gen minpoly) as [[p|]| | |]; try discriminate; try exact E. cbn [bind] in *.
    unfold fixed in E. rewrite Z.eqb_refl in E. destruct (Z.ltb_spec prec 2); [discriminate|].
    destruct (read emb prec) as [e|]; [|exact E].
    destruct (check_unique o fuel (e_num p) e prec) as [[|]| | |]; try discriminate; [exact E|]. cbn [bind] in *.
    destruct (WORD_MAX <? 2 * prec)%Z; discriminate.
  - rewrite make_cases in E |- * by lia. exact E.
Qed.

Lemma make_returns : forall fuel n minpoly gen emb prec nf k,
  make_str o debug zd read fuel n minpoly gen emb prec = Val (Ret nf, k) ->
  name gen /\ exists ts p b, form true gen minpoly ts /\ is_poly p (fun y => terms_val y ts) /\
    (2 <= length (e_num p))%nat /\ read emb prec = Some b /\
    f_pol nf = e_num p /\ f_den nf = e_den p /\ f_prec nf = prec /\ f_imm nf = 0%Z /\
    (forall x y, inb x b -> inb y b -> zeval (e_num p) x = 0 -> zeval (e_num p) y = 0 -> x = y) /\
    ((exists x, inb x b) -> is_finite b = true ->
     (length (e_num p) = 2%nat \/ forall l r, interval b prec = Some (l, r) -> inb (dyv l) b /\ inb (dyv r) b) ->
     unique_root (e_num p) b) /\
    (forall x N, safe_balls o (e_num p) x N -> simple_root (e_num p) x -> inb x b -> N b ->
     inb x (f_emb nf) /\ (is_finite (f_emb nf) = true -> isolating (e_num p) x (f_emb nf)) /\
     (length (e_num p) = 2%nat \/ (prec <= rel_accuracy (f_emb nf))%Z)).
Proof.
  intros fuel n minpoly gen emb prec nf k E. apply make_more in E. rewrite make_cases in E by lia.
  destruct (set_str zd gen minpoly) as [[p|]| | |] eqn:Es; try discriminate. cbn [bind] in E.
  destruct (set_str_accepts zd gen minpoly p Hzd Es) as (Hg & ts & Hf & Hp).
  split; [exact Hg|]. exists ts, p.
  destruct (Z.ltb_spec prec 2) as [|Hp2]; [discriminate|].
  destruct (read emb prec) as [b|] eqn:Er; [|discriminate].
  destruct (check_unique o fuel (e_num p) b prec) as [ok| | |] eqn:Ec; try discriminate. cbn [bind] in E.
  destruct ok; [|destruct (WORD_MAX <? 2 * prec)%Z; discriminate].
  destruct (renf_init o debug fuel (e_num p) (e_den p) b prec) as [nf1| | |] eqn:Ei; try discriminate.
  cbn [bind] in E. injection E as -> <-. exists b.
  assert (H2 : (2 <= length (e_num p))%nat).
  { destruct (e_num p) as [|c0 [|c1 q]]; try discriminate Ec. cbn [length]. lia. }
  assert (Hlast : last (e_num p) 0%Z <> 0%Z).
  { destruct Hp as [[_ Hl _] _]. rewrite (last_default _ 0%Z 1%Z); [exact Hl|]. intros e. rewrite e in H2. cbn in H2. lia. }
  unfold renf_init in Ei. rewrite Ec in Ei. cbn [bind] in Ei.
  set (nf0 := {| f_pol := e_num p; f_den := e_den p; f_emb := b; f_prec := prec; f_imm := 0%Z |}) in Ei.
  assert (Hsame : f_pol nf = e_num p /\ f_den nf = e_den p /\ f_prec nf = prec /\ f_imm nf = 0%Z).
  { destruct (Nat.eqb (length (e_num p)) 2); [injection Ei as <-; repeat split|].
    assert (L : forall f m q c m', refine_loop o f m q c = Val m' -> f_pol m' = f_pol m /\ f_den m' = f_den m /\ f_prec m' = f_prec m /\ f_imm m' = f_imm m).
    { induction f as [|f IH]; intros m q c m' E; [discriminate|]. cbn [refine_loop] in E.
      destruct (rel_accuracy (f_emb m) <? q)%Z; [|injection E as <-; repeat split].
      assert (Hnext : forall t, bind (comp_prec (with_emb m t) 32) (fun cp' => refine_loop o f (with_emb m t) q cp') = Val m' ->
        f_pol m' = f_pol m /\ f_den m' = f_den m /\ f_prec m' = f_prec m /\ f_imm m' = f_imm m).
      { intros t H. destruct (comp_prec (with_emb m t) 32) as [cp'| | |]; try discriminate. apply IH in H. exact H. }
      destruct (newton_step o (f_pol m) (zderiv (f_pol m)) (f_emb m) c) as [[b1 t1]| | |]; try discriminate. cbn [bind] in E.
      assert (Hbis : bind (bisection_step o (f_pol m) (f_emb m) c) (fun bs => match bs with
          | (true, Some t) => bind (comp_prec (with_emb m t) 32) (fun cp' => refine_loop o f (with_emb m t) q cp')
          | _ => refine_loop o f m q (2 * c) end) = Val m' ->
        f_pol m' = f_pol m /\ f_den m' = f_den m /\ f_prec m' = f_prec m /\ f_imm m' = f_imm m).
      { intros H. destruct (bisection_step o (f_pol m) (f_emb m) c) as [[b2 t2]| | |]; try discriminate. cbn [bind] in H.
        destruct b2; [destruct t2 as [t2|]|]; [apply Hnext in H; exact H|apply IH in H; exact H ..]. }
      destruct b1; [destruct t1 as [t1|]|]; [apply Hnext in E; exact E|apply Hbis in E; exact E ..]. }
    unfold refine in Ei. destruct debug.
    - cbn [set_immutable f_imm nf0] in Ei. cbn [Z.eqb] in Ei.
      destruct (comp_prec (with_imm nf0 1) (Z.max (f_prec (with_imm nf0 1)) 64)) as [cp| | |]; try discriminate. cbn [bind] in Ei.
      destruct (refine_loop o fuel (with_imm nf0 1) prec cp) as [nf2| | |] eqn:El; try discriminate. cbn [bind] in Ei.
      destruct (L _ _ _ _ _ El) as (A & B & C & D). unfold set_immutable in Ei.
      destruct (f_imm nf2 =? 0)%Z; [discriminate|]. injection Ei as <-. repeat split; assumption.
    - destruct (comp_prec nf0 (Z.max (f_prec nf0) 64)) as [cp| | |]; try discriminate. cbn [bind] in Ei.
      exact (L _ _ _ _ _ Ei). }
  destruct Hsame as (S1 & S2 & S3 & S4).
  split; [exact Hf|]. split; [exact Hp|]. split; [exact H2|]. split; [reflexivity|].
  split; [exact S1|]. split; [exact S2|]. split; [exact S3|]. split; [exact S4|]. split; [|split].
  - intros x y Hx Hy Zx Zy. destruct (Nat.le_gt_cases 3 (length (e_num p))) as [H3|H3].
    + destruct b as [m rr|].
      2:{ exfalso. destruct (e_num p) as [|c0 [|c1 [|c2 q]]]; cbn [length] in H3; try lia.
          unfold check_unique in Ec. destruct (Z.ltb_spec prec 2); [lia|]. discriminate Ec. }
      destruct (interval (Fin m rr) prec) as [[l r]|] eqn:Eint; [|discriminate].
      destruct (check_unique_accepts o Ho fuel (e_num p) _ prec l r Hlast H3 Ec Eint (ex_intro _ x Hx)) as [_ Hu].
      apply Hu; assumption.
    + destruct (e_num p) as [|c0 [|c1 [|? ?]]]; cbn [length] in *; try lia.
      destruct (check_unique_linear o fuel c0 c1 b prec Hlast Ec) as (u & _ & Hu).
      rewrite <- (Hu x), <- (Hu y); auto.
  - intros Hne Hfin [H3|H3].
    + destruct (e_num p) as [|c0 [|c1 [|? ?]]]; try discriminate H3. exact (check_unique_linear o fuel c0 c1 b prec Hlast Ec).
    + exact (check_unique_exact o Ho fuel (e_num p) b prec Hlast Ec Hne H3 Hfin).
  - clear S1 S2 S3 S4. intros x N HN Hsim Hx HNb.
    assert (K : inb x (f_emb nf) /\ (is_finite (f_emb nf) = true -> forall y, inb y (f_emb nf) -> zeval (e_num p) y = 0 -> y = x) /\
      (length (e_num p) = 2%nat \/ (prec <= rel_accuracy (f_emb nf))%Z)).
    { destruct (Nat.eqb_spec (length (e_num p)) 2) as [H4|H4].
      - injection Ei as <-. split; [exact Hx|]. split; [|left; exact H4]. intros _ y Hy Zy.
        destruct (e_num p) as [|c0 [|c1 [|? ?]]]; try discriminate H4.
        destruct (check_unique_linear o fuel c0 c1 b prec Hlast Ec) as (u & _ & Hu).
        rewrite <- (Hu y), <- (Hu x); auto. split; [assumption|apply Hsim].
      - apply (refine_spec o Ho (e_num p) x N) in Ei; try assumption; [|reflexivity].
        destruct Ei as (A & B & C & _). split; [exact A|]. split; [|right; exact C]. intros Hfin y Hy Zy.
        apply (safe_here _ _ _ _ HN (f_emb nf)); assumption. }
    destruct K as (K1 & K2 & K3). split; [exact K1|]. split; [|exact K3]. intros Hfin.
    split; [apply Hsim|split; [exact K1|exact (K2 Hfin)]].
Qed.

(** Exceptions are thrown for these reasons only. *)
Lemma make_throws : forall fuel n minpoly gen emb prec k,
  make_str o debug zd read fuel n minpoly gen emb prec = Val (Throw, k) ->
  (set_str zd gen minpoly = Val None /\ k = O) \/
  exists p, set_str zd gen minpoly = Val (Some p) /\ (2 <= prec)%Z /\
    ((read emb prec = None /\ k = O) \/
     exists b, read emb prec = Some b /\ check_unique o fuel (e_num p) b prec = Val false /\ k = 2%nat).
Proof.
  intros fuel n minpoly gen emb prec k E. apply make_more in E. rewrite make_cases in E by lia.
  destruct (set_str zd gen minpoly) as [[p|]| | |] eqn:Es; try discriminate; cbn [bind] in E.
  2:{ injection E as <-. left. split; reflexivity. }
  right. exists p. split; [reflexivity|].
  destruct (Z.ltb_spec prec 2) as [|Hp2]; [discriminate|]. split; [exact Hp2|].
  destruct (read emb prec) as [b|] eqn:Er; [|injection E as <-; left; split; reflexivity].
  right. exists b. split; [reflexivity|].
  destruct (check_unique o fuel (e_num p) b prec) as [ok| | |] eqn:Ec; try discriminate. cbn [bind] in E.
  destruct ok.
  - destruct (renf_init o debug fuel (e_num p) (e_den p) b prec); discriminate.
  - destruct (WORD_MAX <? 2 * prec)%Z; [discriminate|]. injection E as <-. split; reflexivity.
Qed.

(** Only the refinement may run on. *)
Lemma make_ends : forall minpoly gen emb prec, (forall n, answers (zd n)) -> tame gen -> tame minpoly ->
  (forall p, set_str zd gen minpoly = Val (Some p) -> simple_roots (e_num p) reals) ->
  (forall b, read emb prec = Some b -> exists x, inb x b) ->
  exists f0, forall fuel n, (f0 <= fuel)%nat -> (2 <= n)%nat ->
    make_str o debug zd read fuel n minpoly gen emb prec = Fuel ->
    exists p b, set_str zd gen minpoly = Val (Some p) /\ read emb prec = Some b /\
      check_unique o fuel (e_num p) b prec = Val true /\
      refine o debug fuel {| f_pol := e_num p; f_den := e_den p; f_emb := b; f_prec := prec; f_imm := 0 |} prec = Fuel.
Proof.
  intros minpoly gen emb prec Ha Hg Hm HS Hne.
  destruct (set_str_answers zd gen minpoly Ha Hg Hm) as [r Es]. destruct r as [p|].
  2:{ exists O. intros fuel n _ Hn E. rewrite make_cases, Es in E by lia. discriminate. }
  destruct (read emb prec) as [b|] eqn:Er.
  2:{ exists O. intros fuel n _ Hn E. rewrite make_cases, Es, Er in E by lia. cbn [bind] in E. destruct (prec <? 2)%Z; discriminate. }
  destruct (set_str_accepts zd gen minpoly p Hzd Es) as (_ & ts & _ & Hp & _).
  destruct (check_ends o Ho (e_num p) b prec (lt_last _ Hp) (HS p Es) (Hne b eq_refl)) as [f0 Hf0].
  exists f0. intros fuel n Hf Hn E. rewrite make_cases, Es, Er in E by lia. cbn [bind] in E.
  destruct (prec <? 2)%Z; [discriminate|]. specialize (Hf0 fuel Hf).
  destruct (check_unique o fuel (e_num p) b prec) as [ok| | |] eqn:Ec; try discriminate; [|congruence]. cbn [bind] in E.
  destruct ok; [|destruct (WORD_MAX <? 2 * prec)%Z; discriminate].
  unfold renf_init in E. rewrite Ec in E. cbn [bind] in E.
  exists p, b. split; [exact Es|]. split; [reflexivity|]. split; [exact Ec|].
  destruct (Nat.eqb (length (e_num p)) 2); [discriminate|].
  destruct (refine o debug fuel _ prec) eqn:Ef; try discriminate. reflexivity.
Qed.
End Make.
