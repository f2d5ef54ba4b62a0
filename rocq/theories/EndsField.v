(** A field made at the default precision in which signs are never found. *)
Require Import Reals List ZArith Bool Lia Lra.
From Verif Require Import PolyR RootSpec RootModel VcaProofs ExtraModel Dyadic DyadicProofs ArbModel ArbSpec ArbProofs ArbRefute DyBall DyBallProofs
  ElemModel ElemSpec ElemProofs NfArith NfArithProofs ElemRefute EndsSpec EndsRefute.
Import ListNotations.
Open Scope R_scope.

(** (2^65 x - 2^65 - 1)^2 - 2. *)
Definition hW : Z := (2 ^ 65)%Z.
Definition hpol : list Z := [(hW + 1) * (hW + 1) - 2; - (2 * (hW + 1) * hW); hW * hW]%Z.
Definition hmid : Z := 219673525124179510893795687647347550097044155897633752372654996729317346346009723869510508524667677312786352942015188270910742977205897490849732113234889186817.
Definition hball : ball := Fin (hmid, -526)%Z (973078529, -94)%Z.

Lemma heval : forall x, zeval hpol x = (IZR hW * x - IZR hW - 1) * (IZR hW * x - IZR hW - 1) - 2.
Proof. intros x. unfold zeval, hpol. cbn [map peval]. rewrite minus_IZR, opp_IZR, !mult_IZR, plus_IZR. ring. Qed.

Lemma hW_pos : 0 < IZR hW.
Proof. apply IZR_lt. reflexivity. Qed.

Lemma hminimal : forall x, zeval hpol x = 0 -> minimal hpol x.
Proof.
  intros x E. constructor; [exact E|cbn; lia|vm_compute; discriminate|]. rewrite heval in E. pose proof hW_pos as Wp.
  intros p L Ep. cbn [length hpol] in L.
  assert (K : forall a b, IZR a + IZR b * x = 0 -> a = 0%Z /\ b = 0%Z).
  { intros a b H. assert (b = 0%Z).
    { apply (sq_descent (hW * a + b * (hW + 1)) b). apply eq_IZR. rewrite !mult_IZR, plus_IZR, !mult_IZR, plus_IZR.
      assert (Q : IZR hW * IZR a + IZR b * (IZR hW + 1) = - (IZR b * (IZR hW * x - IZR hW - 1))).
      { assert (Ha : IZR a = - (IZR b * x)) by lra. rewrite Ha. ring. }
      rewrite Q. replace 2 with ((IZR hW * x - IZR hW - 1) * (IZR hW * x - IZR hW - 1)) at 1 by lra. ring. }
    subst b. split; [apply eq_IZR; lra|reflexivity]. }
  destruct p as [|a [|b [|? ?]]]; [constructor| | |cbn in L; lia]; rewrite !zeval_cons, zeval_nil in Ep.
  - destruct (K a 0%Z); [lra|]. subst. repeat constructor.
  - destruct (K a b); [lra|]. subst. repeat constructor.
Qed.

(** The ball between 2^65 x - 2^65 - 1 = -0.83 and 3.8, at most. *)
Lemma hball_mid : exists c, 1 <= c <= 2 /\ forall x, inb x hball <-> Rabs (IZR hW * x - IZR hW - 1 - c) <= IZR 973078529 / IZR (2 ^ 29).
Proof.
  pose proof hW_pos as Wp. exists (IZR hmid / IZR (2 ^ 461) - IZR hW - 1).
  assert (P : 0 < IZR (2 ^ 461)) by (apply IZR_lt; reflexivity). assert (P2 : 0 < IZR (2 ^ 29)) by (apply IZR_lt; reflexivity). split.
  - assert (IZR ((hW + 2) * 2 ^ 461) <= IZR hmid <= IZR ((hW + 3) * 2 ^ 461)) as [A B] by (split; apply IZR_le; vm_compute; discriminate).
    rewrite mult_IZR, plus_IZR in A, B. set (P' := IZR (2 ^ 461)) in *. clearbody P'. set (M := IZR hmid) in *. clearbody M. set (W := IZR hW) in *. clearbody W.
    assert (E : M = M / P' * P') by (field; lra). set (q := M / P') in *. clearbody q. rewrite E in A, B.
    apply Rmult_le_reg_r in A; [|exact P]. apply Rmult_le_reg_r in B; [|exact P]. lra.
  - intros x. unfold hball, inb, dyv. cbn [fst snd]. change (-526)%Z with (- (526))%Z. change (-94)%Z with (- (94))%Z. rewrite !pw2_neg_IZR by lia.
    change (2 ^ 526)%Z with (2 ^ 461 * hW)%Z. change (2 ^ 94)%Z with (2 ^ 29 * hW)%Z. rewrite !mult_IZR.
    replace (IZR hW * x - IZR hW - 1 - (IZR hmid / IZR (2 ^ 461) - IZR hW - 1)) with (IZR hW * (x - IZR hmid * / (IZR (2 ^ 461) * IZR hW))).
    2:{ set (P' := IZR (2 ^ 461)) in *. clearbody P'. field. split; lra. }
    rewrite Rabs_mult, (Rabs_pos_eq (IZR hW)) by lra. generalize (Rabs (x - IZR hmid * / (IZR (2 ^ 461) * IZR hW))). intros t.
    replace (IZR 973078529 * / (IZR (2 ^ 29) * IZR hW)) with (IZR 973078529 / IZR (2 ^ 29) / IZR hW).
    2:{ set (P' := IZR (2 ^ 29)) in *. clearbody P'. field. split; lra. }
    generalize (IZR 973078529 / IZR (2 ^ 29)). intros r. set (W := IZR hW) in *. clearbody W. split; intros H.
    + apply (Rmult_le_compat_l W) in H; [|lra]. replace (W * (r / W)) with r in H by (field; lra). exact H.
    + apply (Rmult_le_reg_l W); [exact Wp|]. replace (W * (r / W)) with r by (field; lra). exact H.
Qed.

Lemma hradius : 1 <= IZR 973078529 / IZR (2 ^ 29) < 1.9.
Proof. change (2 ^ 29)%Z with 536870912%Z. lra. Qed.

Lemma hroot : exists x, zeval hpol x = 0 /\ 1 < IZR hW * x - IZR hW - 1 /\ inb x hball /\ forall y, inb y hball -> zeval hpol y = 0 -> y = x.
Proof.
  destruct sq_root as (z & Hz & E). pose proof hW_pos as Wp. pose proof hradius as Hr. destruct hball_mid as (c & Hc & Hin).
  exists ((z + 1 + IZR hW) / IZR hW). assert (V : IZR hW * ((z + 1 + IZR hW) / IZR hW) - IZR hW - 1 = z) by (field; lra).
  split; [rewrite heval, V; lra|]. split; [rewrite V; lra|]. split; [apply Hin; rewrite V; apply Rabs_le; lra|].
  intros y Hy Zy. apply Hin in Hy. rewrite heval in Zy. set (u := IZR hW * y - IZR hW - 1) in *.
  assert (Q : (u - z) * (u + z) = 0) by lra. apply Rmult_integral in Q.
  assert (u = z). { destruct Q; [lra|]. unfold Rabs in Hy. destruct (Rcase_abs _) in Hy; lra. }
  apply (Rmult_eq_reg_l (IZR hW)); [|lra]. replace (IZR hW * ((z + 1 + IZR hW) / IZR hW)) with (z + 1 + IZR hW) by (field; lra). unfold u in *. lra.
Qed.

(** * Refinement *)
Definition hfield (i : Z) : renf := {| f_pol := hpol; f_den := 1; f_emb := hball; f_prec := 64; f_imm := i |}%Z.

Lemma hloop : forall fuel i, refine_loop dyops fuel (hfield i) 128 527 = Fuel.
Proof.
  induction fuel as [|fuel IH]; intros i; [reflexivity|]. cbn [refine_loop].
  change (rel_accuracy (f_emb (hfield i)) <? 128)%Z with true.
  change (f_pol (hfield i)) with hpol. change (f_emb (hfield i)) with hball.
  assert (En : newton_step dyops hpol (zderiv hpol) hball 527 = Val (false, None)) by (vm_compute; reflexivity).
  assert (Eb : bisection_step dyops hpol hball 527 = Val (true, Some hball)) by (vm_compute; reflexivity).
  rewrite En. cbn [bind]. rewrite Eb. cbn [bind]. change (with_emb (hfield i) hball) with (hfield i).
  assert (Ec : comp_prec (hfield i) 32 = Val 527%Z) by (vm_compute; reflexivity).
  rewrite Ec. cbn [bind]. apply IH.
Qed.

Lemma hrefine : forall debug fuel, refine dyops debug fuel (hfield 0) 128 = Fuel.
Proof.
  intros debug fuel. assert (Ec : forall i, comp_prec (hfield i) (Z.max (f_prec (hfield i)) 64) = Val 527%Z) by (intros i; vm_compute; reflexivity).
  unfold refine. destruct debug.
  - unfold set_immutable. change (with_imm (hfield 0) 1) with (hfield 1). change (f_imm (hfield 0) =? 0)%Z with true. cbv iota beta.
    rewrite Ec. cbn [bind]. rewrite hloop. reflexivity.
  - rewrite Ec. cbn [bind]. apply hloop.
Qed.

Lemma hinit : renf_init dyops true 100 hpol 1 hball 64 = Val (hfield 0).
Proof. vm_compute. reflexivity. Qed.

(** * The generator minus 1 + 2^-65 *)
Definition helem : elem := {| e_num := [- (hW + 1); hW]; e_den := hW |}%Z.
Definition hcalls : list call := [KGen 0; KSubQ 0 0 (hW + 1) hW]%Z.
Definition hemb : ball := Eval vm_compute in
  match runs dyops (nfc hpol) true 100 (hfield 0) mem0 hcalls with Val (_, m) => r_emb (m 0%nat) | _ => Top end.

Lemma hruns : exists m, runs dyops (nfc hpol) true 100 (hfield 0) mem0 hcalls = Val (hfield 0, m) /\ m 0%nat = {| r_elem := helem; r_emb := hemb |}.
Proof. eexists. split; vm_compute; reflexivity. Qed.

Lemma hsgn : forall debug fuel, sgn dyops debug fuel (hfield 0) {| r_elem := helem; r_emb := hemb |} = Fuel.
Proof.
  intros debug fuel. unfold sgn. cbn [r_elem r_emb e_num helem].
  change (negb (contains_zero hemb)) with false. cbv iota.
  assert (X : exists b, set_evaluation dyops (hfield 0) helem (start_prec (hfield 0) + elem_cond (hfield 0) helem) = Val b /\ contains_zero b = true)
    by (eexists; split; vm_compute; reflexivity).
  destruct X as (b & Eb & Cb). fold helem. cbv zeta. rewrite Eb. cbn [bind]. destruct fuel as [|fuel]; [reflexivity|]. cbn [sgn_loop]. rewrite Cb. cbn [negb].
  change (2 * start_prec (hfield 0))%Z with 128%Z. rewrite hrefine. reflexivity.
Qed.

Lemma sgn_endless : exists pol a x l nf m, reached pol a x l nf m /\ 0 < ev x (r_elem (m 0%nat)) /\
  forall debug fuel, refine dyops debug fuel nf 128 = Fuel /\ sgn dyops debug fuel nf (m 0%nat) = Fuel.
Proof.
  destruct hroot as (x & Zx & Px & Ix & Ux). destruct hruns as (m & Er & Em).
  exists hpol, hball, x, hcalls, (hfield 0), m. split; [|split].
  - split; [apply hminimal, Zx|]. split; [exact Ix|]. split; [exact Ux|]. exists (hfield 0). split; [exact hinit|exact Er].
  - rewrite Em. cbn [r_elem]. unfold ev, helem. cbn [e_num e_den]. rewrite !zeval_cons, zeval_nil, opp_IZR, plus_IZR. pose proof hW_pos as Wp.
    apply Rmult_lt_0_compat; [lra|apply Rinv_0_lt_compat, Wp].
  - intros debug fuel. rewrite Em. split; [apply hrefine|apply hsgn].
Qed.
