(** The balls of DyBall.v subtract, divide and approximate fractions as FLINT does. *)
Require Import Reals List ZArith Bool Lia Lra Psatz.
From Verif Require Import PolyR RootSpec RootModel VcaProofs Dyadic DyadicProofs ArbModel ArbSpec ArbProofs DyBall DyBallProofs DyRate FlSpec FlProofs FineSpec.
Open Scope R_scope.

Lemma dyops_fine : arb_fine dyops.
Proof.
  split; cbn [o_sub o_div o_set_q dyops].
  - intros m r n s p Hp Hr Hs. unfold y_sub, y_add, bneg, lift2. rewrite <- dyv_add.
    destruct (bround_made p (dadd m (dneg n)) (dadd r s) Hp) as (m' & r' & E & A & B & C & F); [rewrite dyv_add; lra|].
    exists m', r'. split; [exact E|].
    assert (V : dyv (dadd m (dneg n)) = dyv (dsub m n)) by (rewrite dyv_add, dyv_sub, dyv_neg; ring).
    rewrite V in C, F. repeat split; assumption.
  - intros m r n s p Hp Hr [Hs Hn]. unfold y_div, lift2. destruct (dleb (dabs n) s) eqn:E; [apply dleb_spec in E; rewrite dyv_abs in E; lra|].
    assert (Nn : fst n <> 0%Z) by (intros Z; apply dyv_eq0 in Z; rewrite Z, Rabs_R0 in Hn; lra).
    cbv zeta. set (num := dadd (dmul r (dabs n)) (dmul (dabs m) s)). set (den := dmul (dsub (dabs n) s) (dabs n)).
    assert (Vden : dyv den = (Rabs (dyv n) - dyv s) * Rabs (dyv n)) by (unfold den; rewrite dyv_mul, dyv_sub, !dyv_abs; reflexivity).
    assert (Vnum : dyv num = dyv r * Rabs (dyv n) + Rabs (dyv m) * dyv s) by (unfold num; rewrite dyv_add, !dyv_mul, !dyv_abs; reflexivity).
    rewrite <- Vnum, <- Vden. assert (Dpos : 0 < dyv den) by (rewrite Vden; apply Rmult_lt_0_compat; lra).
    assert (Hden : fst den <> 0%Z) by (intros Z; apply dyv_eq0 in Z; lra).
    pose proof (ddiv_err_spec p m n Nn) as [Q1 Q2]. pose proof (ddiv_err_spec 30 num den Hden) as [U1 U2].
    pose proof (ddiv_err_small p m n Nn) as Q3. pose proof (ddiv_err_small 30 num den Hden) as U3.
    assert (N0 : 0 <= dyv num) by (rewrite Vnum; apply Rplus_le_le_0_compat; apply Rmult_le_pos; try lra; apply Rabs_pos).
    assert (N1 : 0 <= dyv num / dyv den) by (apply Rmult_le_pos; [lra|left; apply Rinv_0_lt_compat; lra]).
    rewrite (Rabs_pos_eq _ N1) in U3.
    assert (S : pw2 (1 - 30) <= 1 / 8) by (rewrite <- pw2_m3; apply pw2_le; lia). pose proof (pw2_pos (1 - 30)) as S'.
    assert (U4 : dyv (ddiv_err 30 num den) <= dyv num / dyv den * (1 / 8)) by (eapply Rle_trans; [exact U3|]; apply Rmult_le_compat_l; lra).
    assert (Vb : 0 <= dyv (dadd (dadd (ddiv 30 num den) (ddiv_err 30 num den)) (ddiv_err p m n))) by (rewrite !dyv_add; lra).
    destruct (bround_made p (ddiv p m n) _ Hp Vb) as (m' & r' & E' & A & B & C & _). exists m', r'. split; [exact E'|]. split; [exact B|].
    replace (3 - p)%Z with (2 + (1 - p))%Z by lia. rewrite pw2_add. replace (pw2 2) with 4 by (unfold pw2; cbn [powerRZ]; change (Pos.to_nat 2) with 2%nat; cbn [pow]; lra).
    rewrite !dyv_add in C. set (t := pw2 (1 - p)) in *. assert (T : 0 < t <= 1 / 2) by (unfold t; split; [apply pw2_pos|rewrite <- pw2_m1; apply pw2_le; lia]).
    set (q := Rabs (dyv m / dyv n)) in *. assert (Pq : 0 <= q) by apply Rabs_pos.
    assert (Dq : Rabs (dyv (ddiv p m n)) <= q + q * t).
    { replace (dyv (ddiv p m n)) with (dyv m / dyv n - (dyv m / dyv n - dyv (ddiv p m n))) by ring.
      eapply Rle_trans; [apply Rabs_triang|]. rewrite Rabs_Ropp, (Rabs_pos_eq (dyv m / dyv n - dyv (ddiv p m n))) by lra. fold q. lra. }
    assert (Qt : 0 <= q * t) by (apply Rmult_le_pos; lra). assert (Qtt : q * t * t <= q * t * (1 / 2)) by (apply Rmult_le_compat_l; lra).
    assert (Rabs (dyv (ddiv p m n)) * t <= (q + q * t) * t) by (apply Rmult_le_compat_r; lra).
    unfold slack in C. lra.
  - intros n d p Hp Hd. unfold y_div, bint, bexact, lift2. assert (Pd : 0 < IZR d) by (apply IZR_lt; exact Hd).
    assert (Z0 : dyv (dz 0) = 0) by (rewrite dyv_dz; reflexivity).
    destruct (dleb (dabs (dz d)) (dz 0)) eqn:E; [apply dleb_spec in E; rewrite dyv_abs, dyv_dz, Rabs_pos_eq in E by lra; lra|].
    assert (Nn : fst (dz d) <> 0%Z) by (cbn; lia).
    cbv zeta. set (num := dadd (dmul (dz 0) (dabs (dz d))) (dmul (dabs (dz n)) (dz 0))). set (den := dmul (dsub (dabs (dz d)) (dz 0)) (dabs (dz d))).
    assert (Vden : dyv den = IZR d * IZR d) by (unfold den; rewrite dyv_mul, dyv_sub, !dyv_abs, Z0, dyv_dz, Rabs_pos_eq by lra; ring).
    assert (Vnum : dyv num = 0) by (unfold num; rewrite dyv_add, !dyv_mul, Z0; ring).
    assert (Dpos : 0 < dyv den) by (rewrite Vden; apply Rmult_lt_0_compat; lra).
    assert (Hden : fst den <> 0%Z) by (intros Z; apply dyv_eq0 in Z; lra).
    pose proof (ddiv_err_spec p (dz n) (dz d) Nn) as [Q1 Q2]. pose proof (ddiv_err_spec 30 num den Hden) as [U1 U2].
    pose proof (ddiv_err_small p (dz n) (dz d) Nn) as Q3. pose proof (ddiv_err_small 30 num den Hden) as U3.
    rewrite Vnum in U1, U2, U3. replace (0 / dyv den) with 0 in U1, U2, U3 by (unfold Rdiv; ring). rewrite Rabs_R0, Rmult_0_l in U3.
    rewrite !dyv_dz in Q1, Q2, Q3.
    assert (Vb : 0 <= dyv (dadd (dadd (ddiv 30 num den) (ddiv_err 30 num den)) (ddiv_err p (dz n) (dz d)))) by (rewrite !dyv_add; lra).
    destruct (bround_made p (ddiv p (dz n) (dz d)) _ Hp Vb) as (m' & r' & E' & A & B & C & _). exists m', r'. split; [exact E'|].
    replace (3 - p)%Z with (2 + (1 - p))%Z by lia. rewrite pw2_add. replace (pw2 2) with 4 by (unfold pw2; cbn [powerRZ]; change (Pos.to_nat 2) with 2%nat; cbn [pow]; lra).
    pose proof (proj1 (proj2 (dround_spec RDown p (ddiv p (dz n) (dz d)) ltac:(lia)))) as G. rewrite <- A in G.
    rewrite !dyv_add in C. set (t := pw2 (1 - p)) in *. assert (T : 0 < t <= 1 / 2) by (unfold t; split; [apply pw2_pos|rewrite <- pw2_m1; apply pw2_le; lia]).
    set (q := Rabs (IZR n / IZR d)) in *. assert (Pq : 0 <= q) by apply Rabs_pos.
    assert (D0 : Rabs (IZR n / IZR d - dyv (ddiv p (dz n) (dz d))) <= q * t) by (rewrite Rabs_pos_eq; lra).
    assert (Dq : Rabs (dyv (ddiv p (dz n) (dz d))) <= q + q * t).
    { replace (dyv (ddiv p (dz n) (dz d))) with (IZR n / IZR d - (IZR n / IZR d - dyv (ddiv p (dz n) (dz d)))) by ring.
      eapply Rle_trans; [apply Rabs_triang|]. rewrite Rabs_Ropp. fold q. lra. }
    assert (Qt : 0 <= q * t) by (apply Rmult_le_pos; lra). assert (Qtt : q * t * t <= q * t * (1 / 2)) by (apply Rmult_le_compat_l; lra).
    assert (Rabs (dyv (ddiv p (dz n) (dz d))) * t <= (q + q * t) * t) by (apply Rmult_le_compat_r; lra).
    split.
    + replace (dyv m' - IZR n / IZR d) with (- (dyv (ddiv p (dz n) (dz d)) - dyv m') - (IZR n / IZR d - dyv (ddiv p (dz n) (dz d)))) by ring.
      eapply Rle_trans; [apply Rabs_triang|]. rewrite !Rabs_Ropp. lra.
    + split; [exact B|]. unfold slack in C. lra.
Qed.
