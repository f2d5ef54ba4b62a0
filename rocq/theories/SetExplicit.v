(** How sharp the field must be for renf_elem_set_nf_elem, with arithmetic that rounds
    like FLINT. *)
Require Import Reals List ZArith Bool Lia Lra Psatz.
From Verif Require Import PolyR RootSpec RootModel ExtraModel Dyadic DyadicProofs VcaProofs ArbModel ArbSpec ArbProofs FieldProofs
  DyRate ElemModel ElemSpec ElemProofs EndsProofs RefineEnds FlSpec FlProofs FineSpec MarginEval.
Import ListNotations.
Open Scope R_scope.

Lemma accuracy_small : forall m r v acc, (0 <= acc)%Z -> (acc <= WORD_MAX)%Z -> v <> 0 -> 0 <= dyv r -> Rabs (v - dyv m) <= dyv r ->
  4 * pw2 acc * dyv r <= Rabs v -> (acc <= rel_accuracy (Fin m r))%Z.
Proof.
  intros m r v acc H0 Hw Hv Hr Hm H. unfold rel_accuracy, rel_error. destruct (Z.eqb_spec (fst r) 0) as [|Nr]; [lia|].
  assert (P : 0 < dyv r) by (destruct Hr as [Hr|Hr]; [exact Hr|exfalso; apply Nr, dyv_eq0; symmetry; exact Hr]).
  assert (A : 1 <= pw2 acc) by (rewrite <- pw2_0; apply pw2_le; lia).
  assert (M : 2 * pw2 acc * dyv r <= Rabs (dyv m)).
  { assert (Rabs v <= Rabs (dyv m) + dyv r).
    { replace v with (dyv m + (v - dyv m)) at 1 by ring. eapply Rle_trans; [apply Rabs_triang|]. lra. }
    assert (1 * dyv r <= pw2 acc * dyv r) by (apply Rmult_le_compat_r; lra). lra. }
  assert (Q : 0 < pw2 acc * dyv r) by (apply Rmult_lt_0_compat; lra).
  destruct (Z.eqb_spec (fst m) 0) as [E|Nm]; [apply dyv_eq0 in E; rewrite E, Rabs_R0 in M; lra|].
  destruct (dexp_spec r Nr) as [R1 _]. rewrite Rabs_pos_eq in R1 by lra. destruct (dexp_spec m Nm) as [_ M1].
  destruct (Z_le_gt_dec (acc + dexp r + 1) (dexp m)) as [L|L]; [lia|exfalso].
  pose proof (pw2_le (dexp m) (1 + (acc + (dexp r - 1))) ltac:(lia)) as W. rewrite !pw2_add, pw2_1 in W.
  assert (pw2 acc * pw2 (dexp r - 1) <= pw2 acc * dyv r) by (apply Rmult_le_compat_l; lra). lra.
Qed.

Section SetNf.
Variable o : arbops.
Hypothesis Hf : arb_fl o.

(** The case of degree two. *)
Lemma line_fine : forall p m r X q, (1 <= length p <= 2)%nat -> (2 <= q)%Z -> 0 <= dyv r -> Rabs (dyv m) + dyv r <= X ->
  exists n s, o_add_z o (o_mul_z o (Fin m r) (nth 1 p 0%Z) q) (nth 0 p 0%Z) q = Fin n s /\ Rabs (dyv n) <= abs_sum p X /\ 0 <= dyv s /\
    dyv s <= slack ^ (2 * length p) * (abs_sum (zderiv p) X * dyv r + 2 * INR (length p) * abs_sum p X * pw2 (1 - q)).
Proof.
  intros p m r X q Hl Hq Hr HX. pose proof (Rabs_pos (dyv m)) as M0.
  destruct (made_bound _ _ _ _ Hq (fl_mul_z o Hf m r (nth 1 p 0%Z) q Hq Hr)) as (m1 & r1 & -> & A1 & B1 & C1).
  destruct (made_bound _ _ _ _ Hq (fl_add_z o Hf m1 r1 (nth 0 p 0%Z) q Hq B1)) as (n & s & -> & A2 & B2 & C2).
  exists n, s. split; [reflexivity|]. rewrite dyv_add, dyv_dz in A2, C2. rewrite dyv_mul, dyv_dz, Rabs_mult in A1, C1.
  set (c1 := Rabs (IZR (nth 1 p 0%Z))) in *. set (c0 := Rabs (IZR (nth 0 p 0%Z))) in *. set (t := pw2 (1 - q)) in *.
  assert (T : 0 < t) by apply pw2_pos. assert (K1 : 0 <= c1) by apply Rabs_pos. assert (K0 : 0 <= c0) by apply Rabs_pos.
  assert (Mx : Rabs (dyv m) * c1 <= X * c1) by (apply Rmult_le_compat_r; lra).
  assert (N : Rabs (dyv m1 + IZR (nth 0 p 0%Z)) <= c0 + X * c1) by (eapply Rle_trans; [apply Rabs_triang|]; fold c0; lra).
  assert (S : abs_sum p X = c0 + X * c1 /\ abs_sum (zderiv p) X = c1 /\ (length p = 1%nat -> c1 = 0)).
  { unfold c0, c1. destruct p as [|a [|b [|]]]; cbn [length] in Hl; try lia; cbn [nth zderiv zderiv_go tl length].
    - rewrite !abs_sum_cons. unfold abs_sum. cbn [map]. rewrite zeval_nil, Rabs_R0. repeat split; intros; lra.
    - rewrite !abs_sum_cons. unfold abs_sum. cbn [map]. rewrite zeval_nil, (Rabs_pos_eq X) by lra. rewrite Z.mul_1_l. repeat split; intros; try discriminate; lra. }
  destruct S as (-> & -> & S1). split; [lra|]. split; [exact B2|].
  assert (N' : Rabs (dyv m1 + IZR (nth 0 p 0%Z)) * t <= (c0 + X * c1) * t) by (apply Rmult_le_compat_r; lra).
  assert (M' : Rabs (dyv m) * c1 * t <= X * c1 * t) by (apply Rmult_le_compat_r; lra).
  assert (P1 : 0 <= c1 * dyv r) by (apply Rmult_le_pos; lra). assert (P2 : 0 <= X * c1 * t) by (repeat apply Rmult_le_pos; lra). assert (P3 : 0 <= c0 * t) by (apply Rmult_le_pos; lra).
  assert (U : dyv s <= slack ^ 2 * (c1 * dyv r + 2 * (c0 + X * c1) * t)) by (unfold slack in *; cbn [pow]; lra).
  assert (Q : 0 <= c1 * dyv r + 2 * (c0 + X * c1) * t) by lra.
  destruct (Nat.eq_dec (length p) 1) as [E|E].
  - rewrite E. cbn [Nat.mul Nat.add INR]. replace (2 * 1 * (c0 + X * c1) * t) with (2 * (c0 + X * c1) * t) by ring. exact U.
  - assert (E2 : length p = 2%nat) by lia. rewrite E2. change (2 * 2)%nat with (2 + 2)%nat. rewrite pow_add, Rmult_assoc. pose proof (slack_pow1 2) as G.
    replace (INR 2) with 2 by (simpl; lra). set (g := slack ^ 2) in *.
    assert (g * (c1 * dyv r + 2 * (c0 + X * c1) * t) <= g * (g * (c1 * dyv r + 2 * 2 * (c0 + X * c1) * t))); [|lra].
    apply Rmult_le_compat_l; [lra|]. set (w := c1 * dyv r + 2 * 2 * (c0 + X * c1) * t). assert (c1 * dyv r + 2 * (c0 + X * c1) * t <= w) by (unfold w; lra).
    assert (1 * w <= g * w) by (apply Rmult_le_compat_r; lra). lra.
Qed.

Hypothesis Ho : arb_ok o.

Lemma set_eval_fine : forall nf e m r X prec, (3 <= length (f_pol nf))%nat -> canon (f_pol nf) e -> e_num e <> [] -> f_emb nf = Fin m r -> 0 <= dyv r -> Rabs (dyv m) + dyv r <= X ->
  (2 <= prec)%Z -> exists n s, set_evaluation o nf e prec = Val (Fin n s) /\ 0 <= dyv s /\
    dyv s * IZR (e_den e) <= 2 * (growth (e_num e) * (abs_sum (zderiv (e_num e)) X * dyv r + 2 * INR (length (e_num e)) * abs_sum (e_num e) X * pw2 (1 - prec)) +
      4 * abs_sum (e_num e) X * pw2 (1 - prec)).
Proof.
  intros nf e m r X prec Hdeg He Hn Hemb Hr HX Hp. unfold set_evaluation. destruct (Z.ltb_spec prec 2) as [|_]; [lia|].
  assert (Li : linear (f_pol nf) = false) by (unfold linear; apply Nat.leb_gt; lia). rewrite Li, Hemb.
  pose proof (can_den _ _ He) as Dp. assert (D : 0 < IZR (e_den e)) by (apply IZR_lt; exact Dp).
  assert (N : exists n s, (if quadratic (f_pol nf) then o_add_z o (o_mul_z o (Fin m r) (nth 1 (e_num e) 0%Z) prec) (nth 0 (e_num e) 0%Z) prec else eval_arb o (e_num e) (Fin m r) prec) = Fin n s /\
    Rabs (dyv n) <= abs_sum (e_num e) X /\ 0 <= dyv s /\
    dyv s <= growth (e_num e) * (abs_sum (zderiv (e_num e)) X * dyv r + 2 * INR (length (e_num e)) * abs_sum (e_num e) X * pw2 (1 - prec))).
  { destruct (quadratic (f_pol nf)) eqn:Q.
    - apply line_fine; try assumption. pose proof (can_len _ _ He) as L. unfold quadratic in Q. apply Nat.eqb_eq in Q.
      destruct (e_num e); [contradiction|]. cbn [length] in *. lia.
    - apply eval_fine; assumption. }
  destruct N as (n & s & E & A & B & C).
  destruct (fl_div_z o Hf n s (e_den e) prec Hp B Dp) as (n' & s' & E' & _ & F0 & F1). exists n', s'. split; [|split; [exact F0|]].
  - destruct (quadratic (f_pol nf)); [rewrite E, E'; reflexivity|]. unfold eval_arb_q. rewrite E, E'. reflexivity.
  - unfold Rdiv in F1. rewrite Rabs_mult, (Rabs_pos_eq (/ IZR (e_den e))) in F1 by (left; apply Rinv_0_lt_compat; exact D).
    replace (3 - prec)%Z with (2 + (1 - prec))%Z in F1 by lia. rewrite pw2_add in F1. replace (pw2 2) with 4 in F1 by (unfold pw2; simpl; lra). set (t := pw2 (1 - prec)) in *. assert (T : 0 < t) by apply pw2_pos.
    assert (G : dyv s' * IZR (e_den e) <= 2 * (dyv s + Rabs (dyv n) * (4 * t))).
    { replace (2 * (dyv s + Rabs (dyv n) * (4 * t))) with (2 * (dyv s * / IZR (e_den e) + Rabs (dyv n) * / IZR (e_den e) * (4 * t)) * IZR (e_den e)) by (field; lra).
      apply Rmult_le_compat_r; lra. }
    assert (Rabs (dyv n) * (4 * t) <= abs_sum (e_num e) X * (4 * t)) by (apply Rmult_le_compat_r; lra). lra.
Qed.

Lemma set_nf_explicit : forall pol x, minimal pol x -> (3 <= length pol)%nat -> forall e, canon pol e -> ev x e <> 0 ->
  forall acc X m r prec, (0 <= acc)%Z -> (acc <= WORD_MAX)%Z -> inb x (Fin m r) -> Rabs x + 2 * dyv r <= X -> (2 <= prec)%Z ->
  16 * pw2 acc * growth (e_num e) * abs_sum (zderiv (e_num e)) X * dyv r <= Rabs (zeval (e_num e) x) ->
  64 * pw2 acc * (growth (e_num e) * INR (length (e_num e)) + 1) * abs_sum (e_num e) X * pw2 (1 - prec) <= Rabs (zeval (e_num e) x) ->
  forall n debug fuel nf el i, f_pol nf = pol -> f_emb nf = Fin m r -> (2 <= f_prec nf)%Z ->
  exists el', run o n debug fuel nf el (KSetNf i e prec) = Val (nf, el') /\ r_elem (el' i) = e /\ inb (ev x e) (r_emb (el' i)) /\ (acc <= rel_accuracy (r_emb (el' i)))%Z.
Proof.
  intros pol x Hm Hdeg e He Hv acc X m r prec H0 Hw Hx HX Hp K1 K2 n debug fuel nf el i G1 G2 G3. subst pol.
  assert (Hr : 0 <= dyv r) by (unfold inb in Hx; pose proof (Rabs_pos (x - dyv m)); lra).
  assert (Nn : e_num e <> []) by (intros E; apply Hv; unfold ev; rewrite E, zeval_nil; unfold Rdiv; ring).
  assert (Mx : Rabs (dyv m) + dyv r <= X).
  { unfold inb in Hx. replace (dyv m) with (x - (x - dyv m)) by ring. assert (Rabs (x - (x - dyv m)) <= Rabs x + Rabs (x - dyv m)); [|lra].
    eapply Rle_trans; [apply Rabs_triang|]. rewrite Rabs_Ropp. lra. }
  destruct (set_eval_fine nf e m r X prec Hdeg He Nn G2 Hr Mx Hp) as (c & s & E & S0 & S1).
  assert (G : good (f_pol nf) x (fun _ => True) nf) by (repeat split; [rewrite G2; exact Hx|exact G3]).
  pose proof (set_eval_ok o (f_pol nf) x (fun _ => True) Ho Hm nf e prec (Fin c s) G He E) as I.
  cbn [run]. replace (r_elem (upd_elem el i e i)) with e by (unfold upd_elem, upd; rewrite Nat.eqb_refl; reflexivity).
  rewrite E. cbn [bind]. eexists. split; [reflexivity|]. unfold upd_emb, upd_elem, upd. rewrite !Nat.eqb_refl. cbn [r_elem r_emb].
  split; [reflexivity|]. split; [exact I|].
  assert (D : 0 < IZR (e_den e)) by (apply IZR_lt; exact (can_den _ _ He)).
  apply (accuracy_small c s (ev x e) acc H0 Hw Hv S0 I).
  unfold ev, Rdiv. rewrite Rabs_mult, (Rabs_pos_eq (/ IZR (e_den e))) by (left; apply Rinv_0_lt_compat; exact D).
  apply Rmult_le_reg_r with (IZR (e_den e)); [exact D|]. rewrite Rmult_assoc with (r2 := / IZR (e_den e)), Rinv_l, Rmult_1_r by lra.
  rewrite (Rmult_assoc (4 * pw2 acc)). pose proof (pw2_pos acc) as A. set (k := pw2 acc) in *. set (t := pw2 (1 - prec)) in *.
  set (A1 := abs_sum (zderiv (e_num e)) X) in *. set (A0 := abs_sum (e_num e) X) in *. set (N := INR (length (e_num e))) in *. set (L := growth (e_num e)) in *.
  assert (T : 0 < t) by apply pw2_pos. assert (P0 : 0 <= A0) by apply abs_sum_nonneg.
  apply Rle_trans with (4 * k * (2 * (L * (A1 * dyv r + 2 * N * A0 * t) + 4 * A0 * t))); [apply Rmult_le_compat_l; lra|].
  replace (4 * k * (2 * (L * (A1 * dyv r + 2 * N * A0 * t) + 4 * A0 * t)))
    with ((16 * k * L * A1 * dyv r) / 2 + (64 * k * (L * N + 1) * A0 * t) / 2 - 16 * (k * (L * N) * (A0 * t))) by (field; lra).
  assert (0 <= k * (L * N) * (A0 * t)); [|lra]. pose proof (slack_pow1 (2 * length (e_num e))) as GL. fold (growth (e_num e)) in GL. fold L in GL.
  pose proof (pos_INR (length (e_num e))). fold N in H. repeat apply Rmult_le_pos; lra.
Qed.
End SetNf.
