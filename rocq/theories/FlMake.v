(** The ball without a root of C48, with every ball arithmetic that rounds like FLINT. *)
Require Import Reals List ZArith Bool Lia Lra Ascii String.
From Verif Require Import PolyR RootSpec RootModel ExtraModel Dyadic DyadicProofs VcaProofs ArbModel ArbSpec ArbProofs FieldProofs RefineEnds ArbRefute DyRate
  ElemModel StrModel StrSpec StrRefute CxxModel MakeModel MakeSpec MakeText MakeRefute FlSpec FlProofs FlRefute.
Import ListNotations.
Open Scope R_scope.

(** ** Rounding goes to the grid of the precision *)
Lemma dround_grid : forall md p d, (1 <= p)%Z -> fst d <> 0%Z ->
  (exists k, dyv (dround md p d) = IZR k * pw2 (dexp d - p)) /\ Rabs (dyv d - dyv (dround md p d)) < pw2 (dexp d - p).
Proof.
  intros md p [m e] Hp Hm. cbn [fst] in Hm. unfold dround, dexp. cbn [fst snd]. destruct (Z.eqb_spec m 0) as [|_]; [contradiction|].
  destruct (zbits_spec m Hm) as (_ & B3). destruct (Z.leb_spec (zbits m - p) 0) as [Hs|Hs].
  - split.
    + exists (m * 2 ^ (p - zbits m))%Z. unfold dyv. cbn [fst snd]. rewrite mult_IZR, pw2_IZR, Rmult_assoc, <- pw2_add by lia. do 2 f_equal. lia.
    + rewrite Rminus_diag_eq, Rabs_R0 by reflexivity. apply pw2_pos.
  - destruct (zround_spec md m (zbits m - p) Hs) as (_ & R2 & _). set (s := (zbits m - p)%Z) in *. split.
    + exists (zround md m s). unfold dyv. cbn [fst snd]. do 2 f_equal. unfold s. lia.
    + unfold dyv. cbn [fst snd]. rewrite pw2_add. replace (zbits m + e - p)%Z with (s + e)%Z by (unfold s; lia). rewrite pw2_add.
      replace (IZR m * pw2 e - IZR (zround md m s) * (pw2 e * pw2 s)) with ((IZR m - IZR (zround md m s) * pw2 s) * pw2 e) by ring.
      pose proof (pw2_pos e). rewrite Rabs_mult, (Rabs_pos_eq (pw2 e)) by lra. apply Rmult_lt_compat_r; lra.
Qed.

Lemma dexp_one : forall d, 1 <= dyv d < 2 -> fst d <> 0%Z /\ dexp d = 1%Z.
Proof.
  intros d H. assert (N : fst d <> 0%Z) by (intros E; apply dyv_eq0 in E; lra). split; [exact N|].
  destruct (dexp_spec d N) as [A B]. rewrite Rabs_pos_eq in A, B by lra. pose proof pw2_1 as P1. change (pw2 1 = 2) in P1.
  destruct (Z_lt_le_dec (dexp d) 1) as [K|K]; [pose proof (pw2_le (dexp d) 0 ltac:(lia)) as Q; change (pw2 0) with 1 in Q; lra|].
  destruct (Z_lt_le_dec 1 (dexp d)) as [K'|K']; [pose proof (pw2_le 1 (dexp d - 1) ltac:(lia)); lra|lia].
Qed.

Definition npol : list Z := [-112500000000000000003; 0; 50000000000000000000]%Z.
Definition lend : dy := (13835058055282163711, -63)%Z.
Definition rend : dy := (13835058055282163713, -63)%Z.

Lemma unit63 : pw2 (-63) = / 9223372036854775808.
Proof. change (-63)%Z with (- (63))%Z. rewrite pw2_neg_IZR by lia. reflexivity. Qed.

Section Near.
Variables (m r : dy).
Hypothesis Hm : dyv m = 3 / 2.
Hypothesis Hr : 1 / 100000000000000000000 <= dyv r <= 101 / 10000000000000000000000.

Lemma left_end : dyv (dround RFloor 64 (dsub m r)) = dyv lend.
Proof.
  assert (V : dyv (dsub m r) = 3 / 2 - dyv r) by (rewrite dyv_sub, Hm; reflexivity).
  destruct (dexp_one (dsub m r) ltac:(lra)) as [N E]. destruct (dround_grid RFloor 64 _ ltac:(lia) N) as [(k & K) D]. rewrite E in K, D.
  pose proof (dround_floor_le 64 (dsub m r) ltac:(lia)) as L. change (1 - 64)%Z with (-63)%Z in *. rewrite unit63, V in *.
  apply Rabs_def2 in D. rewrite K in *. unfold lend, dyv. cbn [fst snd]. rewrite unit63. do 2 f_equal.
  assert (k < 13835058055282163712)%Z by (apply lt_IZR; lra). assert (13835058055282163710 < k)%Z by (apply lt_IZR; lra). lia.
Qed.

Lemma right_end : dyv (dround RCeil 64 (dadd m r)) = dyv rend.
Proof.
  assert (V : dyv (dadd m r) = 3 / 2 + dyv r) by (rewrite dyv_add, Hm; reflexivity).
  destruct (dexp_one (dadd m r) ltac:(lra)) as [N E]. destruct (dround_grid RCeil 64 _ ltac:(lia) N) as [(k & K) D]. rewrite E in K, D.
  pose proof (dround_ceil_ge 64 (dadd m r) ltac:(lia)) as L. change (1 - 64)%Z with (-63)%Z in *. rewrite unit63, V in *.
  apply Rabs_def2 in D. rewrite K in *. unfold rend, dyv. cbn [fst snd]. rewrite unit63. do 2 f_equal.
  assert (13835058055282163712 < k)%Z by (apply lt_IZR; lra). assert (k < 13835058055282163714)%Z by (apply lt_IZR; lra). lia.
Qed.

Lemma near_accuracy : rel_accuracy (Fin m r) = 66%Z.
Proof.
  unfold rel_accuracy, rel_error. destruct (Z.eqb_spec (fst r) 0) as [E|Nr]; [apply dyv_eq0 in E; lra|].
  destruct (dexp_one m ltac:(lra)) as [Nm E]. destruct (Z.eqb_spec (fst m) 0) as [|_]; [contradiction|]. rewrite E.
  destruct (dexp_spec r Nr) as [A B]. rewrite Rabs_pos_eq in A, B by lra.
  assert (P6 : pw2 (-66) = / 73786976294838206464) by (change (-66)%Z with (- (66))%Z; rewrite pw2_neg_IZR by lia; reflexivity).
  assert (P7 : pw2 (-67) = / 147573952589676412928) by (change (-67)%Z with (- (67))%Z; rewrite pw2_neg_IZR by lia; reflexivity).
  assert (dexp r = -66)%Z; [|lia].
  destruct (Z_lt_le_dec (dexp r) (-66)) as [K|K]; [pose proof (pw2_le (dexp r) (-67) ltac:(lia)); lra|].
  destruct (Z_lt_le_dec (-66) (dexp r)) as [K'|K']; [pose proof (pw2_le (-66) (dexp r - 1) ltac:(lia)); lra|lia].
Qed.

Variable o : arbops.
Hypothesis Hf : arb_fl o.

Lemma end_sign : forall d e s, dyv d = dyv e -> contains_zero (h_eval npol (bexact e) 128) = false -> msgn (h_eval npol (bexact e) 128) = s ->
  sgn2 (eval_arb o npol (bexact d) 128) = s.
Proof.
  intros d e s V C M. assert (B : below (bexact d) (bexact e)).
  { unfold bexact, below. split; [exact V|]. unfold dz, dyv. cbn [fst snd]. lra. }
  destruct (below_sign _ _ (eval_below o Hf npol _ _ 128 ltac:(lia) B) C) as [C' M']. unfold sgn2. rewrite C', M'. exact M.
Qed.

Lemma near_unique : forall fuel, check_unique o fuel npol (Fin m r) 64 = Val true.
Proof.
  intros fuel. unfold check_unique. cbn [npol]. fold npol. change (64 <? 2)%Z with false. cbn [interval]. cbv iota zeta. change (2 * 64)%Z with 128%Z.
  rewrite (end_sign _ _ (-1) left_end ltac:(vm_compute; reflexivity) ltac:(vm_compute; reflexivity)).
  rewrite (end_sign _ _ 1 right_end ltac:(vm_compute; reflexivity) ltac:(vm_compute; reflexivity)).
  change (-1 * 1 =? -1)%Z with true. cbv iota.
  assert (B : below (Fin m r) (Fin (3, -1) (1, -60))%Z).
  { unfold below. assert (E1 : dyv (3, -1)%Z = 3 / 2) by (unfold dyv; cbn [fst snd]; rewrite pw2_m1; lra).
    assert (E2 : dyv (1, -60)%Z = / 1152921504606846976) by (unfold dyv; cbn [fst snd]; change (-60)%Z with (- (60))%Z; rewrite pw2_neg_IZR by lia; change (2 ^ 60)%Z with 1152921504606846976%Z; ring).
    rewrite E1, E2. lra. }
  destruct (below_sign _ _ (eval_below o Hf (zderiv npol) _ _ 64 ltac:(lia) B) ltac:(vm_compute; reflexivity)) as [-> _]. reflexivity.
Qed.

Definition nfield : renf := {| f_pol := npol; f_den := 1; f_emb := Fin m r; f_prec := 64; f_imm := 0 |}.
Lemma near_made : forall debug fuel, renf_init o debug (S fuel) npol 1 (Fin m r) 64 = Val nfield.
Proof.
  intros debug fuel. eapply init_sharp.
  - apply near_unique.
  - reflexivity.
  - rewrite near_accuracy. lia.
  - intros i. unfold comp_prec. cbn [f_emb f_pol]. rewrite near_accuracy. change (WORD_MAX <? 2 * Z.abs 66)%Z with false. cbv iota. reflexivity.
Qed.
End Near.

Lemma near_free : forall y, 1 <= y <= 15 / 10 + 101 / 10000000000000000000000 -> zeval npol y <> 0.
Proof.
  intros y Hy. unfold zeval, npol. cbn [map peval].
  assert (y * y <= (15 / 10 + 101 / 10000000000000000000000) * (15 / 10 + 101 / 10000000000000000000000)) by (apply Rmult_le_compat; lra).
  lra.
Qed.

Lemma rootless_every : exists p q, ball_text near_emb = Some q /\ (forall y, in_text y q -> zeval (e_num p) y <> 0) /\
  forall zd, set_str zd (lit "x") near_pol = Val (Some p) /\
  forall o, arb_fl o -> forall read m r, read near_emb 64%Z = Some (Fin m r) -> dyv m = 3 / 2 ->
    1 / 100000000000000000000 <= dyv r <= 101 / 10000000000000000000000 ->
  forall debug fuel n, exists nf, make_str o debug zd read (S fuel) (S n) near_pol (lit "x") near_emb 64 = Val (Ret nf, O) /\ f_pol nf = e_num p /\
    forall y, inb y (f_emb nf) -> zeval (f_pol nf) y <> 0.
Proof.
  exists {| e_num := npol; e_den := 1 |}%Z, (15, -1, (1, -20))%Z. split; [vm_compute; reflexivity|]. cbn [e_num]. split.
  - intros y Hy. apply near_free. unfold in_text in Hy. cbn [fst snd] in Hy.
    destruct (frac10_ok (15, -1)%Z) as [_ E1]. destruct (frac10_ok (1, -20)%Z) as [_ E2].
    replace (frac10 (15, -1)%Z) with (15, 10)%Z in E1 by (vm_compute; reflexivity).
    replace (frac10 (1, -20)%Z) with (1, 100000000000000000000)%Z in E2 by (vm_compute; reflexivity).
    rewrite <- E1, <- E2 in Hy. cbn [fst snd] in Hy.
    unfold Rabs in Hy. destruct (Rcase_abs _) in Hy; lra.
  - intros zd. assert (P : set_str zd (lit "x") near_pol = Val (Some {| e_num := npol; e_den := 1 |}%Z)) by (vm_compute; reflexivity). split; [exact P|].
    intros o Hf read m r E Em Er debug fuel n. exists (nfield m r). split; [|split; [reflexivity|]].
    + unfold make_str. cbn [make_loop]. rewrite P. cbn [bind]. unfold fixed. rewrite Z.eqb_refl. change (64 <? 2)%Z with false. cbv iota. rewrite E. cbn [e_num e_den].
      rewrite (near_unique m r Em Er o Hf). cbn [bind]. rewrite (near_made m r Em Er o Hf). reflexivity.
    + cbn [nfield f_emb f_pol]. intros y Hy. apply near_free. apply inb_bounds in Hy. lra.
Qed.
