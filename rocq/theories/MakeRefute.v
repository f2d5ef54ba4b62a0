(** Making fields from strings: what goes wrong (C48, C51). *)
Require Import Reals List ZArith Bool Lia Lra Ascii String.
From Verif Require Import PolyR RootSpec RootModel VcaProofs Dyadic DyadicProofs ArbModel ArbSpec ArbProofs FieldProofs RefineProofs
  DyBall DyBallProofs ElemModel ElemSpec ElemRefute StrModel StrSpec StrProofs StrMore StrRefute CxxModel MakeModel MakeSpec MakeText MakeProofs.
Import ListNotations.
Open Scope R_scope.

Lemma pw2_neg : forall k, (0 <= k)%Z -> pw2 (- k) = / IZR (2 ^ k).
Proof.
  intros k H. rewrite pw2_IZR by exact H. pose proof (pw2_pos k). apply (Rmult_eq_reg_r (pw2 k)); [|lra].
  rewrite <- pw2_add, Rinv_l by lra. replace (- k + k)%Z with 0%Z by lia. apply pw2_0.
Qed.

(** A ball without a root: the endpoints are rounded outwards to the precision
    before the signs are compared. *)
Definition near_pol : str := lit "50000000000000000000*x^2 - 112500000000000000003".
Definition near_emb : str := lit "1.5 +/- 0.00000000000000000001".
Lemma make_rootless : forall zd, exists p q nf,
  set_str zd (lit "x") near_pol = Val (Some p) /\ ball_text near_emb = Some q /\
  make_str dyops true zd dec_read 50 2 near_pol (lit "x") near_emb 64 = Val (Ret nf, O) /\ f_pol nf = e_num p /\
  (forall y, in_text y q -> zeval (e_num p) y <> 0) /\ (forall y, inb y (f_emb nf) -> zeval (f_pol nf) y <> 0).
Proof.
  intros zd.
  exists {| e_num := [-112500000000000000003; 0; 50000000000000000000]; e_den := 1 |}%Z, (15, -1, (1, -20))%Z,
    {| f_pol := [-112500000000000000003; 0; 50000000000000000000]; f_den := 1;
       f_emb := Fin (13835058055282163712, -63) (792281626, -96); f_prec := 64; f_imm := 0 |}%Z.
  split; [vm_compute; reflexivity|]. split; [vm_compute; reflexivity|]. split; [vm_compute; reflexivity|]. split; [reflexivity|].
  cbn [e_num f_pol f_emb].
  assert (K : forall y, 1 <= y <= 15 / 10 + 101 / 10000000000000000000000 ->
    zeval [-112500000000000000003; 0; 50000000000000000000]%Z y <> 0).
  { intros y Hy. unfold zeval. cbn [map peval].
    assert (y * y <= (15 / 10 + 101 / 10000000000000000000000) * (15 / 10 + 101 / 10000000000000000000000)) by (apply Rmult_le_compat; lra).
    lra. }
  split; intros y Hy; apply K.
  - unfold in_text in Hy. cbn [fst snd] in Hy.
    destruct (frac10_ok (15, -1)%Z) as [_ E1]. destruct (frac10_ok (1, -20)%Z) as [_ E2].
    replace (frac10 (15, -1)%Z) with (15, 10)%Z in E1 by (vm_compute; reflexivity).
    replace (frac10 (1, -20)%Z) with (1, 100000000000000000000)%Z in E2 by (vm_compute; reflexivity).
    rewrite <- E1, <- E2 in Hy. cbn [fst snd] in Hy.
    unfold Rabs in Hy. destruct (Rcase_abs _) in Hy; lra.
  - unfold inb, dyv in Hy. cbn [fst snd] in Hy.
    change (-63)%Z with (- (63))%Z in Hy. change (-96)%Z with (- (96))%Z in Hy. rewrite !pw2_neg in Hy by lia.
    change (2 ^ 63)%Z with 9223372036854775808%Z in Hy. change (2 ^ 96)%Z with 79228162514264337593543950336%Z in Hy.
    unfold Rabs in Hy. destruct (Rcase_abs _) in Hy; lra.
Qed.

(** ** No real root *)
Lemma no_root_check : forall o, arb_ok o -> forall fuel b prec, (2 <= prec)%Z -> check_unique o fuel [1; 0; 1]%Z b prec = Val false.
Proof.
  intros o Ho fuel b prec Hp. unfold check_unique. destruct (Z.ltb_spec prec 2); [lia|].
  destruct (interval b prec) as [[l r]|]; [|reflexivity].
  assert (V : forall d, sgn2 (eval_arb o [1; 0; 1]%Z (bexact d) (2 * prec)) <> (-1)%Z).
  { intros d E. pose proof (eval_arb_ok o Ho [1; 0; 1]%Z (bexact d) (dyv d) (2 * prec) ltac:(lia) ltac:(apply inb_exact; reflexivity)) as I1.
    destruct (sgn2_spec _ _ I1) as [_ L]. specialize (L E). unfold zeval in L. cbn [map peval] in L.
    pose proof (Rle_0_sqr (dyv d)) as Q. unfold Rsqr in Q. lra. }
  pose proof (V l) as V1. pose proof (V r) as V2.
  destruct (sgn2_range (eval_arb o [1; 0; 1]%Z (bexact l) (2 * prec))) as [e1|[e1|e1]]; rewrite e1 in *; try congruence;
  destruct (sgn2_range (eval_arb o [1; 0; 1]%Z (bexact r) (2 * prec))) as [e2|[e2|e2]]; rewrite e2 in *; try congruence; reflexivity.
Qed.

Definition no_root : str := lit "x^2 + 1".
Lemma no_root_read : forall zd, set_str zd (lit "x") no_root = Val (Some {| e_num := [1; 0; 1]; e_den := 1 |}%Z).
Proof. intros. vm_compute. reflexivity. Qed.

Lemma make_callback_loop : forall o, arb_ok o -> forall debug zd read fuel cb,
  (forall p, (2 <= p)%Z -> exists b, read (cb p) p = Some b) ->
  forall k n prec, (2 <= prec)%Z -> (k <= n)%nat -> (1 <= k)%nat -> (WORD_MAX < prec * 2 ^ Z.of_nat k)%Z ->
  make_loop o debug zd read fuel n no_root (lit "x") (fun p => Ret (cb p)) prec = Undef.
Proof.
  intros o Ho debug zd read fuel cb Hr. induction k as [|k IH]; intros n prec Hp Hn Hk Hw; [lia|].
  destruct n as [|n]; [lia|]. cbn [make_loop]. rewrite no_root_read. cbn [bind].
  destruct (Z.ltb_spec prec 2); [reflexivity|]. destruct (Hr prec Hp) as [b ->]. cbn [e_num].
  rewrite no_root_check by assumption. cbn [bind]. destruct (Z.ltb_spec WORD_MAX (2 * prec)) as [|Hle]; [reflexivity|].
  destruct (Nat.eq_dec k 0) as [->|Hk0]; [change (Z.of_nat 1) with 1%Z in Hw; rewrite Z.pow_1_r in Hw; lia|].
  apply IH; try lia. rewrite Nat2Z.inj_succ, Z.pow_succ_r in Hw by lia. lia.
Qed.

(** A callback that goes on answering: the precision overflows. *)
Lemma make_callback_overflow : forall o, arb_ok o -> forall debug zd read fuel cb,
  (forall p, (2 <= p)%Z -> exists b, read (cb p) p = Some b) ->
  forall n, (57 <= n)%nat -> make_loop o debug zd read fuel n no_root (lit "x") (fun p => Ret (cb p)) 64 = Undef.
Proof.
  intros o Ho debug zd read fuel cb Hr n Hn. apply (make_callback_loop o Ho debug zd read fuel cb Hr 57 n 64); try lia.
  vm_compute. reflexivity.
Qed.

(** ** Temporaries *)
Lemma make_leaks : forall o, arb_ok o -> forall debug zd read fuel, read_ok read ->
  make_str o debug zd read fuel 2 no_root (lit "x") (lit "0 +/- 1") 64 = Val (Throw, 2%nat).
Proof.
  intros o Ho debug zd read fuel Hr. rewrite make_cases by lia. rewrite no_root_read. cbn [bind e_num].
  destruct (Hr (lit "0 +/- 1") (0, 0, (1, 0))%Z 64%Z ltac:(lia) eq_refl) as (b & -> & _).
  change (64 <? 2)%Z with false. cbv iota. rewrite no_root_check by (assumption || lia). reflexivity.
Qed.

Lemma make_clears : forall o debug zd read fuel n minpoly gen emb prec r k,
  make_str o debug zd read fuel n minpoly gen emb prec = Val (r, k) ->
  (forall nf, r = Ret nf -> k = O) /\ (set_str zd gen minpoly = Val None -> k = O) /\ (read emb prec = None -> k = O).
Proof.
  intros o debug zd read fuel n minpoly gen emb prec r k E. apply make_more in E. rewrite make_cases in E by lia.
  destruct (set_str zd gen minpoly) as [[p|]| | |]; try discriminate; cbn [bind] in E.
  2:{ injection E as <- <-. repeat split; reflexivity. }
  destruct (prec <? 2)%Z; [discriminate|]. destruct (read emb prec) as [e|].
  2:{ injection E as <- <-. repeat split; reflexivity. }
  destruct (check_unique o fuel (e_num p) e prec) as [[|]| | |]; try discriminate; cbn [bind] in E.
  - destruct (renf_init o debug fuel (e_num p) (e_den p) e prec) as [nf| | |]; try discriminate. injection E as <- <-.
    repeat split; reflexivity.
  - destruct (WORD_MAX <? 2 * prec)%Z; [discriminate|]. injection E as <- <-. repeat split; intros; discriminate.
Qed.

(** ** A field made from strings *)
Definition cube_made : renf :=
  {| f_pol := cube_pol; f_den := 1; f_emb := Fin (165150, -17) (550224334, -38); f_prec := 8; f_imm := 0 |}%Z.
Lemma cube_make : forall zd, make_str dyops true zd dec_read 50 2 (lit "x^3 - 2") (lit "x") (lit "1.25 +/- 0.1") 8 = Val (Ret cube_made, O).
Proof. intros. vm_compute. reflexivity. Qed.
