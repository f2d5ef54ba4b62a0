(** Fields of 2^66 - sqrt 2 and 2^66 + sqrt 2: with every ball arithmetic that rounds
    like FLINT the registry takes them for one. *)
Require Import Reals List ZArith Bool Lia Lra Psatz.
From Verif Require Import PolyR RootSpec RootModel ExtraModel Dyadic DyadicProofs VcaProofs ArbModel ArbSpec ArbProofs FieldProofs RefineProofs
  RefineEnds ArbRefute DyRate ElemModel ElemSpec ElemProofs GetdModel GetdSpec GetdProofs GetdMore LifeModel LifeSpec LifeFields LifeShare
  FlSpec FlProofs FlRefute FineSpec ElemRefute.
Import ListNotations.
Open Scope R_scope.

(** ** The double nearest to numbers around 2^66 *)
Lemma big_IZR : IZR big = 73786976294838206464. Proof. reflexivity. Qed.

Lemma big_double : is_double (IZR big).
Proof.
  exists (2 ^ 52)%Z, 14%Z. split; [reflexivity|]. split; [lia|]. rewrite <- pw2_IZR by lia. rewrite <- mult_IZR. reflexivity.
Qed.

Lemma near_big : forall v d, Rabs (v - IZR big) < 2048 -> is_round RNear v d -> exists x, d = DF x /\ dyv x = IZR big.
Proof.
  intros v d H Rd. cbn [is_round round_near] in Rd. pose proof MAX_LIM as [ML _]. pose proof (double_max _ big_double) as BM.
  rewrite big_IZR in *. assert (Hv : 73786976294838204416 < v < 73786976294838208512) by (apply Rabs_def2 in H; lra).
  rewrite Rabs_pos_eq in BM by lra.
  assert (L : 147573952589676412928 <= LIM).
  { apply Rle_trans with (pw2 970); [|].
    - apply Rle_trans with (pw2 67); [rewrite <- pw2_IZR by lia; apply IZR_le; vm_compute; discriminate|apply pw2_le; lia].
    - unfold LIM. change 1024%Z with (1 + 1023)%Z. rewrite pw2_add, pw2_1. pose proof (pw2_le 970 1023 ltac:(lia)). lra. }
  destruct d as [x|[|]]; [|cbn in Rd; lra|cbn in Rd; lra]. exists x. split; [reflexivity|]. destruct Rd as (Dx & _ & N).
  pose proof (N _ big_double) as Q. rewrite big_IZR in Q. assert (Q' : Rabs (v - 73786976294838206464) < 2048) by exact H.
  assert (X : Rabs (dyv x - 73786976294838206464) < 4096).
  { replace (dyv x - 73786976294838206464) with ((v - 73786976294838206464) - (v - dyv x)) by ring.
    eapply Rle_lt_trans; [apply Rabs_triang|]. rewrite Rabs_Ropp. lra. }
  apply Rabs_def2 in X. destruct Dx as (k & e & K & E & V).
  assert (G : (13 <= e)%Z).
  { destruct (Z_lt_le_dec e 13) as [L13|]; [exfalso|assumption]. pose proof (pw2_le e 12 ltac:(lia)) as P. pose proof (pw2_pos e) as P0.
    assert (pw2 12 = 4096) by (rewrite <- pw2_IZR by lia; reflexivity). assert (IZR k <= IZR (2 ^ 53)) by (apply IZR_le; lia).
    assert (IZR (2 ^ 53) = 9007199254740992) by reflexivity.
    assert (dyv x <= 9007199254740992 * pw2 e) by (rewrite V; apply Rmult_le_compat_r; lra). lra. }
  assert (Z1 : exists j, dyv x = IZR j * 8192).
  { exists (k * 2 ^ (e - 13))%Z. rewrite V, mult_IZR, pw2_IZR, Rmult_assoc by lia. f_equal.
    replace 8192 with (pw2 13) by (rewrite <- pw2_IZR by lia; reflexivity). rewrite <- pw2_add. f_equal. lia. }
  destruct Z1 as (j & J). assert (j = 9007199254740992)%Z.
  { assert (9007199254740991 < j)%Z by (apply lt_IZR; lra). assert (j < 9007199254740993)%Z by (apply lt_IZR; lra). lia. }
  subst j. lra.
Qed.

Section Share.
Variable o : arbops.
Hypothesis Ho : arb_ok o.
Hypothesis Hf : arb_fl o.
Hypothesis Hg : arb_fine o.

Lemma far_apart : forall m r k s, 0 <= dyv r -> 0 <= dyv s -> 8 * (dyv r + dyv s) <= Rabs (dyv m - dyv k) -> 0 < Rabs (dyv m - dyv k) ->
  contains_zero (o_sub o (Fin m r) (Fin k s) 64) = false.
Proof.
  intros m r k s Hr Hs S P. destruct (fi_sub o Hg m r k s 64 ltac:(lia) Hr Hs) as (m' & r' & -> & E & R0 & R1 & _).
  unfold contains_zero. apply dleb_false. rewrite dyv_abs, E.
  pose proof (proj1 (proj2 (dround_spec RDown 64 (dsub m k) ltac:(lia)))) as Q. rewrite dyv_sub in *.
  set (d := dyv m - dyv k) in *. set (w := dyv (dround RDown 64 (dsub m k))) in *.
  assert (T : pw2 (1 - 64) <= 1 / 8) by (rewrite <- pw2_m3; apply pw2_le; lia). pose proof (pw2_pos (1 - 64)) as T0.
  assert (W : Rabs d * pw2 (1 - 64) <= Rabs d * (1 / 8)) by (apply Rmult_le_compat_l; [apply Rabs_pos|lra]).
  pose proof (Rabs_triang w (d - w)) as Tr. replace (w + (d - w)) with d in Tr by ring. unfold slack in R1. lra.
Qed.

(** ** The generator and its double *)
Variables (m : Z) (x : R).
Hypothesis Hm : m = (big - 1)%Z \/ m = (big + 1)%Z.
Variable n : nfops.
Definition tgen : elem := {| e_num := [0; 1]%Z; e_den := 1 |}.

Lemma tgen_canon : canon touch_pol tgen.
Proof. apply canon_intro; cbn; lia || (try discriminate); reflexivity. Qed.

Lemma touch_gen_ball : exists g r, eval_arb_q o [0; 1]%Z 1 (Fin (m, 0) (1, 0))%Z 64 = Fin g r /\ Rabs (dyv g - IZR big) <= 64 /\ 0 <= dyv r <= 128.
Proof.
  assert (H : exists g r, eval_arb o [0; 1]%Z (Fin (m, 0) (1, 0))%Z 64 = Fin g r /\ Rabs (dyv g - IZR big) <= 16 /\ 0 <= dyv r <= 24).
  { assert (B : below (Fin (m, 0) (1, 0))%Z (Fin (m, 0) (1, 0))%Z).
    { unfold below. split; [reflexivity|]. split; [|lra]. apply dyv_nonneg. cbn [fst]. lia. }
    pose proof (eval_below o Hf [0; 1]%Z _ _ 64 ltac:(lia) B) as E.
    destruct (eval_arb o [0; 1]%Z (Fin (m, 0) (1, 0))%Z 64) as [g r|]; [|destruct Hm as [-> | ->]; vm_compute in E; contradiction].
    exists g, r. split; [reflexivity|].
    destruct Hm as [-> | ->]; set (h := h_eval _ _ _) in E; vm_compute in h; subst h; destruct E as [-> [R0 R1]].
    all: (split; [|split; [exact R0|eapply Rle_trans; [exact R1|]; change 24 with (IZR 24); rewrite <- dyv_dz; apply dleb_spec; vm_compute; reflexivity]]).
    all: rewrite <- dyv_dz, <- dyv_sub, <- dyv_abs; change 16 with (IZR 16); rewrite <- dyv_dz; apply dleb_spec; vm_compute; reflexivity. }
  destruct H as (g & r & E & G & [R0 R1]). unfold eval_arb_q. rewrite E.
  destruct (fl_div_z o Hf g r 1 64 ltac:(lia) R0 ltac:(lia)) as (g' & r' & E' & D & R & R'). exists g', r'. split; [exact E'|].
  replace (dyv g / 1) with (dyv g) in D, R' by field. replace (dyv r / 1) with (dyv r) in R' by field. rewrite big_IZR in *.
  apply Rabs_le_inv2 in G. rewrite (Rabs_pos_eq (dyv g)) in D, R' by lra.
  assert (P : pw2 (3 - 64) = / 2305843009213693952) by (change (3 - 64)%Z with (- (61))%Z; rewrite pw2_neg_IZR by lia; reflexivity).
  rewrite P in D, R'. apply Rabs_le_inv2 in D. split; [apply Rabs_le|]; lra.
Qed.

Variables (g r : dy).
Hypothesis G : Rabs (dyv g - IZR big) <= 64.
Hypothesis R : 0 <= dyv r <= 128.
Hypothesis I : inb x (Fin g r).
Definition tnf : renf := touch_field m.
Definition tel : relem := touch_gen (Fin g r).

Lemma g_bounds : 73786976294838206400 <= dyv g <= 73786976294838206528.
Proof. rewrite big_IZR in G. apply Rabs_le_inv2 in G. lra. Qed.

Lemma x_bounds : 73786976294838206200 <= x <= 73786976294838206720.
Proof. pose proof g_bounds. apply inb_bounds in I. lra. Qed.

Variable debug : bool.

Lemma t_sgn : forall fuel, sgn o debug fuel tnf tel = Val (tnf, Fin g r, 1%Z).
Proof.
  intros fuel. pose proof g_bounds as B. pose proof x_bounds as X. unfold sgn. cbn [tel touch_gen r_elem e_num r_emb].
  assert (C : contains_zero (Fin g r) = false) by (unfold contains_zero; apply dleb_false; rewrite dyv_abs, Rabs_pos_eq; lra).
  rewrite C. cbn [negb]. destruct (contains_zero_false _ _ C I) as [_ ->]. rewrite Rsgn_pos by lra. reflexivity.
Qed.

Lemma t_cmp_q : forall fuel q s, q <> 0%Z -> 16 * 128 + 8 * Rabs (IZR q) * / 1073741824 <= Rabs (dyv g - IZR q) -> Rsgn (x - IZR q) = s ->
  cmp_q o n debug fuel tnf tel q 1 = Val (tnf, Fin g r, s).
Proof.
  intros fuel q s Q D S. unfold cmp_q. destruct (Z.eqb_spec q 0) as [|_]; [contradiction|]. cbn [tel touch_gen r_elem r_emb is_zero is_rational e_num].
  change (is_zero {| e_num := [0; 1]; e_den := 1 |}%Z) with false. change (is_rational {| e_num := [0; 1]; e_den := 1 |}%Z) with false. cbv iota.
  change (f_prec tnf) with 64%Z. destruct (fi_set_q o Hg q 1 64 ltac:(lia) ltac:(lia)) as (k & t & E & K & T0 & T1).
  assert (P : pw2 (3 - 64) = / 2305843009213693952) by (change (3 - 64)%Z with (- (61))%Z; rewrite pw2_neg_IZR by lia; reflexivity).
  replace (IZR q / 1) with (IZR q) in K, T1 by field. rewrite P in K, T1. set (a := Rabs (IZR q)) in *. assert (A0 : 0 <= a) by apply Rabs_pos.
  assert (J : Rabs (dyv g - IZR q) <= Rabs (dyv g - dyv k) + Rabs (dyv k - IZR q)).
  { replace (dyv g - IZR q) with ((dyv g - dyv k) + (dyv k - IZR q)) by ring. apply Rabs_triang. }
  assert (C : contains_zero (o_sub o (Fin g r) (o_set_q o q 1 64) 64) = false) by (rewrite E; apply far_apart; lra).
  rewrite C. cbn [negb]. do 2 f_equal. rewrite <- S. apply (contains_zero_false _ _ C). apply (ok_sub o Ho); [lia|exact I|].
  replace (IZR q) with (IZR q / 1) by field. apply (ok_set_q o Ho); lia.
Qed.

Lemma t_over : forall fuel, overflows o n debug 2 fuel tnf tel = Val (tnf, tel, 0%Z).
Proof.
  intros fuel. pose proof g_bounds as B. pose proof x_bounds as X. cbn [overflows]. rewrite t_sgn. cbn [bind]. change (0 <=? 1)%Z with true. cbv iota.
  change {| r_elem := r_elem tel; r_emb := Fin g r |} with tel.
  rewrite (t_cmp_q fuel UINT_MAX 1); [|discriminate| |].
  - cbn [bind]. change (1 <=? 0)%Z with false. cbv iota. change {| r_elem := r_elem tel; r_emb := Fin g r |} with tel.
    assert (Mx : 147573952589676412928 <= IZR dbl_max_z) by (change 147573952589676412928 with (IZR 147573952589676412928); apply IZR_le; vm_compute; discriminate).
    rewrite (t_cmp_q fuel dbl_max_z (-1)); [reflexivity|discriminate| |].
    + rewrite (Rabs_pos_eq (IZR dbl_max_z)) by lra. rewrite Rabs_left by lra. lra.
    + apply Rsgn_neg. lra.
  - change (IZR UINT_MAX) with 4294967295. rewrite (Rabs_pos_eq 4294967295) by lra. rewrite Rabs_pos_eq by lra. lra.
  - apply Rsgn_pos. change (IZR UINT_MAX) with 4294967295. lra.
Qed.

Lemma t_accuracy : (55 <= rel_accuracy (Fin g r))%Z.
Proof.
  pose proof g_bounds as B. unfold rel_accuracy, rel_error. destruct (Z.eqb_spec (fst r) 0) as [|Nr]; [vm_compute; discriminate|].
  destruct (Z.eqb_spec (fst g) 0) as [E|Ng]; [apply dyv_eq0 in E; lra|].
  destruct (dexp_spec r Nr) as [A _]. destruct (dexp_spec g Ng) as [_ C]. rewrite Rabs_pos_eq in A, C by lra.
  assert (dexp r <= 8)%Z.
  { destruct (Z_lt_le_dec 8 (dexp r)) as [L|]; [exfalso|assumption]. pose proof (pw2_le 8 (dexp r - 1) ltac:(lia)) as P.
    assert (pw2 8 = 256) by (rewrite <- pw2_IZR by lia; reflexivity). lra. }
  assert (66 <= dexp g)%Z.
  { destruct (Z_lt_le_dec (dexp g) 66) as [L|]; [exfalso|assumption]. pose proof (pw2_le (dexp g) 65 ltac:(lia)) as P.
    assert (pw2 65 = 36893488147419103232) by (rewrite <- pw2_IZR by lia; reflexivity). lra. }
  lia.
Qed.

Lemma t_hash : forall fuel, exists d, hash_key o n debug (S fuel) tnf tel = Val (tnf, tel, d) /\ dbl_eq d (DF (1, 66)%Z).
Proof.
  intros fuel. pose proof g_bounds as B. pose proof t_accuracy as Ac. unfold hash_key, get_d.
  change (is_zero (r_elem tel)) with false. change (is_rational (r_elem tel)) with false. cbv iota zeta. cbn [reduce_rnd bind].
  rewrite t_over. cbn [bind]. change (0 =? 1)%Z with false. change (0 =? -1)%Z with false. cbv iota. change (r_emb tel) with (Fin g r).
  destruct (Z.ltb_spec (rel_accuracy (Fin g r)) 55) as [L|_]; [lia|]. cbn [bind]. change (f_prec tnf) with 64%Z.
  set (p := Z.max 64 (rel_accuracy (Fin g r))). assert (Hp : (64 <= p)%Z) by (unfold p; lia). clearbody p.
  cbn [double_loop interval]. set (l := dround RFloor p (dsub g r)). set (u := dround RCeil p (dadd g r)).
  assert (T : pw2 (1 - p) <= / 9223372036854775808).
  { eapply Rle_trans; [apply (pw2_le _ (- (63))); lia|]. rewrite pw2_neg_IZR by lia. right. reflexivity. }
  pose proof (pw2_pos (1 - p)) as T0.
  assert (Hl : Rabs (dyv l - IZR big) < 2048).
  { destruct (dround_spec RFloor p (dsub g r) ltac:(lia)) as (_ & E & _). fold l in E. rewrite dyv_sub in E. rewrite (Rabs_pos_eq (dyv g - dyv r)) in E by lra.
    assert ((dyv g - dyv r) * pw2 (1 - p) <= (dyv g - dyv r) * / 9223372036854775808) by (apply Rmult_le_compat_l; lra).
    apply Rabs_le_inv2 in E. rewrite big_IZR. apply Rabs_def1; lra. }
  assert (Hu : Rabs (dyv u - IZR big) < 2048).
  { destruct (dround_spec RCeil p (dadd g r) ltac:(lia)) as (_ & E & _). fold u in E. rewrite dyv_add in E. rewrite (Rabs_pos_eq (dyv g + dyv r)) in E by lra.
    assert ((dyv g + dyv r) * pw2 (1 - p) <= (dyv g + dyv r) * / 9223372036854775808) by (apply Rmult_le_compat_l; lra).
    apply Rabs_le_inv2 in E. rewrite big_IZR. apply Rabs_def1; lra. }
  destruct (near_big _ _ Hl (arf_get_d_ok RNear l)) as (a & -> & Ea). destruct (near_big _ _ Hu (arf_get_d_ok RNear u)) as (b & -> & Eb).
  assert (Q : dbl_eqb (DF b) (DF a) = true) by (cbn [dbl_eqb]; apply deqb_spec; lra). rewrite Q. cbn [bind].
  exists (DF a). split; [reflexivity|]. cbn [dbl_eq]. rewrite Ea. unfold dyv, big. cbn [fst snd]. rewrite pw2_IZR by lia. ring.
Qed.
End Share.

(** Making a field of each root. *)
Lemma share_every : exists pol a1 a2 x y, minimal pol x /\ inb x a1 /\ (forall z, inb z a1 -> zeval pol z = 0 -> z = x) /\
  minimal pol y /\ inb y a2 /\ (forall z, inb z a2 -> zeval pol z = 0 -> z = y) /\ x <> y /\
  forall o n, arb_ok o -> arb_fl o -> arb_fine o -> nf_ok pol x n -> forall debug, exists nf1 nf2 g1 g2,
    renf_init o debug 300 pol 1 a1 64 = Val nf1 /\ gen o n nf1 = Val g1 /\ renf_init o debug 300 pol 1 a2 64 = Val nf2 /\ gen o n nf2 = Val g2 /\
    forall fuel sh name, (forall a b, dbl_eq a b -> sh a = sh b) ->
    let d1 := {| q_id := 0%nat; q_nf := nf1; q_gen := g1; q_name := name |} in
    let d2 := {| q_id := 1%nat; q_nf := nf2; q_gen := g2; q_name := name |} in
    forall t, exists s, runs (fdata nat) Z Z (fhash o (fun _ => n) debug (S fuel) sh) Z.eqb feq (fun _ => 0%Z) (fun _ => 1%Z) (fun _ => 2%Z)
        (fun _ => true) (fun _ v => v) t true (start (fdata nat) Z Z) (two_makes d1 d2) = Val (s, [Done; Done]) /\
      pointee s 0 = Some 100%nat /\ pointee s 1 = Some 100%nat.
Proof.
  exists touch_pol, (Fin (big - 1, 0) (1, 0))%Z, (Fin (big + 1, 0) (1, 0))%Z, (IZR big - sqrt 2), (IZR big + sqrt 2).
  assert (S1 : 1 < sqrt 2) by (rewrite <- sqrt_1 at 1; apply sqrt_lt_1; lra).
  assert (S2 : sqrt 2 * sqrt 2 = 2) by (apply sqrt_sqrt; lra).
  assert (S3 : sqrt 2 < 2) by nra.
  assert (R : forall z, zeval touch_pol z = 0 -> z = IZR big - sqrt 2 \/ z = IZR big + sqrt 2).
  { intros z Hz. rewrite touch_eval in Hz.
    assert (E : (z - IZR big - sqrt 2) * (z - IZR big + sqrt 2) = 0) by nra.
    apply Rmult_integral in E. destruct E; lra. }
  assert (Zx : zeval touch_pol (IZR big - sqrt 2) = 0) by (rewrite touch_eval; nra).
  assert (Zy : zeval touch_pol (IZR big + sqrt 2) = 0) by (rewrite touch_eval; nra).
  assert (Ix : inb (IZR big - sqrt 2) (Fin (big - 1, 0) (1, 0))%Z) by (rewrite inb_bounds, !dyv_int, minus_IZR; lra).
  assert (Iy : inb (IZR big + sqrt 2) (Fin (big + 1, 0) (1, 0))%Z) by (rewrite inb_bounds, !dyv_int, plus_IZR; lra).
  split; [apply touch_minimal, Zx|]. split; [exact Ix|].
  split. { intros z Hz Zz. rewrite inb_bounds, !dyv_int, minus_IZR in Hz. destruct (R z Zz); lra. }
  split; [apply touch_minimal, Zy|]. split; [exact Iy|].
  split. { intros z Hz Zz. rewrite inb_bounds, !dyv_int, plus_IZR in Hz. destruct (R z Zz); lra. }
  split; [lra|]. intros o n Ho Hf Hg Hn debug. destruct (touch_fields o Hf debug) as [F1 F2].
  assert (Gn : n_set_poly n [0; 1]%Z 1 = tgen).
  { destruct (nk_set_poly _ _ _ Hn [0; 1]%Z 1 ltac:(lia)) as [C V]. apply (canon_unique touch_pol _ (touch_minimal _ Zx) _ _ C tgen_canon).
    rewrite V. unfold ev, tgen. cbn [e_num e_den]. reflexivity. }
  destruct (touch_gen_ball o Hf (big - 1) (or_introl eq_refl)) as (g1 & r1 & E1 & G1 & R1).
  destruct (touch_gen_ball o Hf (big + 1) (or_intror eq_refl)) as (g2 & r2 & E2 & G2 & R2).
  assert (I1 : inb (IZR big - sqrt 2) (Fin g1 r1)).
  { rewrite <- E1. replace (IZR big - sqrt 2) with (zeval [0; 1]%Z (IZR big - sqrt 2) / 1) by (rewrite !zeval_cons, zeval_nil; field).
    apply (eval_arb_q_ok o Ho); [lia|exact Ix|lia]. }
  assert (I2 : inb (IZR big + sqrt 2) (Fin g2 r2)).
  { rewrite <- E2. replace (IZR big + sqrt 2) with (zeval [0; 1]%Z (IZR big + sqrt 2) / 1) by (rewrite !zeval_cons, zeval_nil; field).
    apply (eval_arb_q_ok o Ho); [lia|exact Iy|lia]. }
  exists (tnf (big - 1)), (tnf (big + 1)), (tel g1 r1), (tel g2 r2). split; [exact F1|].
  split. { cbn [gen tnf touch_field f_pol f_prec f_emb touch_pol]. rewrite Gn, E1. reflexivity. }
  split; [exact F2|].
  split. { cbn [gen tnf touch_field f_pol f_prec f_emb touch_pol]. rewrite Gn, E2. reflexivity. }
  intros fuel sh name Hsh d1 d2 t.
  destruct (t_hash o Ho Hg (big - 1) (IZR big - sqrt 2) n g1 r1 G1 R1 I1 debug fuel) as (k1 & H1 & K1).
  destruct (t_hash o Ho Hg (big + 1) (IZR big + sqrt 2) n g2 r2 G2 R2 I2 debug fuel) as (k2 & H2 & K2).
  apply (second_make (fdata nat) _ feq d1 d2 t (sh (DF (1, 66)%Z))).
  - unfold fhash, d1. cbn [q_id q_nf q_gen q_name]. rewrite H1. rewrite (Hsh _ _ K1). reflexivity.
  - unfold fhash, d2. cbn [q_id q_nf q_gen q_name]. rewrite H2. rewrite (Hsh _ _ K2). reflexivity.
  - unfold feq, d1, d2. cbn [q_nf q_name]. rewrite Nat.eqb_refl, andb_true_r. vm_compute. reflexivity.
  - unfold feq, d1, d2. cbn [q_nf q_name]. rewrite Nat.eqb_refl, andb_true_r. vm_compute. reflexivity.
Qed.
