(** A printer of doubles that meets the contract, and an element printed wrongly. *)
Require Import Reals Lra Lia List ZArith Bool Ascii String.
From Verif Require Import PolyR RootSpec VcaProofs Dyadic DyadicProofs ArbModel ArbSpec ArbProofs DyBall DyBallProofs ElemModel ElemSpec ElemMore NfArith NfArithProofs ElemRefute ElemEdge
  GetdModel GetdSpec GetdProofs GetdMore StrModel StrSpec StrMore BufModel BufSpec MakeSpec MakeText PrintModel PrintSpec PrintProofs.
Import ListNotations.
Open Scope Z_scope.

(** Eight digits, cut off. *)
Definition dec_show8 (d : dy) : str :=
  let '(a, k) := dec_of d in
  let t := drop_digits (Z.to_nat (Z.log2 (Z.abs a) + 1)) 0 8 a in
  text10 (Z.quot a (10 ^ t)) (k + t).

Lemma drop_low : forall fuel t n a, t <= drop_digits fuel t n a /\ (drop_digits fuel t n a = t \/ 10 ^ (n + drop_digits fuel t n a - 1) <= Z.abs a).
Proof.
  induction fuel as [|f IH]; intros t n a; cbn [drop_digits]; [lia|].
  destruct (Z.ltb_spec (Z.abs a) (10 ^ (n + t))) as [L|L]; [lia|]. destruct (IH (t + 1) n a) as [I1 [I2|I2]]; split; try lia.
  right. rewrite I2. replace (n + (t + 1) - 1) with (n + t) by lia. exact L.
Qed.

Lemma decimal_digits : forall f z, Forall (fun c => digitb c = true) (decimal f z).
Proof.
  induction f as [|f IH]; intros z; cbn [decimal]; [constructor|]. apply Forall_app. split.
  - destruct (z <? 10); [constructor|apply IH].
  - constructor; [|constructor]. apply digit_char_ok. apply Z.mod_pos_bound. lia.
Qed.
Lemma digits_cstr : forall s, Forall (fun c => digitb c = true) s -> cstr s.
Proof. intros s H W. rewrite Forall_forall in H. specialize (H _ W). discriminate H. Qed.
Lemma dec_cstr : forall z, cstr (dec z).
Proof. intros z. apply digits_cstr, decimal_digits. Qed.
Lemma cstr_cons : forall c s, c <> nul -> cstr s -> cstr (c :: s).
Proof. intros c s N H [W|W]; [congruence|exact (H W)]. Qed.
Lemma cstr_app2 : forall s t, cstr s -> cstr t -> cstr (s ++ t).
Proof. intros s t H1 H2 W. apply in_app_or in W. destruct W as [W|W]; [exact (H1 W)|exact (H2 W)]. Qed.
Lemma cstr_nil : cstr [].
Proof. intros []. Qed.
Ltac words := repeat first [apply cstr_nil | apply dec_cstr | apply cstr_app2 | apply cstr_cons; [discriminate|] | assumption].
Lemma text10_cstr : forall a k, cstr (text10 a k).
Proof. intros a k. unfold text10, sdec. destruct (a <? 0), (k <? 0); words. Qed.
Lemma print_cstr : forall var e, cstr var -> cstr (print_elem var e).
Proof.
  intros var e Hv. unfold print_elem. destruct (e_num e) as [|c p]; [words|]. generalize (e_den e) 0. generalize (c :: p). clear c p e.
  induction l as [|c p IH]; intros den i; cbn [print_terms]; [words|]. apply cstr_app2; [|apply IH].
  destruct (c =? 0); [words|]. destruct (c <? 0), (den =? 1), (i =? 0); words.
Qed.
Lemma show_cstr : forall b k, cstr (dec_show b k).
Proof.
  intros [m r|] k; cbn [dec_show]; [|words]. destruct (dec_of m), (dec_of r). apply cstr_cons; [discriminate|]. apply cstr_app2; [|words].
  apply cstr_app2; [apply text10_cstr|]. apply cstr_app2; [unfold pm; words|apply text10_cstr].
Qed.

Open Scope R_scope.
Lemma dec_show8_ok : show8_ok dec_show8.
Proof.
  intros d _. unfold dec_show8. destruct (dec_of_ok d) as [V _]. destruct (dec_of d) as [a k]. unfold dec10 in V. cbn [fst snd] in V.
  split; [apply text10_cstr|]. eexists. split; [apply signed10_text|]. unfold dec10. cbn [fst snd].
  destruct (drop_low (Z.to_nat (Z.log2 (Z.abs a) + 1)) 0 8 a) as [T0 T1].
  set (t := drop_digits (Z.to_nat (Z.log2 (Z.abs a) + 1)) 0 8 a) in *.
  assert (Ht : (0 < 10 ^ t)%Z) by (apply Z.pow_pos_nonneg; lia).
  rewrite <- V, ten_add, <- (ten_pow t) by lia.
  replace (IZR (Z.quot a (10 ^ t)) * (powerRZ 10 k * IZR (10 ^ t)) - IZR a * powerRZ 10 k)
    with (- ((IZR a - IZR (Z.quot a (10 ^ t)) * IZR (10 ^ t)) * powerRZ 10 k)) by ring.
  rewrite Rabs_Ropp, <- mult_IZR, <- minus_IZR, !Rabs_mult, (Rabs_pos_eq (powerRZ 10 k)) by (left; apply ten_pos).
  rewrite <- !abs_IZR. rewrite <- Rmult_assoc. apply Rmult_le_compat_r; [left; apply ten_pos|].
  assert (Eq : (a - Z.quot a (10 ^ t) * 10 ^ t = Z.rem a (10 ^ t))%Z) by (pose proof (Z.quot_rem' a (10 ^ t)); lia). rewrite Eq.
  destruct T1 as [T1|T1].
  - rewrite T1. change (10 ^ 0)%Z with 1%Z. rewrite Z.rem_1_r. change (Z.abs 0) with 0%Z. apply Rmult_le_pos; [lra|]. apply IZR_le. lia.
  - pose proof (Z.rem_bound_abs a (10 ^ t) ltac:(lia)) as B. replace (8 + t - 1)%Z with (7 + t)%Z in T1 by lia. rewrite Z.pow_add_r in T1 by lia.
    assert (B' : IZR (Z.abs (Z.rem a (10 ^ t))) * 10 ^ 7 <= IZR (Z.abs a)).
    { replace (10 ^ 7) with (IZR (10 ^ 7)) by (cbn; lra). rewrite <- mult_IZR. apply IZR_le. nia. }
    lra.
Qed.

(** In the field of C21 the element 0.35... is printed as -0.35.... *)
Lemma print_refuted : exists pol a x l nf m nf' y' s t q, reached pol a x l nf m /\
  put dyops (nfc pol) true (print_elem [ "x"%char ]) dec_show8 dec_show 100 nf (m 0%nat) = Val (nf', y', s) /\
  s = list_ascii_of_string "(" ++ print_elem [ "x"%char ] (r_elem (m 0%nat)) ++ list_ascii_of_string " ~ " ++ t ++ list_ascii_of_string ")" /\
  signed10 t = Some q /\ dec10 q < -0.3 /\ 0.3 < ev x (r_elem (m 0%nat)).
Proof.
  destruct jroot as (x & Hx & Zx).
  pose (l := [KRefine 128; KGen 0; KSubQ 0 0 (20 * jG + 7) 20]%Z).
  assert (E : ask (jstate l) (fun nf m => put dyops (nfc jpol) true (print_elem [ "x"%char ]) dec_show8 dec_show 100 nf (m 0%nat)) (fun r => (snd r)) =
    Val (jd, {| e_num := []; e_den := 1 |}, list_ascii_of_string "(-1475739525896764129287/20+20/20*x^1 ~ -35000000e-8)")) by (unfold l; rewrite jstate_bad; calc).
  apply ask_inv in E. destruct E as (nf & m & a & Hr & E0 & E1 & Hs & E2). destruct a as [[nf' y'] s]. cbn [snd] in E2. subst s.
  exists jpol, jball, x, l, nf, m, nf', y'. eexists. exists (list_ascii_of_string "-35000000e-8"), (-35000000, -8)%Z.
  split; [exact (jreached x l nf m Hx Zx Hr)|]. split; [exact Hs|]. rewrite E0. split; [vm_compute; reflexivity|]. split; [vm_compute; reflexivity|].
  rewrite jd_val. unfold dec10. cbn [fst snd]. change (powerRZ 10 (-8)) with (/ 10 ^ 8). split; lra.
Qed.
