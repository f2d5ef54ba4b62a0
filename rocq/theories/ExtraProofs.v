Require Import Reals List ZArith Lia Lra Bool Sorting.
From Verif Require Import PolyR SignVar RootModel RootSpec DescartesProofs VcaProofs VcaTerm IsoProofs IsoAll ExtraModel.
Import ListNotations.
Open Scope R_scope.

(** * has_real_root *)
Lemma fsign_hd : forall a p, a <> 0%Z -> fsign (map IZR (a :: p)) = Z.sgn a.
Proof.
  intros a p Ha. cbn [map fsign]. rewrite sgnR_IZR.
  destruct (Z.eqb_spec (Z.sgn a) 0) as [E|E]; [|reflexivity]. exfalso. pose proof (Z.sgn_spec a). lia.
Qed.

Lemma lsign_last : forall p, last p 0%Z <> 0%Z -> lsign (map IZR p) = Z.sgn (last p 0%Z).
Proof.
  intros p Hl. unfold lsign. rewrite <- map_rev.
  destruct (rev p) as [|a q] eqn:E.
  - apply (f_equal (@rev Z)) in E. rewrite rev_involutive in E. subst p. simpl in Hl. congruence.
  - apply (f_equal (@rev Z)) in E. rewrite rev_involutive in E. cbn [rev] in E. subst p.
    rewrite last_last in *. apply fsign_hd. exact Hl.
Qed.

Lemma last_flip : forall p, last (flip p) 0%Z = (if Nat.even (length p) then - last p 0 else last p 0)%Z.
Proof.
  assert (H : forall n p, (length p <= n)%nat -> last (flip p) 0%Z = (if Nat.even (length p) then - last p 0 else last p 0)%Z).
  { induction n as [|n IH]; intros p Hp.
    - destruct p; [reflexivity|simpl in Hp; lia].
    - destruct p as [|a [|b [|c q]]]; [reflexivity|reflexivity|reflexivity|].
      change (flip (a :: b :: c :: q)) with (a :: (- b)%Z :: flip (c :: q)).
      assert (Hne : flip (c :: q) <> []) by (destruct q; discriminate).
      assert (E : last (a :: (- b)%Z :: flip (c :: q)) 0%Z = last (flip (c :: q)) 0%Z).
      { destruct (flip (c :: q)); [congruence|reflexivity]. }
      rewrite E, IH by (simpl in *; lia). reflexivity. }
  intros p. apply (H (length p)). lia.
Qed.

Lemma flip_hd : forall p, hd 0%Z (flip p) = hd 0%Z p.
Proof. intros [|a [|b q]]; reflexivity. Qed.

Lemma sign_changes_varf : forall l s n, (s = 1 \/ s = -1)%Z -> sign_changes s n l = (n + Z.of_nat (varf s l))%Z.
Proof.
  induction l as [|a l IH]; intros s n Hs; cbn [sign_changes varf]; [simpl; lia|].
  destruct (Z.eqb_spec a 0) as [Ea|Ea].
  - subst a. simpl. apply IH. exact Hs.
  - assert (Hsg : Z.sgn a = 1%Z \/ Z.sgn a = (-1)%Z) by lia.
    destruct (Z.eqb_spec (Z.sgn a) 0) as [E0|E0]; [lia|].
    destruct (Z.eqb_spec (Z.sgn a) s) as [Es|Es].
    + destruct (Z.eqb_spec (Z.sgn a) (- s)) as [E1|E1]; [lia|]. rewrite Es. apply IH. exact Hs.
    + destruct (Z.eqb_spec (Z.sgn a) (- s)) as [E1|E1]; [|lia].
      rewrite IH by exact Hsg. lia.
Qed.

Fixpoint alt (neg : bool) (l : list Z) : list Z :=
  match l with [] => [] | a :: l' => (if neg then (- a)%Z else a) :: alt (negb neg) l' end.

Lemma sign_changes_alt_eq : forall l neg s n, sign_changes_alt neg s n l = sign_changes s n (alt neg l).
Proof.
  induction l as [|a l IH]; intros neg s n; cbn [sign_changes_alt alt sign_changes]; [reflexivity|].
  destruct (Z.eqb_spec a 0) as [Ea|Ea].
  - subst a. destruct neg; cbn -[sign_changes]; apply IH.
  - destruct neg.
    + destruct (Z.eqb_spec (- a) 0); [lia|]. rewrite Z.sgn_opp.
      destruct (- Z.sgn a =? s)%Z; apply IH.
    + destruct (Z.eqb_spec a 0); [lia|]. destruct (Z.sgn a =? s)%Z; apply IH.
Qed.

Lemma alt_flip : forall p, alt false p = flip p.
Proof.
  assert (H : forall n p, (length p <= n)%nat -> alt false p = flip p).
  { induction n as [|n IH]; intros p Hp; [destruct p; [reflexivity|simpl in Hp; lia]|].
    destruct p as [|a [|b q]]; [reflexivity|reflexivity|]. cbn [alt negb flip]. rewrite IH by (simpl in *; lia). reflexivity. }
  intros p. apply (H (length p)). lia.
Qed.

Lemma sign_mismatch_root : forall p, hd 0%Z p <> 0%Z -> last p 0%Z <> 0%Z ->
  (Z.sgn (hd 0 p) * Z.sgn (last p 0) < 0)%Z -> exists x, 0 < x /\ zeval p x = 0.
Proof.
  intros p Hh Hl Hs. apply positive_root_exists.
  - intros Hz. unfold pzero in Hz. rewrite Forall_map in Hz. rewrite Forall_forall in Hz.
    destruct p as [|a q]; [simpl in Hh; congruence|]. specialize (Hz a (or_introl eq_refl)).
    apply Hh. apply eq_IZR. exact Hz.
  - destruct p as [|a q]; [simpl in Hh; congruence|]. cbn [hd] in *.
    rewrite fsign_hd, lsign_last by assumption. exact Hs.
Qed.

Lemma odd_changes_root : forall p, hd 0%Z p <> 0%Z -> last p 0%Z <> 0%Z ->
  (sign_changes (Z.sgn (hd 0 p)) 0 (tl p) mod 2 = 1)%Z -> exists x, zeval p x = 0.
Proof.
  intros p Hh Hl Hm.
  destruct p as [|a q]; [simpl in Hh; congruence|]. cbn [hd tl] in *.
  assert (Hsg : Z.sgn a = 1%Z \/ Z.sgn a = (-1)%Z) by lia.
  rewrite sign_changes_varf in Hm by exact Hsg.
  assert (Ev : var (a :: q) = varf (Z.sgn a) q).
  { unfold var. cbn [varf]. destruct (Z.eqb_spec (Z.sgn a) 0) as [E|E]; [lia|].
    destruct (Z.eqb_spec (Z.sgn a) (- 0)) as [E1|E1]; [lia|]. reflexivity. }
  assert (Hz : ~ pzero (map IZR (a :: q))).
  { intros Hz. inversion Hz as [|? ? H1 _]. apply Hh. apply eq_IZR. exact H1. }
  pose proof (varR_parity _ Hz) as HP. rewrite varR_IZR, Ev in HP.
  destruct (positive_root_exists (map IZR (a :: q)) Hz) as (x & Hx & H0); [|exists x; exact H0].
  apply Z.ltb_lt. rewrite <- HP. rewrite Nat.odd_spec.
  exists (Z.to_nat (Z.of_nat (varf (Z.sgn a) q) / 2)).
  pose proof (Z.div_mod (Z.of_nat (varf (Z.sgn a) q)) 2 ltac:(lia)) as HD.
  simpl (0 + _)%Z in Hm. rewrite Hm in HD.
  assert (0 <= Z.of_nat (varf (Z.sgn a) q) / 2)%Z by (apply Z.div_pos; lia). lia.
Qed.

Lemma has_real_root_correct : forall num p, p = [] \/ last p 0%Z <> 0%Z ->
  (num p <> 0%Z <-> exists x, zeval p x = 0) ->
  (has_real_root num p = true <-> exists x, zeval p x = 0).
Proof.
  intros num p Hl Hnum. destruct Hl as [->|Hl].
  { split; [|reflexivity]. intros _. exists 0. reflexivity. }
  unfold has_real_root.
  destruct (Nat.eqb_spec (length p) 1) as [E1|E1].
  { destruct p as [|a [|b q]]; simpl in E1; try lia. simpl in Hl.
    split; [discriminate|]. intros (x & Hx). exfalso. apply Hl. apply eq_IZR.
    unfold zeval in Hx. simpl in Hx. lra. }
  destruct (flip_spec p) as [Hfl Hf].
  destruct (Nat.even (length p)) eqn:Ee.
  { split; [intros _|reflexivity].
    destruct (Z.eq_dec (hd 0%Z p) 0) as [H0|H0].
    { exists 0. destruct p as [|a q]; [reflexivity|]. rewrite zeval_cons. simpl in H0. subst a. ring. }
    destruct (Z.eq_dec (Z.sgn (hd 0 p) * Z.sgn (last p 0))%Z (-1)%Z) as [Hm|Hm].
    - destruct (sign_mismatch_root p H0 Hl ltac:(lia)) as (x & _ & Hx). exists x. exact Hx.
    - destruct (sign_mismatch_root (flip p)) as (x & _ & Hx).
      + rewrite flip_hd. exact H0.
      + rewrite last_flip, Ee. lia.
      + rewrite flip_hd, last_flip, Ee. destruct (Z.sgn_spec (hd 0%Z p)) as [[_ A]|[[B A]|[_ A]]]; try lia;
          destruct (Z.sgn_spec (last p 0%Z)) as [[_ C]|[[D C]|[_ C]]]; rewrite Z.sgn_opp; try lia; rewrite A, C in *; lia.
      + exists (- x). rewrite <- Hf. exact Hx. }
  destruct ((hd 0 p =? 0)%Z || (Z.sgn (hd 0 p) * Z.sgn (last p 0) <? 0)%Z) eqn:Eb.
  { split; [intros _|reflexivity]. apply orb_true_iff in Eb. destruct (Z.eq_dec (hd 0%Z p) 0) as [H0|H0].
    - exists 0. destruct p as [|a q]; [reflexivity|]. rewrite zeval_cons. simpl in H0. subst a. ring.
    - destruct Eb as [Eb|Eb]; [apply Z.eqb_eq in Eb; congruence|]. apply Z.ltb_lt in Eb.
      destruct (sign_mismatch_root p H0 Hl Eb) as (x & _ & Hx). exists x. exact Hx. }
  apply orb_false_iff in Eb. destruct Eb as [Eb _]. apply Z.eqb_neq in Eb.
  destruct (Z.eqb_spec (sign_changes (Z.sgn (hd 0 p)) 0 (tl p) mod 2)%Z 1%Z) as [Em|Em].
  { split; [intros _|reflexivity]. apply odd_changes_root; assumption. }
  destruct (Z.eqb_spec (sign_changes_alt true (Z.sgn (hd 0 p)) 0 (tl p) mod 2)%Z 1%Z) as [En|En].
  { split; [intros _|reflexivity]. rewrite sign_changes_alt_eq in En.
    assert (Ef : flip p = hd 0%Z p :: alt true (tl p)).
    { rewrite <- alt_flip. destruct p; [simpl in Hl; congruence|reflexivity]. }
    destruct (odd_changes_root (flip p)) as (x & Hx).
    - rewrite flip_hd. exact Eb.
    - rewrite last_flip, Ee. exact Hl.
    - rewrite Ef. cbn [hd tl]. exact En.
    - exists (- x). rewrite <- Hf. exact Hx. }
  rewrite negb_true_iff, Z.eqb_neq. exact Hnum.
Qed.

(** * Sturm: x^2 - 2 *)
(** Contract of FLINT pseudo_rem: lead(B)^d A = Q B + R and R is shorter than B, normalised. *)
Definition prem_ok (prem : list Z -> list Z -> list Z * Z) : Prop :=
  forall A B, last B 0%Z <> 0%Z -> (length B <= length A)%nat ->
    let '(r, d) := prem A B in
    (0 <= d)%Z /\ (length r < length B)%nat /\ (r = [] \/ last r 0%Z <> 0%Z) /\
    exists q : list R, forall x, IZR (last B 0%Z ^ d) * zeval A x = peval q x * zeval B x + zeval r x.

Lemma sturm_refuted : exists p, last p 0%Z <> 0%Z /\ simple_roots p reals /\ zeval p 0 <> 0 /\ zeval p 1 <> 0 /\
  root_list p unit_oo [] /\
  forall prem, prem_ok prem -> exists fuel, num_real_roots_0_1_sturm prem fuel p = SDone 1.
Proof.
  exists [-2; 0; 1]%Z. split; [simpl; lia|]. split.
  { intros x _. unfold zeval; simpl. intros H0 H1. nra. }
  split; [unfold zeval; simpl; lra|]. split; [unfold zeval; simpl; lra|]. split.
  { split; [constructor|]. intros x. split; [intros []|]. intros [Hx H0]. unfold zeval in H0; simpl in H0.
    unfold unit_oo in Hx. nra. }
  intros prem HP. exists 3%nat. unfold num_real_roots_0_1_sturm.
  change (normal (zderiv [-2; 0; 1]%Z)) with [0; 2]%Z.
  cbn. pose proof (HP [-2; 0; 1]%Z [0; 2]%Z ltac:(simpl; lia) ltac:(simpl; lia)) as H1.
  destruct (prem [-2; 0; 1]%Z [0; 2]%Z) as [r d] eqn:E1. destruct H1 as (Hd & Hl & Hr & q & Hq).
  cbn [last length] in *.
  assert (Er : r = [(-2 * 2 ^ d)%Z]).
  { specialize (Hq 0). destruct r as [|a [|b r]]; cbn [length] in Hl; try lia.
    - unfold zeval in Hq; simpl in Hq. assert (H : IZR (2 ^ d) = 0) by lra.
      apply eq_IZR in H. pose proof (Z.pow_pos_nonneg 2 d ltac:(lia) Hd). lia.
    - f_equal. apply eq_IZR. rewrite mult_IZR. unfold zeval in Hq; simpl in Hq. lra. }
  subst r. rewrite orb_true_r.
  assert (Hpw : (0 < 2 ^ d)%Z) by (apply Z.pow_pos_nonneg; lia).
  cbn -[Z.mul Z.pow Z.gcd Z.div].
  assert (Ec : Z.gcd (- (-2 * 2 ^ d)) 0 = (2 * 2 ^ d)%Z) by (rewrite Z.gcd_0_r; lia).
  rewrite Ec. destruct (Z.eqb_spec (2 * 2 ^ d) 1) as [E|_]; [lia|].
  assert (Ediv : (- (-2 * 2 ^ d) / (2 * 2 ^ d) = 1)%Z).
  { replace (- (-2 * 2 ^ d))%Z with (2 * 2 ^ d)%Z by ring. apply Z.div_same. lia. }
  cbn [map div_content]. rewrite Ediv. cbn.
  pose proof (HP [0; 2]%Z [1]%Z ltac:(simpl; lia) ltac:(simpl; lia)) as H2.
  destruct (prem [0; 2]%Z [1]%Z) as [r2 d2]. destruct H2 as (_ & Hl2 & _ & _). cbn [length] in Hl2.
  destruct r2 as [|]; [|simpl in Hl2; lia]. rewrite orb_true_r. reflexivity.
Qed.

(** * Affine rescaling *)
Lemma content_divides : forall p a, In a p -> (content p | a)%Z.
Proof.
  induction p as [|b p IH]; intros a [].
  - subst. cbn [content fold_right]. apply Z.gcd_divide_l.
  - cbn [content fold_right]. eapply Z.divide_trans; [apply Z.gcd_divide_r|apply IH; assumption].
Qed.
Lemma content_nonneg : forall p, (0 <= content p)%Z.
Proof. destruct p; simpl; [lia|apply Z.gcd_nonneg]. Qed.
Lemma content_zero : forall p a, content p = 0%Z -> In a p -> a = 0%Z.
Proof. intros p a H Ha. apply content_divides in Ha. rewrite H in Ha. apply Z.divide_0_l in Ha. exact Ha. Qed.

Lemma zeval_div : forall p c x, c <> 0%Z -> (forall a, In a p -> (c | a)%Z) ->
  zeval (map (fun a => (a / c)%Z) p) x * IZR c = zeval p x.
Proof.
  induction p as [|a p IH]; intros c x Hc Hd; [unfold zeval; simpl; ring|].
  cbn [map]. rewrite !zeval_cons, Rmult_plus_distr_r, Rmult_assoc, IH; [|exact Hc|intros; apply Hd; right; assumption].
  f_equal. rewrite <- mult_IZR. f_equal. destruct (Hd a (or_introl eq_refl)) as [k ->].
  rewrite Z.div_mul by exact Hc. reflexivity.
Qed.

Lemma last_in : forall p : list Z, last p 0%Z <> 0%Z -> In (last p 0%Z) p.
Proof.
  induction p as [|a [|b q] IH]; intros H; [simpl in H; congruence|left; reflexivity|].
  right. apply IH. exact H.
Qed.

Lemma primitive_part_spec : forall p, last p 0%Z <> 0%Z -> exists c,
  0 < c /\ forall x, zeval (primitive_part p) x * c = IZR (Z.sgn (last p 0%Z)) * zeval p x.
Proof.
  intros p Hl. exists (IZR (content p)). pose proof (content_nonneg p) as Hn.
  assert (Hc : content p <> 0%Z) by (intros E; apply Hl; apply (content_zero p); [exact E|apply last_in; exact Hl]).
  split; [apply (IZR_lt 0); lia|]. intros x. unfold primitive_part.
  destruct (Z.ltb_spec (last p 0%Z) 0) as [H|H].
  - rewrite Z.sgn_neg by exact H.
    assert (E : zeval (map (fun a => (a / - content p)%Z) p) x * IZR (- content p) = zeval p x).
    { apply zeval_div; [lia|]. intros a Ha. apply Z.divide_opp_l. apply content_divides. exact Ha. }
    rewrite opp_IZR in E. lra.
  - rewrite Z.sgn_pos by lia.
    assert (E : zeval (map (fun a => (a / content p)%Z) p) x * IZR (content p) = zeval p x).
    { apply zeval_div; [lia|]. intros a Ha. apply content_divides. exact Ha. }
    lra.
Qed.

Definition qval (a : Z * Z) : R := IZR (fst a) / IZR (snd a).

Lemma last_zpows : forall p b acc, p <> [] -> last (zpows b acc p) 0%Z = (last p 0 * (acc * b ^ Z.of_nat (length p - 1)))%Z.
Proof.
  intros p b acc Hp. destruct (exists_last Hp) as (q & a & ->).
  rewrite zpows_app. cbn [zpows]. rewrite !last_last. rewrite app_length. simpl. do 2 f_equal. f_equal. lia.
Qed.

Lemma last_zlin_go : forall r c prev, r <> [] -> last (zlin_go c prev r) 0%Z = last r 0%Z.
Proof.
  induction r as [|b l IH]; intros c prev Hr; [congruence|]. cbn [zlin_go].
  destruct l as [|b' l]; [reflexivity|].
  transitivity (last (zlin_go c b (b' :: l)) 0%Z); [|rewrite IH by discriminate; reflexivity].
  cbn [zlin_go]. reflexivity.
Qed.
Lemma last_tshift : forall p c, last (tshift c p) 0%Z = last p 0%Z.
Proof.
  induction p as [|a q IH]; intros c; [reflexivity|]. cbn [tshift].
  destruct q as [|b q]; [reflexivity|].
  rewrite last_zlin_go; [rewrite IH; reflexivity|].
  intros E. apply (f_equal (@length Z)) in E. rewrite tshift_length in E. discriminate.
Qed.
Lemma last_scale_by_den : forall p q, last (scale_by_den q p) 0%Z = last p 0%Z.
Proof.
  intros p q. unfold scale_by_den. destruct p as [|a p0] eqn:E; [reflexivity|]. rewrite <- E.
  destruct (exists_last (l := p) ltac:(subst; discriminate)) as (r & b & ->).
  rewrite rev_app_distr. cbn [rev app zpows]. rewrite !last_last. lia.
Qed.

Lemma scale_0_1_spec : forall p a b, (0 < snd a)%Z -> (0 < snd b)%Z -> qval a < qval b ->
  last p 0%Z <> 0%Z -> (2 <= length p)%nat -> exists c, 0 < c /\
  forall x, zeval (scale_0_1 p a b) x * c = IZR (Z.sgn (last p 0%Z)) * zeval p (qval a + (qval b - qval a) * x).
Proof.
  intros p [an ad] [bn bd] Ha Hb Hab Hl H2. cbn [fst snd] in *. unfold scale_0_1. cbn [fst snd].
  destruct (Nat.leb_spec (length p) 1) as [H|_]; [lia|].
  assert (Hg : (0 < Z.gcd ad bd)%Z).
  { pose proof (Z.gcd_nonneg ad bd). destruct (Z.eq_dec (Z.gcd ad bd) 0) as [E|]; [|lia].
    apply Z.gcd_eq_0_l in E. lia. }
  destruct (Z.gcd_divide_l ad bd) as [ka Eka]. destruct (Z.gcd_divide_r ad bd) as [kb Ekb].
  set (g := Z.gcd ad bd) in *.
  assert (Hka : (0 < ka)%Z) by nia. assert (Hkb : (0 < kb)%Z) by nia.
  assert (Eq : (Z.lcm ad bd = ka * g * kb)%Z).
  { unfold Z.lcm. fold g. rewrite Ekb at 1. rewrite Z.div_mul by lia. rewrite <- Eka. apply Z.abs_eq. nia. }
  set (q := Z.lcm ad bd) in *. assert (Hq : (0 < q)%Z) by (rewrite Eq; nia).
  set (p1 := (an * bd / g)%Z). set (c := (bn * ad / g)%Z).
  assert (Ep1 : p1 = (an * kb)%Z).
  { unfold p1. rewrite Ekb, Z.mul_assoc, Z.div_mul by lia. reflexivity. }
  assert (Ec : c = (bn * ka)%Z).
  { unfold c. rewrite Eka, Z.mul_assoc, Z.div_mul by lia. reflexivity. }
  assert (Rka : 0 < IZR ka) by (apply (IZR_lt 0); lia). assert (Rkb : 0 < IZR kb) by (apply (IZR_lt 0); lia).
  assert (Rg : 0 < IZR g) by (apply (IZR_lt 0); lia). assert (Rq : 0 < IZR q) by (apply (IZR_lt 0); lia).
  assert (Va : qval (an, ad) = IZR p1 / IZR q).
  { unfold qval; cbn [fst snd]. rewrite Ep1, Eq, Eka, !mult_IZR. field. lra. }
  assert (Vb : qval (bn, bd) = IZR c / IZR q).
  { unfold qval; cbn [fst snd]. rewrite Ec, Eq, Ekb, !mult_IZR. field. lra. }
  assert (Ht : (0 < c - p1)%Z).
  { rewrite Va, Vb in Hab. apply lt_IZR. rewrite minus_IZR.
    apply (Rmult_lt_compat_r (IZR q)) in Hab; [|exact Rq].
    unfold Rdiv in Hab. rewrite !Rmult_assoc, Rinv_l, !Rmult_1_r in Hab by lra. lra. }
  set (u := zpows (c - p1) 1 (tshift p1 (scale_by_den q p))).
  assert (Hlen : length (tshift p1 (scale_by_den q p)) = length p).
  { rewrite tshift_length. unfold scale_by_den. rewrite rev_length, zpows_length, rev_length. reflexivity. }
  assert (Hlast : last u 0%Z = (last p 0 * (1 * (c - p1) ^ Z.of_nat (length p - 1)))%Z).
  { unfold u. rewrite last_zpows, Hlen, last_tshift, last_scale_by_den; [reflexivity|].
    intros E. rewrite E in Hlen. simpl in Hlen. lia. }
  assert (Hpw : (0 < (c - p1) ^ Z.of_nat (length p - 1))%Z) by (apply Z.pow_pos_nonneg; lia).
  destruct (primitive_part_spec u) as (k & Hk & Ek); [rewrite Hlast; nia|].
  assert (Esg : Z.sgn (last u 0%Z) = Z.sgn (last p 0%Z)).
  { rewrite Hlast, Z.mul_1_l, Z.sgn_mul, (Z.sgn_pos _ Hpw). lia. }
  exists (k / IZR q ^ (length p - 1)). split.
  { apply Rdiv_lt_0_compat; [exact Hk|apply pow_lt; exact Rq]. }
  intros x. unfold Rdiv. rewrite <- Rmult_assoc, Ek, Esg, Rmult_assoc. f_equal.
  unfold u. rewrite zeval_zpows, zeval_tshift, Rmult_1_l.
  destruct (zeval_zpows_rev p q (IZR (c - p1) * x + IZR p1) Hq) as (_ & _ & E).
  fold (scale_by_den q p) in E.
  assert (Hq1 : IZR q ^ length p = IZR q * IZR q ^ (length p - 1)).
  { replace (length p) with (S (length p - 1)) at 1 by lia. reflexivity. }
  assert (Hqp : IZR q ^ (length p - 1) <> 0) by (apply pow_nonzero; lra).
  apply (Rmult_eq_reg_r (IZR q * IZR q ^ (length p - 1))); [|apply Rmult_integral_contrapositive; split; lra].
  transitivity (zeval (scale_by_den q p) (IZR (c - p1) * x + IZR p1) * IZR q).
  { field. exact Hqp. }
  rewrite E, Hq1. rewrite Rmult_comm. f_equal. f_equal.
  rewrite Va, Vb, minus_IZR. field. lra.
Qed.

Lemma scale_0_1_const : forall p a b, (length p <= 1)%nat -> scale_0_1 p a b = p.
Proof. intros p a b H. unfold scale_0_1. destruct (Nat.leb_spec (length p) 1); [reflexivity|lia]. Qed.
