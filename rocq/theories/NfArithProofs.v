(** The arithmetic of NfArith.v satisfies the contract of ElemSpec.v. *)
Require Import Reals List ZArith Bool Lia Lra Psatz.
From Verif Require Import PolyR RootSpec RootModel ExtraModel ExtraProofs PremProofs SquarefreeProofs Dyadic ArbModel ArbSpec
  ElemModel ElemSpec ElemProofs NfArith.
Import ListNotations.
Open Scope R_scope.

Lemma comb_lcomb : forall u v p q, comb u v p q = lcomb u v p q.
Proof. intros u v. induction p as [|a p IH]; intros [|b q]; cbn [comb lcomb]; congruence. Qed.
Lemma zeval_comb : forall u v p q x, zeval (comb u v p q) x = IZR u * zeval p x - IZR v * zeval q x.
Proof. intros. rewrite comb_lcomb. apply zeval_lcomb. Qed.
Lemma length_comb : forall u v p q, length (comb u v p q) = Nat.max (length p) (length q).
Proof. intros. rewrite comb_lcomb. apply length_lcomb. Qed.

Lemma nth_scale : forall u (p : list Z) i, nth i (map (Z.mul u) p) 0%Z = (u * nth i p 0)%Z.
Proof. intros u. induction p as [|a p IH]; intros [|i]; cbn [map nth]; try lia. apply IH. Qed.
Lemma nth_comb : forall u v p q i, nth i (comb u v p q) 0%Z = (u * nth i p 0 - v * nth i q 0)%Z.
Proof.
  intros u v. induction p as [|a p IH]; intros [|b q] i; cbn [comb].
  - destruct i; cbn [map nth]; lia.
  - rewrite nth_scale. destruct i; cbn [nth]; lia.
  - rewrite nth_scale. destruct i; cbn [nth]; lia.
  - destruct i as [|i]; cbn [nth]; [reflexivity|apply IH].
Qed.

Lemma zeval_pshift : forall k p x, zeval (pshift k p) x = x ^ k * zeval p x.
Proof.
  induction k as [|k IH]; intros p x; unfold pshift in *; cbn [repeat app pow]; [ring|]. rewrite zeval_cons, IH. ring.
Qed.
Lemma length_pshift : forall k p, length (pshift k p) = (k + length p)%nat.
Proof. intros. unfold pshift. rewrite app_length, repeat_length. reflexivity. Qed.
Lemma nth_pshift : forall k p i, nth (k + i) (pshift k p) 0%Z = nth i p 0%Z.
Proof. induction k as [|k IH]; intros p i; unfold pshift in *; cbn [repeat app nth Nat.add]; [reflexivity|apply IH]. Qed.

Lemma zeval_pprod : forall p q x, zeval (pprod p q) x = zeval p x * zeval q x.
Proof.
  induction p as [|a p IH]; intros q x; cbn [pprod]; [rewrite zeval_nil; ring|].
  rewrite zeval_comb, !zeval_cons, IH. ring.
Qed.

Lemma last0_nth : forall (p : list Z), last p 0%Z = nth (length p - 1) p 0%Z.
Proof.
  induction p as [|a [|b p] IH]; [reflexivity|reflexivity|].
  change (last (a :: b :: p) 0%Z) with (last (b :: p) 0%Z). rewrite IH. cbn [length].
  replace (S (S (length p)) - 1)%nat with (S (S (length p) - 1)) by lia. reflexivity.
Qed.

Lemma zeval_removelast : forall p x, p <> [] -> zeval p x = zeval (removelast p) x + IZR (last p 0%Z) * x ^ (length p - 1).
Proof.
  induction p as [|a [|b p] IH]; intros x H; [congruence|cbn [removelast last length Nat.sub pow]; rewrite zeval_cons, zeval_nil; ring|].
  change (removelast (a :: b :: p)) with (a :: removelast (b :: p)). change (last (a :: b :: p) 0%Z) with (last (b :: p) 0%Z).
  rewrite zeval_cons, IH by discriminate. rewrite (zeval_cons a (removelast _)). cbn [length].
  replace (S (S (length p)) - 1)%nat with (S (S (length p) - 1)) by lia. cbn [pow]. ring.
Qed.
Lemma length_removelast : forall (p : list Z), length (removelast p) = (length p - 1)%nat.
Proof.
  induction p as [|a [|b p] IH]; [reflexivity|reflexivity|].
  change (removelast (a :: b :: p)) with (a :: removelast (b :: p)). cbn [length] in *. rewrite IH. lia.
Qed.

(** * Pseudo-division *)
Section Pdiv.
Variables (a : list Z).
Hypothesis Ha : last a 0%Z <> 0%Z.
Let l := last a 0%Z.

Lemma len_a : (1 <= length a)%nat.
Proof. destruct a; [exfalso; apply Ha; reflexivity|cbn [length]; lia]. Qed.

Lemma pdiv_step : forall p, (length a <= length p)%nat ->
  length (removelast (comb l (last p 0%Z) p (pshift (length p - length a) a))) = (length p - 1)%nat /\
  forall x, zeval (removelast (comb l (last p 0%Z) p (pshift (length p - length a) a))) x =
    IZR l * zeval p x - IZR (last p 0%Z) * (x ^ (length p - length a) * zeval a x).
Proof.
  intros p L. pose proof len_a as La. set (k := (length p - length a)%nat). set (b := last p 0%Z).
  set (t := comb l b p (pshift k a)).
  assert (Lt : length t = length p) by (unfold t; rewrite length_comb, length_pshift; unfold k; lia).
  assert (Tn : t <> []) by (intros W; rewrite W in Lt; cbn [length] in Lt; lia).
  assert (T0 : last t 0%Z = 0%Z).
  { rewrite last0_nth, Lt. unfold t. rewrite nth_comb.
    replace (nth (length p - 1) (pshift k a) 0%Z) with l.
    - unfold b. rewrite last0_nth. ring.
    - replace (length p - 1)%nat with (k + (length a - 1))%nat by (unfold k; lia). rewrite nth_pshift. unfold l. apply last0_nth. }
  split; [rewrite length_removelast, Lt; reflexivity|]. intros x.
  pose proof (zeval_removelast t x Tn) as W. rewrite T0, Rmult_0_l, Rplus_0_r in W. rewrite <- W. unfold t.
  rewrite zeval_comb, zeval_pshift. reflexivity.
Qed.

Lemma nth_one : forall k i, i <> k -> nth i (pshift k [1%Z]) 0%Z = 0%Z.
Proof.
  induction k as [|k IH]; intros [|i] H; unfold pshift in *; cbn [repeat app nth]; try lia.
  - destruct i; reflexivity.
  - apply IH. lia.
Qed.

Lemma pdiv_spec : forall fuel p c q c' q' r P, (length p <= fuel)%nat -> c <> 0%Z ->
  (forall x, IZR c * zeval P x = zeval q x * zeval a x + zeval p x) ->
  pdiv fuel p a c q = (c', q', r) ->
  c' <> 0%Z /\ (length r < length a)%nat /\
  (forall x, IZR c' * zeval P x = zeval q' x * zeval a x + zeval r x) /\
  (length q' <= Nat.max (length q) (length p - length a + 1))%nat /\
  (forall i, (length p < i + length a)%nat -> nth i q 0%Z <> 0%Z -> nth i q' 0%Z <> 0%Z).
Proof.
  pose proof len_a as La.
  induction fuel as [|f IH]; intros p c q c' q' r P Hf Hc HP E; cbn [pdiv] in E.
  - injection E as <- <- <-. split; [exact Hc|]. split; [lia|]. split; [exact HP|]. split; [lia|]. intros; assumption.
  - destruct (Nat.ltb_spec (length p) (length a)) as [L|L].
    { injection E as <- <- <-. split; [exact Hc|]. split; [exact L|]. split; [exact HP|]. split; [lia|]. intros; assumption. }
    cbv zeta in E. destruct (pdiv_step p L) as [Lr Er]. fold l in E. set (k := (length p - length a)%nat) in *.
    set (b := last p 0%Z) in *.
    apply (IH _ _ _ _ _ _ P) in E.
    + destruct E as (E1 & E2 & E3 & E4 & E5). split; [exact E1|]. split; [exact E2|]. split; [exact E3|]. split.
      * rewrite length_comb, length_pshift, Lr in E4. cbn [length] in E4. unfold k in E4. lia.
      * intros i Hi Ni. apply E5; [rewrite Lr; lia|]. rewrite nth_comb, nth_one by (unfold k; lia).
        assert (l * nth i q 0 <> 0)%Z by (apply Z.neq_mul_0; split; assumption). lia.
    + rewrite Lr. lia.
    + apply Z.neq_mul_0. split; assumption.
    + intros x. rewrite Er, zeval_comb, zeval_pshift, mult_IZR, Rmult_assoc, HP, opp_IZR.
      rewrite zeval_cons, zeval_nil. ring.
Qed.

Lemma pdiv_start : forall p c q r, pdiv (length p) p a 1 [] = (c, q, r) ->
  c <> 0%Z /\ (length r < length a)%nat /\ (forall x, IZR c * zeval p x = zeval q x * zeval a x + zeval r x) /\
  (length q <= length p - length a + 1)%nat.
Proof.
  intros p c q r E. apply (pdiv_spec _ _ _ _ _ _ _ p) in E; [|lia|lia|intros x; rewrite zeval_nil; ring].
  destruct E as (A & B & C & D & _). cbn [length] in D. split; [exact A|]. split; [exact B|]. split; [exact C|]. lia.
Qed.

Lemma pdiv_lead : forall p c q r, last p 0%Z <> 0%Z -> (length a <= length p)%nat ->
  pdiv (length p) p a 1 [] = (c, q, r) -> nth (length p - length a) q 0%Z <> 0%Z.
Proof.
  intros p c q r Hp L E. pose proof len_a as La. destruct (length p) as [|f] eqn:Lp; [lia|]. cbn [pdiv] in E. rewrite Lp in E.
  destruct (Nat.ltb_spec (S f) (length a)) as [?|_]; [lia|]. cbv zeta in E. rewrite <- Lp in *.
  destruct (pdiv_step p L) as [Lr Er]. fold l in E.
  apply (pdiv_spec _ _ _ _ _ _ _ p) in E.
  - destruct E as (_ & _ & _ & _ & E). apply E; [rewrite Lr; lia|]. rewrite nth_comb.
    replace (nth (length p - length a) (pshift (length p - length a) [1%Z]) 0%Z) with 1%Z.
    + destruct (length p - length a)%nat; cbn [nth]; lia.
    + pose proof (nth_pshift (length p - length a) [1%Z] 0) as W. rewrite Nat.add_0_r in W. rewrite W. reflexivity.
  - rewrite Lr. lia.
  - rewrite Z.mul_1_r. exact Ha.
  - intros x. rewrite Er, zeval_comb, zeval_pshift, mult_IZR, zeval_cons, !zeval_nil, opp_IZR. ring.
Qed.
End Pdiv.

(** * Lowest terms *)
Lemma normal_last1 : forall p, last (normal p) 1%Z <> 0%Z.
Proof.
  intros p. destruct (normal_last p) as [->|H]; [cbn [last]; lia|]. destruct (normal p) as [|c q]; [cbn [last]; lia|].
  rewrite last_nth by discriminate. rewrite last0_nth in H. exact H.
Qed.

Lemma last_map : forall (f : Z -> Z) p, last (map f p) (f 1%Z) = f (last p 1%Z).
Proof. intros f. induction p as [|a [|b p] IH]; [reflexivity|reflexivity|]. exact IH. Qed.

Lemma content_greatest : forall p g, (forall c, In c p -> (g | c)%Z) -> (g | content p)%Z.
Proof.
  induction p as [|a p IH]; intros g H; cbn [content fold_right]; [apply Z.divide_0_r|].
  apply Z.gcd_greatest; [apply H; left; reflexivity|apply IH; intros c Hc; apply H; right; exact Hc].
Qed.

Lemma zeval_div : forall g s p x, g <> 0%Z -> (forall c, In c p -> (g | c)%Z) ->
  zeval (map (fun c => s * (c / g))%Z p) x = IZR s * zeval p x / IZR g.
Proof.
  intros g s p x Hg. assert (IZR g <> 0) by (apply not_0_IZR; exact Hg).
  induction p as [|a p IH]; intros D; cbn [map]; [rewrite !zeval_nil; unfold Rdiv; ring|].
  rewrite !zeval_cons, IH by (intros c Hc; apply D; right; exact Hc).
  destruct (D a (or_introl eq_refl)) as (k & ->). rewrite Z.div_mul by exact Hg. rewrite !mult_IZR. field. assumption.
Qed.

Section Field.
Variables (pol : list Z) (x : R).
Hypothesis Hm : minimal pol x.

Lemma lowest_ok : forall num den, den <> 0%Z -> (length num < length pol)%nat ->
  represents pol x (lowest num den) (zeval num x / IZR den).
Proof.
  intros num den Hd L. unfold lowest. cbv zeta. set (p := normal num). set (g := Z.gcd den (content p)). set (s := Z.sgn den).
  assert (Hg : (0 < g)%Z).
  { pose proof (Z.gcd_nonneg den (content p)). assert (g <> 0)%Z; [|unfold g in *; lia]. intros W. apply Z.gcd_eq_0_l in W. contradiction. }
  assert (Dd : (g | den)%Z) by apply Z.gcd_divide_l.
  assert (Dp : forall c, In c p -> (g | c)%Z).
  { intros c Hc. eapply Z.divide_trans; [apply Z.gcd_divide_r|apply content_divides; exact Hc]. }
  assert (Hs : (s * s = 1)%Z) by (unfold s; destruct den; cbn [Z.sgn]; lia).
  assert (Hs' : s = 1%Z \/ s = (-1)%Z) by (unfold s; destruct den; cbn [Z.sgn]; lia).
  destruct Dd as (u & Eu). assert (Ud : (den / g = u)%Z) by (rewrite Eu; apply Z.div_mul; lia).
  assert (Su : (0 < s * u)%Z) by (unfold s; rewrite Eu; rewrite Z.sgn_mul, (Z.sgn_pos g) by exact Hg; destruct u; cbn [Z.sgn]; lia).
  split.
  - constructor; cbn [e_num e_den].
    + rewrite Ud. exact Su.
    + intros W. destruct p as [|c p'] eqn:Ep; [cbn [map last] in W; lia|].
      set (f := fun c : Z => (s * (c / g))%Z) in *.
      assert (W' : last (map f (c :: p')) (f 1%Z) = 0%Z).
      { rewrite last_nth in W by discriminate. clear - W. rewrite <- W. generalize (f 1%Z). intros d.
        generalize (map f (c :: p')) (map_cons f c p'). intros m ->. clear. revert d.
        generalize (f c) (map f p'). intros a q d. revert a. induction q as [|b q IH]; intros a; [reflexivity|].
        change (last (a :: b :: q) d) with (last (b :: q) d). rewrite IH. cbn [length].
        replace (S (S (length q)) - 1)%nat with (S (S (length q) - 1)) by lia. reflexivity. }
      rewrite last_map in W'. unfold f in W'.
      pose proof (normal_last1 num) as N. fold p in N. rewrite Ep in N.
      assert (I : In (last (c :: p') 1%Z) (c :: p')).
      { rewrite last_nth by discriminate. apply nth_In. cbn [length]. lia. }
      destruct (Dp _ I) as (w & Ew). rewrite Ew, Z.div_mul in W' by lia. apply N. rewrite Ew. destruct Hs' as [-> | ->]; lia.
    + rewrite map_length. pose proof (normal_length num). unfold p. lia.
    + intros d Hd0 D1 D2. rewrite Ud in D1.
      assert (D3 : (d * g | den)%Z).
      { rewrite Eu. apply Z.mul_divide_mono_r. destruct Hs' as [Es|Es]; rewrite Es in D1; [rewrite Z.mul_1_l in D1; exact D1|].
        apply Z.divide_opp_r. replace (- u)%Z with (-1 * u)%Z by lia. exact D1. }
      assert (D4 : (d * g | content p)%Z).
      { apply content_greatest. intros c Hc. destruct (Dp c Hc) as (w & Ew).
        specialize (D2 (s * (c / g))%Z (in_map (fun c => s * (c / g))%Z _ _ Hc)). rewrite Ew, Z.div_mul in D2 by lia. rewrite Ew.
        apply Z.mul_divide_mono_r. destruct Hs' as [Es|Es]; rewrite Es in D2; [rewrite Z.mul_1_l in D2; exact D2|].
        apply Z.divide_opp_r. replace (- w)%Z with (-1 * w)%Z by lia. exact D2. }
      assert (D5 : (d * g | g)%Z) by (apply Z.gcd_greatest; assumption).
      apply Z.divide_pos_le in D5; [|exact Hg]. nia.
  - unfold ev. cbn [e_num e_den]. rewrite zeval_div by (try lia; exact Dp). unfold p. rewrite normal_eval, Ud.
    assert (IZR g <> 0) by (apply not_0_IZR; lia). assert (IZR u <> 0) by (apply not_0_IZR; nia).
    assert (IZR s <> 0) by (apply not_0_IZR; lia).
    rewrite Eu, !mult_IZR. field. auto.
Qed.

Lemma pol_lead : last pol 0%Z <> 0%Z. Proof. apply (min_lead _ _ Hm). Qed.

Lemma norm_ok : forall num den, den <> 0%Z -> represents pol x (norm pol num den) (zeval num x / IZR den).
Proof.
  intros num den Hd. unfold norm. destruct (pdiv (length num) num pol 1 []) as [[c q] r] eqn:E.
  destruct (pdiv_start pol pol_lead _ _ _ _ E) as (Hc & L & V & _). specialize (V x). rewrite (min_root _ _ Hm) in V.
  assert (IZR c <> 0) by (apply not_0_IZR; exact Hc). assert (IZR den <> 0) by (apply not_0_IZR; exact Hd).
  replace (zeval num x / IZR den) with (zeval r x / IZR (den * c)).
  - apply lowest_ok; [|exact L]. apply Z.neq_mul_0. split; assumption.
  - replace (zeval r x) with (IZR c * zeval num x) by lra. rewrite mult_IZR. field. auto.
Qed.

Lemma norm_as : forall num den v, den <> 0%Z -> zeval num x / IZR den = v -> represents pol x (norm pol num den) v.
Proof. intros num den v Hd <-. apply norm_ok. exact Hd. Qed.

Lemma pinv_ok : forall fuel a, (length a <= fuel)%nat -> (length a < length pol)%nat -> last a 1%Z <> 0%Z -> zeval a x <> 0 ->
  let '(u, d) := pinv pol fuel a in d <> 0%Z /\ zeval u x / IZR d = / zeval a x.
Proof.
  induction fuel as [|f IH]; intros a Lf L Hl Nz; [destruct a; [exfalso; apply Nz; reflexivity|cbn [length] in Lf; lia]|].
  cbn [pinv]. destruct a as [|c0 [|c1 a']]; [exfalso; apply Nz; reflexivity| |].
  - cbn [last] in Hl. split; [exact Hl|]. rewrite !zeval_cons, !zeval_nil. unfold Rdiv. rewrite !Rmult_0_r, !Rplus_0_r. ring.
  - set (a := c0 :: c1 :: a') in *.
    assert (Ha : last a 0%Z <> 0%Z) by (rewrite last0_nth, <- last_nth by discriminate; exact Hl).
    destruct (pdiv (length pol) pol a 1 []) as [[c q] r] eqn:E.
    destruct (pdiv_start a Ha _ _ _ _ E) as (Hc & Lr & V & Lq). specialize (V x). rewrite (min_root _ _ Hm), Rmult_0_r in V.
    pose proof (pdiv_lead a Ha _ _ _ _ pol_lead ltac:(lia) E) as Q.
    assert (La : (2 <= length a)%nat) by (unfold a; cbn [length]; lia).
    assert (Qn : zeval q x <> 0).
    { intros W. pose proof (min_short _ _ Hm q ltac:(lia) W) as Z. apply Q.
      destruct (nth_in_or_default (length pol - length a) q 0%Z) as [I|D]; [|exact D].
      rewrite Forall_forall in Z. apply Z. exact I. }
    assert (Rn : zeval r x <> 0).
    { intros W. rewrite W, Rplus_0_r in V. symmetry in V. apply Rmult_integral in V. destruct V; contradiction. }
    specialize (IH (normal r)). pose proof (normal_length r) as Ln.
    specialize (IH ltac:(unfold a in *; cbn [length] in *; lia) ltac:(lia) (normal_last1 r) ltac:(rewrite normal_eval; exact Rn)).
    destruct (pinv pol f (normal r)) as [u d]. destruct IH as [Hd Hu]. split; [exact Hd|].
    replace (zeval (map Z.opp (pprod q u)) x) with (- (zeval q x * zeval u x)).
    + replace (- (zeval q x * zeval u x) / IZR d) with (- zeval q x * (zeval u x / IZR d)) by (unfold Rdiv; ring).
      rewrite Hu, normal_eval. replace (zeval r x) with (- (zeval q x * zeval a x)) by lra. field. auto.
    + rewrite <- zeval_pprod. generalize (pprod q u). clear. induction l as [|b l IH]; cbn [map]; [rewrite zeval_nil; ring|].
      rewrite !zeval_cons, <- IH, opp_IZR. ring.
Qed.

Lemma den_nz : forall e, canon pol e -> e_den e <> 0%Z /\ IZR (e_den e) <> 0.
Proof. intros e C. pose proof (can_den _ _ C). split; [lia|apply not_0_IZR; lia]. Qed.

Lemma c_mul_ok : forall a b, canon pol a -> canon pol b -> represents pol x (c_mul pol a b) (ev x a * ev x b).
Proof.
  intros a b A B. destruct (den_nz a A), (den_nz b B). unfold c_mul. apply norm_as; [apply Z.neq_mul_0; auto|].
  rewrite zeval_pprod, mult_IZR. unfold ev. field. auto.
Qed.

Lemma c_inv_ok : forall a, canon pol a -> ev x a <> 0 -> represents pol x (c_inv pol a) (/ ev x a).
Proof.
  intros a A Nz. destruct (den_nz a A) as [D D']. assert (N : zeval (e_num a) x <> 0).
  { intros W. apply Nz. unfold ev. rewrite W. unfold Rdiv. ring. }
  pose proof (pinv_ok (length pol) (e_num a) ltac:(pose proof (can_len _ _ A); lia) (can_len _ _ A) (can_last _ _ A) N) as I.
  unfold c_inv. destruct (pinv pol (length pol) (e_num a)) as [u d]. destruct I as [Hd I]. apply norm_as; [exact Hd|].
  rewrite zeval_scale. unfold ev. replace (IZR (e_den a) * zeval u x / IZR d) with (IZR (e_den a) * (zeval u x / IZR d)) by (unfold Rdiv; ring).
  rewrite I. field. auto.
Qed.

Theorem nfc_ok : nf_ok pol x (nfc pol).
Proof.
  pose proof (min_len _ _ Hm) as L2.
  constructor; cbn [nfc n_add n_sub n_mul n_div n_neg n_inv n_pow n_add_q n_sub_q n_q_sub n_mul_q n_div_q n_set_q n_set_poly].
  - intros b c B C. destruct (den_nz b B), (den_nz c C). apply norm_as; [apply Z.neq_mul_0; auto|].
    rewrite zeval_comb, opp_IZR, mult_IZR. unfold ev. field. auto.
  - intros b c B C. destruct (den_nz b B), (den_nz c C). apply norm_as; [apply Z.neq_mul_0; auto|].
    rewrite zeval_comb, mult_IZR. unfold ev. field. auto.
  - exact c_mul_ok.
  - intros b c B C Nz. destruct (c_inv_ok c C Nz) as [I V]. unfold Rdiv. rewrite <- V. apply c_mul_ok; assumption.
  - intros b B. destruct (den_nz b B). apply norm_as; [assumption|]. rewrite zeval_scale. unfold ev. field. assumption.
  - exact c_inv_ok.
  - intros b k B _. induction (Z.to_nat k) as [|j IH]; cbn [c_pow pow].
    + pose proof (lowest_ok [1%Z] 1 ltac:(lia) ltac:(cbn [length]; lia)) as W.
      replace (zeval [1%Z] x / 1) with 1 in W by (rewrite zeval_cons, zeval_nil; field). exact W.
    + destruct IH as [I V]. rewrite <- V. apply c_mul_ok; assumption.
  - intros b u d B D. destruct (den_nz b B). assert (IZR d <> 0) by (apply not_0_IZR; lia). apply norm_as; [apply Z.neq_mul_0; lia|].
    rewrite zeval_comb, zeval_cons, zeval_nil, opp_IZR, mult_IZR. unfold ev. field. auto.
  - intros b u d B D. destruct (den_nz b B). assert (IZR d <> 0) by (apply not_0_IZR; lia). apply norm_as; [apply Z.neq_mul_0; lia|].
    rewrite zeval_comb, zeval_cons, zeval_nil, mult_IZR. unfold ev. field. auto.
  - intros b u d B D. destruct (den_nz b B). assert (IZR d <> 0) by (apply not_0_IZR; lia). apply norm_as; [apply Z.neq_mul_0; lia|].
    rewrite zeval_comb, zeval_cons, zeval_nil, mult_IZR. unfold ev. field. auto.
  - intros b u d B D. destruct (den_nz b B). assert (IZR d <> 0) by (apply not_0_IZR; lia). apply norm_as; [apply Z.neq_mul_0; lia|].
    rewrite zeval_scale, mult_IZR. unfold ev. field. auto.
  - intros b u d B U D. destruct (den_nz b B). assert (IZR d <> 0) by (apply not_0_IZR; lia). assert (IZR u <> 0) by (apply not_0_IZR; lia).
    apply norm_as; [apply Z.neq_mul_0; lia|]. rewrite zeval_scale, mult_IZR. unfold ev. field. auto.
  - intros u d D. apply norm_as; [lia|]. rewrite zeval_cons, zeval_nil. f_equal. ring.
  - intros p d D. apply norm_as; [lia|reflexivity].
Qed.
End Field.
