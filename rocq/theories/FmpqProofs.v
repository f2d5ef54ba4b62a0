(** Proofs about fmpq_poly_add_fmpq (FmpqModel.v). *)
Require Import Reals List ZArith Bool Lia Lra Znumtheory.
From Verif Require Import PolyR RootSpec RootModel ExtraModel ExtraProofs ArbModel ElemModel ElemSpec ElemProofs NfArithProofs StrSpec FmpqModel.
Import ListNotations.
Open Scope R_scope.

Lemma zeval_first : forall p v x, p <> [] -> zeval (add_first p v) x = zeval p x + IZR v.
Proof. intros [|a q] v x H; [contradiction|]. cbn [add_first]. rewrite !zeval_cons, plus_IZR. ring. Qed.

Lemma zeval_times : forall k p x, zeval (map (fun c => c * k)%Z p) x = IZR k * zeval p x.
Proof.
  intros k p x. induction p as [|a p IH]; cbn [map]; [rewrite !zeval_nil; ring|].
  rewrite !zeval_cons, IH, mult_IZR. ring.
Qed.

Lemma last_times : forall k p, k <> 0%Z -> p <> [] -> last p 1%Z <> 0%Z -> last (map (fun c => c * k)%Z p) 1%Z <> 0%Z.
Proof.
  intros k. induction p as [|a [|b p] IH]; intros Hk N H; [contradiction| |].
  - cbn [map last] in *. nia.
  - cbn [map] in *. change (last (a * k :: b * k :: map (fun c => c * k) p)%Z 1%Z) with (last (map (fun c => c * k) (b :: p))%Z 1%Z).
    apply IH; [exact Hk|discriminate|exact H].
Qed.

(** The divisor of coefficients and denominator is removed. *)
Lemma finish : forall num den e (f : R -> R), num <> [] -> last num 1%Z <> 0%Z -> (0 < den)%Z -> (0 < e)%Z ->
  (e | den)%Z -> (forall c, In c num -> (e | c)%Z) ->
  (forall h, (0 < h)%Z -> (h | den)%Z -> (forall c, In c num -> (h | c)%Z) -> (h | e)%Z) ->
  (forall x, zeval num x / IZR den = f x) ->
  is_poly {| e_num := div_content e num; e_den := den / e |} f.
Proof.
  intros num den e f N L Hd He (k & Ek) Dn G V. assert (K : (den / e = k)%Z) by (rewrite Ek; apply Z.div_mul; lia).
  assert (0 < k)%Z by nia. split.
  - constructor; cbn [e_num e_den].
    + rewrite K. assumption.
    + intros W. unfold div_content in W. apply L. revert W L Dn. clear - He N. induction num as [|a [|b p] IH]; intros W L Dn; [contradiction| |].
      * cbn [map last] in *. destruct (Dn a (or_introl eq_refl)) as (q & ->). rewrite Z.div_mul in W by lia. subst q. reflexivity.
      * change (last (map (fun c => c / e)%Z (a :: b :: p)) 1%Z) with (last (map (fun c => c / e)%Z (b :: p)) 1%Z) in W.
        change (last (b :: p) 1%Z = 0%Z). apply IH; [discriminate|exact W|exact L|intros c Hc; apply Dn; right; exact Hc].
    + rewrite K. intros g Hg (u & Eu) Gc. assert (Q : (g * e | e)%Z).
      { apply G; [nia|exists u; rewrite Ek, Eu; ring|]. intros c Hc. destruct (Dn c Hc) as (q & ->).
        assert (Hq : (g | q)%Z). { replace q with ((q * e) / e)%Z by (apply Z.div_mul; lia). apply Gc. unfold div_content. apply (in_map (fun c => c / e)%Z) in Hc. exact Hc. }
        destruct Hq as (w & ->). exists w. ring. }
      destruct Q as (w & Ew). assert (W1 : (w * g = 1)%Z) by (apply (Z.mul_cancel_r _ _ e); lia). assert (Wp : (0 < w)%Z) by nia. nia.
  - intros x. unfold ev. cbn [e_num e_den]. rewrite K, <- V, Ek. unfold div_content.
    assert (E1 : zeval (map (fun c => c / e)%Z num) x = zeval num x / IZR e).
    { pose proof (zeval_div e 1%Z num x ltac:(lia) Dn) as W. rewrite Rmult_1_l in W. rewrite <- W.
      f_equal. apply map_ext. intros a. ring. }
    rewrite E1, mult_IZR. field. split; apply not_0_IZR; lia.
Qed.

Lemma finish1 : forall num den (f : R -> R), num <> [] -> last num 1%Z <> 0%Z -> (0 < den)%Z ->
  (forall h, (0 < h)%Z -> (h | den)%Z -> (forall c, In c num -> (h | c)%Z) -> h = 1%Z) ->
  (forall x, zeval num x / IZR den = f x) -> is_poly {| e_num := num; e_den := den |} f.
Proof. intros num den f N L Hd G V. split; [constructor; cbn [e_num e_den]; assumption|]. intros x. unfold ev. cbn. apply V. Qed.

(** Common divisors after bringing both to the same denominator. *)
Lemma cross : forall a q D n d g u v, (0 < D)%Z -> (0 < d)%Z ->
  (forall h, (0 < h)%Z -> (h | D)%Z -> (forall c, In c (a :: q) -> (h | c)%Z) -> h = 1%Z) ->
  Z.gcd n d = 1%Z -> g = Z.gcd D d -> D = (u * g)%Z -> d = (v * g)%Z ->
  forall h, (0 < h)%Z -> (h | D * v)%Z -> (forall c, In c (add_first (map (fun c => c * v)%Z (a :: q)) (n * u)%Z) -> (h | c)%Z) -> (h | g)%Z.
Proof.
  intros a q D n d g u v HD Hd Lt Hn Eg ED Ed h Hh Hhd Hc.
  assert (Hg : (0 < g)%Z) by (pose proof (Z.gcd_nonneg D d); assert (g <> 0)%Z by (intros ->; rewrite Z.mul_0_r in ED; lia); lia).
  assert (Cuv : Z.gcd u v = 1%Z).
  { pose proof (Z.gcd_mul_mono_r u v g) as W. rewrite <- ED, <- Ed, <- Eg, Z.abs_eq in W by lia. nia. }
  assert (H0 : (h | a * v + n * u)%Z) by (apply Hc; cbn [map add_first]; left; reflexivity).
  assert (Hq : forall c, In c q -> (h | c * v)%Z).
  { intros c Hi. apply Hc. cbn [map add_first]. right. apply (in_map (fun c => c * v)%Z) in Hi. exact Hi. }
  (* coprime to v *)
  assert (C1 : Z.gcd h v = 1%Z).
  { set (k := Z.gcd h v). assert (K1 : (k | h)%Z) by apply Z.gcd_divide_l. assert (K2 : (k | v)%Z) by apply Z.gcd_divide_r.
    assert (K0 : (0 < k)%Z) by (unfold k; pose proof (Z.gcd_nonneg h v); assert (Z.gcd h v <> 0)%Z by (intros W; apply Z.gcd_eq_0_l in W; lia); lia).
    assert (K3 : (k | n * u)%Z).
    { replace (n * u)%Z with ((a * v + n * u) - a * v)%Z by ring. apply Z.divide_sub_r; [eapply Z.divide_trans; [exact K1|exact H0]|apply Z.divide_mul_r, K2]. }
    assert (K4 : Z.gcd k n = 1%Z).
    { apply Z.divide_1_r_nonneg; [apply Z.gcd_nonneg|]. rewrite <- Hn. apply Z.gcd_greatest; [apply Z.gcd_divide_r|].
      eapply Z.divide_trans; [apply Z.gcd_divide_l|]. rewrite Ed. apply Z.divide_mul_l, K2. }
    apply Z.gauss in K3; [|exact K4].
    apply Z.divide_1_r_nonneg; [lia|]. rewrite <- Cuv. apply Z.gcd_greatest; assumption. }
  assert (Hq' : forall c, In c q -> (h | c)%Z).
  { intros c Hi. specialize (Hq c Hi). rewrite Z.mul_comm in Hq. apply Z.gauss in Hq; assumption. }
  assert (HD' : (h | D)%Z) by (rewrite Z.mul_comm in Hhd; apply Z.gauss in Hhd; assumption).
  (* coprime to u *)
  assert (C2 : Z.gcd h u = 1%Z).
  { apply Lt.
    - pose proof (Z.gcd_nonneg h u); assert (Z.gcd h u <> 0)%Z by (intros W; apply Z.gcd_eq_0_l in W; lia); lia.
    - eapply Z.divide_trans; [apply Z.gcd_divide_l|exact HD'].
    - intros c [<-|Hi].
      + set (k := Z.gcd h u). assert (K1 : (k | h)%Z) by apply Z.gcd_divide_l. assert (K2 : (k | u)%Z) by apply Z.gcd_divide_r.
        assert (K3 : (k | v * a)%Z).
        { replace (v * a)%Z with ((a * v + n * u) - n * u)%Z by ring. apply Z.divide_sub_r; [eapply Z.divide_trans; [exact K1|exact H0]|apply Z.divide_mul_r, K2]. }
        apply Z.gauss in K3; [exact K3|]. apply Z.divide_1_r_nonneg; [apply Z.gcd_nonneg|]. rewrite <- Cuv.
        apply Z.gcd_greatest; [eapply Z.divide_trans; [apply Z.gcd_divide_l|exact K2]|apply Z.gcd_divide_r].
      + eapply Z.divide_trans; [apply Z.gcd_divide_l|apply Hq', Hi]. }
  rewrite ED in HD'. apply Z.gauss in HD'; assumption.
Qed.

Lemma constant_ok : forall n d, (0 < d)%Z -> Z.gcd n d = 1%Z -> is_poly (constant n d) (fun _ => IZR n / IZR d).
Proof.
  intros n d Hd G. unfold constant. destruct (Z.eqb_spec n 0) as [->|H].
  - split; [constructor; cbn [e_num e_den last]|]; try lia.
    + intros g Hg D _. rewrite Z.gcd_0_l, Z.abs_eq in G by lia. subst d. apply Z.divide_1_r_nonneg; [lia|exact D].
    + intros x. unfold ev. cbn [e_num e_den]. rewrite zeval_nil. unfold Rdiv. ring.
  - apply finish1; [discriminate|exact H|exact Hd| |].
    + intros h Hh D C. apply Z.divide_1_r_nonneg; [lia|]. rewrite <- G. apply Z.gcd_greatest; [apply C; left; reflexivity|exact D].
    + intros x. rewrite zeval_cons, zeval_nil. f_equal. ring.
Qed.

Theorem add_fmpq_ok : forall p n d, lowest_terms p -> (0 < d)%Z -> Z.gcd n d = 1%Z ->
  is_poly (add_fmpq p n d) (fun x => ev x p + IZR n / IZR d).
Proof.
  intros [num D] n d [HD HL HG] Hd Hn. cbn [e_num e_den] in *. unfold add_fmpq. cbn [e_num e_den].
  assert (ND : IZR D <> 0) by (apply not_0_IZR; lia). assert (Nd : IZR d <> 0) by (apply not_0_IZR; lia).
  destruct num as [|a [|b q]].
  - destruct (constant_ok n d Hd Hn) as [A B]. split; [exact A|]. intros x. rewrite B. unfold ev. cbn [e_num e_den]. rewrite zeval_nil. field. split; assumption.
  - unfold fmpq_sum. set (m := (a * d + n * D)%Z). set (g := Z.gcd m (D * d)).
    assert (Hg : (0 < g)%Z).
    { unfold g. pose proof (Z.gcd_nonneg m (D * d)). assert (Z.gcd m (D * d) <> 0)%Z by (intros W; apply Z.gcd_eq_0_r in W; nia). lia. }
    destruct (Z.gcd_divide_l m (D * d)) as (u & Eu). destruct (Z.gcd_divide_r m (D * d)) as (v & Ev). fold g in Eu, Ev.
    replace (m / g)%Z with u by (rewrite Eu, Z.div_mul; lia). replace (D * d / g)%Z with v by (rewrite Ev, Z.div_mul; lia).
    assert (Hv : (0 < v)%Z) by nia.
    destruct (constant_ok u v) as [A B]; [exact Hv| |].
    { pose proof (Z.gcd_mul_mono_r u v g) as W. rewrite <- Eu, <- Ev in W. change (Z.gcd m (D * d)) with g in W. rewrite Z.abs_eq in W by lia. nia. }
    split; [exact A|]. intros x. rewrite B. unfold ev. cbn [e_num e_den]. rewrite zeval_cons, zeval_nil.
    replace (IZR u) with (IZR m / IZR g) by (rewrite Eu, mult_IZR; field; apply not_0_IZR; lia).
    replace (IZR v) with (IZR D * IZR d / IZR g) by (rewrite <- mult_IZR, Ev, mult_IZR; field; apply not_0_IZR; lia).
    unfold m. rewrite plus_IZR, !mult_IZR. field. repeat split; try assumption. apply not_0_IZR; lia.
  - set (num := a :: b :: q) in *.
    destruct (Z.eqb_spec D d) as [<-|ND'].
    + (* equal denominators *)
      set (nm := add_first num n). assert (Enm : nm = (a + n)%Z :: b :: q) by reflexivity.
      assert (V : forall x, zeval nm x / IZR D = ev x {| e_num := num; e_den := D |} + IZR n / IZR D).
      { intros x. unfold ev. cbn [e_num e_den]. unfold nm. rewrite zeval_first by discriminate. field. exact ND. }
      assert (Ln : last nm 1%Z <> 0%Z) by (rewrite Enm; exact HL).
      assert (Nn : nm <> []) by (rewrite Enm; discriminate).
      destruct (Z.eqb_spec D 1) as [->|N1].
      { apply finish1; [exact Nn|exact Ln|lia| |exact V]. intros h Hh Dh _. apply Z.divide_1_r_nonneg; [lia|exact Dh]. }
      destruct (Z.eqb_spec (Z.gcd D (hd 0%Z nm)) 1) as [G1|G1].
      { apply finish1; [exact Nn|exact Ln|lia| |exact V]. intros h Hh Dh Ch. apply Z.divide_1_r_nonneg; [lia|]. rewrite <- G1.
        apply Z.gcd_greatest; [exact Dh|]. rewrite Enm. cbn [hd]. apply Ch. rewrite Enm. left. reflexivity. }
      destruct (Z.eqb_spec (content nm) 1) as [C1|C1].
      { apply finish1; [exact Nn|exact Ln|lia| |exact V]. intros h Hh _ Ch. apply Z.divide_1_r_nonneg; [lia|]. rewrite <- C1. apply content_greatest, Ch. }
      apply finish; [exact Nn|exact Ln|lia| | | | |exact V].
      * pose proof (Z.gcd_nonneg (content nm) D). assert (Z.gcd (content nm) D <> 0)%Z by (intros W; apply Z.gcd_eq_0_r in W; lia). lia.
      * apply Z.gcd_divide_r.
      * intros c Hc. eapply Z.divide_trans; [apply Z.gcd_divide_l|apply content_divides, Hc].
      * intros h Hh Dh Ch. apply Z.gcd_greatest; [apply content_greatest, Ch|exact Dh].
    + replace (if negb (D =? 1)%Z && negb (d =? 1)%Z then Z.gcd D d else 1%Z) with (Z.gcd D d).
      2:{ destruct (Z.eqb_spec D 1) as [->|?]; [rewrite Z.gcd_1_l; reflexivity|]. destruct (Z.eqb_spec d 1) as [->|?]; [rewrite Z.gcd_1_r|]; reflexivity. }
      set (g := Z.gcd D d).
      assert (Hg : (0 < g)%Z) by (unfold g; pose proof (Z.gcd_nonneg D d); assert (Z.gcd D d <> 0)%Z by (intros W; apply Z.gcd_eq_0_l in W; lia); lia).
      destruct (Z.gcd_divide_l D d) as (u & Eu). destruct (Z.gcd_divide_r D d) as (v & Ev). fold g in Eu, Ev.
      assert (Hu : (0 < u)%Z) by nia. assert (Hv : (0 < v)%Z) by nia.
      pose proof (cross a (b :: q) D n d g u v HD Hd HG Hn eq_refl Eu Ev) as X. fold num in X.
      replace (D / g)%Z with u by (rewrite Eu, Z.div_mul; lia). replace (d / g)%Z with v by (rewrite Ev, Z.div_mul; lia).
      set (nm := add_first (map (fun c => c * v)%Z num) (n * u)%Z) in *.
      assert (Enm : nm = (a * v + n * u)%Z :: map (fun c => c * v)%Z (b :: q)) by reflexivity.
      assert (Nn : nm <> []) by (rewrite Enm; discriminate).
      assert (Ln : last nm 1%Z <> 0%Z).
      { rewrite Enm. change (last (map (fun c => c * v)%Z (b :: q)) 1%Z <> 0%Z). apply last_times; [lia|discriminate|exact HL]. }
      assert (V : forall x, zeval nm x / IZR (D * v) = ev x {| e_num := num; e_den := D |} + IZR n / IZR d).
      { intros x. unfold ev. cbn [e_num e_den]. unfold nm. rewrite zeval_first by discriminate. rewrite zeval_times.
        rewrite Ev, Eu, !mult_IZR. field. repeat split; apply not_0_IZR; lia. }
      assert (HDv : (0 < D * v)%Z) by nia.
      destruct (Z.eqb_spec g 1) as [G1|G1].
      * assert (u = D) by nia. assert (v = d) by nia. subst u. subst v.
        apply finish1; [exact Nn|exact Ln|exact HDv| |exact V].
        intros h Hh Dh Ch. apply Z.divide_1_r_nonneg; [lia|]. rewrite <- G1. apply X; assumption.
      * set (e := if (content nm =? 1)%Z then content nm else Z.gcd (content nm) g).
        assert (He : (0 < e)%Z /\ (forall c, In c nm -> (e | c)%Z) /\ (e | g)%Z /\ (forall h, (0 < h)%Z -> (h | D * v)%Z -> (forall c, In c nm -> (h | c)%Z) -> (h | e)%Z)).
        { unfold e. destruct (Z.eqb_spec (content nm) 1) as [C1|C1].
          - rewrite C1. repeat split; try lia; [intros c _; apply Z.divide_1_l|apply Z.divide_1_l|]. intros h Hh _ Ch. rewrite <- C1. apply content_greatest, Ch.
          - repeat split.
            + pose proof (Z.gcd_nonneg (content nm) g). assert (Z.gcd (content nm) g <> 0)%Z by (intros W; apply Z.gcd_eq_0_r in W; lia). lia.
            + intros c Hc. eapply Z.divide_trans; [apply Z.gcd_divide_l|apply content_divides, Hc].
            + apply Z.gcd_divide_r.
            + intros h Hh Dh Ch. apply Z.gcd_greatest; [apply content_greatest, Ch|apply X; assumption]. }
        clearbody e. destruct He as (He & De & Dg & Ge).
        destruct (Z.eqb_spec e 1) as [E1|E1].
        { apply finish1; [exact Nn|exact Ln|exact HDv| |exact V]. intros h Hh Dh Ch. apply Z.divide_1_r_nonneg; [lia|]. rewrite <- E1. apply Ge; assumption. }
        destruct Dg as (w & Ew).
        replace (D / e * v)%Z with (D * v / e)%Z.
        { apply finish; [exact Nn|exact Ln|exact HDv|exact He| |exact De|exact Ge|exact V].
          exists (u * w * v)%Z. rewrite Eu, Ew. ring. }
        rewrite Eu, Ew. replace (u * (w * e) * v)%Z with (u * w * v * e)%Z by ring. replace (u * (w * e))%Z with (u * w * e)%Z by ring.
        rewrite !Z.div_mul by lia. ring.
Qed.
