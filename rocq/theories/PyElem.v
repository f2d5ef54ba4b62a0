(** Elements to SageMath and back. *)
Require Import Reals List ZArith Bool Lia Lra.
From Verif Require Import PolyR RootSpec Dyadic ArbModel ElemModel ElemSpec ElemProofs ElemMore CxxModel CxxNum PyModel PySpec.
Import ListNotations.
Open Scope R_scope.

Lemma reduced_ok : forall n d, (0 < d)%Z -> (0 < snd (reduced n d))%Z /\ Z.gcd (fst (reduced n d)) (snd (reduced n d)) = 1%Z /\
  IZR (fst (reduced n d)) / IZR (snd (reduced n d)) = IZR n / IZR d.
Proof.
  intros n d D. unfold reduced. cbn [fst snd]. set (g := Z.gcd n d).
  assert (G : (0 < g)%Z) by (pose proof (Z.gcd_nonneg n d); assert (g <> 0)%Z by (intros E; apply Z.gcd_eq_0_r in E; lia); unfold g in *; lia).
  destruct (Z.gcd_divide_l n d) as [a Ha]. destruct (Z.gcd_divide_r n d) as [b Hb]. fold g in Ha, Hb.
  assert (Ea : (n / g = a)%Z) by (rewrite Ha; apply Z.div_mul; lia). assert (Eb : (d / g = b)%Z) by (rewrite Hb; apply Z.div_mul; lia).
  rewrite Ea, Eb. assert (B : (0 < b)%Z) by nia. split; [exact B|]. split.
  - rewrite <- Ea, <- Eb. apply Z.gcd_div_gcd; [lia|reflexivity].
  - rewrite Ha, Hb, !mult_IZR. apply IZR_lt in B. apply IZR_lt in G. field. lra.
Qed.

Lemma lowest_eq : forall p q, lowest p -> lowest q -> IZR (fst p) / IZR (snd p) = IZR (fst q) / IZR (snd q) -> p = q.
Proof.
  intros [a b] [c d] [B1 G1] [D1 G2] E. cbn [fst snd] in *.
  assert (K : (a * d = c * b)%Z).
  { apply eq_IZR. rewrite !mult_IZR. apply IZR_lt in B1. apply IZR_lt in D1. apply (f_equal (fun t => t * (IZR b * IZR d))) in E.
    field_simplify in E; try lra. }
  assert (B : (b | d)%Z) by (apply Z.gauss with a; [exists c; lia|rewrite Z.gcd_comm; exact G1]).
  assert (D : (d | b)%Z) by (apply Z.gauss with c; [exists a; lia|rewrite Z.gcd_comm; exact G2]).
  assert (b = d) by (apply Z.divide_antisym_nonneg; lia || assumption). subst d. f_equal. nia.
Qed.

Lemma rational_poly_map : forall d l y, (0 < d)%Z -> rational_poly (map (fun c => reduced c d) l) y = zeval l y / IZR d.
Proof.
  intros d l y D. induction l as [|c l IH]; [unfold zeval; cbn; lra|]. cbn [map rational_poly]. rewrite IH. destruct (reduced_ok c d D) as (_ & _ & E). rewrite E.
  unfold zeval. cbn [map peval]. unfold Rdiv. ring.
Qed.
Lemma rational_poly_app0 : forall k l y, rational_poly (l ++ repeat (0, 1)%Z k) y = rational_poly l y.
Proof.
  intros k l y. induction l as [|q l IH]; cbn [app rational_poly]; [|rewrite IH; reflexivity].
  induction k as [|k IH]; [reflexivity|]. cbn [repeat rational_poly fst snd]. rewrite IH. cbn [rational_poly]. lra.
Qed.

Lemma common_den_ok : forall v, Forall (fun q => (0 < snd q)%Z) v -> (0 < common_den v)%Z /\ Forall (fun q => (snd q | common_den v)%Z) v.
Proof.
  induction 1 as [|q v Q F [D IH]]; [split; [reflexivity|constructor]|]. unfold common_den in *. cbn [fold_right]. split.
  - pose proof (Z.lcm_nonneg (snd q) (fold_right (fun q d => Z.lcm (snd q) d) 1 v)%Z). assert (Z.lcm (snd q) (fold_right (fun q d => Z.lcm (snd q) d) 1 v) <> 0)%Z by (intros E; apply Z.lcm_eq_0 in E; lia). lia.
  - constructor; [apply Z.divide_lcm_l|]. eapply Forall_impl; [|exact IH]. intros a Ha. eapply Z.divide_trans; [exact Ha|apply Z.divide_lcm_r].
Qed.
Lemma numerators_ok : forall v y, Forall (fun q => (0 < snd q)%Z) v -> zeval (numerators v) y / IZR (common_den v) = rational_poly v y.
Proof.
  intros v y F. destruct (common_den_ok v F) as [D Dv]. unfold numerators. set (d := common_den v) in *. clearbody d. induction F as [|q v Q F IH]; [unfold zeval; cbn; lra|].
  inversion Dv as [|? ? Dq Dv']; subst. specialize (IH Dv'). unfold zeval in *. cbn [map peval rational_poly]. rewrite <- IH.
  destruct Dq as [k Hk]. replace (d / snd q)%Z with k by (rewrite Hk; symmetry; apply Z.div_mul; lia). rewrite mult_IZR.
  assert (E : IZR d = IZR k * IZR (snd q)) by (rewrite <- mult_IZR, <- Hk; reflexivity). apply IZR_lt in Q. apply IZR_lt in D.
  assert (IZR k <> 0) by (intros Z0; rewrite Z0 in E; lra). rewrite E. field. split; lra.
Qed.

Lemma trim_ok : forall v y, rational_poly (trim v) y = rational_poly v y.
Proof.
  induction v as [|q v IH]; intros y; [reflexivity|]. cbn [trim rational_poly]. rewrite <- IH. destruct (trim v) as [|t tv].
  - destruct (Z.eqb_spec (fst q) 0) as [E|]; [|reflexivity]. cbn [rational_poly]. rewrite E. unfold Rdiv. ring.
  - reflexivity.
Qed.
Lemma trim_len : forall v, (length (trim v) <= length v)%nat.
Proof. induction v as [|q v IH]; [reflexivity|]. cbn [trim length]. destruct (trim v); [destruct (fst q =? 0)%Z; cbn; lia|cbn in *; lia]. Qed.
Lemma trim_all : forall P v, Forall P v -> Forall P (trim v).
Proof. intros P. induction 1 as [|q v Q F IH]; [constructor|]. cbn [trim]. destruct (trim v); [destruct (fst q =? 0)%Z; auto|auto]. Qed.
Lemma trim_nil : forall v, Forall (fun q => (0 < snd q)%Z) v -> trim v = [] -> forall y, rational_poly v y = 0.
Proof. intros v F E y. rewrite <- trim_ok, E. reflexivity. Qed.

Lemma trim_long : forall v k, (k < length (trim v))%nat <-> exists i q, (k <= i)%nat /\ nth_error v i = Some q /\ fst q <> 0%Z.
Proof.
  induction v as [|q v IH]; intros k.
  - split; [intros H; cbn in H; lia|intros (i & q & _ & H & _); destruct i; discriminate H].
  - assert (T : (k < length (trim (q :: v)))%nat <-> (k < S (length (trim v)))%nat /\ (length (trim v) = 0%nat -> fst q <> 0%Z)).
    { cbn [trim]. destruct (trim v) as [|a t]; [|cbn [length]; split; [intros L; split; [exact L|discriminate]|intros [L _]; exact L]].
      destruct (Z.eqb_spec (fst q) 0) as [E|E]; cbn [length]; [split; [lia|intros [_ N]; exfalso; apply (N eq_refl), E]|].
      split; [intros L; split; [exact L|intros _; exact E]|intros [L _]; exact L]. }
    rewrite T. split.
    + intros [L N]. destruct k as [|k].
      * destruct (length (trim v)) as [|m] eqn:M; [exists 0%nat, q; split; [lia|split; [reflexivity|exact (N eq_refl)]]|].
        destruct (proj1 (IH 0%nat)) as (i & r & A & B & C); [lia|]. exists (S i), r. split; [lia|]. split; [exact B|exact C].
      * destruct (proj1 (IH k)) as (i & r & A & B & C); [lia|]. exists (S i), r. split; [lia|]. split; [exact B|exact C].
    + intros (i & r & A & B & C). destruct i as [|i].
      * cbn [nth_error] in B. injection B as ->. split; [lia|intros _; exact C].
      * cbn [nth_error] in B. assert (L : (i < length (trim v))%nat) by (apply IH; exists i, r; split; [lia|split; [exact B|exact C]]).
        split; [lia|intros Z0; lia].
Qed.

(** Too long vectors stop with assertions, and nothing else does. *)
Lemma of_sage_abort : forall debug old n pol v, (1 <= length pol)%nat -> of_sage debug old n pol v = Abort <->
  debug = true /\ exists i q, (length pol <= S i)%nat /\ nth_error v i = Some q /\ fst q <> 0%Z.
Proof.
  intros debug old n pol v Hp. pose proof (trim_long v (length pol - 1)) as T. unfold of_sage.
  destruct (Nat.leb_spec (length pol) (length (trim v))) as [L|L].
  - destruct debug; cbn [andb]; [|split; [destruct (old && Nat.eqb (length (trim v)) 0); discriminate|intros [W _]; discriminate W]].
    split; [intros _; split; [reflexivity|]|reflexivity]. destruct (proj1 T) as (i & q & A & B & C); [lia|]. exists i, q. split; [lia|]. split; assumption.
  - rewrite andb_false_r. split; [destruct (old && Nat.eqb (length (trim v)) 0); discriminate|]. intros (_ & i & q & A & B & C). exfalso.
    assert (length pol - 1 < length (trim v))%nat; [|lia]. apply T. exists i, q. split; [lia|]. split; assumption.
Qed.

Section Elem.
Variable pol : list Z.
Variable x : R.
Hypothesis Hm : minimal pol x.

Lemma to_sage_ok : forall e, canon pol e -> length (to_sage pol e) = (length pol - 1)%nat /\ Forall lowest (to_sage pol e) /\ rational_poly (to_sage pol e) x = ev x e.
Proof.
  intros e C. destruct (num_den_ok pol x e C) as (L & D & V & _). unfold to_sage. rewrite map_length, L, Nat.sub_diag, app_nil_r.
  split; [rewrite map_length; exact L|]. split; [|rewrite rational_poly_map by exact D; symmetry; exact V].
  apply Forall_forall. intros q Hq. apply in_map_iff in Hq. destruct Hq as (c & <- & _). destruct (reduced_ok c (den e) D) as (A & B & _). split; assumption.
Qed.

(** Vectors of the same value are equal. *)
Lemma vector_unique : forall u v, Forall lowest u -> Forall lowest v -> length u = length v -> (length v < length pol)%nat ->
  rational_poly u x = rational_poly v x -> u = v.
Proof.
  intros u v Fu Fv Luv Lv E.
  assert (Pu : Forall (fun q => (0 < snd q)%Z) u) by (eapply Forall_impl; [|exact Fu]; intros a [A _]; exact A).
  assert (Pv : Forall (fun q => (0 < snd q)%Z) v) by (eapply Forall_impl; [|exact Fv]; intros a [A _]; exact A).
  destruct (common_den_ok u Pu) as [Du Hu]. destruct (common_den_ok v Pv) as [Dv Hv].
  pose proof (numerators_ok u x Pu) as Nu. pose proof (numerators_ok v x Pv) as Nv. unfold numerators in *.
  set (d := common_den u) in *. set (f := common_den v) in *. clearbody d f.
  set (w := map (fun '(p, q) => (f * (fst p * (d / snd p)) - d * (fst q * (f / snd q)))%Z) (combine u v)).
  assert (Ew : forall y, zeval w y = IZR f * zeval (map (fun q => (fst q * (d / snd q))%Z) u) y - IZR d * zeval (map (fun q => (fst q * (f / snd q))%Z) v) y).
  { intros y. unfold w. clear -Luv. revert v Luv. induction u as [|p u IH]; intros [|q v] L; try discriminate; [unfold zeval; cbn; ring|].
    cbn [combine map]. unfold zeval in *. cbn [map peval]. rewrite IH by (injection L; auto). rewrite minus_IZR, !mult_IZR. ring. }
  assert (W0 : Forall (fun c => c = 0%Z) w).
  { apply (min_short _ _ Hm); [unfold w; rewrite map_length, combine_length; lia|]. rewrite Ew. apply IZR_lt in Du. apply IZR_lt in Dv.
    rewrite <- Nu, <- Nv in E. apply (f_equal (fun t => t * (IZR d * IZR f))) in E. field_simplify in E; try lra. }
  clear Ew E Nu Nv. unfold w in W0. clear w Lv. revert v Luv Fv Pv Hv W0. induction Fu as [|p u Lp Fu IH]; intros [|q v] L Fv Pv Hv W0; try discriminate; [reflexivity|].
  inversion Pu as [|? ? Pp Pu']; subst. inversion Hu as [|? ? Hp Hu']; subst. inversion Fv as [|? ? Lq Fv']; subst. inversion Pv as [|? ? Pq Pv']; subst.
  inversion Hv as [|? ? Hq Hv']; subst. cbn [combine map] in W0. inversion W0 as [|? ? W W0']; subst. f_equal; [|apply IH; auto].
  apply lowest_eq; [exact Lp|exact Lq|]. destruct Hp as [a Ha]. destruct Hq as [b Hb].
  replace (d / snd p)%Z with a in W by (rewrite Ha; symmetry; apply Z.div_mul; lia). replace (f / snd q)%Z with b in W by (rewrite Hb; symmetry; apply Z.div_mul; lia).
  assert (A : (a <> 0)%Z) by (intros ->; lia). assert (B : (b <> 0)%Z) by (intros ->; lia).
  assert (K : (fst p * snd q = fst q * snd p)%Z) by (rewrite Ha, Hb in W; apply (Z.mul_reg_r _ _ (a * b)); [nia|lia]).
  apply (f_equal IZR) in K. rewrite !mult_IZR in K. apply IZR_lt in Pp. apply IZR_lt in Pq. apply (Rmult_eq_reg_r (IZR (snd p) * IZR (snd q))); [|nra]. field_simplify; lra.
Qed.

Variable n : nfops.
Hypothesis Hn : nf_ok pol x n.

Lemma of_sage_ok : forall debug old v, Forall (fun q => (0 < snd q)%Z) v -> (length v < length pol)%nat -> (old = true -> rational_poly v x <> 0) ->
  exists e, of_sage debug old n pol v = Val e /\ canon pol e /\ ev x e = rational_poly v x.
Proof.
  intros debug old v F L O. pose proof (trim_all _ _ F) as Ft. pose proof (trim_len v) as Lt. unfold of_sage. destruct (common_den_ok _ Ft) as [D _].
  destruct (Nat.leb_spec (length pol) (length (trim v))); [lia|]. rewrite andb_false_r.
  assert (K : old && Nat.eqb (length (trim v)) 0 = false).
  { destruct old; [|reflexivity]. destruct (trim v) eqn:Et; [|reflexivity]. exfalso. apply (O eq_refl). apply trim_nil; assumption. }
  rewrite K. destruct (nk_set_poly _ _ _ Hn (numerators (trim v)) (common_den (trim v)) D) as [C V]. eexists. split; [reflexivity|]. split; [exact C|].
  rewrite V, numerators_ok by exact Ft. apply trim_ok.
Qed.

Lemma lowest_pos : forall v, Forall lowest v -> Forall (fun q => (0 < snd q)%Z) v.
Proof. intros v F. eapply Forall_impl; [|exact F]. intros a [A _]. exact A. Qed.

Lemma pickled_same : forall debug old e, canon pol e -> (old = true -> ev x e <> 0) -> pickled debug old n pol e = Val e.
Proof.
  intros debug old e C O. destruct (to_sage_ok e C) as (L & F & V). pose proof (min_len _ _ Hm) as L2. unfold pickled.
  destruct (of_sage_ok debug old (to_sage pol e)) as (e' & E & C' & V'); [apply lowest_pos; exact F|lia|rewrite V; exact O|].
  rewrite E. f_equal. apply (canon_unique pol x Hm); [exact C'|exact C|]. rewrite V', V. reflexivity.
Qed.

Lemma sage_back : forall debug old v, Forall lowest v -> length v = (length pol - 1)%nat -> (old = true -> rational_poly v x <> 0) ->
  exists e, of_sage debug old n pol v = Val e /\ canon pol e /\ ev x e = rational_poly v x /\ to_sage pol e = v.
Proof.
  intros debug old v F L O. pose proof (min_len _ _ Hm) as L2. destruct (of_sage_ok debug old v) as (e & E & C & V); [apply lowest_pos; exact F|lia|exact O|].
  exists e. split; [exact E|]. split; [exact C|]. split; [exact V|]. destruct (to_sage_ok e C) as (L' & F' & V').
  apply vector_unique; [exact F'|exact F|congruence|lia|]. rewrite V', V. reflexivity.
Qed.

Lemma pickled_zero : forall debug e, canon pol e -> ev x e = 0 -> pickled debug true n pol e = Undef.
Proof.
  intros debug e C V. assert (N : e_num e = []) .
  { destruct (e_num e) as [|c l] eqn:E; [reflexivity|]. exfalso. unfold ev in V. pose proof (can_den _ _ C) as D. apply IZR_lt in D.
    assert (Z0 : zeval (e_num e) x = 0) by (unfold Rdiv in V; apply Rmult_integral in V; destruct V as [V|V]; [exact V|pose proof (Rinv_0_lt_compat _ D); lra]).
    pose proof (min_short _ _ Hm _ (can_len _ _ C) Z0) as F. apply (can_last _ _ C). rewrite E in F |- *. clear -F.
    rewrite Forall_forall in F. apply F. destruct (exists_last (l := c :: l)) as (l' & a & E); [discriminate|]. rewrite E, last_last. apply in_or_app. right. left. reflexivity. }
  assert (R : forall k, trim (repeat (0, 1)%Z k) = []) by (induction k as [|k IH]; [reflexivity|]; cbn [repeat trim]; rewrite IH; reflexivity).
  assert (Q : forall d k, (0 < d)%Z -> map (fun c => reduced c d) (repeat 0%Z k) = repeat (0, 1)%Z k).
  { intros d k D. induction k as [|k IH]; [reflexivity|]. cbn [repeat map]. rewrite IH. unfold reduced. rewrite Z.gcd_0_l, Z.abs_eq by lia. rewrite Z.div_0_l, Z.div_same by lia. reflexivity. }
  pose proof (min_len _ _ Hm) as L2. unfold pickled, of_sage, to_sage, num_vector. rewrite N. cbn [app length]. unfold den. rewrite (Q _ _ (can_den _ _ C)). rewrite <- repeat_app, R. cbn [length].
  destruct (Nat.leb_spec (length pol) 0); [lia|]. rewrite andb_false_r. reflexivity.
Qed.

Lemma to_rational_ok : forall debug e, canon pol e ->
  (forall a d, to_rational debug e = Val (Ret (a, d)) <-> lowest (a, d) /\ ev x e = IZR a / IZR d) /\
  (to_rational debug e = Val Throw <-> ~ exists a d, (0 < d)%Z /\ ev x e = IZR a / IZR d).
Proof.
  intros debug e C. pose proof (is_rational_spec pol x Hm e C) as S. unfold to_rational. destruct (is_rational e) eqn:Q.
  - pose proof (proj1 S eq_refl) as (a0 & d0 & D0 & V0). destruct (to_mpq_rational debug pol x Hm e C) as (a & d & T & D & G & V); [exact (proj1 S eq_refl)|].
    rewrite T. cbn [bind fst snd]. destruct (reduced_ok a d D) as (R1 & R2 & R3). split.
    + intros b f. split.
      * intros E0. assert (E : reduced a d = (b, f)) by congruence. rewrite E in R1, R2, R3. split; [split; assumption|]. rewrite V. symmetry. exact R3.
      * intros [Lf Vf]. do 2 f_equal. rewrite (surjective_pairing (reduced a d)). rewrite <- surjective_pairing. apply lowest_eq; [split; assumption|exact Lf|]. cbn [fst snd]. rewrite R3, <- V. exact Vf.
    + split; [discriminate|]. intros K. exfalso. apply K. exists a, d. auto.
  - split.
    + intros a d. split; [discriminate|]. intros [[L1 _] V]. cbn in L1. assert (false = true) by (apply S; exists a, d; auto). discriminate.
    + split; [|reflexivity]. intros _ (a & d & D & V). assert (false = true) by (apply S; exists a, d; auto). discriminate.
Qed.

Lemma to_integer_ok : forall debug e, canon pol e ->
  (forall z, to_integer debug e = Val (Ret z) <-> ev x e = IZR z) /\ (to_integer debug e = Val Throw <-> ~ exists z, ev x e = IZR z).
Proof.
  intros debug e C. pose proof (is_integer_spec pol x Hm e C) as S. unfold to_integer. destruct (is_integer e) eqn:Q.
  - destruct (proj1 S eq_refl) as (z & V). destruct (to_rational_ok debug e C) as [R _].
    assert (E : to_rational debug e = Val (Ret (z, 1%Z))) by (apply R; split; [split; [reflexivity|apply Z.gcd_1_r]|cbn; lra]).
    rewrite E. cbn [bind fst]. split.
    + intros y. split; [intros [= ->]; exact V|]. intros Vy. do 2 f_equal. apply eq_IZR. lra.
    + split; [discriminate|]. intros K. exfalso. apply K. exists z. exact V.
  - split.
    + intros z. split; [discriminate|]. intros V. assert (false = true) by (apply S; exists z; exact V). discriminate.
    + split; [|reflexivity]. intros _ (z & V). assert (false = true) by (apply S; exists z; exact V). discriminate.
Qed.
End Elem.
