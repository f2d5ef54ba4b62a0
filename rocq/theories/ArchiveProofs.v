(** Archives of elements (C47). *)
Require Import Reals List ZArith Bool Lia Lra Ascii.
From Verif Require Import PolyR RootSpec RootModel Dyadic DyadicProofs ArbModel ArbSpec ArbProofs FieldProofs RefineProofs
  ElemModel ElemSpec ElemProofs GetdModel StrModel StrSpec StrProofs StrMore CxxModel MakeModel MakeSpec MakeProofs.
Import ListNotations.
Open Scope R_scope.

(** A rational polynomial in lowest terms is determined by its values. *)
Lemma lowest_unique : forall a b, lowest_terms a -> lowest_terms b -> (forall y, ev y a = ev y b) -> a = b.
Proof.
  intros a b Ha Hb E.
  pose proof (lt_den _ Ha) as Da. pose proof (lt_den _ Hb) as Db.
  assert (Za : IZR (e_den a) <> 0) by (apply not_0_IZR; lia).
  assert (Zb : IZR (e_den b) <> 0) by (apply not_0_IZR; lia).
  assert (Hz : Forall (fun c => c = 0%Z) (lcomb (e_den b) (e_den a) (e_num a) (e_num b))).
  { assert (V : forall y, zeval (lcomb (e_den b) (e_den a) (e_num a) (e_num b)) y = 0).
    { intros y. rewrite zeval_lcomb. specialize (E y). unfold ev in E.
      assert (zeval (e_num a) y = zeval (e_num b) y / IZR (e_den b) * IZR (e_den a)) as -> by (rewrite <- E; field; assumption).
      field. assumption. }
    pose proof (peval_zero_interval (map IZR (lcomb (e_den b) (e_den a) (e_num a) (e_num b))) 0 1 ltac:(lra)) as P.
    assert (P' : pzero (map IZR (lcomb (e_den b) (e_den a) (e_num a) (e_num b)))) by (apply P; intros; apply V).
    unfold pzero in P'. rewrite Forall_map in P'. eapply Forall_impl; [|exact P']. intros c Hc. apply eq_IZR. exact Hc. }
  pose proof (lcomb_nth _ _ _ _ Hz) as Hn.
  set (g := Z.gcd (e_den a) (e_den b)).
  assert (Hg : (0 < g)%Z).
  { assert (0 <= g)%Z by apply Z.gcd_nonneg. assert (g <> 0)%Z; [|lia]. intros G. apply Z.gcd_eq_0_l in G. lia. }
  destruct (Z.gcd_divide_l (e_den a) (e_den b)) as (a' & Ea). fold g in Ea.
  destruct (Z.gcd_divide_r (e_den a) (e_den b)) as (b' & Eb). fold g in Eb.
  assert (Pa : (0 < a')%Z) by nia. assert (Pb : (0 < b')%Z) by nia.
  assert (Hr : Z.gcd a' b' = 1%Z).
  { assert (Hgg : Z.gcd (a' * g) (b' * g) = g) by (rewrite <- Ea, <- Eb; reflexivity).
    rewrite Z.gcd_mul_mono_r_nonneg in Hgg by lia. nia. }
  assert (Hn' : forall i, (b' * nth i (e_num a) 0 = a' * nth i (e_num b) 0)%Z).
  { intros i. specialize (Hn i). rewrite Ea, Eb in Hn. nia. }
  assert (A1 : a' = 1%Z).
  { apply (lt_gcd _ Ha); [exact Pa|exists g; lia|]. apply In_nth_dvd. intros i.
    apply Z.gauss with b'; [exists (nth i (e_num b) 0%Z); rewrite Hn'; ring|exact Hr]. }
  assert (B1 : b' = 1%Z).
  { apply (lt_gcd _ Hb); [exact Pb|exists g; lia|]. apply In_nth_dvd. intros i.
    apply Z.gauss with a'; [exists (nth i (e_num a) 0%Z); rewrite <- Hn'; ring|rewrite Z.gcd_comm; exact Hr]. }
  subst a' b'. assert (Hs : forall i, nth i (e_num a) 0%Z = nth i (e_num b) 0%Z) by (intros i; specialize (Hn' i); lia).
  assert (Hl : forall p q : list Z, last q 1%Z <> 0%Z -> (forall i, nth i p 0 = nth i q 0)%Z -> (length q <= length p)%nat).
  { clear. intros p q L H. destruct q as [|c q]; [cbn; lia|]. rewrite last_nth in L by discriminate.
    destruct (Nat.le_gt_cases (length (c :: q)) (length p)) as [G|G]; [exact G|exfalso]. apply L. rewrite <- H.
    apply nth_overflow. lia. }
  assert (En : e_num a = e_num b).
  { apply (nth_ext _ _ 0%Z 0%Z); [|intros i _; apply Hs].
    apply Nat.le_antisymm; apply Hl; try (apply lt_last; assumption); intros i; [symmetry|]; apply Hs. }
  destruct a, b. cbn in *. f_equal; [exact En|lia].
Qed.

Section Archive.
Variables (o : arbops) (debug : bool) (zd : Z -> out (option (Z * Z))) (read : str -> Z -> option ball) (fuel : nat).
Variables (show : ball -> Z -> str) (print_poly print_el : str -> elem -> str).
Variable ops : list Z -> nfops.

(** ** A field is read back from its texts *)
Definition remade (n : nat) (p : place) : out (exc renf * nat) :=
  let '(pol, name, emb, prec) := construction show print_poly p in make_str o debug zd read fuel n pol name emb prec.

Lemma poly_back : print_ok print_poly -> forall p, name (pl_name p) -> lowest_terms (pol_of (pl_nf p)) ->
  (Z.of_nat (length (f_pol (pl_nf p))) <= long_max)%Z ->
  set_str zd (pl_name p) (print_poly (pl_name p) (pol_of (pl_nf p))) = Val (Some (pol_of (pl_nf p))).
Proof.
  intros Hpp p Hna Hlow Hlen. destruct (Hpp (pl_name p) (pol_of (pl_nf p)) Hna Hlow Hlen) as (ts & F & V & _).
  destruct (set_str_value zd false (pl_name p) _ ts Hna F) as (q & Es & L & W). rewrite Es. do 2 f_equal.
  apply lowest_unique; [exact L|exact Hlow|]. intros y. rewrite W. apply V.
Qed.

(** The bits of an odd mantissa, as arf_bits counts them. *)
Lemma land_low : forall u, Z.odd u = true -> Z.land u (- u) = 1%Z.
Proof.
  intros u H. apply Zodd_bool_iff in H. destruct (Zodd_ex _ H) as (v & ->).
  apply Z.bits_inj'. intros i Hi. replace (- (2 * v + 1))%Z with (2 * Z.lnot v + 1)%Z by (unfold Z.lnot; lia). rewrite Z.land_spec.
  destruct (Z.eq_dec i 0) as [->|N]; [rewrite !Z.testbit_odd_0; reflexivity|].
  replace i with (Z.succ (i - 1)) by lia. rewrite !Z.testbit_odd_succ by lia. rewrite Z.lnot_spec by lia.
  rewrite andb_negb_r. symmetry. transitivity (Z.testbit 0 (i - 1)); [apply (Z.testbit_odd_succ 0); lia|apply Z.testbit_0_l].
Qed.
Lemma mid_bits_spec : forall u k e r, Z.odd u = true -> (0 <= k)%Z ->
  (2 ^ (mid_bits (Fin (u * 2 ^ k, e)%Z r) - 1) <= Z.abs u < 2 ^ mid_bits (Fin (u * 2 ^ k, e)%Z r))%Z.
Proof.
  intros u k e r Hu Hk. assert (Hu0 : u <> 0%Z) by (intros ->; discriminate Hu).
  assert (P : (0 < 2 ^ k)%Z) by (apply Z.pow_pos_nonneg; lia).
  assert (E : mid_bits (Fin (u * 2 ^ k, e)%Z r) = (Z.log2 (Z.abs u) + 1)%Z).
  { cbn [mid_bits fst]. unfold odd_bits, zbits. destruct (Z.eqb_spec (u * 2 ^ k) 0) as [Z0|_]; [exfalso; nia|].
    assert (L : Z.land (u * 2 ^ k) (- (u * 2 ^ k)) = (2 ^ k)%Z).
    { rewrite <- Z.mul_opp_l, <- !Z.shiftl_mul_pow2 by lia. rewrite <- Z.shiftl_land, land_low by exact Hu.
      rewrite Z.shiftl_mul_pow2 by lia. lia. }
    rewrite L, Z.log2_pow2, Z.abs_mul, (Z.abs_eq (2 ^ k)) by lia. rewrite Z.log2_mul_pow2 by lia. lia. }
  rewrite E. destruct (Z.log2_spec (Z.abs u) ltac:(lia)) as [A B]. rewrite <- Z.add_1_r in B.
  replace (Z.log2 (Z.abs u) + 1 - 1)%Z with (Z.log2 (Z.abs u)) by lia. split; assumption.
Qed.
Lemma odd_part : forall n m, (Z.abs m < Z.of_nat n)%Z -> m <> 0%Z -> exists u k, Z.odd u = true /\ (0 <= k)%Z /\ m = (u * 2 ^ k)%Z.
Proof.
  induction n as [|n IH]; intros m Hn Hm; [lia|]. destruct (Z.odd m) eqn:O; [exists m, 0%Z; repeat split; [exact O|lia|cbn; lia]|].
  rewrite <- Z.negb_even in O. apply negb_false_iff, Z.even_spec in O. destruct O as (h & ->).
  destruct (IH h ltac:(lia) ltac:(lia)) as (u & k & A & B & ->). exists u, (k + 1)%Z.
  split; [exact A|]. split; [lia|]. rewrite Z.pow_add_r by lia. lia.
Qed.
Lemma mid_bits_pos : forall m r, fst m <> 0%Z -> (1 <= mid_bits (Fin m r))%Z.
Proof.
  intros [m e] r Hm. cbn [fst] in Hm. destruct (odd_part (S (Z.to_nat (Z.abs m))) m ltac:(lia) Hm) as (u & k & A & B & ->).
  destruct (mid_bits_spec u k e r A B) as [_ C]. destruct (Z_lt_le_dec (mid_bits (Fin (u * 2 ^ k, e)%Z r)) 1) as [L|L]; [|exact L]. exfalso.
  assert (D : (2 ^ mid_bits (Fin (u * 2 ^ k, e)%Z r) <= 2 ^ 0)%Z).
  { destruct (Z_lt_le_dec (mid_bits (Fin (u * 2 ^ k, e)%Z r)) 0) as [N|N]; [rewrite Z.pow_neg_r by lia; cbn; lia|apply Z.pow_le_mono_r; lia]. }
  change (2 ^ 0)%Z with 1%Z in D. destruct (Z.eq_dec u 0) as [->|]; [discriminate A|lia].
Qed.

Lemma field_back : arb_ok o -> zero_den_ok zd -> read_ok read -> show_ok show -> print_ok print_poly ->
  forall p x N mid rad, name (pl_name p) -> lowest_terms (pol_of (pl_nf p)) ->
  (Z.of_nat (length (f_pol (pl_nf p))) <= long_max)%Z ->
  inb x (f_emb (pl_nf p)) -> f_emb (pl_nf p) = Fin mid rad -> fst mid <> 0%Z ->
  (2 <= f_prec (pl_nf p))%Z ->
  simple_root (f_pol (pl_nf p)) x -> safe_balls o (f_pol (pl_nf p)) x N -> (forall b, inb x b -> N b) ->
  forall n nf k, remade n p = Val (Ret nf, k) ->
  same_field (pl_nf p) nf /\ inb x (f_emb nf) /\ (is_finite (f_emb nf) = true -> isolating (f_pol nf) x (f_emb nf)).
Proof.
  intros Ho Hzd Hrd Hsh Hpp p x N mid rad Hna Hlow Hlen Hx Hemb Hmid Hprec Hsr Hsafe HN n nf k E.
  assert (Hfin : is_finite (f_emb (pl_nf p)) = true) by (rewrite Hemb; reflexivity).
  assert (Hbits : (1 <= mid_bits (f_emb (pl_nf p)))%Z) by (rewrite Hemb; apply mid_bits_pos, Hmid).
  unfold remade, construction in E.
  destruct (make_returns o debug zd read Ho Hzd fuel n _ _ _ _ nf k E)
    as (_ & ts & q & b & Hf & Hq & _ & Hb & S1 & S2 & S3 & _ & _ & _ & Hroot).
  assert (Eq : q = pol_of (pl_nf p)).
  { destruct (set_str_value zd true _ _ ts Hna Hf) as (q2 & Es & L2 & W2). rewrite poly_back in Es by assumption. injection Es as <-.
    destruct Hq as [Lq Wq]. apply lowest_unique; [exact Lq|exact Hlow|]. intros y. rewrite Wq, <- W2. reflexivity. }
  subst q. cbn [pol_of e_num e_den] in *.
  destruct (Hsh (f_emb (pl_nf p)) (mid_bits (f_emb (pl_nf p))) Hbits Hfin (ex_intro _ x Hx)) as (t & Et & Enc & _).
  destruct (Hrd _ t (f_prec (pl_nf p)) Hprec Et) as (b' & Eb & Inc). rewrite Eb in Hb. injection Hb as ->.
  assert (Hxb : inb x b) by (apply Inc, Enc, Hx).
  destruct (Hroot x N Hsafe Hsr Hxb (HN b Hxb)) as (A & B & _).
  split; [repeat split; assumption|]. split; [exact A|]. rewrite S1. exact B.
Qed.

(** ** Whole archives *)

(** The addresses in the order of their first occurrence. *)
Fixpoint firsts (known : list nat) (l : list (place * elem)) : list nat :=
  match l with
  | [] => known
  | x :: l' => firsts (match index_of (pl_addr (fst x)) known with Some _ => known | None => known ++ [pl_addr (fst x)] end) l'
  end.

Lemma index_of_app : forall a l l' i, index_of a l = Some i -> index_of a (l ++ l') = Some i.
Proof.
  intros a. induction l as [|b l IH]; intros l' i H; [discriminate|]. cbn [app index_of] in *.
  destruct (Nat.eqb b a); [exact H|]. destruct (index_of a l) as [j|]; [|discriminate].
  rewrite (IH l' j eq_refl). exact H.
Qed.
Lemma index_of_new : forall a l, index_of a l = None -> index_of a (l ++ [a]) = Some (length l).
Proof.
  intros a. induction l as [|b l IH]; intros H; cbn [app index_of length] in *.
  - rewrite Nat.eqb_refl. reflexivity.
  - destruct (Nat.eqb b a); [discriminate|]. destruct (index_of a l); [discriminate|]. rewrite IH; reflexivity.
Qed.
Lemma index_of_nth : forall a l i, index_of a l = Some i -> nth_error l i = Some a.
Proof.
  intros a. induction l as [|b l IH]; intros i H; [discriminate|]. cbn [index_of] in H.
  destruct (Nat.eqb_spec b a) as [->|]; [injection H as <-; reflexivity|].
  destruct (index_of a l) as [j|]; [|discriminate]. injection H as <-. apply (IH j eq_refl).
Qed.
Lemma index_of_none : forall a l, index_of a l = None -> ~ In a l.
Proof.
  intros a. induction l as [|b l IH]; intros H; [intros []|]. cbn [index_of] in H.
  destruct (Nat.eqb_spec b a) as [->|Hne]; [discriminate|]. destruct (index_of a l); [discriminate|].
  intros [E|B]; [contradiction|exact (IH eq_refl B)].
Qed.
Lemma firsts_ext : forall l known a i, index_of a known = Some i -> index_of a (firsts known l) = Some i.
Proof.
  induction l as [|x l IH]; intros known a i H; [exact H|]. cbn [firsts]. apply IH.
  destruct (index_of (pl_addr (fst x)) known); [exact H|]. apply index_of_app. exact H.
Qed.
Lemma firsts_app : forall l known, exists t, firsts known l = known ++ t.
Proof.
  induction l as [|x l IH]; intros known; [exists []; rewrite app_nil_r; reflexivity|]. cbn [firsts].
  destruct (index_of (pl_addr (fst x)) known).
  - apply IH.
  - destruct (IH (known ++ [pl_addr (fst x)])) as [t E]. rewrite E, <- app_assoc. eexists. reflexivity.
Qed.

(** The identifiers of the loader: number i+1 for position i. *)
Fixpoint numbered (k : nat) : list (nat * nat) := match k with O => [] | S k' => (S k', k') :: numbered k' end.
Lemma id_at_numbered : forall k i, (i < k)%nat -> id_at (S i) (numbered k) = Some i.
Proof.
  induction k as [|k IH]; intros i H; [lia|]. cbn [numbered id_at]. destruct (Nat.eqb_spec (S k) (S i)) as [E|E].
  - f_equal. lia.
  - apply IH. lia.
Qed.

(** [back a]: name and value of the field made from the texts of the field at [a]. *)
Variable back : nat -> str * renf.
Variable n : nat.

(** Conditions on one saved element. *)
Record savable (x : place * elem) : Prop := {
  sv_remade : exists k, remade n (fst x) = Val (Ret (snd (back (pl_addr (fst x)))), k);
  sv_name : fst (back (pl_addr (fst x))) = pl_name (fst x);
  sv_elem : of_string zd (ops (f_pol (snd (back (pl_addr (fst x)))))) (pl_name (fst x)) (print_el (pl_name (fst x)) (snd x)) = Val (Some (snd x))
}.

(** The conditions follow from the contracts and from a field being made. *)
Record sound (x : place * elem) : Prop := {
  so_name : name (pl_name (fst x));
  so_pol : lowest_terms (pol_of (pl_nf (fst x)));
  so_len : (Z.of_nat (length (f_pol (pl_nf (fst x)))) <= long_max)%Z;
  so_ops : exists r, minimal (f_pol (pl_nf (fst x))) r /\ nf_ok (f_pol (pl_nf (fst x))) r (ops (f_pol (pl_nf (fst x))));
  so_elem : canon (f_pol (pl_nf (fst x))) (snd x);
  so_made : exists k, remade n (fst x) = Val (Ret (snd (back (pl_addr (fst x)))), k);
  so_back : fst (back (pl_addr (fst x))) = pl_name (fst x)
}.
Lemma sound_savable : arb_ok o -> zero_den_ok zd -> print_ok print_poly -> print_ok print_el -> forall x, sound x -> savable x.
Proof.
  intros Ho Hzd Hpp Hpe [p e] [Hna Hlow Hlen (r & Hm & Hops) Hc (k & Hk) Hb]. cbn [fst snd] in *.
  constructor; cbn [fst snd]; [exists k; exact Hk|exact Hb|].
  assert (Ep : f_pol (snd (back (pl_addr p))) = f_pol (pl_nf p)).
  { unfold remade, construction in Hk.
    destruct (make_returns o debug zd read Ho Hzd fuel n _ _ _ _ _ k Hk) as (_ & ts & q & b & Hf & Hq & _ & _ & S1 & _).
    destruct (set_str_value zd true _ _ ts Hna Hf) as (q2 & Es & L2 & W2). rewrite poly_back in Es by assumption. injection Es as <-.
    destruct Hq as [Lq Wq]. rewrite S1. rewrite (lowest_unique q (pol_of (pl_nf p)) Lq Hlow); [reflexivity|].
    intros y. rewrite Wq, <- W2. reflexivity. }
  rewrite Ep.
  destruct (Hpe (pl_name p) e Hna) as (ts & F & V & _).
  - eapply canon_lowest. exact Hc.
  - pose proof (can_len _ _ Hc). lia.
  - apply (of_string_back (f_pol (pl_nf p)) r _ Hm Hops zd (pl_name p) Hna false _ ts); [exact F|exact Hc|apply V].
Qed.

(** Fields at different addresses have different names or are told apart. *)
Definition apart (l : list (place * elem)) : Prop := forall x y, In x l -> In y l -> pl_addr (fst x) <> pl_addr (fst y) ->
  fst (back (pl_addr (fst x))) <> fst (back (pl_addr (fst y))) \/ renf_equal (snd (back (pl_addr (fst x)))) (snd (back (pl_addr (fst y)))) = false.

Lemma str_eqb_eq : forall s t, str_eqb s t = true -> s = t.
Proof.
  induction s as [|a s IH]; intros [|b t] E; cbn [str_eqb] in E; try discriminate E; [reflexivity|].
  apply andb_true_iff in E. destruct E as [E1 E2]. apply Ascii.eqb_eq in E1. rewrite E1, (IH t E2). reflexivity.
Qed.
Lemma apart_key : forall f g, fst f <> fst g \/ renf_equal (snd f) (snd g) = false -> same_key f g = false.
Proof.
  intros f g [N|E]; unfold same_key; [|rewrite E; reflexivity]. destruct (str_eqb (fst f) (fst g)) eqn:S; [apply str_eqb_eq in S; contradiction|apply andb_false_r].
Qed.

Lemma find_field_none : forall f l, (forall g, In g l -> same_key f g = false) -> find_field f l = None.
Proof.
  intros f. induction l as [|g l IH]; intros H; [reflexivity|]. cbn [find_field].
  rewrite (H g) by (left; reflexivity). rewrite IH by (intros h Hh; apply H; right; exact Hh). reflexivity.
Qed.

Definition loaded (known : list nat) : loader := {| ld_pool := map back known; ld_ids := numbered (length known) |}.

Lemma load_back : forall l all known, Forall savable all -> apart all -> incl l all ->
  (forall a, In a known -> exists x, In x all /\ pl_addr (fst x) = a) -> NoDup known ->
  exists pos, load_all o debug zd read fuel ops n (length l) (loaded known) (save_all show print_poly print_el known l) =
    Val (Ret (combine pos (map snd l), loaded (firsts known l))) /\
  Forall2 (fun i x => index_of (pl_addr (fst x)) (firsts known l) = Some i) pos l.
Proof.
  induction l as [|x l IH]; intros all known Hs Hap Hin Hk Hnd.
  - exists []. split; [reflexivity|constructor].
  - assert (Hx : In x all) by (apply Hin; left; reflexivity).
    assert (Hin' : incl l all) by (intros y Hy; apply Hin; right; exact Hy).
    destruct (proj1 (Forall_forall _ _) Hs x Hx) as [(k & Rm) Nm El].
    destruct x as [p e]. cbn [fst snd] in *.
    cbn [save_all length load_all]. unfold save_elem, save_field. cbn [fst snd].
    destruct (index_of (pl_addr p) known) as [i|] eqn:Ei.
    + (* seen before *)
      cbn [firsts fst]. rewrite Ei.
      destruct (IH all known Hs Hap Hin' Hk Hnd) as (pos & E & F). exists (i :: pos). split.
      * cbn [app]. unfold load_elem, load_field. cbn [loaded ld_ids].
        pose proof (index_of_nth _ _ _ Ei) as Hn.
        rewrite id_at_numbered by (apply nth_error_Some; rewrite Hn; discriminate).
        unfold ebind at 2. cbn [bind]. change (ld_pool (loaded known)) with (map back known). rewrite (map_nth_error back _ _ Hn).
        destruct (back (pl_addr p)) as [nm nf] eqn:Eb. cbn [fst snd] in *. subst nm. rewrite El. unfold ebind. cbn [bind].
        rewrite E. reflexivity.
      * constructor; [|exact F]. cbn [fst]. apply firsts_ext. exact Ei.
    + (* a new field *)
      cbn [firsts fst]. rewrite Ei.
      pose proof (index_of_none _ _ Ei) as Hnot.
      assert (Hnd' : NoDup (known ++ [pl_addr p])).
      { apply NoDup_rev in Hnd. rewrite <- (rev_involutive (known ++ [pl_addr p])). apply NoDup_rev. rewrite rev_app_distr.
        cbn [rev app]. constructor; [|exact Hnd]. intros B. apply in_rev in B. contradiction. }
      assert (Hk' : forall a, In a (known ++ [pl_addr p]) -> exists x, In x all /\ pl_addr (fst x) = a).
      { intros a Ha. apply in_app_or in Ha. destruct Ha as [Ha|[<-|[]]]; [apply Hk, Ha|]. exists (p, e). split; [exact Hx|reflexivity]. }
      destruct (IH all (known ++ [pl_addr p]) Hs Hap Hin' Hk' Hnd') as (pos & E & F). exists (length known :: pos). split.
      * unfold construction. cbn [app]. unfold load_elem, load_field. unfold remade, construction in Rm.
        rewrite Rm. cbn [bind fst].
        unfold enter. cbn [loaded ld_pool ld_ids].
        assert (Hff : find_field (pl_name p, snd (back (pl_addr p))) (map back known) = None).
        { apply find_field_none. intros g Hg. apply in_map_iff in Hg. destruct Hg as (a & <- & Ha).
          destruct (Hk a Ha) as ([p2 e2] & H2 & <-). cbn [fst].
          rewrite <- Nm. rewrite <- surjective_pairing. apply apart_key, (Hap (p, e) (p2, e2) Hx H2). cbn [fst].
          intros Eq. apply Hnot. rewrite Eq. exact Ha. }
        rewrite Hff. unfold ebind. cbn [bind ld_pool]. rewrite map_length.
        rewrite nth_error_app2 by (rewrite map_length; lia). rewrite map_length, Nat.sub_diag. cbn [nth_error].
        rewrite El. cbn [bind].
        assert (El2 : loaded (known ++ [pl_addr p]) =
          {| ld_pool := map back known ++ [(pl_name p, snd (back (pl_addr p)))]; ld_ids := (S (length known), length known) :: numbered (length known) |}).
        { unfold loaded. rewrite map_app. cbn [map]. rewrite app_length, Nat.add_1_r. cbn [numbered].
          rewrite <- Nm, <- surjective_pairing. reflexivity. }
        rewrite <- El2, E. reflexivity.
      * constructor; [|exact F]. cbn [fst]. apply firsts_ext. apply index_of_new. exact Ei.
Qed.

(** Loading gives the elements back in their order; two elements share a field
    exactly when they did, and the field is the one made from the texts. *)
Theorem archive_back : forall l, Forall savable l -> apart l ->
  exists pos ld, load_all o debug zd read fuel ops n (length l) {| ld_pool := []; ld_ids := [] |} (save_all show print_poly print_el [] l) =
    Val (Ret (combine pos (map snd l), ld)) /\ length pos = length l /\
  (forall i j p e p' e', nth_error l i = Some (p, e) -> nth_error l j = Some (p', e') ->
    (nth_error pos i = nth_error pos j <-> pl_addr p = pl_addr p')) /\
  (forall i p e k, nth_error l i = Some (p, e) -> nth_error pos i = Some k -> nth_error (ld_pool ld) k = Some (back (pl_addr p))).
Proof.
  intros l Hs Hap.
  destruct (load_back l l [] Hs Hap ltac:(apply incl_refl) ltac:(intros a []) ltac:(constructor)) as (pos & E & F).
  exists pos, (loaded (firsts [] l)). split; [exact E|]. split; [clear E; induction F; cbn [length]; congruence|].
  assert (G : forall i p e, nth_error l i = Some (p, e) -> exists k, nth_error pos i = Some k /\ index_of (pl_addr p) (firsts [] l) = Some k).
  { clear E. intros i p e. remember (firsts [] l) as q eqn:Eq. clear Eq Hs Hap. revert i. induction F as [|k x pos l H F IH]; intros i Hi.
    - destruct i; discriminate.
    - destruct i as [|i]; [|apply IH; exact Hi]. cbn [nth_error] in *. injection Hi as ->. exists k. split; [reflexivity|exact H]. }
  split.
  - intros i j p e p' e' Hi Hj. destruct (G i p e Hi) as (k & P1 & I1). destruct (G j p' e' Hj) as (k' & P2 & I2).
    rewrite P1, P2. split; intros H.
    + injection H as <-. apply index_of_nth in I1. apply index_of_nth in I2. congruence.
    + rewrite H in I1. congruence.
  - intros i p e k Hi Hk. destruct (G i p e Hi) as (k' & P1 & I1). rewrite P1 in Hk. injection Hk as <-.
    cbn [loaded ld_pool]. apply map_nth_error. apply index_of_nth. exact I1.
Qed.

Theorem archive_sound : arb_ok o -> zero_den_ok zd -> print_ok print_poly -> print_ok print_el ->
  forall l, Forall sound l -> apart l ->
  exists pos ld, load_all o debug zd read fuel ops n (length l) {| ld_pool := []; ld_ids := [] |} (save_all show print_poly print_el [] l) =
    Val (Ret (combine pos (map snd l), ld)) /\ length pos = length l /\
  (forall i j p e p' e', nth_error l i = Some (p, e) -> nth_error l j = Some (p', e') ->
    (nth_error pos i = nth_error pos j <-> pl_addr p = pl_addr p')) /\
  (forall i p e k, nth_error l i = Some (p, e) -> nth_error pos i = Some k -> nth_error (ld_pool ld) k = Some (back (pl_addr p))).
Proof.
  intros Ho Hzd Hpp Hpe l Hs. apply archive_back. eapply Forall_impl; [|exact Hs]. apply sound_savable; assumption.
Qed.
End Archive.
