(** Numerators and denominators (C44). *)
Require Import Reals List ZArith Bool Lia Lra Arith.
From Verif Require Import PolyR RootSpec RootModel ExtraModel Dyadic ArbModel ArbSpec
  ElemModel ElemSpec ElemProofs ElemLoops ElemHist ElemMore CxxModel CxxSpec CxxProofs.
Import ListNotations.
Open Scope R_scope.

Lemma zeval_pad : forall p k x, zeval (p ++ repeat 0%Z k) x = zeval p x.
Proof.
  intros p k x. induction p as [|c p IH]; cbn [app].
  - induction k as [|k IH]; cbn [repeat]; [reflexivity|]. rewrite zeval_cons, IH, zeval_nil. ring.
  - rewrite !zeval_cons, IH. reflexivity.
Qed.

Lemma content_fold : forall l, is_content l (fold_right Z.gcd 0%Z l).
Proof.
  intros l. split; [|split].
  - destruct l; cbn [fold_right]; [lia|apply Z.gcd_nonneg].
  - induction l as [|a l IH]; intros c H; [destruct H|]. cbn [fold_right]. destruct H as [<-|H]; [apply Z.gcd_divide_l|].
    apply Z.divide_trans with (fold_right Z.gcd 0%Z l); [apply Z.gcd_divide_r|apply IH; assumption].
  - induction l as [|a l IH]; intros d H; cbn [fold_right]; [apply Z.divide_0_r|].
    apply Z.gcd_greatest; [apply H; left; reflexivity|apply IH; intros c Hc; apply H; right; exact Hc].
Qed.
Lemma content_unique : forall l g h, is_content l g -> is_content l h -> g = h.
Proof. intros l g h (A & B & C) (D & E & F). apply Z.divide_antisym_nonneg; auto. Qed.
Lemma content_pad : forall l k g, is_content (l ++ repeat 0%Z k) g <-> is_content l g.
Proof.
  intros l k g. assert (P : forall d, (forall c, In c (l ++ repeat 0%Z k) -> (d | c)%Z) <-> forall c, In c l -> (d | c)%Z).
  { intros d. split; intros H c Hc; [apply H, in_or_app; left; exact Hc|]. apply in_app_or in Hc. destruct Hc as [Hc|Hc]; [apply H; exact Hc|].
    apply repeat_spec in Hc. subst. apply Z.divide_0_r. }
  unfold is_content. rewrite P. split; intros (A & B & C); (split; [exact A|]; split; [exact B|]); intros d H; apply C; [apply (P d)|apply (P d)]; exact H.
Qed.

Section Num.
Variables (debug : bool) (pol : list Z) (x : R).
Hypothesis Hm : minimal pol x.

Lemma linear_len : linear pol = true -> (length pol <= 2)%nat.
Proof. unfold linear. apply Nat.leb_le. Qed.
Lemma quadratic_len : quadratic pol = true -> length pol = 3%nat.
Proof. unfold quadratic. apply Nat.eqb_eq. Qed.

Lemma num_content_ok : forall e, canon pol e -> is_content (num_vector pol e) (num_content pol e).
Proof.
  intros e C. apply content_pad. pose proof (can_len _ _ C) as L. unfold num_content.
  destruct (linear pol) eqn:Li; [|destruct (quadratic pol) eqn:Qu; [|apply content_fold]].
  - apply linear_len in Li. destruct (e_num e) as [|c [|? ?]]; cbn [length] in L; try lia; cbn [nth].
    + apply (content_fold []).
    + replace (if (c <? 0)%Z then (- c)%Z else c) with (fold_right Z.gcd 0%Z [c]); [apply content_fold|].
      cbn [fold_right]. rewrite Z.gcd_0_r. destruct (Z.ltb_spec c 0); lia.
  - apply quadratic_len in Qu. destruct (e_num e) as [|c [|d [|? ?]]]; cbn [length] in L; try lia; cbn [nth].
    + apply (content_fold []).
    + apply (content_fold [c]).
    + replace (Z.gcd c d) with (fold_right Z.gcd 0%Z [c; d]); [apply content_fold|].
      cbn [fold_right]. rewrite Z.gcd_0_r, Z.gcd_abs_r. reflexivity.
Qed.

Lemma num_den_ok : forall e, canon pol e ->
  length (num_vector pol e) = (length pol - 1)%nat /\ (0 < den e)%Z /\ ev x e = zeval (num_vector pol e) x / IZR (den e) /\
  Z.gcd (num_content pol e) (den e) = 1%Z.
Proof.
  intros e C. pose proof (can_len _ _ C) as L. pose proof (can_den _ _ C) as D. unfold den.
  split; [|split; [exact D|split]].
  - unfold num_vector. rewrite app_length, repeat_length. lia.
  - unfold num_vector, ev. rewrite zeval_pad. reflexivity.
  - apply (can_gcd _ _ C).
    + pose proof (Z.gcd_nonneg (num_content pol e) (e_den e)). assert (Z.gcd (num_content pol e) (e_den e) <> 0%Z); [|lia].
      intros H0. apply Z.gcd_eq_0_r in H0. lia.
    + apply Z.gcd_divide_r.
    + intros c Hc. apply Z.divide_trans with (num_content pol e); [apply Z.gcd_divide_l|].
      destruct (num_content_ok e C) as (_ & B & _). apply B. unfold num_vector. apply in_or_app. left. exact Hc.
Qed.

(** The smallest common denominator of the coefficients. *)
Lemma den_least : forall e, canon pol e -> forall D, (forall c, In c (num_vector pol e) -> (den e | D * c)%Z) <-> (den e | D)%Z.
Proof.
  intros e C D. destruct (num_den_ok e C) as (_ & P & _ & G). destruct (num_content_ok e C) as (_ & _ & B).
  split; [|intros H c _; apply Z.divide_mul_l, H]. intros H.
  set (g := Z.gcd (den e) D). assert (Pg : (0 < g)%Z).
  { pose proof (Z.gcd_nonneg (den e) D). assert (g <> 0%Z) by (intros Z0; apply Z.gcd_eq_0_l in Z0; lia). unfold g in *. lia. }
  destruct (Z.gcd_divide_l (den e) D) as [d0 E0]. destruct (Z.gcd_divide_r (den e) D) as [D0 E1]. fold g in E0, E1.
  assert (R : Z.gcd d0 D0 = 1%Z).
  { apply Z.gcd_unique; [lia|apply Z.divide_1_l..|]. intros q A1 A2.
    assert (Q : (q * g | g)%Z) by (apply Z.gcd_greatest; [rewrite E0|rewrite E1]; apply Z.mul_divide_mono_r; assumption).
    destruct Q as [k Q]. exists k. nia. }
  assert (I0 : (d0 | num_content pol e)%Z).
  { apply B. intros c Hc. specialize (H c Hc). rewrite E0, E1 in H. replace (D0 * g * c)%Z with (D0 * c * g)%Z in H by ring.
    apply Z.mul_divide_cancel_r in H; [|lia]. exact (Z.gauss _ _ _ H R). }
  assert (I1 : (d0 | 1)%Z) by (rewrite <- G; apply Z.gcd_greatest; [exact I0|exists g; rewrite E0; ring]).
  assert (d0 = 1)%Z by (apply Z.divide_1_r_nonneg; [nia|exact I1]). subst d0. exists D0. rewrite E0. lia.
Qed.

Lemma num_rational : forall e, canon pol e -> rational (ev x e) ->
  exists n, num debug pol e = Val n /\ ev x e = IZR n / IZR (den e) /\ Z.gcd n (den e) = 1%Z.
Proof.
  intros e C Q. apply (is_rational_spec pol x Hm e C) in Q. exists (nth 0 (e_num e) 0%Z).
  split; [|split; [apply (rational_val _ _ Q)|]].
  - unfold num. unfold is_rational in Q. destruct (linear pol); [reflexivity|].
    destruct (quadratic pol); destruct (e_num e) as [|c [|? ?]]; try discriminate; cbn [nth length Nat.eqb Z.eqb negb]; rewrite ?andb_false_r; reflexivity.
  - apply (canon_frac (fun _ => pol) 0 e C Q).
Qed.

Lemma to_mpq_rational : forall e, canon pol e -> rational (ev x e) ->
  exists n d, to_mpq debug e = Val (n, d) /\ (0 < d)%Z /\ Z.gcd n d = 1%Z /\ ev x e = IZR n / IZR d.
Proof.
  intros e C Q. apply (is_rational_spec pol x Hm e C) in Q. pose proof (can_den _ _ C) as D. unfold to_mpq.
  destruct (is_zero e) eqn:Z.
  - apply (is_zero_spec pol x Hm e C) in Z. exists 0%Z, 1%Z. rewrite Z. split; [reflexivity|]. split; [lia|]. split; [reflexivity|]. field.
  - rewrite Q, andb_false_r. exists (nth 0 (e_num e) 0%Z), (e_den e). split; [reflexivity|]. split; [exact D|].
    split; [apply (canon_frac (fun _ => pol) 0 e C Q)|apply (rational_val _ _ Q)].
Qed.

Lemma to_mpz_integer : forall e z, canon pol e -> ev x e = IZR z -> to_mpz debug e = Val z.
Proof.
  intros e z C V. assert (I : is_integer e = true) by (apply (is_integer_spec pol x Hm e C); exists z; exact V).
  unfold to_mpz. rewrite I, andb_false_r. unfold get_fmpz. f_equal. apply eq_IZR. rewrite <- V.
  unfold is_integer in I. apply andb_true_iff in I. destruct I as [Q D]. apply Z.eqb_eq in D. rewrite (rational_val _ _ Q), D. field.
Qed.

Lemma num_irrational : forall e, canon pol e -> ~ rational (ev x e) ->
  num debug pol e = (if debug then Abort else Val (nth 0 (e_num e) 0%Z)) /\ to_mpq debug e = (if debug then Abort else Val (nth 0 (e_num e) 0%Z, e_den e)).
Proof.
  intros e C N. pose proof (is_rational_spec pol x Hm e C) as S. pose proof (can_len _ _ C) as L. pose proof (can_last _ _ C) as T.
  assert (Q : is_rational e = false) by (destruct (is_rational e); [exfalso; apply N, S; reflexivity|reflexivity]).
  assert (Z : is_zero e = false). { unfold is_zero, is_rational in *. destruct (e_num e); [discriminate Q|reflexivity]. }
  split.
  - unfold num, linear, quadratic. unfold is_rational in Q. destruct (e_num e) as [|c [|c' l]]; try discriminate Q. cbn [length nth] in *.
    destruct (Nat.leb_spec (length pol) 2) as [E|_]; [lia|]. destruct (Nat.eqb_spec (length pol) 3) as [E|_].
    + destruct l as [|]; [|cbn [length] in L; lia]. cbn [last] in T. destruct (Z.eqb_spec c' 0) as [->|]; [exfalso; apply T; reflexivity|].
      destruct debug; reflexivity.
    + destruct debug; reflexivity.
  - unfold to_mpq. rewrite Z, Q. destruct debug; reflexivity.
Qed.

Lemma to_mpz_other : forall e, canon pol e -> (forall z, ev x e <> IZR z) -> debug = true -> to_mpz debug e = Abort.
Proof.
  intros e C N ->. unfold to_mpz. destruct (is_integer e) eqn:I; [|reflexivity].
  apply (is_integer_spec pol x Hm e C) in I. destruct I as [z E]. destruct (N z E).
Qed.
End Num.
