(** Elements: representation, evaluation, sign, comparison. *)
Require Import Reals List ZArith Bool Lia Lra Znumtheory.
From Verif Require Import PolyR RootSpec RootModel ExtraModel Dyadic DyadicProofs ArbModel ArbSpec ArbProofs FieldProofs
  SquarefreeProofs RefineProofs ElemModel ElemSpec.
Import ListNotations.
Open Scope R_scope.

(** * Representation *)
Fixpoint lcomb (u v : Z) (p q : list Z) : list Z :=
  match p, q with
  | [], _ => map (Z.mul (- v)) q
  | _, [] => map (Z.mul u) p
  | a :: p', b :: q' => (u * a - v * b)%Z :: lcomb u v p' q'
  end.

Lemma zeval_nil : forall x, zeval [] x = 0. Proof. reflexivity. Qed.
Lemma zeval_cons : forall c p x, zeval (c :: p) x = IZR c + x * zeval p x. Proof. reflexivity. Qed.

Lemma zeval_scale : forall u p x, zeval (map (Z.mul u) p) x = IZR u * zeval p x.
Proof. intros u p x. induction p as [|a p IH]; cbn [map]; [rewrite zeval_nil; ring|]. rewrite !zeval_cons, IH, mult_IZR. ring. Qed.

Lemma zeval_lcomb : forall u v p q x, zeval (lcomb u v p q) x = IZR u * zeval p x - IZR v * zeval q x.
Proof.
  intros u v. induction p as [|a p IH]; intros [|b q] x; cbn [lcomb].
  - cbn [map]. rewrite zeval_nil. ring.
  - rewrite zeval_scale, opp_IZR, zeval_nil. ring.
  - rewrite zeval_scale, zeval_nil. ring.
  - rewrite !zeval_cons, IH, minus_IZR, !mult_IZR. ring.
Qed.

Lemma length_lcomb : forall u v p q, length (lcomb u v p q) = Nat.max (length p) (length q).
Proof.
  intros u v. induction p as [|a p IH]; intros [|b q]; cbn [lcomb length]; rewrite ?map_length; cbn [length]; try lia.
  rewrite IH. lia.
Qed.

Lemma lcomb_nth : forall u v p q, Forall (fun c => c = 0%Z) (lcomb u v p q) ->
  forall i, (u * nth i p 0 = v * nth i q 0)%Z.
Proof.
  intros u v. induction p as [|a p IH]; intros [|b q] H i; cbn [lcomb] in H.
  - destruct i; cbn [nth]; lia.
  - assert (A : forall l, Forall (fun c => c = 0%Z) (map (Z.mul (- v)) l) -> forall j, (v * nth j l 0 = 0)%Z).
    { clear. induction l as [|c l IH]; intros H [|j]; cbn [nth]; try lia; inversion H; subst; [lia|apply IH; assumption]. }
    rewrite (A _ H i). destruct i; cbn [nth]; lia.
  - assert (A : forall l, Forall (fun c => c = 0%Z) (map (Z.mul u) l) -> forall j, (u * nth j l 0 = 0)%Z).
    { clear. induction l as [|c l IH]; intros H [|j]; cbn [nth]; try lia; inversion H; subst; [lia|apply IH; assumption]. }
    rewrite (A _ H i). destruct i; cbn [nth]; lia.
  - inversion H; subst. destruct i as [|i]; cbn [nth]; [lia|apply IH; assumption].
Qed.

Lemma last_nth : forall (p : list Z), p <> [] -> last p 1%Z = nth (length p - 1) p 0%Z.
Proof.
  induction p as [|a [|b p] IH]; intros H; [congruence|reflexivity|].
  change (last (a :: b :: p) 1%Z) with (last (b :: p) 1%Z). rewrite IH by discriminate. cbn [length]. replace (S (S (length p)) - 1)%nat with (S (S (length p) - 1)) by lia.
  reflexivity.
Qed.

Lemma In_nth_dvd : forall (p : list Z) g, (forall i, (g | nth i p 0)%Z) -> forall c, In c p -> (g | c)%Z.
Proof. intros p g H c Hc. destruct (In_nth p c 0%Z Hc) as (i & _ & <-). apply H. Qed.

Section Rep.
Variables (pol : list Z) (x : R).
Hypothesis Hm : minimal pol x.

Lemma ev_zero_num : forall e, canon pol e -> ev x e = 0 -> e_num e = [].
Proof.
  intros e He E. assert (IZR (e_den e) <> 0) by (apply not_0_IZR; pose proof (can_den _ _ He); lia).
  assert (Z : zeval (e_num e) x = 0).
  { unfold ev in E. apply Rmult_eq_reg_r with (/ IZR (e_den e)); [|apply Rinv_neq_0_compat; assumption].
    rewrite Rmult_0_l. exact E. }
  pose proof (min_short _ _ Hm _ (can_len _ _ He) Z) as F.
  destruct (e_num e) as [|a p] eqn:En; [reflexivity|exfalso].
  pose proof (can_last _ _ He) as L. rewrite En, last_nth in L by discriminate. apply L.
  rewrite Forall_forall in F. apply F. apply nth_In. cbn [length]. lia.
Qed.

Lemma is_zero_spec : forall e, canon pol e -> is_zero e = true <-> ev x e = 0.
Proof.
  intros e He. unfold is_zero. split.
  - destruct (e_num e) eqn:En; [|discriminate]. intros _. unfold ev. rewrite En, zeval_nil. unfold Rdiv. ring.
  - intros E. rewrite (ev_zero_num e He E). reflexivity.
Qed.

Lemma canon_unique : forall a b, canon pol a -> canon pol b -> ev x a = ev x b -> a = b.
Proof.
  intros a b Ha Hb E.
  pose proof (can_den _ _ Ha) as Da. pose proof (can_den _ _ Hb) as Db.
  assert (Za : IZR (e_den a) <> 0) by (apply not_0_IZR; lia).
  assert (Zb : IZR (e_den b) <> 0) by (apply not_0_IZR; lia).
  assert (Hz : zeval (lcomb (e_den b) (e_den a) (e_num a) (e_num b)) x = 0).
  { rewrite zeval_lcomb. unfold ev in E.
    assert (zeval (e_num a) x = zeval (e_num b) x / IZR (e_den b) * IZR (e_den a)) as -> by (rewrite <- E; field; assumption).
    field. assumption. }
  apply (min_short _ _ Hm) in Hz.
  2:{ rewrite length_lcomb. pose proof (can_len _ _ Ha). pose proof (can_len _ _ Hb). lia. }
  pose proof (lcomb_nth _ _ _ _ Hz) as Hn.
  set (g := Z.gcd (e_den a) (e_den b)).
  assert (Hg : (0 < g)%Z).
  { assert (0 <= g)%Z by apply Z.gcd_nonneg. assert (g <> 0)%Z; [|lia]. intros G. apply Z.gcd_eq_0_l in G. lia. }
  destruct (Z.gcd_divide_l (e_den a) (e_den b)) as (a' & Ea). fold g in Ea.
  destruct (Z.gcd_divide_r (e_den a) (e_den b)) as (b' & Eb). fold g in Eb.
  assert (Pa : (0 < a')%Z) by nia. assert (Pb : (0 < b')%Z) by nia.
  assert (Hr : Z.gcd a' b' = 1%Z).
  { assert (Hgg : Z.gcd (a' * g) (b' * g) = g) by (rewrite <- Ea, <- Eb; reflexivity).
    rewrite Z.gcd_mul_mono_r_nonneg in Hgg by lia. nia. }
  assert (Hn' : forall i, (b' * nth i (e_num a) 0 = a' * nth i (e_num b) 0)%Z).
  { intros i. specialize (Hn i). rewrite Ea, Eb in Hn. nia. }
  assert (A1 : a' = 1%Z).
  { apply (can_gcd _ _ Ha); [exact Pa|exists g; lia|]. apply In_nth_dvd. intros i.
    apply Z.gauss with b'; [exists (nth i (e_num b) 0%Z); rewrite Hn'; ring|exact Hr]. }
  assert (B1 : b' = 1%Z).
  { apply (can_gcd _ _ Hb); [exact Pb|exists g; lia|]. apply In_nth_dvd. intros i.
    apply Z.gauss with a'; [exists (nth i (e_num a) 0%Z); rewrite <- Hn'; ring|rewrite Z.gcd_comm; exact Hr]. }
  subst a' b'. assert (Hs : forall i, nth i (e_num a) 0%Z = nth i (e_num b) 0%Z) by (intros i; specialize (Hn' i); lia).
  assert (Hl : forall p q : list Z, last q 1%Z <> 0%Z -> (forall i, nth i p 0 = nth i q 0)%Z -> (length q <= length p)%nat).
  { clear. intros p q L H. destruct q as [|c q]; [cbn; lia|]. rewrite last_nth in L by discriminate.
    destruct (Nat.le_gt_cases (length (c :: q)) (length p)) as [G|G]; [exact G|exfalso]. apply L. rewrite <- H.
    apply nth_overflow. lia. }
  assert (En : e_num a = e_num b).
  { apply (nth_ext _ _ 0%Z 0%Z); [|intros i _; apply Hs].
    apply Nat.le_antisymm; apply Hl; try (apply (can_last pol); assumption); intros i; [symmetry|]; apply Hs. }
  destruct a, b. cbn in *. f_equal; [exact En|lia].
Qed.

Lemma elem_eqb_spec : forall a b, canon pol a -> canon pol b -> elem_eqb a b = true <-> ev x a = ev x b.
Proof.
  intros a b Ha Hb. unfold elem_eqb. rewrite andb_true_iff, zlist_eqb_spec, Z.eqb_eq. split.
  - intros [E1 E2]. unfold ev. rewrite E1, E2. reflexivity.
  - intros E. rewrite (canon_unique a b Ha Hb E). split; reflexivity.
Qed.

Lemma rational_val : forall e, is_rational e = true -> ev x e = IZR (nth 0 (e_num e) 0%Z) / IZR (e_den e).
Proof.
  intros e. unfold is_rational, ev. destruct (e_num e) as [|c [|d p]]; [| |discriminate]; intros _; cbn [nth].
  - rewrite zeval_nil. reflexivity.
  - rewrite zeval_cons, zeval_nil. f_equal. ring.
Qed.

Lemma is_rational_spec : forall e, canon pol e ->
  is_rational e = true <-> exists n d, (0 < d)%Z /\ ev x e = IZR n / IZR d.
Proof.
  intros e He. split.
  - intros H. exists (nth 0 (e_num e) 0%Z), (e_den e). split; [apply (can_den _ _ He)|apply rational_val; exact H].
  - intros (n & d & Hd & E). unfold is_rational.
    destruct (e_num e) as [|c [|c' p]] eqn:En; [reflexivity|reflexivity|exfalso].
    pose proof (can_den _ _ He) as De.
    assert (IZR (e_den e) <> 0) by (apply not_0_IZR; lia). assert (IZR d <> 0) by (apply not_0_IZR; lia).
    assert (Hz : zeval (lcomb d (e_den e) (e_num e) [n]) x = 0).
    { rewrite zeval_lcomb, zeval_cons, zeval_nil. unfold ev in E.
      assert (zeval (e_num e) x = IZR n / IZR d * IZR (e_den e)) as -> by (rewrite <- E; field; assumption). field. assumption. }
    apply (min_short _ _ Hm) in Hz.
    2:{ rewrite length_lcomb. pose proof (can_len _ _ He). pose proof (min_len _ _ Hm). cbn [length]. lia. }
    pose proof (lcomb_nth _ _ _ _ Hz (length (e_num e) - 1)) as Hn.
    pose proof (can_last _ _ He) as L. rewrite last_nth in L by (rewrite En; discriminate).
    rewrite (nth_overflow [n]) in Hn by (rewrite En; cbn [length]; lia). nia.
Qed.

Lemma minimal_simple : simple_root pol x.
Proof.
  split; [apply (min_root _ _ Hm)|]. intros D. rewrite <- zeval_zderiv in D.
  pose proof (min_len _ _ Hm) as L. pose proof (min_lead _ _ Hm) as Ld. unfold zderiv in D.
  assert (Lg : forall p n, length (zderiv_go n p) = length p).
  { clear. induction p as [|c p IH]; intros n; cbn [zderiv_go length]; [reflexivity|rewrite IH; reflexivity]. }
  apply (min_short _ _ Hm) in D.
  2:{ rewrite Lg. destruct pol; cbn [tl length] in *; lia. }
  assert (A : forall p n, (0 < n)%Z -> Forall (fun c => c = 0%Z) (zderiv_go n p) -> Forall (fun c => c = 0%Z) p).
  { clear. induction p as [|c p IH]; intros n Hn H; [constructor|]. cbn [zderiv_go] in H. inversion H; subst.
    constructor; [nia|apply (IH (n + 1)%Z); [lia|assumption]]. }
  apply A in D; [|lia]. destruct pol as [|c0 [|c1 p]]; cbn [length] in L; try lia. cbn [tl] in D.
  apply Ld. change (last (c0 :: c1 :: p) 0%Z) with (last (c1 :: p) 0%Z).
  clear - D. revert c1 D. induction p as [|d p IH]; intros c1 D; inversion D; subst; [reflexivity|].
  change (last (0%Z :: d :: p) 0%Z) with (last (d :: p) 0%Z). apply IH. assumption.
Qed.
End Rep.

(** * Evaluation and refinement *)
(** A field at any moment of its life; [K] is what refinement preserves. *)
Definition good (pol : list Z) (x : R) (K : renf -> Prop) (nf : renf) : Prop :=
  f_pol nf = pol /\ inb x (f_emb nf) /\ K nf /\ (2 <= f_prec nf)%Z.

(** Only the enclosure of the generator changes. *)
Definition kept (nf nf' : renf) : Prop := same_field nf nf' /\ f_imm nf' = f_imm nf.

Lemma kept_refl : forall nf, kept nf nf. Proof. intros nf. repeat split. Qed.
Lemma kept_trans : forall a b c, kept a b -> kept b c -> kept a c.
Proof. intros a b c ((A1 & A2 & A3) & A4) ((B1 & B2 & B3) & B4). repeat split; congruence. Qed.

Definition keeps (o : arbops) (debug : bool) (pol : list Z) (x : R) (K : renf -> Prop) : Prop :=
  forall fuel nf p nf', good pol x K nf -> refine o debug fuel nf p = Val nf' -> good pol x K nf' /\ kept nf nf'.

(** Balls that refinement cannot leave. *)
Notation on_ball N := (fun nf : renf => N (f_emb nf)).
Lemma safe_keeps : forall o debug pol x N, arb_ok o -> minimal pol x -> safe_balls o pol x N -> keeps o debug pol x (on_ball N).
Proof.
  intros o debug pol x N Ho Hm HN fuel nf p nf' (G1 & G2 & G3 & G4) E.
  destruct (refine_spec o Ho pol x N HN (minimal_simple pol x Hm) debug fuel nf p nf' G1 G2 G3 E) as (A & B & _ & (D1 & D2 & D3) & F).
  repeat split; try congruence; assumption.
Qed.

(** A marked field is not refined. *)
Lemma marked_keeps : forall o pol x, keeps o true pol x (fun nf => f_imm nf <> 0%Z).
Proof.
  intros o pol x fuel nf p nf' (G1 & G2 & G3 & G4) E. unfold refine in E. cbn [set_immutable] in E.
  destruct (Z.eqb_spec (f_imm nf) 0); [contradiction|discriminate].
Qed.

Section Elem.
Variables (o : arbops) (n : nfops) (debug : bool) (pol : list Z) (x : R) (J : renf -> Prop).
Hypothesis Ho : arb_ok o.
Hypothesis Hm : minimal pol x.
Hypothesis Hn : nf_ok pol x n.
Hypothesis HJ : keeps o debug pol x J.

Notation good := (good pol x J).
Definition goodr (y : relem) : Prop := canon pol (r_elem y) /\ inb (ev x (r_elem y)) (r_emb y).

Lemma goodr_intro : forall e b, canon pol e -> inb (ev x e) b -> goodr {| r_elem := e; r_emb := b |}.
Proof. intros e b H1 H2. split; assumption. Qed.

Ltac fin := repeat match goal with
  | |- _ /\ _ => split
  | |- kept ?a ?a => apply kept_refl
  | |- kept _ _ => eassumption || (eapply kept_trans; eassumption)
  | |- _ => assumption
  end.

Lemma refine_good : forall fuel nf p nf', good nf -> refine o debug fuel nf p = Val nf' -> good nf' /\ kept nf nf'.
Proof. exact HJ. Qed.

Lemma set_eval_ok : forall nf e p b, good nf -> canon pol e -> set_evaluation o nf e p = Val b -> inb (ev x e) b.
Proof.
  intros nf e p b (G1 & G2 & _) He E. unfold set_evaluation in E. destruct (Z.ltb_spec p 2) as [|Hp]; [discriminate|].
  pose proof (can_den _ _ He) as Hd. pose proof (can_len _ _ He) as Hl. pose proof (min_len _ _ Hm).
  rewrite G1 in E. unfold linear, quadratic in E.
  destruct (Nat.leb_spec (length pol) 2) as [L|L]; [|destruct (Nat.eqb_spec (length pol) 3) as [Q|Q]]; injection E as <-; unfold ev.
  - replace (zeval (e_num e) x) with (IZR (nth 0 (e_num e) 0%Z)); [apply (ok_set_q o Ho); lia|].
    destruct (e_num e) as [|c [|? ?]]; cbn [length nth] in *; try lia; rewrite ?zeval_cons, ?zeval_nil; ring.
  - replace (zeval (e_num e) x) with (x * IZR (nth 1 (e_num e) 0%Z) + IZR (nth 0 (e_num e) 0%Z)).
    + apply (ok_div_z o Ho); [lia| |lia]. apply (ok_add_z o Ho); [lia|]. apply (ok_mul_z o Ho); [lia|assumption].
    + destruct (e_num e) as [|c [|c' [|? ?]]]; cbn [length nth] in *; try lia; rewrite ?zeval_cons, ?zeval_nil; ring.
  - apply (eval_arb_q_ok o Ho); [lia|assumption|lia].
Qed.

(** * Sign *)
Lemma sgn_loop_ok : forall e, canon pol e -> forall fuel nf b p c nf' b' s, good nf -> inb (ev x e) b ->
  sgn_loop o debug fuel nf e b p c = Val (nf', b', s) -> good nf' /\ kept nf nf' /\ inb (ev x e) b' /\ s = Rsgn (ev x e).
Proof.
  intros e He. induction fuel as [|f IH]; intros nf b p c nf' b' s G Hb E; [discriminate|]. cbn [sgn_loop] in E.
  destruct (contains_zero b) eqn:Cz; cbn [negb] in E.
  - destruct (refine o debug f nf (2 * p)) as [nf1| | |] eqn:Er; try discriminate. cbn [bind] in E.
    destruct (refine_good _ _ _ _ G Er) as (G1 & K1).
    destruct (set_evaluation o nf1 e (2 * p + c)) as [b1| | |] eqn:Ee; try discriminate. cbn [bind] in E.
    destruct (IH _ _ _ _ _ _ _ G1 (set_eval_ok _ _ _ _ G1 He Ee) E) as (A & B & C & D).
    fin.
  - injection E as <- <- <-. split; [exact G|]. split; [apply kept_refl|]. split; [exact Hb|].
    apply (contains_zero_false b (ev x e) Cz Hb).
Qed.

Lemma Rsgn_frac : forall a d, (0 < d)%Z -> Rsgn (IZR a / IZR d) = Z.sgn a.
Proof.
  intros a d Hd. assert (P : 0 < / IZR d) by (apply Rinv_0_lt_compat, IZR_lt; exact Hd). unfold Rdiv.
  destruct (Ztrichotomy_inf a 0) as [[H|H]|H].
  - rewrite Rsgn_neg by (apply IZR_lt in H; nra). symmetry. apply Z.sgn_neg. exact H.
  - subst a. rewrite Rmult_0_l, Rsgn_0. reflexivity.
  - rewrite Rsgn_pos by (assert (0 < IZR a) by (apply IZR_lt; lia); nra). symmetry. apply Z.sgn_pos. lia.
Qed.

Lemma sgn_ok : forall fuel nf y nf' b s, good nf -> goodr y -> sgn o debug fuel nf y = Val (nf', b, s) ->
  good nf' /\ kept nf nf' /\ inb (ev x (r_elem y)) b /\ s = Rsgn (ev x (r_elem y)).
Proof.
  intros fuel nf [e b0] nf' b s G [He Hb] E. cbn [r_elem r_emb] in *. unfold sgn in E. cbn [r_elem r_emb] in E.
  pose proof (can_den _ _ He) as Hd.
  assert (Hgen : (if negb (contains_zero b0) then Val (nf, b0, msgn b0)
      else bind (set_evaluation o nf e (start_prec nf + elem_cond nf e)) (fun b => sgn_loop o debug fuel nf e b (start_prec nf) (elem_cond nf e)))
      = Val (nf', b, s) -> good nf' /\ kept nf nf' /\ inb (ev x e) b /\ s = Rsgn (ev x e)).
  { clear E. intros E. destruct (contains_zero b0) eqn:Cz; cbn [negb] in E.
    - destruct (set_evaluation o nf e (start_prec nf + elem_cond nf e)) as [b1| | |] eqn:Ee; try discriminate.
      cbn [bind] in E. apply (sgn_loop_ok e He _ _ _ _ _ _ _ _ G (set_eval_ok _ _ _ _ G He Ee) E).
    - injection E as <- <- <-. split; [exact G|]. split; [apply kept_refl|]. split; [exact Hb|].
      apply (contains_zero_false b0 (ev x e) Cz Hb). }
  destruct (e_num e) as [|c [|c' p]] eqn:En; [| |exact (Hgen E)]; injection E as <- <- <-;
    (split; [exact G|split; [apply kept_refl|split; [exact Hb|]]]); unfold ev; rewrite En, ?zeval_cons, zeval_nil.
  - rewrite (Rsgn_frac 0) by assumption. reflexivity.
  - rewrite Rmult_0_r, Rplus_0_r, Rsgn_frac by assumption. reflexivity.
Qed.

(** * Comparison *)
Lemma fmpq_cmp_ok : forall a b c d, (0 < b)%Z -> (0 < d)%Z -> fmpq_cmp a b c d = Rsgn (IZR a / IZR b - IZR c / IZR d).
Proof.
  intros a b c d Hb Hd. unfold fmpq_cmp. assert (IZR b <> 0) by (apply not_0_IZR; lia). assert (IZR d <> 0) by (apply not_0_IZR; lia).
  replace (IZR a / IZR b - IZR c / IZR d) with (IZR (a * d - c * b) / IZR (b * d)).
  - symmetry. apply Rsgn_frac. nia.
  - rewrite minus_IZR, !mult_IZR. field. split; assumption.
Qed.

Lemma Rsgn_opp : forall v, Rsgn (- v) = (- Rsgn v)%Z.
Proof.
  intros v. destruct (total_order_T v 0) as [[H|H]|H].
  - rewrite (Rsgn_neg v), Rsgn_pos by lra. reflexivity.
  - subst v. rewrite Ropp_0, Rsgn_0. reflexivity.
  - rewrite (Rsgn_pos v), Rsgn_neg by lra. reflexivity.
Qed.

Lemma cmp_ok : forall fuel nf y z nf' ey ez s, good nf -> goodr y -> goodr z ->
  cmp o n debug fuel nf y z = Val (nf', ey, ez, s) ->
  good nf' /\ kept nf nf' /\ inb (ev x (r_elem y)) ey /\ inb (ev x (r_elem z)) ez /\ s = Rsgn (ev x (r_elem y) - ev x (r_elem z)).
Proof.
  intros fuel nf [a ea] [b eb] nf' ey ez s G [Ha Hea] [Hb Heb] E. unfold cmp in E. cbn [r_elem r_emb] in *.
  pose proof (can_den _ _ Ha) as Da. pose proof (can_den _ _ Hb) as Db.
  destruct (elem_eqb a b) eqn:Eq.
  { injection E as <- <- <- <-. apply (elem_eqb_spec pol x Hm a b Ha Hb) in Eq. 
    fin. rewrite Eq. replace (ev x b - ev x b) with 0 by ring. symmetry. apply Rsgn_0. }
  destruct (blt ea eb) eqn:L1.
  { injection E as <- <- <- <-. pose proof (blt_spec _ _ _ _ L1 Hea Heb). fin.
    rewrite Rsgn_neg by lra. reflexivity. }
  destruct (blt eb ea) eqn:L2.
  { injection E as <- <- <- <-. pose proof (blt_spec _ _ _ _ L2 Heb Hea). fin.
    rewrite Rsgn_pos by lra. reflexivity. }
  destruct (is_rational a && is_rational b) eqn:Rab.
  { apply andb_true_iff in Rab as [Ra Rb].
    destruct (is_zero a) eqn:Za; [|destruct (is_zero b) eqn:Zb].
    - apply (is_zero_spec pol x Hm a Ha) in Za.
      destruct (sgn o debug fuel nf {| r_elem := b; r_emb := eb |}) as [[[nf1 b1] s1]| | |] eqn:Es; try discriminate.
      cbn [bind] in E. injection E as <- <- <- <-.
      destruct (sgn_ok _ _ _ _ _ _ G (goodr_intro _ _ Hb Heb) Es) as (A & B & C & D). cbn [r_elem] in *.
      split; [exact A|]. split; [exact B|]. split; [exact Hea|]. split; [exact C|].
      rewrite D, <- Rsgn_opp, Za. f_equal. ring.
    - apply (is_zero_spec pol x Hm b Hb) in Zb.
      destruct (sgn o debug fuel nf {| r_elem := a; r_emb := ea |}) as [[[nf1 b1] s1]| | |] eqn:Es; try discriminate.
      cbn [bind] in E. injection E as <- <- <- <-.
      destruct (sgn_ok _ _ _ _ _ _ G (goodr_intro _ _ Ha Hea) Es) as (A & B & C & D). cbn [r_elem] in *.
      split; [exact A|]. split; [exact B|]. split; [exact C|]. split; [exact Heb|].
      rewrite D, Zb. f_equal. ring.
    - injection E as <- <- <- <-. fin.
      rewrite (rational_val x a Ra), (rational_val x b Rb). apply fmpq_cmp_ok; assumption. }
  destruct (set_evaluation o nf a (start_prec nf + elem_cond nf a)) as [fa| | |] eqn:E1; try discriminate. cbn [bind] in E.
  destruct (set_evaluation o nf b (start_prec nf + elem_cond nf b)) as [fb| | |] eqn:E2; try discriminate. cbn [bind] in E.
  pose proof (set_eval_ok _ _ _ _ G Ha E1) as Hfa. pose proof (set_eval_ok _ _ _ _ G Hb E2) as Hfb.
  destruct (blt fa fb) eqn:L3.
  { injection E as <- <- <- <-. pose proof (blt_spec _ _ _ _ L3 Hfa Hfb). fin.
    rewrite Rsgn_neg by lra. reflexivity. }
  destruct (blt fb fa) eqn:L4.
  { injection E as <- <- <- <-. pose proof (blt_spec _ _ _ _ L4 Hfb Hfa). fin.
    rewrite Rsgn_pos by lra. reflexivity. }
  destruct (sgn o debug fuel nf (relem_sub o n nf {| r_elem := a; r_emb := fa |} {| r_elem := b; r_emb := fb |})) as [[[nf1 b1] s1]| | |] eqn:Es; try discriminate.
  cbn [bind] in E. injection E as <- <- <- <-.
  destruct (nk_sub _ _ _ Hn a b Ha Hb) as [Cs Vs].
  assert (Gs : goodr (relem_sub o n nf {| r_elem := a; r_emb := fa |} {| r_elem := b; r_emb := fb |})).
  { apply goodr_intro; cbn [r_elem r_emb]; [exact Cs|]. rewrite Vs. apply (ok_sub o Ho); [apply G|exact Hfa|exact Hfb]. }
  destruct (sgn_ok _ _ _ _ _ _ G Gs Es)
    as (A & B & C & D).
  cbn [relem_sub r_elem] in D. rewrite Vs in D. fin.
Qed.

Lemma cmp_q_ok : forall fuel nf y qn qd nf' b s, good nf -> goodr y -> (0 < qd)%Z ->
  cmp_q o n debug fuel nf y qn qd = Val (nf', b, s) ->
  good nf' /\ kept nf nf' /\ inb (ev x (r_elem y)) b /\ s = Rsgn (ev x (r_elem y) - IZR qn / IZR qd).
Proof.
  intros fuel nf [a ea] qn qd nf' b s G [Ha Hea] Hq E. unfold cmp_q in E. cbn [r_elem r_emb] in *.
  pose proof (can_den _ _ Ha) as Da. assert (Gp : (2 <= f_prec nf)%Z) by apply G.
  destruct (Z.eqb_spec qn 0) as [->|Zq].
  { destruct (sgn_ok _ _ _ _ _ _ G (goodr_intro _ _ Ha Hea) E) as (A & B & C & D). cbn [r_elem] in *.
    split; [exact A|]. split; [exact B|]. split; [exact C|]. rewrite D. f_equal. unfold Rdiv. ring. }
  destruct (is_zero a) eqn:Za.
  { injection E as <- <- <-. apply (is_zero_spec pol x Hm a Ha) in Za. fin.
    rewrite Za. replace (0 - IZR qn / IZR qd) with (- (IZR qn / IZR qd)) by ring. rewrite Rsgn_opp, Rsgn_frac by assumption. reflexivity. }
  destruct (is_rational a) eqn:Ra.
  { injection E as <- <- <-. fin. rewrite (rational_val x a Ra). apply fmpq_cmp_ok; assumption. }
  assert (Hsub : forall v e p, (2 <= p)%Z -> inb v e -> inb (v - IZR qn / IZR qd) (o_sub o e (o_set_q o qn qd p) p)).
  { intros v e p Hp He. apply (ok_sub o Ho); [exact Hp|exact He|]. apply (ok_set_q o Ho); [exact Hp|lia]. }
  destruct (contains_zero (o_sub o ea (o_set_q o qn qd (f_prec nf)) (f_prec nf))) eqn:C1; cbn [negb] in E.
  2:{ injection E as <- <- <-. fin.
      apply (contains_zero_false _ _ C1). apply Hsub; assumption. }
  destruct (debug && (start_prec nf =? - elem_cond nf a)%Z); [discriminate|].
  destruct (set_evaluation o nf a (start_prec nf + elem_cond nf a)) as [fa| | |] eqn:E1; try discriminate. cbn [bind] in E.
  pose proof (set_eval_ok _ _ _ _ G Ha E1) as Hfa.
  assert (Sp : (2 <= start_prec nf)%Z) by (unfold start_prec; lia).
  destruct (contains_zero (o_sub o fa (o_set_q o qn qd (start_prec nf)) (start_prec nf))) eqn:C2; cbn [negb] in E.
  2:{ injection E as <- <- <-. fin.
      apply (contains_zero_false _ _ C2). apply Hsub; assumption. }
  match type of E with bind (sgn o debug fuel nf ?d) _ = _ => destruct (sgn o debug fuel nf d) as [[[nf1 b1] s1]| | |] eqn:Es; try discriminate end.
  cbn [bind] in E. injection E as <- <- <-. destruct (nk_sub_q _ _ _ Hn a qn qd Ha Hq) as [Cs Vs].
  assert (Gs : goodr {| r_elem := n_sub_q n a qn qd; r_emb := o_sub o fa (o_set_q o qn qd (f_prec nf)) (f_prec nf) |}).
  { apply goodr_intro; [exact Cs|]. rewrite Vs. apply Hsub; assumption. }
  destruct (sgn_ok _ _ _ _ _ _ G Gs Es) as (A & B & C & D).
  cbn [r_elem] in D. rewrite Vs in D. fin.
Qed.
End Elem.
