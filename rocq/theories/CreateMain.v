(** Conjugates, and the creation of all embeddings. *)
Require Import Reals List ZArith Bool Lia Lra Sorted.
From Verif Require Import PolyR RootSpec RootModel ExtraModel ExtraProofs VcaProofs VcaTerm IsoProofs IsoAll CountAll Dyadic DyadicProofs ArbModel ArbSpec ArbProofs FieldProofs
  RefineProofs ElemModel ElemSpec ElemProofs EmbModel EmbProofs RateSpec EndsSpec EndsProofs RefineEnds DefSpec ToolsSpec ToolsIrred CreateSpec CreateProofs.
Import ListNotations.
Open Scope R_scope.

(** * Minimal polynomials are irreducible, and minimal for all their roots *)
Fixpoint zplus (a b : list Z) : list Z :=
  match a, b with
  | [], _ => b
  | _, [] => a
  | u :: a', v :: b' => (u + v)%Z :: zplus a' b'
  end.
Fixpoint zprod (a b : list Z) : list Z :=
  match a with [] => [] | u :: a' => zplus (map (Z.mul u) b) (0%Z :: zprod a' b) end.

Lemma nth_zplus : forall a b i, nth i (zplus a b) 0%Z = (nth i a 0 + nth i b 0)%Z.
Proof.
  induction a as [|u a IH]; intros b i; [cbn; destruct i; reflexivity|]. destruct b as [|v b]; [cbn [zplus]; destruct i; cbn; ring|].
  destruct i; cbn; [reflexivity|apply IH].
Qed.
Lemma zeval_zplus : forall a b y, zeval (zplus a b) y = zeval a y + zeval b y.
Proof.
  induction a as [|u a IH]; intros b y; [cbn [zplus]; rewrite zeval_nil; ring|]. destruct b as [|v b]; [cbn [zplus]; rewrite zeval_nil; ring|].
  cbn [zplus]. rewrite !zeval_cons, IH, plus_IZR. ring.
Qed.
Lemma zeval_scaled : forall k a y, zeval (map (Z.mul k) a) y = IZR k * zeval a y.
Proof. intros k a y. induction a as [|u a IH]; [cbn [map]; rewrite zeval_nil; ring|]. cbn [map]. rewrite !zeval_cons, IH, mult_IZR. ring. Qed.
Lemma nth_zprod : forall a b i, nth i (zprod a b) 0%Z = conv_coeff a b i.
Proof.
  induction a as [|u a IH]; intros b i; [rewrite conv_nil; destruct i; reflexivity|]. cbn [zprod]. rewrite nth_zplus, nth_map_mul.
  destruct i; [rewrite conv_0; cbn [nth]; ring|rewrite conv_consl; cbn [nth]; rewrite IH; ring].
Qed.
Lemma zeval_zprod : forall a b y, zeval (zprod a b) y = zeval a y * zeval b y.
Proof.
  induction a as [|u a IH]; intros b y; [cbn [zprod]; rewrite !zeval_nil; ring|]. cbn [zprod].
  rewrite zeval_zplus, zeval_scaled, !zeval_cons, IH. ring.
Qed.
Lemma zeval_nth : forall a b, (forall i, nth i a 0%Z = nth i b 0%Z) -> forall y, zeval a y = zeval b y.
Proof.
  induction a as [|u a IH]; intros b H y.
  - rewrite zeval_nil. induction b as [|v b IHb]; [rewrite zeval_nil; reflexivity|]. rewrite zeval_cons.
    rewrite <- IHb by (intros i; specialize (H (S i)); cbn in H; destruct i; exact H). specialize (H 0%nat). cbn in H. rewrite <- H. ring.
  - destruct b as [|v b].
    + specialize (IH [] ltac:(intros i; specialize (H (S i)); cbn in H; destruct i; exact H) y). rewrite zeval_cons, IH, zeval_nil.
      specialize (H 0%nat). cbn in H. rewrite H. ring.
    + rewrite !zeval_cons, (IH b ltac:(intros i; exact (H (S i))) y). specialize (H 0%nat). cbn in H. rewrite H. reflexivity.
Qed.

Lemma minimal_irreducible : forall p x, minimal p x -> irreducible p.
Proof.
  intros p x Hm k a b K0 La Lb Lab H.
  assert (E : zeval a x * zeval b x = 0).
  { rewrite <- zeval_zprod, (zeval_nth _ (map (Z.mul k) p)); [rewrite zeval_scaled, (min_root _ _ Hm); ring|].
    intros i. rewrite nth_zprod, nth_map_mul. apply H. }
  assert (Hz : forall a b, (length a < length p)%nat -> zeval a x = 0 -> forall i, conv_coeff a b i = 0%Z).
  { intros a' b' L Z. apply (min_short _ _ Hm) in Z; [|exact L]. clear - Z. induction Z as [|u a' U _ IH]; intros i; [apply conv_nil|].
    destruct i; [rewrite conv_0; cbn [nth]; rewrite U; ring|rewrite conv_consl, IH, U; ring]. }
  assert (All : forall i, conv_coeff a b i = 0%Z).
  { apply Rmult_integral in E. destruct E as [E|E]; [apply Hz; [lia|exact E]|].
    intros i. rewrite conv_comm. apply Hz; [lia|exact E]. }
  apply (min_lead _ _ Hm). rewrite last_nth. specialize (H (length p - 1)%nat). rewrite All in H. nia.
Qed.

Lemma conjugate : forall p x y, minimal p x -> zeval p y = 0 -> minimal p y.
Proof.
  intros p x y Hm Z. apply irreducible_minimal; [apply (minimal_irreducible p x Hm)|apply Hm|apply Hm|exact Z].
Qed.
Lemma irreducible_simple : forall p, irreducible p -> last p 0%Z <> 0%Z -> (2 <= length p)%nat -> simple_roots p reals.
Proof. intros p Hi Hl L y _ Z. apply (minimal_simple p y). apply irreducible_minimal; assumption. Qed.
Lemma minimal_simple_roots : forall p x, minimal p x -> simple_roots p reals.
Proof. intros p x Hm y _ Z. apply (minimal_simple p y). apply (conjugate p x y Hm Z). Qed.

(** * Isolation *)
Lemma vca_mono : forall f g p ex ints, (f <= g)%nat -> vca f p ex ints <> VFuel -> vca g p ex ints = vca f p ex ints.
Proof. intros f g p ex ints Hg H. unfold vca in *. apply vca_loop_mono; assumption. Qed.

Lemma isolate_mono : forall flog0 f g p ex ints, (f <= g)%nat -> isolate flog0 f p = VDone ex ints -> isolate flog0 g p = VDone ex ints.
Proof.
  intros flog0 f g p ex ints Hg E. unfold isolate in *. destruct (forallb (Z.eqb 0) p); [discriminate|].
  destruct (low_zeros p) as [nz q]. destruct (root_bound flog0 (flip q)) as [k|].
  - rewrite (vca_mono f g); [|exact Hg|intros F; rewrite F in E; discriminate].
    destruct (vca f (scale2 k (flip q)) [] []) as [a b| | |]; try discriminate.
    destruct (root_bound flog0 q) as [k'|]; [|exact E].
    rewrite (vca_mono f g); [exact E|exact Hg|intros F; rewrite F in E; discriminate].
  - destruct (root_bound flog0 q) as [k'|]; [|exact E].
    rewrite (vca_mono f g); [exact E|exact Hg|intros F; rewrite F in E; discriminate].
Qed.

Lemma irreducible_nonzero : forall p, last p 0%Z <> 0%Z -> nonzero p.
Proof.
  intros p Hl Hz. apply Hl. rewrite last_nth. rewrite Forall_forall in Hz.
  destruct (Nat.lt_ge_cases (length p - 1) (length p)) as [L|L]; [apply Hz; apply nth_In; exact L|apply nth_overflow; exact L].
Qed.

(** * Combining answers *)
Lemma answers_bind : forall (A B : Type) (F : nat -> out A) (G : A -> nat -> out B) Q Q' S,
  answers F Q S -> (forall v, Q v -> answers (G v) Q' S) -> answers (fun f => bind (F f) (fun v => G v f)) Q' S.
Proof.
  intros A B F G Q Q' S (f0 & r & Hf & Hr) HG. destruct r as [v| | |]; try contradiction.
  - destruct (HG v Hr) as (f1 & r1 & Hf1 & Hr1). exists (Nat.max f0 f1), r1. split; [|exact Hr1].
    intros f Hm. rewrite Hf by lia. cbn [bind]. apply Hf1. lia.
  - exists f0, Undef. split; [|exact Hr]. intros f Hm. rewrite Hf by exact Hm. reflexivity.
Qed.
Lemma answers_weaken : forall (A : Type) (F : nat -> out A) (Q Q' : A -> Prop) (S S' : Prop),
  answers F Q S -> (forall v, Q v -> Q' v) -> (S -> S') -> answers F Q' S'.
Proof.
  intros A F Q Q' S S' (f0 & r & Hf & Hr) HQ HS. exists f0, r. split; [exact Hf|]. destruct r; auto.
Qed.

(** * Bounds for finitely many roots *)
Lemma least_of : forall (A : Type) (Q : A -> R -> Prop) l, (forall a r s, Q a r -> 0 < s -> s <= r -> Q a s) ->
  (forall a, In a l -> exists r, 0 < r /\ Q a r) -> exists r, 0 < r /\ forall a, In a l -> Q a r.
Proof.
  intros A Q l Hm. induction l as [|a l IH]; intros H; [exists 1; split; [lra|intros ? []]|].
  destruct IH as (r & R0 & Hr); [intros b Hb; apply H; right; exact Hb|]. destruct (H a (or_introl eq_refl)) as (s & S0 & Hs).
  destruct (below2 r s R0 S0) as (t & T0 & T1 & T2). exists t. split; [exact T0|].
  intros b [<-|Hb]; [apply (Hm a s); assumption|apply (Hm b r); auto].
Qed.
Lemma forall2_prec : forall (A B : Type) (T : A -> B -> Z -> Prop) l m,
  Forall2 (fun a b => exists P, forall prec, (P <= prec)%Z -> T a b prec) l m ->
  exists P, forall prec, (P <= prec)%Z -> Forall2 (fun a b => T a b prec) l m.
Proof.
  intros A B T l m H. induction H as [|a b l m (P & HP) _ (Q & HQ)]; [exists 0%Z; constructor|].
  exists (Z.max P Q). intros prec Hp. constructor; [apply HP; lia|apply HQ; lia].
Qed.

Lemma rad_le_finite : forall a r, rad_le a r -> is_finite a = true.
Proof. intros a r H. destruct a; [reflexivity|contradiction]. Qed.

Lemma made_embedded : forall pol x r0 den prec nf, (forall y, Rabs (y - x) <= 2 * r0 -> zeval pol y = 0 -> y = x) ->
  made pol x r0 den prec nf -> embedded pol den x prec nf.
Proof.
  intros pol x r0 den prec nf Hsep ((A & B & C & _) & D & E & F & G). split; try assumption; [eapply rad_le_finite; exact C|].
  intros y Hy Zy. apply Hsep; [|exact Zy]. destruct (f_emb nf) as [m r|]; [|contradiction]. cbn in C. apply inb_bounds in Hy. apply inb_bounds in B.
  apply Rabs_le. lra.
Qed.

(** * The root of a small interval *)
Section Small.
Variables (o : arbops) (p : list Z).
Hypothesis Ho : arb_ok o.
Hypothesis Hrt : arb_rate o.
Hypothesis Hi : irreducible p.
Hypothesis Hl : last p 0%Z <> 0%Z.
Hypothesis Hdeg : (3 <= length p)%nat.

Definition narrow (x r0 : R) : Prop := forall mu, 0 < mu -> exists P, forall debug den m r prec, (P <= prec)%Z ->
  mu <= x - (dyv m - dyv r) -> mu <= dyv m + dyv r - x -> dyv r <= r0 ->
  (exists f0, forall fuel, (f0 <= fuel)%nat -> check_unique o fuel p (Fin m r) prec = Val true) /\
  answers (fun fuel => renf_init o debug fuel p den (Fin m r) prec) (embedded p den x prec) (word_overflow o p (Fin m r)).

Lemma narrow_exists : forall x, zeval p x = 0 -> exists r, 0 < r /\ narrow x r.
Proof.
  intros x Z. assert (Hm : minimal p x) by (apply irreducible_minimal; [exact Hi|exact Hl|lia|exact Z]).
  destruct (create_small o p x Ho Hrt Hm Hdeg (minimal_simple_roots p x Hm)) as (r0 & R0 & Hsep & H). exists r0. split; [exact R0|].
  intros mu Hmu. destruct (H mu Hmu) as (P & H'). exists P. intros debug den m r prec Hp H1 H2 Hr.
  destruct (H' debug den m r prec Hp H1 H2 Hr) as [A B]. split; [exact A|].
  eapply answers_weaken; [exact B| |auto]. intros nf. apply made_embedded. exact Hsep.
Qed.

(** An interval of the isolation. *)
Lemma narrow_ball : forall x w d, narrow x w -> in_int d x -> ihi d - ilo d <= 2 * w ->
  exists P, forall prec, (P <= prec)%Z -> forall debug,
    answers (fun fuel => renf_init o debug fuel p 1 (embed_ball prec d) prec) (embedded p 1 x prec) (word_overflow o p (embed_ball prec d)).
Proof.
  intros x w d Hn Hx Hw. unfold in_int in Hx.
  destruct (below2 (x - ilo d) (ihi d - x) ltac:(lra) ltac:(lra)) as (mu & Hmu & M1 & M2).
  destruct (Hn mu Hmu) as (P & H). exists (Z.max 1 (Z.max P (zbits (2 * fst d + 1)))).
  intros prec HP debug. unfold embed_ball.
  assert (EP : pw2 (snd d) = 2 * pw2 (snd d - 1)).
  { replace (snd d) with (1 + (snd d - 1))%Z at 1 by lia. rewrite pw2_add, pw2_1. reflexivity. }
  assert (EM : dyv (d2exp (dround RDown prec (dz (2 * fst d + 1))) (snd d - 1)) = (ilo d + ihi d) / 2).
  { assert (E : dround RDown prec (dz (2 * fst d + 1)) = dz (2 * fst d + 1)).
    { unfold dround. cbn [dz fst snd]. destruct (Z.leb_spec (zbits (2 * fst d + 1) - prec) 0); [reflexivity|lia]. }
    rewrite E, dyv_2exp, dyv_dz. unfold ilo, ihi, dyv. cbn [fst snd]. rewrite plus_IZR, mult_IZR, EP. field. }
  assert (ER : dyv (1, snd d - 1)%Z = (ihi d - ilo d) / 2).
  { unfold ilo, ihi, dyv. cbn [fst snd]. rewrite EP. field. }
  apply H; [lia| | |]; rewrite ?EM, ?ER; lra.
Qed.

Lemma embed_all_answers : forall debug prec ints xs S,
  Forall2 (fun d x => answers (fun fuel => renf_init o debug fuel p 1 (embed_ball prec d) prec) (embedded p 1 x prec) S) ints xs ->
  answers (fun fuel => embed_all o debug fuel p prec ints) (Forall2 (fun x nf => embedded p 1 x prec nf) xs) S.
Proof.
  intros debug prec ints xs S H. induction H as [|d x l xs Hd _ IH]; cbn [embed_all].
  - exists 0%nat, (Val []). split; [reflexivity|constructor].
  - apply (answers_bind _ _ (fun fuel => renf_init o debug fuel p 1 (embed_ball prec d) prec)
      (fun nf fuel => bind (embed_all o debug fuel p prec l) (fun nfs => Val (nf :: nfs))) _ _ _ Hd).
    intros nf Hnf. apply (answers_bind _ _ (fun fuel => embed_all o debug fuel p prec l) (fun nfs _ => Val (nf :: nfs)) _ _ _ IH).
    intros nfs Hnfs. exists 0%nat, (Val (nf :: nfs)). split; [reflexivity|constructor; assumption].
Qed.
End Small.

Lemma irreducible_not_dyadic : forall p d, irreducible p -> last p 0%Z <> 0%Z -> (3 <= length p)%nat -> zeval p (dyv d) <> 0.
Proof.
  intros p d Hi Hl Hd Z. assert (Hm : minimal p (dyv d)) by (apply irreducible_minimal; [exact Hi|exact Hl|lia|exact Z]).
  apply (x_not_dyadic p (dyv d) Hm Hd d eq_refl).
Qed.

(** The roots in the intervals of an isolation. *)
Lemma isolation_roots : forall p ints, isolates p reals [] ints ->
  exists xs, StronglySorted Rlt xs /\ (forall x, zeval p x = 0 <-> In x xs) /\ Forall2 (fun d x => in_int d x /\ zeval p x = 0) ints xs.
Proof.
  intros p ints I. destruct (int_roots p ints (iso_int_root _ _ _ _ I)) as (xs & Hxs).
  exists xs. split; [eapply int_roots_sorted; [exact Hxs|apply (iso_int_sorted _ _ _ _ I)]|]. split; [|exact Hxs].
  intros x. split.
  - intros Zx. destruct (iso_complete _ _ _ _ I x Logic.I Zx) as [(e & [] & _)|(d & Hd & Hxd)].
    destruct (iso_int_root _ _ _ _ I d Hd) as (z & _ & Hz).
    assert (exists y, In y xs /\ in_int d y /\ zeval p y = 0) as (y & Hy & Hyd & Zy).
    { clear - Hxs Hd. induction Hxs as [|d' y l xs H Hl IH]; [contradiction|].
      destruct Hd as [->|Hd]; [exists y; split; [left; reflexivity|exact H]|].
      destruct (IH Hd) as (z & Hz & H'). exists z. split; [right; exact Hz|exact H']. }
    rewrite <- (Hz x) by (split; assumption). rewrite (Hz y) by (split; assumption). exact Hy.
  - intros Hx. clear - Hxs Hx. induction Hxs as [|d' y l xs H Hl IH]; [contradiction|].
    destruct Hx as [->|Hx]; [apply H|apply IH; exact Hx].
Qed.

Lemma sorted_unique : forall l m, StronglySorted Rlt l -> StronglySorted Rlt m -> (forall x, In x l <-> In x m) -> l = m.
Proof.
  induction l as [|a l IH]; intros m Sl Sm H.
  - destruct m as [|b m]; [reflexivity|]. destruct (proj2 (H b) (or_introl eq_refl)).
  - destruct m as [|b m]; [destruct (proj1 (H a) (or_introl eq_refl))|].
    inversion Sl as [|? ? Sl' Fl]; inversion Sm as [|? ? Sm' Fm]; subst. rewrite Forall_forall in Fl, Fm.
    assert (E : a = b).
    { destruct (proj1 (H a) (or_introl eq_refl)) as [E|Ha]; [symmetry; exact E|]. destruct (proj2 (H b) (or_introl eq_refl)) as [E|Hb]; [exact E|].
      pose proof (Fl b Hb). pose proof (Fm a Ha). lra. }
    subst b. f_equal. apply IH; [exact Sl'|exact Sm'|]. intros x. split; intros Hx.
    + destruct (proj1 (H x) (or_intror Hx)) as [E|E]; [|exact E]. subst. pose proof (Fl x Hx). lra.
    + destruct (proj2 (H x) (or_intror Hx)) as [E|E]; [|exact E]. subst. pose proof (Fm x Hx). lra.
Qed.

Lemma Forall2_imp : forall (A B : Type) (P Q : A -> B -> Prop) l m, (forall a b, P a b -> Q a b) -> Forall2 P l m -> Forall2 Q l m.
Proof. intros A B P Q l m H F. induction F; constructor; auto. Qed.
Lemma Forall2_in : forall (A B : Type) (P : A -> B -> Prop) l m, Forall2 P l m -> Forall2 (fun a b => In a l /\ In b m /\ P a b) l m.
Proof.
  intros A B P l m H. induction H as [|a b l m Hab _ IH]; [constructor|]. constructor; [repeat split; [left; reflexivity|left; reflexivity|exact Hab]|].
  revert IH. apply Forall2_imp. intros c d (H1 & H2 & H3). repeat split; [right; exact H1|right; exact H2|exact H3].
Qed.

(** All real embeddings. *)
Lemma embeddings_all : forall o, arb_ok o -> arb_rate o -> forall p xs, irreducible p -> last p 0%Z <> 0%Z -> (3 <= length p)%nat ->
  StronglySorted Rlt xs -> (forall x, zeval p x = 0 <-> In x xs) ->
  exists w, 0 < w /\ forall ints, isolates p reals [] ints -> Forall (fun d => ihi d - ilo d <= w) ints ->
  exists P, forall debug lim prec, (P <= prec)%Z ->
    answers (fun fuel => embed_all o debug fuel p prec (firstn (Z.to_nat lim) ints))
            (Forall2 (fun x nf => embedded p 1 x prec nf) (firstn (Z.to_nat lim) xs))
            (exists d, In d ints /\ word_overflow o p (embed_ball prec d)) /\
    forall flog0 fuel0, isolate flog0 fuel0 p = VDone [] ints ->
    answers (fun fuel => set_embeddings o debug flog0 fuel p lim prec)
            (fun r => snd r = Z.of_nat (length xs) /\ Forall2 (fun x nf => embedded p 1 x prec nf) (firstn (Z.to_nat lim) xs) (fst r))
            (exists d, In d ints /\ word_overflow o p (embed_ball prec d)).
Proof.
  intros o Ho Hrt p xs Hi Hl Hdeg Sx Hx.
  destruct (least_of R (fun x r => narrow o p x r) xs) as (w & W0 & Hw).
  { intros a r s Hn S0 Hs mu Hmu. destruct (Hn mu Hmu) as (P & H). exists P. intros debug den m rr prec Hp H1 H2 Hr. apply H; try assumption. lra. }
  { intros x Hin. apply narrow_exists; try assumption. apply Hx. exact Hin. }
  exists w. split; [exact W0|]. intros ints I HF.
  destruct (isolation_roots p ints I) as (ys & Sy & Hy & H2).
  assert (ys = xs) by (apply sorted_unique; [exact Sy|exact Sx|]; intros x; rewrite <- Hx, <- Hy; reflexivity). subst ys.
  assert (HP : exists P, forall prec, (P <= prec)%Z -> Forall2 (fun d x => In d ints /\ forall debug,
     answers (fun fuel => renf_init o debug fuel p 1 (embed_ball prec d) prec) (embedded p 1 x prec) (word_overflow o p (embed_ball prec d))) ints xs).
  { apply (forall2_prec dyadic R (fun d x prec => In d ints /\ forall debug,
      answers (fun fuel => renf_init o debug fuel p 1 (embed_ball prec d) prec) (embedded p 1 x prec) (word_overflow o p (embed_ball prec d)))).
    apply Forall2_in in H2. revert H2. apply Forall2_imp. intros d x (Hd & Hxs & Hdx & _).
    rewrite Forall_forall in HF. destruct (narrow_ball o p Hdeg x w d (Hw x Hxs) Hdx ltac:(pose proof (HF d Hd); lra)) as (P & HP). exists P. intros prec Hp. split; [exact Hd|apply HP; exact Hp]. }
  destruct HP as (P & HP). exists P. intros debug lim prec Hprec.
  assert (HA : answers (fun fuel => embed_all o debug fuel p prec (firstn (Z.to_nat lim) ints))
            (Forall2 (fun x nf => embedded p 1 x prec nf) (firstn (Z.to_nat lim) xs))
            (exists d, In d ints /\ word_overflow o p (embed_ball prec d))).
  { apply embed_all_answers. apply Forall2_firstn. generalize (HP prec Hprec). apply Forall2_imp. intros d x [Hd H].
    eapply answers_weaken; [apply H|auto|]. intros E. exists d. split; assumption. }
  split; [exact HA|]. intros flog0 fuel0 Ei. destruct HA as (f0 & r & Hf & Hr).
  destruct (slots_sufficient flog0 fuel0 p [] ints (irreducible_nonzero p Hl) Ei) as (n & En & _).
  assert (Hlen : length ints = length xs) by (clear - H2; induction H2; simpl; congruence).
  exists (Nat.max f0 fuel0), (bind r (fun nfs => Val (nfs, Z.of_nat (length ints)))). split.
  - intros f Hm. unfold set_embeddings. rewrite En, (isolate_mono flog0 fuel0 f p [] ints ltac:(lia) Ei), Hf by lia. reflexivity.
  - destruct r; cbn [bind]; try contradiction; [|exact Hr]. cbn [fst snd]. rewrite Hlen. split; [reflexivity|exact Hr].
Qed.

(** The own isolation of an irreducible polynomial has no exact roots. *)
Lemma isolation_open : forall flog0 p, irreducible p -> last p 0%Z <> 0%Z -> (3 <= length p)%nat ->
  good_bound flog0 (snd (low_zeros p)) -> good_bound flog0 (flip (snd (low_zeros p))) ->
  exists f0 ints, isolates p reals [] ints /\ forall f, (f0 <= f)%nat -> isolate flog0 f p = VDone [] ints.
Proof.
  intros flog0 p Hi Hl Hd G1 G2. pose proof (irreducible_nonzero p Hl) as Hz.
  destruct (isolate_terminates flog0 p Hz (irreducible_simple p Hi Hl ltac:(lia))) as (f0 & H).
  destruct (H f0 (Nat.le_refl _)) as (ex & ints & E). pose proof (isolate_correct flog0 f0 p Hz G1 G2) as I. rewrite E in I.
  destruct ex as [|d ex].
  - exists f0, ints. split; [exact I|]. intros f Hf. apply (isolate_mono flog0 f0); assumption.
  - destruct (iso_exact_root _ _ _ _ I d (or_introl eq_refl)) as [_ Z]. destruct (irreducible_not_dyadic p d Hi Hl Hd Z).
Qed.

(** * The check accepts isolating enclosures *)
Lemma check_accepts : forall o, arb_ok o -> arb_rate o -> forall p x m r, irreducible p -> last p 0%Z <> 0%Z -> (3 <= length p)%nat ->
  inb x (Fin m r) -> zeval p x = 0 -> (forall y, inb y (Fin m r) -> zeval p y = 0 -> y = x) ->
  exists P, forall prec, (P <= prec)%Z -> exists f0, forall fuel, (f0 <= fuel)%nat -> check_unique o fuel p (Fin m r) prec = Val true.
Proof.
  intros o Ho Hrt p x m r Hi Hl Hdeg Hx Zx Hu.
  assert (Hm : minimal p x) by (apply irreducible_minimal; [exact Hi|exact Hl|lia|exact Zx]).
  apply inb_bounds in Hx.
  assert (N1 : dyv m - dyv r <> x) by (intros E; apply (irreducible_not_dyadic p (dsub m r) Hi Hl Hdeg); rewrite dyv_sub, E; exact Zx).
  assert (N2 : dyv m + dyv r <> x) by (intros E; apply (irreducible_not_dyadic p (dadd m r) Hi Hl Hdeg); rewrite dyv_add, E; exact Zx).
  assert (Hxx : dyv m - dyv r < x < dyv m + dyv r) by lra.
  assert (Hon : forall y, dyv m - dyv r <= y <= dyv m + dyv r -> zeval p y = 0 -> y = x) by (intros y Hy; apply Hu; apply inb_bounds; lra).
  pose proof (sides p x _ _ (minimal_simple p x Hm) Hxx Hon) as Hsg.
  destruct (check_complete o p Ho Hrt Hl Hdeg (irreducible_simple p Hi Hl ltac:(lia)) (dyv m - dyv r) (dyv m + dyv r) ltac:(lra) Hsg) as (d & P1 & D0 & Hc).
  { intros u v Hu' Hv Zu Zv. rewrite (Hon u), (Hon v); [reflexivity|lra|exact Zv|lra|exact Zu]. }
  destruct (interval_close (Rabs (dyv m - dyv r) + Rabs (dyv m + dyv r)) d) as (P2 & Hi2);
    [pose proof (Rabs_pos (dyv m - dyv r)); pose proof (Rabs_pos (dyv m + dyv r)); lra|exact D0|].
  exists (Z.max P1 P2). intros prec HP.
  destruct (Hi2 m r prec ltac:(lia)) as (l & u & Ei & H1 & H2);
    [pose proof (Rabs_pos (dyv m + dyv r)); lra|pose proof (Rabs_pos (dyv m - dyv r)); lra|].
  apply (Hc (Fin m r) prec l u ltac:(lia) Ei H1 H2).
Qed.
