(** What num_real_roots_0_1_sturm.c returns for every polynomial with simple roots. *)
Require Import Reals List ZArith Bool Lia Lra Sorted.
From Verif Require Import PolyR RootModel RootSpec ExtraModel ExtraProofs SquarefreeProofs PremProofs SturmSpec Sturm SturmProofs.
Import ListNotations.
Open Scope R_scope.

(** * Degrees *)
Definition small (n : nat) (f : R -> R) : Prop := exists s, length s = n /\ forall x, f x = peval s x.
Definition lead (n : nat) (c : R) (f : R -> R) : Prop := exists s, length s = n /\ forall x, f x = peval (s ++ [c]) x.

Lemma padd_length : forall p q, length (padd p q) = Nat.max (length p) (length q).
Proof. induction p as [|a p IH]; intros [|b q]; cbn [padd length]; try reflexivity. rewrite IH. reflexivity. Qed.

Lemma small_le : forall m n f, (m <= n)%nat -> small m f -> small n f.
Proof.
  intros m n f L (s & Ls & E). exists (s ++ repeat 0 (n - m)). split; [rewrite app_length, repeat_length; lia|].
  intros x. rewrite E, peval_app, (peval_pzero (repeat 0 (n - m))); [ring|]. unfold pzero. apply Forall_forall. intros y Hy. apply repeat_spec in Hy. exact Hy.
Qed.
Lemma small_add : forall n f g, small n f -> small n g -> small n (fun x => f x + g x).
Proof.
  intros n f g (s & Ls & E) (t & Lt & F). exists (padd s t). split; [rewrite padd_length; lia|]. intros x. rewrite peval_padd, E, F. reflexivity.
Qed.
Lemma small_scal : forall n f c, small n f -> small n (fun x => c * f x).
Proof. intros n f c (s & Ls & E). exists (pscal c s). split; [unfold pscal; rewrite map_length; exact Ls|]. intros x. rewrite peval_pscal, E. reflexivity. Qed.
Lemma small_shift : forall n m f, small n f -> small (m + n) (fun x => x ^ m * f x).
Proof.
  intros n m f (s & Ls & E). exists (repeat 0 m ++ s). split; [rewrite app_length, repeat_length; lia|].
  intros x. rewrite peval_app, repeat_length, (peval_pzero (repeat 0 m)), E; [ring|]. unfold pzero. apply Forall_forall. intros y Hy. apply repeat_spec in Hy. exact Hy.
Qed.
Lemma small_mul : forall q n b, small n b -> small (length q + n) (fun x => peval q x * b x).
Proof.
  induction q as [|a q IH]; intros n b Hb.
  - apply (small_le 0); [lia|]. exists []. split; [reflexivity|]. intros x. cbn. ring.
  - destruct (small_add (length (a :: q) + n) (fun x => a * b x) (fun x => x ^ 1 * (peval q x * b x))) as (s & Ls & E).
    + apply (small_le n); [lia|]. apply small_scal, Hb.
    + apply (small_shift (length q + n) 1). apply IH, Hb.
    + exists s. split; [exact Ls|]. intros x. rewrite <- E. cbn [peval]. ring.
Qed.
Lemma small_lead : forall n c f, small n (fun x => f x - c * x ^ n) -> lead n c f.
Proof. intros n c f (s & Ls & E). exists s. split; [exact Ls|]. intros x. rewrite peval_app, <- E, Ls. cbn [peval]. ring. Qed.
Lemma lead_small : forall n c f, lead n c f -> exists g, small n g /\ forall x, f x = g x + c * x ^ n.
Proof. intros n c f (s & Ls & E). exists (peval s). split; [exists s; split; [exact Ls|reflexivity]|]. intros x. rewrite E, peval_app, Ls. cbn [peval]. ring. Qed.

Lemma lead_mul : forall m n c d f g, lead m c f -> lead n d g -> lead (m + n) (c * d) (fun x => f x * g x).
Proof.
  intros m n c d f g Hf Hg. apply lead_small in Hf. apply lead_small in Hg.
  destruct Hf as (f' & (s & Ls & Sf) & Ef). destruct Hg as (g' & Sg & Eg). apply small_lead.
  assert (S1 : small (m + n) (fun x => peval s x * g' x)) by (rewrite <- Ls; apply small_mul, Sg).
  assert (S2 : small (m + n) (fun x => d * (x ^ n * f' x))).
  { rewrite Nat.add_comm. apply small_scal, small_shift. exists s. split; [exact Ls|exact Sf]. }
  assert (S3 : small (m + n) (fun x => c * (x ^ m * g' x))) by (apply small_scal, small_shift, Sg).
  destruct (small_add _ _ _ S1 (small_add _ _ _ S2 S3)) as (t & Lt & Et). exists t. split; [exact Lt|].
  intros x. rewrite <- Et, <- Sf, Ef, Eg, pow_add. ring.
Qed.
Lemma lead_not_small : forall n c f, c <> 0 -> lead n c f -> small n f -> False.
Proof.
  intros n c f Hc (s & Ls & E) (t & Lt & F). apply Hc.
  pose proof (peval_zero_interval (padd (s ++ [c]) (pscal (-1) t)) 0 1 ltac:(lra)) as P.
  assert (Z : pzero (padd (s ++ [c]) (pscal (-1) t))).
  { apply P. intros x _. rewrite peval_padd, peval_pscal, <- E, <- F. ring. }
  clear P E F. rewrite <- Ls in Lt. clear Ls. revert t Lt Z. induction s as [|a s IH]; intros [|b t] Lt Z; cbn in Lt; try lia.
  - cbn in Z. inversion Z. assumption.
  - cbn in Z. inversion Z. apply (IH t); [lia|assumption].
Qed.
Lemma lead_last : forall b, last b 0%Z <> 0%Z -> lead (length b - 1) (IZR (last b 0%Z)) (zeval b).
Proof.
  intros b Hb. destruct b as [|y b'] using rev_ind; [exfalso; apply Hb; reflexivity|].
  rewrite last_last in *. exists (map IZR b'). split; [rewrite map_length, app_length; cbn; lia|]. intros x. unfold zeval. rewrite map_app. reflexivity.
Qed.
Lemma zeval_small : forall b n, (length b <= n)%nat -> small n (zeval b).
Proof. intros b n H. apply (small_le (length b)); [exact H|]. exists (map IZR b). split; [apply map_length|reflexivity]. Qed.
Lemma lead_exists : forall q, (forall x, peval q x = 0) \/ exists n c, c <> 0 /\ lead n c (peval q).
Proof.
  intros q. induction q as [|a q IH] using rev_ind; [left; reflexivity|]. destruct (Req_dec a 0) as [->|Ha].
  - destruct IH as [IH|(n & c & Hc & IH)].
    + left. intros x. rewrite peval_app, IH. cbn. ring.
    + right. exists n, c. split; [exact Hc|]. destruct IH as (s & Ls & E). exists s. split; [exact Ls|]. intros x. rewrite peval_app, <- E. cbn. ring.
  - right. exists (length q), a. split; [exact Ha|]. exists q. split; [reflexivity|]. intros x. reflexivity.
Qed.

(** A multiple that is shorter is zero. *)
Lemma short_multiple : forall b q f, last b 0%Z <> 0%Z -> small (length b - 1) f ->
  (forall x, f x = peval q x * zeval b x) -> forall x, f x = 0.
Proof.
  intros b q f Hb Sf E. destruct (lead_exists q) as [Z|(n & c & Hc & Lq)]; [intros x; rewrite E, Z; ring|].
  exfalso. assert (HL : IZR (last b 0%Z) <> 0) by (intros W; apply Hb, eq_IZR, W).
  apply (lead_not_small (n + (length b - 1)) (c * IZR (last b 0%Z)) (fun x => peval q x * zeval b x)).
  - apply Rmult_integral_contrapositive. split; assumption.
  - apply lead_mul; [exact Lq|apply lead_last, Hb].
  - apply (small_le (length b - 1)); [lia|]. destruct Sf as (s & Ls & Es). exists s. split; [exact Ls|]. intros x. rewrite <- E. apply Es.
Qed.
Lemma last_nonzero : forall c, last c 0%Z <> 0%Z -> ~ forall x, zeval c x = 0.
Proof.
  intros c Hc H. apply (lead_not_small (length c - 1) (IZR (last c 0%Z)) (zeval c)).
  - intros W. apply Hc, eq_IZR, W.
  - apply lead_last, Hc.
  - exists (repeat 0 (length c - 1)). split; [apply repeat_length|]. intros x. rewrite H. symmetry. apply peval_pzero, Forall_forall.
    intros y Hy. apply repeat_spec in Hy. exact Hy.
Qed.

(** * A sequence is determined up to positive factors *)
Definition multiple (a b : list Z) : Prop := exists k, 0 < k /\ forall x, zeval b x = k * zeval a x.

Lemma remainders_unique : forall a b l, remainders a b l -> forall a' b' l', remainders a' b' l' ->
  multiple a a' -> multiple b b' -> last b 0%Z <> 0%Z -> last b' 0%Z <> 0%Z -> (length b' = length b)%nat -> Forall2 multiple l l'.
Proof.
  intros a b l H. induction H as [a b u q Hu Hq|a b c u w q l Hu Hw Nc Lc Hq HR IH];
  intros a' b' l' H' (k & Hk & Ea) (j & Hj & Eb) Nb Nb' Lb.
  - inversion H' as [|? ? c u' w' q' m Hu' Hw' Nc Lc Hq' HR']; subst; [constructor|]. exfalso.
    apply (last_nonzero c Nc). intros x.
    assert (E : forall y, w' * (u * zeval c y) = peval (padd (pscal (u * j) q') (pscal (- (u' * k)) q)) y * zeval b y).
    { intros y. rewrite peval_padd, !peval_pscal. specialize (Hq y). specialize (Hq' y). rewrite Ea, Eb in Hq'.
      transitivity (u * (peval q' y * (j * zeval b y)) - u' * k * (u * zeval a y)); [|rewrite Hq; ring].
      replace (u' * k * (u * zeval a y)) with (u * (u' * (k * zeval a y))) by ring. rewrite Hq'. ring. }
    pose proof (short_multiple b _ (fun y => w' * (u * zeval c y)) Nb (small_scal _ _ _ (small_scal _ _ _ (zeval_small c (length b - 1) ltac:(lia)))) E x) as Z.
    cbn beta in Z. apply Rmult_integral in Z. destruct Z as [Z|Z]; [lra|]. apply Rmult_integral in Z. destruct Z; [lra|assumption].
  - inversion H' as [? ? u' q' Hu' Hq'|? ? c' u' w' q' m Hu' Hw' Nc' Lc' Hq' HR']; subst.
    + exfalso. apply (last_nonzero c Nc). intros x.
      assert (E : forall y, w * (u' * k * zeval c y) = peval (padd (pscal (u' * k) q) (pscal (- (u * j)) q')) y * zeval b y).
      { intros y. rewrite peval_padd, !peval_pscal. specialize (Hq y). specialize (Hq' y). rewrite Ea, Eb in Hq'.
        transitivity (u' * k * (peval q y * zeval b y) - u * (peval q' y * (j * zeval b y))); [|ring]. rewrite <- Hq'.
        replace (u * (u' * (k * zeval a y))) with (u' * k * (u * zeval a y)) by ring. rewrite Hq. ring. }
      pose proof (short_multiple b _ (fun y => w * (u' * k * zeval c y)) Nb (small_scal _ _ _ (small_scal _ _ _ (zeval_small c (length b - 1) ltac:(lia)))) E x) as Z.
      cbn beta in Z. assert (0 < u' * k) by nra. apply Rmult_integral in Z. destruct Z as [Z|Z]; [lra|]. apply Rmult_integral in Z. destruct Z; [lra|assumption].
    + assert (E : forall y, u' * k * w * zeval c y + - (u * w') * zeval c' y = peval (padd (pscal (u' * k) q) (pscal (- (u * j)) q')) y * zeval b y).
      { intros y. rewrite peval_padd, !peval_pscal. specialize (Hq y). specialize (Hq' y). rewrite Ea, Eb in Hq'.
        transitivity (u' * k * (peval q y * zeval b y - (peval q y * zeval b y - w * zeval c y)) - u * (peval q' y * (j * zeval b y) - (peval q' y * (j * zeval b y) - w' * zeval c' y))); [ring|].
        rewrite <- Hq, <- Hq'. ring. }
      assert (Z : forall y, u' * k * w * zeval c y + - (u * w') * zeval c' y = 0).
      { apply (short_multiple b _ (fun y => u' * k * w * zeval c y + - (u * w') * zeval c' y) Nb) with (2 := E).
        apply (small_add _ (fun y => u' * k * w * zeval c y) (fun y => - (u * w') * zeval c' y)); apply small_scal, zeval_small; lia. }
      assert (P : 0 < u' * k * w) by (apply Rmult_lt_0_compat; nra). assert (P' : 0 < u * w') by nra.
      assert (M : multiple c c').
      { exists (u' * k * w / (u * w')). split; [apply Rdiv_lt_0_compat; assumption|]. intros y. specialize (Z y). apply (Rmult_eq_reg_l (u * w')); [|lra].
        field_simplify; [lra|lra]. }
      constructor; [exact M|]. apply (IH b' c' m HR'); [exists j; split; assumption|exact M|exact Nc|exact Nc'|].
      (* equal lengths *)
      destruct M as (i & Hi & Ei). destruct (Nat.lt_trichotomy (length c') (length c)) as [T|[T|T]]; [exfalso|exact T|exfalso].
      * apply (lead_not_small (length c - 1) (IZR (last c 0%Z)) (zeval c)); [intros W; apply Nc, eq_IZR, W|apply lead_last, Nc|].
        destruct (small_scal _ _ (/ i) (zeval_small c' (length c - 1) ltac:(lia))) as (s & Ls & Es). exists s. split; [exact Ls|].
        intros x. rewrite <- Es, Ei. field. lra.
      * apply (lead_not_small (length c' - 1) (IZR (last c' 0%Z)) (zeval c')); [intros W; apply Nc', eq_IZR, W|apply lead_last, Nc'|].
        destruct (small_scal _ _ i (zeval_small c (length c' - 1) ltac:(lia))) as (s & Ls & Es). exists s. split; [exact Ls|].
        intros x. rewrite <- Es, Ei. reflexivity.
Qed.

Lemma same_length : forall b b', last b 0%Z <> 0%Z -> last b' 0%Z <> 0%Z -> (forall x, zeval b x = zeval b' x) -> length b' = length b.
Proof.
  assert (G : forall b b', last b 0%Z <> 0%Z -> (forall x, zeval b x = zeval b' x) -> (length b <= length b')%nat).
  { intros b b' H E. destruct (Nat.le_gt_cases (length b) (length b')) as [L|L]; [exact L|]. exfalso.
    apply (lead_not_small (length b - 1) (IZR (last b 0%Z)) (zeval b)); [intros W; apply H, eq_IZR, W|apply lead_last, H|].
    destruct (zeval_small b' (length b - 1) ltac:(lia)) as (s & Ls & Es). exists s. split; [exact Ls|]. intros x. rewrite E. apply Es. }
  intros b b' H H' E. apply Nat.le_antisymm; apply G; try assumption. intros x. symmetry. apply E.
Qed.

Lemma sequence_unique : forall p L L', sturm_sequence p L -> sturm_sequence p L' -> Forall2 multiple L L'.
Proof.
  intros p L L' (d & l & Nd & Ed & R & ->) (d' & l' & Nd' & Ed' & R' & ->).
  assert (Mp : multiple p p) by (exists 1; split; [lra|]; intros x; ring).
  assert (Md : multiple d d') by (exists 1; split; [lra|]; intros x; rewrite Ed, Ed'; ring).
  constructor; [exact Mp|]. constructor; [exact Md|]. apply (remainders_unique p d l R p d' l' R' Mp Md Nd Nd').
  apply same_length; [assumption|assumption|]. intros x. rewrite Ed, Ed'. reflexivity.
Qed.

Lemma vanishing_multiple : forall L L', Forall2 multiple L L' -> forall n, vanishing L n -> vanishing L' n.
Proof.
  intros L L' H. induction H as [|a b L L' (k & Hk & E) H IH]; intros n Hn; [exact Hn|]. inversion Hn; subst.
  - constructor; [rewrite E, H2; ring|apply IH; assumption].
  - constructor; [rewrite E; intros W; apply H2; nra|apply IH; assumption].
Qed.

(** * Counting with zeros *)
Definition change0 (a b : R) : Z := if Rlt_dec 0 (a * b) then 0 else 1.
Definition change1 (a b : R) : Z := if Req_EM_T a 0 then 0 else if Rlt_dec 0 (a * b) then 0 else 1.
Fixpoint vars (f : R -> R -> Z) (L : list (list Z)) (x : R) : Z :=
  match L with
  | a :: ((b :: _) as t) => f (zeval a x) (zeval b x) + vars f t x
  | _ => 0
  end.
Fixpoint zeros (L : list (list Z)) : nat :=
  match L with [] => 0 | a :: l => (if Req_EM_T (zeval a 0) 0 then 1 else 0) + zeros l end.
Lemma zeros_vanishing : forall L, vanishing L (zeros L).
Proof. induction L as [|a L IH]; [constructor|]. cbn [zeros]. destruct (Req_EM_T (zeval a 0) 0); cbn [Nat.add]; constructor; assumption. Qed.
Lemma vanishing_fun : forall L n m, vanishing L n -> vanishing L m -> n = m.
Proof. intros L n m H. revert m. induction H; intros m' Hm; inversion Hm; subst; try contradiction; [reflexivity|f_equal; auto|auto]. Qed.

Lemma change_sign : forall a b a' b', 0 < a * a' -> 0 < b * b' -> (0 < a * b <-> ~ a' * b' < 0) /\ (0 < a * b <-> 0 < a' * b').
Proof.
  intros a b a' b' H H0. assert (P : 0 < (a * b) * (a' * b')) by (replace ((a * b) * (a' * b')) with ((a * a') * (b * b')) by ring; apply Rmult_lt_0_compat; assumption).
  revert P. generalize (a * b) (a' * b'). intros r s P. split; split; intros; nra.
Qed.
Lemma change0_same : forall a b a' b', 0 < a * a' -> 0 < b * b' -> change0 a b = change a' b'.
Proof.
  intros a b a' b' H H0. destruct (change_sign a b a' b' H H0) as [G _]. unfold change0, change.
  destruct (Rlt_dec 0 (a * b)), (Rlt_dec (a' * b') 0); try reflexivity; tauto.
Qed.
Lemma change1_same : forall a b a' b', 0 < a * a' -> 0 < b * b' -> change1 a b = change a' b'.
Proof.
  intros a b a' b' H H0. destruct (change_sign a b a' b' H H0) as [G _]. unfold change1, change. destruct (Req_EM_T a 0) as [->|_]; [exfalso; lra|].
  destruct (Rlt_dec 0 (a * b)), (Rlt_dec (a' * b') 0); try reflexivity; tauto.
Qed.

Section Start.
Variable w : R.
Hypothesis Hw : 0 < w <= 1.

Lemma start_piece : forall n L, (length L <= n)%nat -> chain L -> (forall a x, In a L -> 0 < x <= w -> zeval a x <> 0) ->
  match L with a :: _ => zeval a 0 <> 0 | [] => True end -> vars change0 L 0 = (var L w + Z.of_nat (zeros (tl L)))%Z.
Proof.
  induction n as [|n IH]; intros L Ln HL HN Hh; [destruct L; [reflexivity|cbn in Ln; lia]|].
  destruct L as [|a [|b l]]; [reflexivity|reflexivity|].
  destruct HL as [Hb HL].
  assert (Sg : forall d, In d (a :: b :: l) -> zeval d 0 <> 0 -> 0 < zeval d 0 * zeval d w).
  { intros d Hd Z. apply same_sign; [lra|]. intros x Hx. destruct (Req_dec x 0) as [->|Nx]; [exact Z|apply HN; [exact Hd|lra]]. }
  pose proof (Sg a (or_introl eq_refl) Hh) as Sa. cbn [tl zeros].
  destruct (Req_EM_T (zeval b 0) 0) as [Z|Z].
  - destruct l as [|d l]; [exfalso; apply (Hb 0); [unfold unit_cc; lra|exact Z]|].
    assert (Dc : zeval a 0 * zeval d 0 < 0) by (apply HL; [unfold unit_cc; lra|exact Z]).
    assert (Hd : zeval d 0 <> 0) by (intros W; rewrite W in Dc; lra).
    pose proof (Sg d ltac:(right; right; left; reflexivity) Hd) as Sd.
    assert (Dw : zeval a w * zeval d w < 0) by nra.
    assert (Bw : zeval b w <> 0) by (apply HN; [right; left; reflexivity|lra]).
    change (change0 (zeval a 0) (zeval b 0) + (change0 (zeval b 0) (zeval d 0) + vars change0 (d :: l) 0) =
            change (zeval a w) (zeval b w) + (change (zeval b w) (zeval d w) + var (d :: l) w) + Z.of_nat (1 + zeros (d :: l)))%Z.
    pose proof (change_mid _ _ _ Dw Bw).
    rewrite (IH (d :: l)); [|cbn in Ln |- *; lia|apply Hb|intros e x He; apply HN; right; right; exact He|exact Hd].
    cbn [tl zeros]. destruct (Req_EM_T (zeval d 0) 0); [contradiction|].
    rewrite Z. unfold change0. rewrite Rmult_0_r, Rmult_0_l. destruct (Rlt_dec 0 0); [lra|]. lia.
  - change (change0 (zeval a 0) (zeval b 0) + vars change0 (b :: l) 0 = change (zeval a w) (zeval b w) + var (b :: l) w + Z.of_nat (0 + zeros l))%Z.
    rewrite (IH (b :: l)); [|cbn in Ln |- *; lia|exact Hb|intros d x Hd; apply HN; right; exact Hd|exact Z].
    rewrite (change0_same _ _ (zeval a w) (zeval b w) Sa (Sg b ltac:(right; left; reflexivity) Z)). cbn [tl]. lia.
Qed.

Lemma start_count : forall p q l, chain (p :: q :: l) -> (forall a x, In a (p :: q :: l) -> 0 < x <= w -> zeval a x <> 0) ->
  (forall x, zeval q x = peval (pderiv (map IZR p)) x) -> (zeval p 0 = 0 -> zeval q 0 <> 0) ->
  vars change0 (p :: q :: l) 0 = (var (p :: q :: l) w + Z.of_nat (zeros (p :: q :: l)))%Z.
Proof.
  intros p q l HC HN Hd Hs. cbn [zeros]. destruct (Req_EM_T (zeval p 0) 0) as [Z|Z].
  - specialize (Hs Z). destruct HC as [HC _].
    change (change0 (zeval p 0) (zeval q 0) + vars change0 (q :: l) 0 = change (zeval p w) (zeval q w) + var (q :: l) w + Z.of_nat (1 + zeros (q :: l)))%Z.
    rewrite (start_piece (length (q :: l)) (q :: l)); [|lia|exact HC|intros a x Ha; apply HN; right; exact Ha|exact Hs].
    cbn [tl zeros]. destruct (Req_EM_T (zeval q 0) 0); [contradiction|].
    rewrite Z. unfold change0. rewrite Rmult_0_l. destruct (Rlt_dec 0 0); [lra|].
    destruct (peval_mvt (map IZR p) 0 w ltac:(lra)) as (y & Hy & Ey). fold (zeval p w) (zeval p 0) in Ey. rewrite <- Hd, Z in Ey.
    assert (Sq : 0 < zeval q y * zeval q w) by (apply same_sign; [lra|]; intros x Hx; apply HN; [right; left; reflexivity|lra]).
    unfold change. destruct (Rlt_dec (zeval p w * zeval q w) 0) as [W|_]; [|lia]. exfalso.
    replace (zeval p w) with (zeval q y * w) in W by lra. nra.
  - rewrite (start_piece (length (p :: q :: l)) (p :: q :: l)); [cbn [tl zeros]; destruct (Req_EM_T (zeval q 0) 0); lia|lia|exact HC|exact HN|exact Z].
Qed.
End Start.

Section Finish.
Variable w : R.
Hypothesis Hw : 0 <= w < 1.

Lemma end_piece : forall n L, (length L <= n)%nat -> chain L -> (forall a x, In a L -> w <= x < 1 -> zeval a x <> 0) ->
  match L with a :: _ => zeval a 1 <> 0 | [] => True end -> vars change1 L 1 = var L w.
Proof.
  induction n as [|n IH]; intros L Ln HL HN Hh; [destruct L; [reflexivity|cbn in Ln; lia]|].
  destruct L as [|a [|b l]]; [reflexivity|reflexivity|].
  destruct HL as [Hb HL].
  assert (Sg : forall d, In d (a :: b :: l) -> zeval d 1 <> 0 -> 0 < zeval d 1 * zeval d w).
  { intros d Hd Z. rewrite Rmult_comm. apply same_sign; [lra|]. intros x Hx. destruct (Req_dec x 1) as [->|Nx]; [exact Z|apply HN; [exact Hd|lra]]. }
  pose proof (Sg a (or_introl eq_refl) Hh) as Sa.
  destruct (Req_dec (zeval b 1) 0) as [Z|Z].
  - destruct l as [|d l]; [exfalso; apply (Hb 1); [unfold unit_cc; lra|exact Z]|].
    assert (Dc : zeval a 1 * zeval d 1 < 0) by (apply HL; [unfold unit_cc; lra|exact Z]).
    assert (Hd : zeval d 1 <> 0) by (intros W; rewrite W in Dc; lra).
    pose proof (Sg d ltac:(right; right; left; reflexivity) Hd) as Sd.
    assert (Dw : zeval a w * zeval d w < 0) by nra.
    assert (Bw : zeval b w <> 0) by (apply HN; [right; left; reflexivity|lra]).
    change (change1 (zeval a 1) (zeval b 1) + (change1 (zeval b 1) (zeval d 1) + vars change1 (d :: l) 1) =
            change (zeval a w) (zeval b w) + (change (zeval b w) (zeval d w) + var (d :: l) w))%Z.
    pose proof (change_mid _ _ _ Dw Bw).
    rewrite (IH (d :: l)); [|cbn in Ln |- *; lia|apply Hb|intros e x He; apply HN; right; right; exact He|exact Hd].
    unfold change1. destruct (Req_EM_T (zeval a 1) 0); [contradiction|]. destruct (Req_EM_T (zeval b 1) 0); [|contradiction].
    rewrite Z, Rmult_0_r. destruct (Rlt_dec 0 0); [lra|]. lia.
  - change (change1 (zeval a 1) (zeval b 1) + vars change1 (b :: l) 1 = change (zeval a w) (zeval b w) + var (b :: l) w)%Z.
    rewrite (IH (b :: l)); [|cbn in Ln |- *; lia|exact Hb|intros d x Hd; apply HN; right; exact Hd|exact Z].
    rewrite (change1_same _ _ (zeval a w) (zeval b w) Sa (Sg b ltac:(right; left; reflexivity) Z)). reflexivity.
Qed.

Lemma end_count : forall p q l, chain (p :: q :: l) -> (forall a x, In a (p :: q :: l) -> w <= x < 1 -> zeval a x <> 0) ->
  (forall x, zeval q x = peval (pderiv (map IZR p)) x) -> (zeval p 1 = 0 -> zeval q 1 <> 0) ->
  (vars change1 (p :: q :: l) 1 + (if Req_EM_T (zeval p 1) 0 then 1 else 0) = var (p :: q :: l) w)%Z.
Proof.
  intros p q l HC HN Hd Hs. destruct (Req_EM_T (zeval p 1) 0) as [Z|Z].
  - specialize (Hs Z). destruct HC as [HC _].
    change (change1 (zeval p 1) (zeval q 1) + vars change1 (q :: l) 1 + 1 = change (zeval p w) (zeval q w) + var (q :: l) w)%Z.
    rewrite (end_piece (length (q :: l)) (q :: l)); [|lia|exact HC|intros a x Ha; apply HN; right; exact Ha|exact Hs].
    unfold change1. destruct (Req_EM_T (zeval p 1) 0); [|contradiction].
    destruct (peval_mvt (map IZR p) w 1 ltac:(lra)) as (y & Hy & Ey). fold (zeval p 1) (zeval p w) in Ey. rewrite <- Hd, Z in Ey.
    assert (Sq : 0 < zeval q w * zeval q y) by (apply same_sign; [lra|]; intros x Hx; apply HN; [right; left; reflexivity|lra]).
    unfold change. destruct (Rlt_dec (zeval p w * zeval q w) 0) as [_|W]; [lia|]. exfalso. apply W.
    replace (zeval p w) with (- (zeval q y * (1 - w))) by lra. nra.
  - rewrite (end_piece (length (p :: q :: l)) (p :: q :: l)); [lia|lia|exact HC|exact HN|exact Z].
Qed.
End Finish.

(** * The loop *)
Lemma sgn_sign : forall a b, Z.sgn b = Z.sgn a -> a <> 0%Z -> (0 < a * b)%Z.
Proof. intros a b E H. destruct a, b; cbn in *; lia. Qed.
Lemma sgn_other : forall a b, Z.sgn b <> Z.sgn a -> ~ (0 < a * b)%Z.
Proof. intros a b E H. destruct a, b; cbn in *; lia. Qed.

Lemma change0_sgn : forall a b, change0 (IZR a) (IZR b) = (if Z.sgn a =? 0 then 1 else if negb (Z.sgn b =? Z.sgn a) then 1 else 0)%Z.
Proof.
  intros a b. unfold change0. rewrite <- mult_IZR. destruct (Z.eqb_spec (Z.sgn a) 0) as [E|E].
  - assert (a = 0%Z) by (destruct a; cbn in E; lia). subst a. cbn [Z.mul]. destruct (Rlt_dec 0 0); [lra|reflexivity].
  - destruct (Z.eqb_spec (Z.sgn b) (Z.sgn a)) as [F|F]; cbn [negb]; destruct (Rlt_dec 0 (IZR (a * b))) as [L|L]; try reflexivity; exfalso.
    + apply L, IZR_lt, sgn_sign; [exact F|]. intros ->. apply E. reflexivity.
    + apply lt_IZR in L. apply (sgn_other a b F), L.
Qed.
Lemma change1_sgn : forall a b, change1 (IZR a) (IZR b) = (if Z.sgn a =? 0 then 0 else if negb (Z.sgn b =? Z.sgn a) then 1 else 0)%Z.
Proof.
  intros a b. unfold change1. rewrite <- mult_IZR. destruct (Z.eqb_spec (Z.sgn a) 0) as [E|E].
  - assert (a = 0%Z) by (destruct a; cbn in E; lia). subst a. destruct (Req_EM_T (IZR 0) 0); [reflexivity|lra].
  - destruct (Req_EM_T (IZR a) 0) as [W|_]; [exfalso; apply eq_IZR in W; subst a; apply E; reflexivity|].
    destruct (Z.eqb_spec (Z.sgn b) (Z.sgn a)) as [F|F]; cbn [negb]; destruct (Rlt_dec 0 (IZR (a * b))) as [L|L]; try reflexivity; exfalso.
    + apply L, IZR_lt, sgn_sign; [exact F|]. intros ->. apply E. reflexivity.
    + apply lt_IZR in L. apply (sgn_other a b F), L.
Qed.

Lemma loop_exact : forall prem, prem_ok prem -> forall fuel p0 p1,
  last p1 0%Z <> 0%Z -> (length p1 <= length p0)%nat -> (length p1 < fuel)%nat ->
  exists l, remainders p0 p1 l /\ Forall (fun a => last a 0%Z <> 0%Z) l /\ forall t,
     sturm_loop prem fuel p0 p1 (Z.sgn (hd 0%Z p0)) (Z.sgn (at_one p0)) t =
     SDone (t + vars change0 (p0 :: p1 :: l) 0 - vars change1 (p0 :: p1 :: l) 1).
Proof.
  intros prem HP. induction fuel as [|fuel IH]; intros p0 p1 L1 Ln Hf; [lia|].
  cbn [sturm_loop]. destruct p1 as [|y p1']; [exfalso; apply L1; reflexivity|].
  set (p1 := y :: p1') in *. cbv zeta.
  destruct (prem p0 p1) as [r d] eqn:E. pose proof (next_entry prem HP p0 p1 L1 Ln r d E) as X. cbv zeta in X.
  set (r1 := if (d mod 2 =? 0)%Z || (Z.sgn (last p1 0%Z) =? 1)%Z then map Z.opp r else r) in *.
  set (r2 := if (content r1 =? 1)%Z then r1 else div_content (content r1) r1) in *.
  destruct X as (Lr & Nr & u & w & q & Hu & Hw & Hq).
  assert (Pass : forall t' t,
    (forall t0, sturm_loop prem fuel p1 r2 (Z.sgn (hd 0%Z p1)) (Z.sgn (at_one p1)) t0 = SDone (t0 + t')) ->
    (let '(t0, s0a) := if (Z.sgn (hd 0%Z p0) =? 0)%Z then (t + 1, Z.sgn (hd 0%Z p1))%Z
        else if negb (Z.sgn (hd 0%Z p1) =? Z.sgn (hd 0%Z p0))%Z then (t + 1, Z.sgn (hd 0%Z p1))%Z else (t, Z.sgn (hd 0%Z p0)) in
     let '(t1, s0b) := if (Z.sgn (at_one p0) =? 0)%Z then (t0, Z.sgn (at_one p1))
        else if negb (Z.sgn (at_one p1) =? Z.sgn (at_one p0))%Z then (t0 - 1, Z.sgn (at_one p1))%Z else (t0, Z.sgn (at_one p0)) in
     sturm_loop prem fuel p1 r2 s0a s0b t1) =
    SDone (t + change0 (zeval p0 0) (zeval p1 0) - change1 (zeval p0 1) (zeval p1 1) + t')).
  { intros t' t HS. rewrite !eval_hd, !eval_at_one, change0_sgn, change1_sgn.
    destruct (Z.eqb_spec (Z.sgn (hd 0%Z p0)) 0) as [Z0|Z0];
    destruct (Z.eqb_spec (Z.sgn (hd 0%Z p1)) (Z.sgn (hd 0%Z p0))) as [E0|E0]; cbn [negb];
    destruct (Z.eqb_spec (Z.sgn (at_one p0)) 0) as [Z1|Z1];
    destruct (Z.eqb_spec (Z.sgn (at_one p1)) (Z.sgn (at_one p0))) as [E1|E1]; cbn [negb]; rewrite <- ?E0, <- ?E1, HS; f_equal; lia. }
  destruct Nr as [Nr|Nr].
  - exists []. split; [apply (rem_end _ _ u q Hu); intros x; rewrite Hq, Nr; unfold zeval at 3; cbn; ring|].
    split; [constructor|].
    intros t. rewrite (Pass 0%Z t). 2:{ intros t0. rewrite Nr. destruct fuel as [|fuel]; [unfold p1 in Hf; cbn in Hf; lia|]. cbn [sturm_loop]. f_equal. lia. }
    f_equal. cbn [vars]. lia.
  - destruct (IH p1 r2 Nr ltac:(lia) ltac:(lia)) as (l & Rl & Nl & Hl).
    exists (r2 :: l). split; [apply (rem_next _ _ _ u w q); assumption|]. split; [constructor; assumption|].
    intros t. rewrite (Pass (vars change0 (p1 :: r2 :: l) 0 - vars change1 (p1 :: r2 :: l) 1)%Z t).
    + f_equal. change (vars change0 (p0 :: p1 :: r2 :: l) 0) with (change0 (zeval p0 0) (zeval p1 0) + vars change0 (p1 :: r2 :: l) 0)%Z.
      change (vars change1 (p0 :: p1 :: r2 :: l) 1) with (change1 (zeval p0 1) (zeval p1 1) + vars change1 (p1 :: r2 :: l) 1)%Z. lia.
    + intros t0. rewrite Hl. f_equal. lia.
Qed.

Lemma product_nonzero : forall L, (forall a, In a L -> exists x, zeval a x <> 0) -> ~ pzero (product L).
Proof.
  intros L H. assert (G : exists n c, c <> 0 /\ lead n c (peval (product L))).
  { induction L as [|a L IH].
    - exists 0%nat, 1. split; [lra|]. exists []. split; [reflexivity|]. intros x. reflexivity.
    - destruct IH as (n & c & Hc & IH); [intros b Hb; apply H; right; exact Hb|].
      destruct (lead_exists (map IZR a)) as [Z|(m & d & Hd & La)].
      + exfalso. destruct (H a (or_introl eq_refl)) as (x & Hx). apply Hx, Z.
      + exists (m + n)%nat, (d * c). split; [apply Rmult_integral_contrapositive; split; assumption|].
        destruct (lead_mul m n d c _ _ La IH) as (s & Ls & Es). exists s. split; [exact Ls|]. intros x. rewrite <- Es. cbn [product]. apply peval_pmul. }
  destruct G as (n & c & Hc & G). intros Z. apply (lead_not_small n c _ Hc G). exists (repeat 0 n). split; [apply repeat_length|].
  intros x. rewrite (peval_pzero _ x Z). symmetry. apply peval_pzero, Forall_forall. intros y Hy. apply repeat_spec in Hy. exact Hy.
Qed.

(** Sturm's theorem for the counting of the code. *)
Lemma sturm_closed : forall p q l rl, chain (p :: q :: l) -> (forall x, zeval q x = peval (pderiv (map IZR p)) x) ->
  (forall x, unit_cc x -> zeval p x = 0 -> zeval q x <> 0) ->
  (forall a, In a (p :: q :: l) -> exists x, zeval a x <> 0) ->
  root_list p unit_cc rl ->
  (vars change0 (p :: q :: l) 0 - vars change1 (p :: q :: l) 1 = Z.of_nat (length rl + zeros (q :: l)))%Z.
Proof.
  intros p q l rl HC Hd Hs HN [Hr HR]. set (L := p :: q :: l) in *.
  destruct (sorted_zeros (product L) (fun x => unit_oo x /\ peval (product L) x = 0)) as (zs & Sz & Hz).
  { apply product_nonzero, HN. }
  { intros x [_ H]. exact H. }
  assert (Out : exists e f, 0 < e < f /\ f < 1 /\ (forall x, In x zs -> e < x < f)).
  { clear - Hz. assert (B : forall x, In x zs -> 0 < x < 1) by (intros x Hx; apply Hz in Hx; apply Hx). clear Hz.
    induction zs as [|z zs IH]; [exists (1/3), (2/3); repeat split; try lra; contradiction|].
    destruct IH as (e & f & He & Hf & H); [intros x Hx; apply B; right; exact Hx|].
    specialize (B z (or_introl eq_refl)). exists (Rmin e (z / 2)), (Rmax f ((1 + z) / 2)).
    pose proof (Rmin_l e (z / 2)). pose proof (Rmin_r e (z / 2)). pose proof (Rmax_l f ((1 + z) / 2)). pose proof (Rmax_r f ((1 + z) / 2)).
    assert (0 < Rmin e (z / 2)) by (apply Rmin_glb_lt; lra). assert (Rmax f ((1 + z) / 2) < 1) by (apply Rmax_lub_lt; lra).
    split; [lra|]. split; [lra|]. intros x [<-|Hx]; [lra|]. specialize (H x Hx). lra. }
  destruct Out as (e & f & He & Hf & Hef).
  assert (NZ : forall a x, In a L -> 0 < x < 1 -> zeval a x = 0 -> In x zs).
  { intros a x Ha Hx Z. apply Hz. split; [exact Hx|]. apply product_zero. exists a. split; assumption. }
  assert (S1 : vars change0 L 0 = (var L e + Z.of_nat (zeros L))%Z).
  { apply (start_count e ltac:(lra) p q l HC); [|exact Hd|apply Hs; unfold unit_cc; lra].
    intros a x Ha Hx Z. specialize (Hef x (NZ a x Ha ltac:(lra) Z)). lra. }
  assert (S2 : (vars change1 L 1 + (if Req_EM_T (zeval p 1) 0 then 1 else 0) = var L f)%Z).
  { apply (end_count f ltac:(lra) p q l HC); [|exact Hd|apply Hs; unfold unit_cc; lra].
    intros a x Ha Hx Z. specialize (Hef x (NZ a x Ha ltac:(lra) Z)). lra. }
  assert (S3 : (var L e - var L f = count0 p zs)%Z).
  { apply (march p q l HC Hd Hs f); [lra| |lra| |exact Sz|exact Hef|].
    - intros a Ha Z. specialize (Hef f (NZ a f Ha ltac:(lra) Z)). lra.
    - intros a Ha Z. specialize (Hef e (NZ a e Ha ltac:(lra) Z)). lra.
    - intros a x Ha Hx Z. apply (NZ a x Ha); [lra|exact Z]. }
  set (z0 := if Req_EM_T (zeval p 0) 0 then [0] else []). set (z1 := if Req_EM_T (zeval p 1) 0 then [1] else []).
  assert (R0 : forall x, In x z0 <-> x = 0 /\ zeval p 0 = 0).
  { intros x. unfold z0. destruct (Req_EM_T (zeval p 0) 0); cbn; intuition (try congruence). }
  assert (R1 : forall x, In x z1 <-> x = 1 /\ zeval p 1 = 0).
  { intros x. unfold z1. destruct (Req_EM_T (zeval p 1) 0); cbn; intuition (try congruence). }
  assert (C : (count0 p (z0 ++ zs ++ z1) = Z.of_nat (length rl))%Z).
  { apply count0_roots; [|exact Hr|].
    - assert (T : StronglySorted Rlt (zs ++ z1)).
      { assert (T1 : forall x, In x z1 -> x = 1) by (intros x Hx; apply R1 in Hx; apply Hx).
        assert (T2 : StronglySorted Rlt z1) by (unfold z1; destruct (Req_EM_T (zeval p 1) 0); repeat constructor).
        clear - Sz Hef Hf T1 T2. induction zs as [|z zs IH]; [exact T2|]. cbn [app]. apply StronglySorted_inv in Sz. destruct Sz as [Sz F].
        constructor; [apply IH; [exact Sz|intros x Hx; apply Hef; right; exact Hx]|].
        apply Forall_app. split; [exact F|]. apply Forall_forall. intros x Hx. rewrite (T1 x Hx). specialize (Hef z (or_introl eq_refl)). lra. }
      unfold z0. destruct (Req_EM_T (zeval p 0) 0); [|exact T]. cbn [app]. constructor; [exact T|]. apply Forall_forall. intros x Hx.
      apply in_app_or in Hx. destruct Hx as [Hx|Hx]; [specialize (Hef x Hx); lra|apply R1 in Hx; lra].
    - intros x. rewrite HR, !in_app_iff, R0, R1. split.
      + intros [Hx Z]. split; [|exact Z]. unfold unit_cc in Hx. destruct (Req_dec x 0) as [->|N0]; [tauto|]. destruct (Req_dec x 1) as [->|N1]; [tauto|].
        right. left. apply (NZ p); [left; reflexivity|lra|exact Z].
      + intros [[[-> _]|[Hx|[-> _]]] Z]; (split; [|exact Z]); unfold unit_cc; [lra|specialize (Hef x Hx); lra|lra]. }
  assert (A : forall l1 l2, count0 p (l1 ++ l2) = (count0 p l1 + count0 p l2)%Z).
  { induction l1 as [|z l1 IH]; intros l2; [reflexivity|]. cbn [app count0]. rewrite IH. lia. }
  rewrite !A in C.
  assert (C0 : count0 p z0 = (if Req_EM_T (zeval p 0) 0 then 1 else 0)%Z).
  { unfold z0. destruct (Req_EM_T (zeval p 0) 0) as [Z|Z]; [|reflexivity]. cbn [count0]. destruct (Req_EM_T (zeval p 0) 0); [reflexivity|contradiction]. }
  assert (C1 : count0 p z1 = (if Req_EM_T (zeval p 1) 0 then 1 else 0)%Z).
  { unfold z1. destruct (Req_EM_T (zeval p 1) 0) as [Z|Z]; [|reflexivity]. cbn [count0]. destruct (Req_EM_T (zeval p 1) 0); [reflexivity|contradiction]. }
  assert (ZL : zeros L = ((if Req_EM_T (zeval p 0) 0 then 1 else 0) + zeros (q :: l))%nat) by reflexivity.
  rewrite Nat2Z.inj_add. rewrite ZL, Nat2Z.inj_add in S1. rewrite C0, C1 in C.
  destruct (Req_EM_T (zeval p 0) 0), (Req_EM_T (zeval p 1) 0); cbn [Z.of_nat] in *; lia.
Qed.

Lemma classic_point : forall a, ~ pzero (map IZR a) -> exists x, zeval a x <> 0.
Proof.
  intros a H. destruct (sorted_zeros (map IZR a) (fun x => unit_oo x /\ zeval a x = 0) H) as (zs & _ & Hz); [intros x [_ Z]; exact Z|].
  assert (B : exists e, 0 < e < 1 /\ forall x, In x zs -> e < x).
  { assert (P : forall x, In x zs -> 0 < x) by (intros x Hx; apply Hz in Hx; apply (proj1 Hx)). clear Hz.
    induction zs as [|z zs IH]; [exists (1/2); split; [lra|contradiction]|].
    destruct IH as (e & He & Hx); [intros x Hx; apply P; right; exact Hx|]. specialize (P z (or_introl eq_refl)).
    exists (Rmin e (z / 2)). pose proof (Rmin_l e (z / 2)). pose proof (Rmin_r e (z / 2)).
    assert (0 < Rmin e (z / 2)) by (apply Rmin_glb_lt; lra). split; [lra|]. intros x [<-|Q]; [lra|]. specialize (Hx x Q). lra. }
  destruct B as (e & He & B). exists e. intros Z. specialize (B e (proj2 (Hz e) (conj He Z))). lra.
Qed.

Theorem sturm_exact : forall prem, prem_ok prem -> forall p rl L n, simple_roots p unit_cc ->
  sturm_sequence p L -> vanishing (tl L) n -> root_list p unit_cc rl ->
  forall fuel, (length p < fuel)%nat -> num_real_roots_0_1_sturm prem fuel p = SDone (Z.of_nat (length rl + n)).
Proof.
  intros prem HP p rl L n Hs HL Hn Hr fuel Hf. unfold num_real_roots_0_1_sturm.
  destruct p as [|a0 p'].
  { exfalso. destruct HL as (d & l & Nd & Ed & _). apply (last_nonzero d Nd). intros x. rewrite Ed. reflexivity. }
  set (p := a0 :: p') in *. set (d := normal (zderiv p)).
  assert (Hd : forall x, zeval d x = peval (pderiv (map IZR p)) x) by (intros x; unfold d; rewrite normal_eval; apply zeval_zderiv).
  assert (Ld : (length d <= length p')%nat).
  { unfold d. pose proof (normal_length (zderiv p)). unfold zderiv in *. cbn [tl p] in *.
    assert (G : forall n q, length (zderiv_go n q) = length q) by (intros k q; revert k; induction q as [|y q IH]; intros k; [reflexivity|]; cbn [zderiv_go length]; rewrite IH; reflexivity).
    rewrite G in *. unfold p in *. cbn [tl] in *. assumption. }
  destruct (normal_last (zderiv p)) as [N|N]; fold d in N.
  { exfalso. destruct HL as (d' & l & Nd & Ed & _). apply (last_nonzero d' Nd). intros x. rewrite Ed, <- Hd, N. reflexivity. }
  destruct (loop_exact prem HP fuel p d N ltac:(cbn [p length]; lia) ltac:(cbn [p length] in Hf; lia)) as (l & Rl & Nl & Hl).
  rewrite Hl. f_equal.
  assert (Nd : forall x, unit_cc x -> zeval p x = 0 -> zeval d x <> 0) by (intros x Hx Z; rewrite Hd; apply Hs; assumption).
  assert (NZ : forall a, In a (p :: d :: l) -> exists x, zeval a x <> 0).
  { assert (G : forall a, last a 0%Z <> 0%Z -> exists x, zeval a x <> 0).
    { intros a Ha. destruct (lead_exists (map IZR a)) as [Z|(m & c & Hc & (s & _ & E))].
      - exfalso. apply (last_nonzero a Ha), Z.
      - destruct (pzero_dec (map IZR a)) as [Z|Z]; [exfalso; apply (last_nonzero a Ha); intros x; apply peval_pzero, Z|].
        destruct (classic_point a Z) as (x & Hx). exists x. exact Hx. }
    intros a [<-|[<-|Ha]]; [|apply G, N|apply G; rewrite Forall_forall in Nl; apply Nl, Ha].
    destruct (G d N) as (x & Hx). destruct (Req_dec (zeval p x) 0) as [Z|Z]; [|exists x; exact Z].
    destruct (pzero_dec (map IZR p)) as [Zp|Zp]; [exfalso|destruct (classic_point p Zp) as (y & Hy); exists y; exact Hy].
    apply (Nd 0 ltac:(unfold unit_cc; lra)); [apply peval_pzero, Zp|].
    assert (Z0 : small 0 (zeval p)) by (exists []; split; [reflexivity|]; intros y; apply peval_pzero, Zp).
    exfalso. apply Hx. rewrite Hd. unfold pderiv. cbn [map p]. inversion Zp as [|? ? _ Zt]; subst.
    clear - Zt. generalize 1%nat. induction (map IZR p') as [|y m IH]; intros k; [reflexivity|]. inversion Zt; subst. cbn [pderiv_go peval]. rewrite IH by assumption. ring. }
  pose proof (sturm_closed p d l rl (remainders_chain p d l Rl Nd) Hd Nd NZ Hr) as C.
  assert (V : vanishing (d :: l) n).
  { assert (U : Forall2 multiple L (p :: d :: l)) by (apply (sequence_unique p); [exact HL|exists d, l; repeat split; assumption]).
    destruct L as [|b L]; [inversion U|]. inversion U; subst. cbn [tl] in Hn. apply (vanishing_multiple L); assumption. }
  rewrite (vanishing_fun _ _ _ V (zeros_vanishing (d :: l))). lia.
Qed.

Lemma sequence_exists : forall p, last p 0%Z <> 0%Z -> (2 <= length p)%nat -> exists L, sturm_sequence p L.
Proof.
  intros p Hp Hl. set (d := normal (zderiv p)).
  assert (Hd : forall x, zeval d x = peval (pderiv (map IZR p)) x) by (intros x; unfold d; rewrite normal_eval; apply zeval_zderiv).
  assert (Ld : (length d <= length p - 1)%nat).
  { unfold d. pose proof (normal_length (zderiv p)). unfold zderiv in *.
    assert (G : forall n q, length (zderiv_go n q) = length q) by (intros k q; revert k; induction q as [|y q IH]; intros k; [reflexivity|]; cbn [zderiv_go length]; rewrite IH; reflexivity).
    rewrite G in H. destruct p; cbn [tl length] in *; lia. }
  destruct (normal_last (zderiv p)) as [N|N]; fold d in N.
  - exfalso. destruct p as [|a [|b p]]; cbn in Hl; try lia.
    assert (Z : forall x, peval (pderiv (map IZR (a :: b :: p))) x = 0) by (intros x; rewrite <- Hd, N; reflexivity).
    pose proof (peval_zero_interval _ 0 1 ltac:(lra) (fun x _ => Z x)) as P. cbn [map pderiv] in P.
    assert (G : forall q k, pzero (pderiv_go (S k) q) -> pzero q).
    { induction q as [|y q IH]; intros k W; [constructor|]. cbn [pderiv_go] in W. inversion W; subst. constructor; [|apply (IH (S k)); assumption].
      apply Rmult_integral in H1. destruct H1 as [H1|H1]; [|exact H1]. exfalso. apply (not_0_INR (S k)); [lia|exact H1]. }
    apply (G (map IZR (b :: p)) 0%nat) in P. apply Hp. apply eq_IZR. change (last (a :: b :: p) 0%Z) with (last (b :: p) 0%Z).
    assert (I : In (last (b :: p) 0%Z) (b :: p)) by (destruct (exists_last (l := b :: p) ltac:(discriminate)) as (m & y & ->); rewrite last_last; apply in_or_app; right; left; reflexivity).
    unfold pzero in P. rewrite Forall_forall in P. apply P, in_map, I.
  - destruct (loop_exact prem0 prem0_ok (S (length d)) p d N ltac:(lia) ltac:(lia)) as (l & Rl & _). exists (p :: d :: l). exists d, l. repeat split; assumption.
Qed.

(** The count is right if and only if no later member vanishes at 0. *)
Theorem sturm_right : forall prem, prem_ok prem -> forall p rl L, simple_roots p unit_cc ->
  zeval p 0 <> 0 -> zeval p 1 <> 0 -> sturm_sequence p L -> root_list p unit_oo rl ->
  forall fuel, (length p < fuel)%nat ->
  (num_real_roots_0_1_sturm prem fuel p = SDone (Z.of_nat (length rl)) <-> Forall (fun q => zeval q 0 <> 0) (tl L)).
Proof.
  intros prem HP p rl L Hs H0 H1 HL [Hr HR] fuel Hf.
  assert (Hc : root_list p unit_cc rl).
  { split; [exact Hr|]. intros x. rewrite HR. unfold unit_oo, unit_cc. split; intros [A B]; (split; [|exact B]); [lra|].
    destruct (Req_dec x 0) as [->|N0]; [contradiction|]. destruct (Req_dec x 1) as [->|N1]; [contradiction|lra]. }
  rewrite (sturm_exact prem HP p rl L (zeros (tl L)) Hs HL (zeros_vanishing _) Hc fuel Hf). split.
  - intros E. injection E as E. assert (Z : zeros (tl L) = 0%nat) by lia. clear - Z. induction (tl L) as [|a l IH]; [constructor|].
    cbn [zeros] in Z. destruct (Req_EM_T (zeval a 0) 0); [cbn in Z; lia|]. constructor; [assumption|apply IH; exact Z].
  - intros F. do 2 f_equal. assert (Z : zeros (tl L) = 0%nat); [|lia]. induction F as [|a l Ha F IH]; [reflexivity|]. cbn [zeros].
    destruct (Req_EM_T (zeval a 0) 0); [contradiction|exact IH].
Qed.

(** x^2 - 2, 2x, 1. *)
Lemma two_sequence : sturm_sequence [-2; 0; 1]%Z [[-2; 0; 1]; [0; 2]; [1]]%Z /\ vanishing [[0; 2]; [1]]%Z 1.
Proof.
  split.
  - exists [0; 2]%Z, [[1%Z]]. split; [cbn; lia|]. split; [intros x; unfold zeval, pderiv; cbn; ring|]. split; [|reflexivity].
    apply (rem_next _ _ _ 2 4 [0; 1]); [lra|lra|cbn; lia|cbn; lia|intros x; unfold zeval; cbn; ring|].
    apply (rem_end _ _ 1 [0; 2]); [lra|intros x; unfold zeval; cbn; ring].
  - apply va_zero; [unfold zeval; cbn; ring|]. apply va_other; [unfold zeval; cbn; lra|]. constructor.
Qed.
