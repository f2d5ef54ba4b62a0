(** Polynomials with real coefficients as lists (constant term first).

    Nothing here models code: these are the mathematical objects used by the
    specifications and by the proofs. *)
Require Import Reals List Lra Lia ZArith FinFun.
Import ListNotations.
Open Scope R_scope.

(** Value of a polynomial. *)
Fixpoint peval (p : list R) (x : R) : R :=
  match p with
  | [] => 0
  | a :: q => a + x * peval q x
  end.

(** Value of an integer polynomial at a real number. *)
Definition zeval (p : list Z) (x : R) : R := peval (map IZR p) x.

Fixpoint padd (p q : list R) : list R :=
  match p, q with
  | [], _ => q
  | _, [] => p
  | a :: p', b :: q' => (a + b) :: padd p' q'
  end.

Definition pscal (c : R) (p : list R) : list R := map (Rmult c) p.

Fixpoint pmul (p q : list R) : list R :=
  match p with
  | [] => []
  | a :: p' => padd (pscal a q) (0 :: pmul p' q)
  end.

(** [(x - a) * q], as a pass with a carry. *)
Fixpoint plin_go (a prev : R) (q : list R) : list R :=
  match q with
  | [] => [prev]
  | b :: l => (prev - a * b) :: plin_go a b l
  end.
Definition plin (a : R) (q : list R) : list R := plin_go a 0 q.

(** Formal derivative. *)
Fixpoint pderiv_go (n : nat) (p : list R) : list R :=
  match p with
  | [] => []
  | a :: q => (INR n * a) :: pderiv_go (S n) q
  end.
Definition pderiv (p : list R) : list R :=
  match p with [] => [] | _ :: q => pderiv_go 1 q end.

(** Product of the linear factors [x - r]. *)
Fixpoint linprod (rs : list R) (x : R) : R :=
  match rs with
  | [] => 1
  | r :: l => (x - r) * linprod l x
  end.

Definition pzero (p : list R) : Prop := Forall (fun a => a = 0) p.

Lemma peval_padd : forall p q x, peval (padd p q) x = peval p x + peval q x.
Proof.
  induction p as [|a p IH]; intros [|b q] x; simpl; try lra.
  rewrite IH; ring.
Qed.

Lemma peval_pscal : forall c p x, peval (pscal c p) x = c * peval p x.
Proof.
  intros c p x; unfold pscal; induction p as [|a p IH]; simpl; [ring|].
  rewrite IH; ring.
Qed.

Lemma peval_pmul : forall p q x, peval (pmul p q) x = peval p x * peval q x.
Proof.
  induction p as [|a p IH]; intros q x; simpl; [ring|].
  rewrite peval_padd, peval_pscal. simpl. rewrite IH. ring.
Qed.

Lemma peval_plin_go : forall q a prev x,
  peval (plin_go a prev q) x = prev + (x - a) * peval q x.
Proof.
  induction q as [|b q IH]; intros a prev x; simpl; [ring|].
  rewrite IH; ring.
Qed.

Lemma peval_plin : forall a q x, peval (plin a q) x = (x - a) * peval q x.
Proof. intros; unfold plin; rewrite peval_plin_go; ring. Qed.

Lemma peval_app : forall p q x,
  peval (p ++ q) x = peval p x + x ^ length p * peval q x.
Proof.
  induction p as [|a p IH]; intros q x; simpl; [ring|].
  rewrite IH; ring.
Qed.

Lemma peval_pzero : forall p x, pzero p -> peval p x = 0.
Proof.
  intros p x H; induction H as [|a p Ha Hp IH]; simpl; [reflexivity|].
  rewrite Ha, IH; ring.
Qed.

Lemma linprod_app : forall l1 l2 x, linprod (l1 ++ l2) x = linprod l1 x * linprod l2 x.
Proof.
  induction l1 as [|r l1 IH]; intros; simpl; [ring|]. rewrite IH; ring.
Qed.

Lemma linprod_zero : forall l x, linprod l x = 0 <-> In x l.
Proof.
  induction l as [|r l IH]; intros x; simpl.
  - split; [lra|tauto].
  - rewrite <- IH. split.
    + intros H. apply Rmult_integral in H. destruct H as [H|H]; [left; lra|right; exact H].
    + intros [H|H]; [subst; ring|rewrite H; ring].
Qed.

(** * Synthetic division and the factor theorem *)

(** Quotient of [p] by [x - a] (remainder [peval p a]). *)
Fixpoint pquot (a : R) (p : list R) : list R :=
  match p with
  | [] => []
  | [_] => []
  | _ :: q => peval q a :: pquot a q
  end.

Lemma plin_go_pquot : forall q a b,
  q <> [] -> plin_go a (b) (peval q a :: pquot a q) = (b - a * peval q a) :: q.
Proof.
  induction q as [|c q IH]; intros a b Hq; [congruence|].
  destruct q as [|d q].
  - simpl. f_equal. f_equal. ring.
  - specialize (IH a (peval (c :: d :: q) a)).
    change (pquot a (c :: d :: q)) with (peval (d :: q) a :: pquot a (d :: q)).
    change (plin_go a b (peval (c :: d :: q) a :: peval (d :: q) a :: pquot a (d :: q)))
      with ((b - a * peval (c :: d :: q) a) ::
            plin_go a (peval (c :: d :: q) a) (peval (d :: q) a :: pquot a (d :: q))).
    rewrite IH by congruence. f_equal. f_equal.
    change (peval (c :: d :: q) a) with (c + a * peval (d :: q) a). ring.
Qed.

(** A polynomial vanishing at [a] is, coefficient by coefficient, [(x-a)] times
    its synthetic quotient. *)
Lemma factor_list : forall p a, (2 <= length p)%nat -> peval p a = 0 ->
  plin a (pquot a p) = p.
Proof.
  intros [|b [|c q]] a Hl H0; simpl in Hl; try lia.
  change (pquot a (b :: c :: q)) with (peval (c :: q) a :: pquot a (c :: q)).
  unfold plin. rewrite plin_go_pquot by congruence.
  f_equal. change (peval (b :: c :: q) a) with (b + a * peval (c :: q) a) in H0. lra.
Qed.

Lemma pquot_length : forall p a, length (pquot a p) = pred (length p).
Proof.
  induction p as [|b p IH]; intros a; [reflexivity|].
  destruct p as [|c p]; [reflexivity|].
  change (pquot a (b :: c :: p)) with (peval (c :: p) a :: pquot a (c :: p)).
  cbn [length]. rewrite IH. reflexivity.
Qed.

Lemma plin_go_length : forall q a b, length (plin_go a b q) = S (length q).
Proof. induction q; intros; simpl; [reflexivity|]. rewrite IHq; reflexivity. Qed.

Lemma pzero_dec : forall p, pzero p \/ ~ pzero p.
Proof.
  induction p as [|a p IH]; [left; constructor|].
  destruct (Req_dec a 0) as [Ha|Ha].
  - destruct IH as [IH|IH]; [left; constructor; assumption|].
    right; intros H; inversion H; tauto.
  - right; intros H; inversion H; tauto.
Qed.

Lemma plin_go_pzero : forall q a, pzero q -> pzero (plin_go a 0 q).
Proof.
  intros q a H; induction H as [|b q Hb Hq IH]; simpl.
  - constructor; [reflexivity|constructor].
  - constructor; [rewrite Hb; ring|]. rewrite Hb. exact IH.
Qed.

(** A polynomial that is not identically zero has fewer distinct roots than
    coefficients. *)
Lemma roots_lt_length : forall n p l, length p = n -> ~ pzero p ->
  NoDup l -> (forall x, In x l -> peval p x = 0) -> (length l < n)%nat.
Proof.
  induction n as [|n IH]; intros p l Hn Hp Hl Hr.
  - destruct p; [|discriminate]. exfalso; apply Hp; constructor.
  - destruct l as [|a l]; [simpl; lia|].
    destruct p as [|b [|c q]]; [discriminate| |].
    + exfalso. specialize (Hr a (or_introl eq_refl)). simpl in Hr.
      apply Hp. constructor; [lra|constructor].
    + assert (Ha : peval (b :: c :: q) a = 0) by (apply Hr; left; reflexivity).
      pose proof (factor_list (b :: c :: q) a ltac:(simpl; lia) Ha) as Hf.
      simpl. inversion Hl as [|? ? Hnin Hnd]; subst.
      apply -> Nat.succ_lt_mono.
      apply (IH (pquot a (b :: c :: q))).
      * rewrite pquot_length, Hn. reflexivity.
      * intros Hz. apply Hp. rewrite <- Hf. apply plin_go_pzero. exact Hz.
      * exact Hnd.
      * intros x Hx. specialize (Hr x (or_intror Hx)).
        rewrite <- Hf, peval_plin in Hr. apply Rmult_integral in Hr.
        destruct Hr as [Hr|Hr]; [|exact Hr].
        exfalso; apply Hnin. replace a with x by lra. exact Hx.
Qed.

(** A polynomial vanishing on an interval is identically zero. *)
Lemma peval_zero_interval : forall p lo hi, lo < hi ->
  (forall x, lo < x < hi -> peval p x = 0) -> pzero p.
Proof.
  intros p lo hi Hlt H.
  destruct (pzero_dec p) as [Hz|Hz]; [exact Hz|exfalso].
  set (n := length p).
  pose (pt := fun i : nat => lo + (hi - lo) * (INR (S i) / INR (S (S n)))).
  assert (Hpos : 0 < INR (S (S n))) by (apply lt_0_INR; lia).
  assert (Hlen : (length (map pt (seq 0 n)) < n)%nat).
  { apply (roots_lt_length n p); [reflexivity|exact Hz| |].
    - apply FinFun.Injective_map_NoDup; [|apply seq_NoDup].
      intros i j Hij. unfold pt in Hij.
      assert (INR (S i) / INR (S (S n)) = INR (S j) / INR (S (S n))) by nra.
      assert (INR (S i) = INR (S j)).
      { unfold Rdiv in H0. apply Rmult_eq_reg_r in H0; [exact H0|].
        apply Rinv_neq_0_compat. lra. }
      apply INR_eq in H1. lia.
    - intros x Hx. apply in_map_iff in Hx. destruct Hx as [i [Hi Hin]].
      apply in_seq in Hin. apply H. subst x. unfold pt.
      assert (H1 : 0 < INR (S i) / INR (S (S n))).
      { apply Rdiv_lt_0_compat; [apply lt_0_INR; lia|exact Hpos]. }
      assert (H2 : INR (S i) / INR (S (S n)) < 1).
      { apply Rmult_lt_reg_r with (INR (S (S n))); [exact Hpos|].
        unfold Rdiv. rewrite Rmult_assoc, Rinv_l by lra. rewrite Rmult_1_r, Rmult_1_l.
        apply lt_INR. lia. }
      nra. }
  rewrite map_length, seq_length in Hlen. lia.
Qed.

(** * Continuity and derivative *)

Lemma peval_derivable_lim : forall p x,
  derivable_pt_lim (peval p) x (peval (pderiv p) x).
Proof.
  assert (Hgen : forall p n x, peval (pderiv_go (S n) p) x
      = INR n * peval p x + peval (pderiv_go 1 p) x).
  { induction p as [|a p IH]; intros n x; [simpl; ring|].
    cbn [pderiv_go peval]. rewrite (IH (S n)), (IH 1%nat). rewrite !S_INR. simpl (INR 0). ring. }
  induction p as [|a p IH]; intros x.
  - simpl. apply derivable_pt_lim_const.
  - simpl (pderiv (a :: p)).
    assert (Hd : derivable_pt_lim (fun y => a + y * peval p y) x
                 (0 + (1 * peval p x + x * peval (pderiv p) x))).
    { apply derivable_pt_lim_plus with (f1 := fun _ => a) (f2 := fun y => y * peval p y).
      - apply derivable_pt_lim_const.
      - apply derivable_pt_lim_mult with (f1 := fun y => y) (f2 := peval p).
        + apply derivable_pt_lim_id.
        + apply IH. }
    replace (peval (pderiv_go 1 p) x) with (0 + (1 * peval p x + x * peval (pderiv p) x)).
    + exact Hd.
    + destruct p as [|b p]; [simpl; ring|].
      simpl (pderiv (b :: p)). cbn [pderiv_go peval].
      rewrite (Hgen p 1%nat). simpl (INR 1). ring.
Qed.

Lemma peval_derivable : forall p x, derivable_pt (peval p) x.
Proof. intros p x. exists (peval (pderiv p) x). apply peval_derivable_lim. Qed.

Lemma peval_continuity : forall p, continuity (peval p).
Proof. intros p x. apply derivable_continuous_pt. apply peval_derivable. Qed.

(** Intermediate values: a sign change gives a root strictly inside. *)
Lemma peval_ivt : forall p a b, a < b -> peval p a * peval p b < 0 ->
  exists x, a < x < b /\ peval p x = 0.
Proof.
  intros p a b Hab Hs.
  assert (Hcase : (peval p a < 0 /\ 0 < peval p b) \/ (0 < peval p a /\ peval p b < 0)).
  { destruct (Rtotal_order (peval p a) 0) as [H|[H|H]]; destruct (Rtotal_order (peval p b) 0) as [H'|[H'|H']];
      try (left; split; assumption); try (right; split; assumption); exfalso; nra. }
  destruct Hcase as [[Ha Hb]|[Ha Hb]].
  - destruct (IVT (peval p) a b (peval_continuity p) Hab Ha Hb) as [z [Hz Hz0]].
    exists z. split; [|exact Hz0].
    split; apply Rnot_le_lt; intros Hle; [assert (z = a) by lra|assert (z = b) by lra]; subst; lra.
  - destruct (IVT (fun x => peval (pscal (-1) p) x) a b) as [z [Hz Hz0]].
    + intros x. apply peval_continuity.
    + exact Hab.
    + rewrite peval_pscal; lra.
    + rewrite peval_pscal; lra.
    + rewrite peval_pscal in Hz0. exists z. split; [|lra].
      split; apply Rnot_le_lt; intros Hle; [assert (z = a) by lra|assert (z = b) by lra]; subst; lra.
Qed.

(** Mean value theorem for polynomials. *)
Lemma peval_mvt : forall p a b, a < b ->
  exists c, a < c < b /\ peval p b - peval p a = peval (pderiv p) c * (b - a).
Proof.
  intros p a b Hab.
  destruct (MVT_cor2 (peval p) (peval (pderiv p)) a b Hab) as [c [Hc Hin]].
  - intros c _. apply peval_derivable_lim.
  - exists c. split; [exact Hin|exact Hc].
Qed.

Lemma zeval_cons : forall a p x, zeval (a :: p) x = IZR a + x * zeval p x.
Proof. reflexivity. Qed.
