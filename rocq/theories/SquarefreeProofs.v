Require Import Reals List ZArith Lia Lra Bool.
From Verif Require Import PolyR SignVar RootModel RootSpec DescartesProofs VcaProofs VcaTerm IsoProofs IsoAll ExtraModel ExtraProofs.
Import ListNotations.
Open Scope R_scope.

Lemma linprod_repeat : forall a n x, linprod (repeat a n) x = (x - a) ^ n.
Proof. induction n as [|n IH]; intros x; simpl; [reflexivity|]. rewrite IH. reflexivity. Qed.

Lemma pow_cancel : forall n a (A B : list R),
  (forall x, (x - a) ^ n * peval A x = (x - a) ^ n * peval B x) -> forall x, peval A x = peval B x.
Proof.
  intros n a A B H. apply (quotient_unique A B (repeat a n)). intros x. rewrite linprod_repeat. apply H.
Qed.

Lemma powlin_list : forall a n, exists L, forall x, peval L x = (x - a) ^ n.
Proof.
  intros a n. destruct (linprod_list (repeat a n)) as [q Hq]. exists q. intros x. rewrite Hq. apply linprod_repeat.
Qed.

Lemma mult_exists : forall n p a, (length p <= n)%nat -> ~ pzero p ->
  exists m q, (forall x, peval p x = (x - a) ^ m * peval q x) /\ peval q a <> 0.
Proof.
  induction n as [|n IH]; intros p a Hn Hz.
  - destruct p; [exfalso; apply Hz; constructor|simpl in Hn; lia].
  - destruct (Req_dec (peval p a) 0) as [H0|H0].
    + destruct (le_lt_dec 2 (length p)) as [H2|H2].
      * pose proof (factor_list p a H2 H0) as E.
        destruct (IH (pquot a p) a) as (m & q & Hq & Hqa).
        -- rewrite pquot_length. lia.
        -- intros Hp. apply Hz. rewrite <- E. apply plin_go_pzero. exact Hp.
        -- exists (S m), q. split; [|exact Hqa]. intros x. rewrite <- E, peval_plin, Hq. simpl. ring.
      * destruct p as [|c [|]]; simpl in H2; try lia; [exfalso; apply Hz; constructor|].
        simpl in H0. exfalso. apply Hz. constructor; [lra|constructor].
    + exists 0%nat, p. split; [intros x; simpl; ring|exact H0].
Qed.

(** derivative of (x-a)^(S m) q *)
Lemma deriv_mult : forall p m q a, (forall x, peval p x = (x - a) ^ (S m) * peval q x) ->
  forall x, peval (pderiv p) x = (x - a) ^ m * (INR (S m) * peval q x + (x - a) * peval (pderiv q) x).
Proof.
  intros p m q a H x.
  assert (D1 : derivable_pt_lim (fun y => y - a) x 1).
  { replace 1 with (1 - 0) by ring. apply derivable_pt_lim_minus; [apply derivable_pt_lim_id|apply derivable_pt_lim_const]. }
  assert (D2 : derivable_pt_lim (fun y => (y - a) ^ (S m)) x (INR (S m) * (x - a) ^ m * 1)).
  { apply (derivable_pt_lim_comp (fun y => y - a) (fun z => z ^ (S m)) x 1 (INR (S m) * (x - a) ^ m) D1).
    apply (derivable_pt_lim_pow (x - a) (S m)). }
  pose proof (derivable_pt_lim_mult _ _ x _ _ D2 (peval_derivable_lim q x)) as D3.
  assert (D4 : derivable_pt_lim (peval p) x
     (INR (S m) * (x - a) ^ m * 1 * peval q x + (x - a) ^ S m * peval (pderiv q) x)).
  { intros eps He. destruct (D3 eps He) as [d Hd]. exists d. intros h Hh Hhd. rewrite !H. apply Hd; assumption. }
  rewrite (uniqueness_limite _ _ _ _ (peval_derivable_lim p x) D4). simpl. ring.
Qed.

Lemma zeval_zderiv : forall p x, zeval (zderiv p) x = peval (pderiv (map IZR p)) x.
Proof.
  intros p x. unfold zeval, zderiv, pderiv. destruct p as [|a p]; [reflexivity|]. cbn [tl map].
  assert (H : forall q n, peval (map IZR (zderiv_go n q)) x = peval (pderiv_go (Z.to_nat n) (map IZR q)) x \/ (n < 0)%Z).
  { induction q as [|b q IH]; intros n; [left; reflexivity|].
    destruct (Z_lt_le_dec n 0); [right; assumption|left].
    cbn [zderiv_go map pderiv_go peval]. destruct (IH (n + 1)%Z) as [E|]; [|lia].
    rewrite E. replace (Z.to_nat (n + 1)) with (S (Z.to_nat n)) by lia.
    rewrite mult_IZR, (INR_IZR_INZ (Z.to_nat n)), Z2Nat.id by lia. reflexivity. }
  destruct (H p 1%Z) as [E|]; [|lia]. exact E.
Qed.

Lemma normal_eval : forall p x, zeval (normal p) x = zeval p x.
Proof.
  induction p as [|a q IH]; intros x; [reflexivity|]. cbn [normal]. rewrite (zeval_cons a q), <- IH.
  destruct (normal q) as [|b r].
  - destruct (Z.eqb_spec a 0) as [->|]; [unfold zeval; simpl; ring|reflexivity].
  - apply zeval_cons.
Qed.

(** Contracts of the FLINT routines. *)
Definition zdivides (g p : list Z) : Prop := exists u : list Z, forall x, zeval p x = zeval g x * zeval u x.
Definition rdivides (h : list R) (p : list Z) : Prop := exists u : list R, forall x, zeval p x = peval h x * peval u x.
(** [fmpz_poly_gcd]: greatest common divisor in Z[x], so also in R[x]. *)
Definition is_gcd (g p q : list Z) : Prop :=
  zdivides g p /\ zdivides g q /\ forall h, rdivides h p -> rdivides h q -> rdivides h g.
(** [fmpz_poly_div], exact case; values are normalised. *)
Definition is_quotient (r p g : list Z) : Prop :=
  (forall x, zeval p x = zeval g x * zeval r x) /\ last r 0%Z <> 0%Z.

Lemma quotient_facts : forall p g r, nonzero p -> is_gcd g p (normal (zderiv p)) ->
  (forall x, zeval p x = zeval g x * zeval r x) ->
  (forall a, zeval r a = 0 <-> zeval p a = 0) /\
  (forall a, zeval r a = 0 -> peval (pderiv (map IZR r)) a <> 0).
Proof.
  intros p g r Hp (_ & (v & Hv) & Hmax) Hr.
  assert (Hpz : ~ pzero (map IZR p)) by (apply zeval_nonzero_pzero; exact Hp).
  assert (Hder : forall x, peval (pderiv (map IZR p)) x = zeval g x * zeval v x).
  { intros x. rewrite <- zeval_zderiv, <- (normal_eval (zderiv p)). apply Hv. }
  assert (Hkey : forall a, zeval p a = 0 -> exists m q, (forall x, zeval p x = (x - a) ^ (S m) * peval q x) /\ peval q a <> 0).
  { intros a Ha. destruct (mult_exists (length p) (map IZR p) a) as (m & q & Hq & Hqa); [rewrite map_length; lia|exact Hpz|].
    destruct m as [|m]; [|exists m, q; split; [exact Hq|exact Hqa]].
    exfalso. apply Hqa. unfold zeval in Ha. rewrite (Hq a) in Ha. simpl in Ha. lra. }
  split; intros a.
  - split; intros H0; [rewrite Hr, H0; ring|].
    destruct (Hkey a H0) as (m & q & Hq & Hqa).
    destruct (Req_dec (zeval r a) 0) as [E|Hra]; [exact E|exfalso].
    assert (Hgz : ~ pzero (map IZR g)).
    { intros Hz. apply Hpz. apply (peval_zero_interval _ 0 1); [lra|]. intros x _.
      fold (zeval p x). rewrite Hr. unfold zeval at 1. rewrite peval_pzero by exact Hz. ring. }
    destruct (mult_exists (length g) (map IZR g) a) as (k & g1 & Hg1 & Hg1a); [rewrite map_length; lia|exact Hgz|].
    (* k = S m *)
    assert (Hk : (S m <= k)%nat).
    { destruct (le_lt_dec (S m) k) as [|Hlt]; [assumption|exfalso].
      destruct (powlin_list a (S m - k)) as [L HL].
      assert (E : forall x, peval (pmul g1 (map IZR r)) x = peval (pmul L q) x).
      { apply (pow_cancel k a). intros x. rewrite !peval_pmul, HL. fold (zeval r x).
        rewrite <- !Rmult_assoc, <- Hg1, <- pow_add. replace (k + (S m - k))%nat with (S m) by lia.
        fold (zeval g x). rewrite <- Hr, Hq. reflexivity. }
      specialize (E a). rewrite !peval_pmul, HL, Rminus_diag_eq, pow_ne_zero in E by (reflexivity || lia).
      fold (zeval r a) in E. rewrite Rmult_0_l in E. apply Rmult_integral in E. tauto. }
    destruct (powlin_list a (k - m)) as [L HL].
    assert (E : forall x, peval (padd (pscal (INR (S m)) q) (pmul [- a; 1] (pderiv q))) x = peval (pmul L (pmul g1 (map IZR v))) x).
    { apply (pow_cancel m a). intros x. rewrite peval_padd, peval_pscal, !peval_pmul, HL.
      pose proof (deriv_mult (map IZR p) m q a Hq x) as D. rewrite Hder in D.
      unfold zeval in D. rewrite Hg1 in D.
      transitivity ((x - a) ^ m * (INR (S m) * peval q x + (x - a) * peval (pderiv q) x)); [f_equal; simpl peval; ring|].
      rewrite <- D. rewrite <- !Rmult_assoc, <- pow_add. replace (m + (k - m))%nat with k by lia. ring. }
    specialize (E a). rewrite peval_padd, peval_pscal, !peval_pmul, HL in E.
    rewrite (Rminus_diag_eq a a eq_refl), pow_ne_zero in E by lia. simpl peval in E.
    assert (E2 : INR (S m) * peval q a = 0) by lra.
    apply Rmult_integral in E2. destruct E2 as [E2|E2]; [|contradiction].
    pose proof (lt_0_INR (S m) ltac:(lia)). lra.
  - intros H0 Hd. assert (Hp0 : zeval p a = 0) by (rewrite Hr, H0; ring).
    destruct (Hkey a Hp0) as (m & q & Hq & Hqa).
    destruct (powlin_list a m) as [L HL].
    destruct (Hmax L) as (g2 & Hg2).
    + exists (pmul [- a; 1] q). intros x. rewrite HL, peval_pmul, Hq. simpl. ring.
    + exists (padd (pscal (INR (S m)) q) (pmul [- a; 1] (pderiv q))). intros x.
      rewrite normal_eval, zeval_zderiv, HL, (deriv_mult (map IZR p) m q a Hq x), peval_padd, peval_pscal, peval_pmul.
      f_equal. simpl peval. ring.
    + assert (Hrz : ~ pzero (map IZR r)).
      { intros Hz. apply Hpz. apply (peval_zero_interval _ 0 1); [lra|]. intros x _.
        fold (zeval p x). rewrite Hr. unfold zeval at 2. rewrite peval_pzero by exact Hz. ring. }
      destruct (mult_exists (length r) (map IZR r) a) as (k & w & Hw & Hwa); [rewrite map_length; lia|exact Hrz|].
      assert (Hk2 : (2 <= k)%nat).
      { destruct k as [|[|k]]; [| |lia]; exfalso.
        - unfold zeval in H0. rewrite Hw in H0. simpl in H0. apply Hwa. lra.
        - rewrite (deriv_mult (map IZR r) 0 w a Hw a) in Hd. apply Hwa.
          rewrite (Rminus_diag_eq a a eq_refl) in Hd. simpl in Hd. lra. }
      destruct (powlin_list a (k - 1)) as [L2 HL2].
      assert (E : forall x, peval q x = peval (pmul L2 (pmul g2 w)) x).
      { apply (pow_cancel (S m) a). intros x. rewrite <- Hq, Hr, Hg2, HL.
        unfold zeval. rewrite Hw, !peval_pmul, HL2.
        replace k with (1 + (k - 1))%nat at 1 by lia. rewrite pow_add. simpl. ring. }
      apply Hqa. rewrite E, !peval_pmul, HL2, (Rminus_diag_eq a a eq_refl), pow_ne_zero by lia. ring.
Qed.

Lemma zeval_opp : forall p x, zeval (map Z.opp p) x = - zeval p x.
Proof.
  induction p as [|a p IH]; intros x; [unfold zeval; simpl; ring|]. cbn [map]. rewrite !zeval_cons, IH, opp_IZR. ring.
Qed.

Lemma last_opp : forall p : list Z, last (map Z.opp p) 0%Z = (- last p 0)%Z.
Proof. induction p as [|a [|b q] IH]; [reflexivity|reflexivity|]. exact IH. Qed.

Lemma pderiv_opp : forall p x, peval (pderiv (map IZR (map Z.opp p))) x = - peval (pderiv (map IZR p)) x.
Proof.
  intros p x. rewrite <- !zeval_zderiv.
  assert (E : forall q n, zderiv_go n (map Z.opp q) = map Z.opp (zderiv_go n q)).
  { induction q as [|a q IH]; intros n; [reflexivity|]. cbn [map zderiv_go]. rewrite IH. f_equal. ring. }
  unfold zderiv. destruct p as [|a p]; [unfold zeval; simpl; ring|]. cbn [map tl]. rewrite E. apply zeval_opp.
Qed.

Theorem squarefree_correct : forall pgcd pdiv p, nonzero p -> last p 0%Z <> 0%Z ->
  is_gcd (pgcd p (normal (zderiv p))) p (normal (zderiv p)) ->
  is_quotient (pdiv p (pgcd p (normal (zderiv p)))) p (pgcd p (normal (zderiv p))) ->
  let r := squarefree_part pgcd pdiv p in
  (forall x, zeval r x = 0 <-> zeval p x = 0) /\ simple_roots r reals /\ (0 < last r 0)%Z.
Proof.
  intros pgcd pdiv p Hp Hl Hg [He Hlr] r. unfold r, squarefree_part.
  destruct p as [|a [|b q]] eqn:Ep; [simpl in Hl; congruence| |].
  - split; [|split; [|simpl; lia]].
    + intros x. unfold zeval; simpl. split; [lra|]. intros H. exfalso. simpl in Hl. apply Hl. apply eq_IZR. lra.
    + intros x _ H. unfold zeval in H; simpl in H. lra.
  - rewrite <- Ep in *. clear Ep a b q r.
    destruct (quotient_facts p _ _ Hp Hg He) as [H1 H2].
    set (r := pdiv p (pgcd p (normal (zderiv p)))) in *.
    destruct (Z.ltb_spec (last r 0%Z) 0) as [Hn|Hn].
    + split; [|split].
      * intros x. rewrite zeval_opp, <- H1. split; lra.
      * intros x _ H. rewrite zeval_opp in H. rewrite pderiv_opp. pose proof (H2 x ltac:(lra)). lra.
      * rewrite last_opp. lia.
    + split; [exact H1|split]; [intros x _ H; apply H2; exact H|lia].
Qed.

Lemma squarefree_example : let p := [1; -2; 1]%Z in let g := [-1; 1]%Z in
  is_gcd g p (normal (zderiv p)) /\ is_quotient [-1; 1]%Z p g.
Proof.
  split; [split; [|split]|split].
  - exists [-1; 1]%Z. intros x. unfold zeval; simpl. ring.
  - exists [2]%Z. intros x. unfold zeval; simpl. ring.
  - intros h _ (u & Hu). exists (pscal (/ 2) u). intros x. rewrite peval_pscal.
    specialize (Hu x). unfold zeval in *. simpl in *. lra.
  - intros x. unfold zeval; simpl. ring.
  - simpl. lia.
Qed.
