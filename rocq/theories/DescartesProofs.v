(** Proofs about the Descartes test (C01). *)
Require Import Reals List Lra Lia ZArith Bool.
From Verif Require Import PolyR SignVar RootModel.
Import ListNotations.
Open Scope Z_scope.

(** * The transformed coefficients computed by the successive passes *)

(** Last entries of the successive prefix-sum passes. *)
Fixpoint tc (n : nat) (act : list Z) : list Z :=
  match n with
  | O => []
  | S n' => let a' := psums act in last a' 0 :: tc n' (removelast a')
  end.

Fixpoint zsum (l : list Z) : Z := match l with [] => 0 | a :: q => a + zsum q end.

Lemma zsum_app : forall l a, zsum (l ++ [a]) = zsum l + a.
Proof. induction l; intros; simpl; [lia|]. rewrite IHl; lia. Qed.

Lemma psums_go_app : forall l acc a,
  psums_go acc (l ++ [a]) = psums_go acc l ++ [acc + zsum l + a].
Proof.
  induction l as [|b l IH]; intros acc a; simpl.
  - f_equal. lia.
  - rewrite IH. f_equal. f_equal. f_equal. lia.
Qed.

Lemma psums_app : forall l a, psums (l ++ [a]) = psums l ++ [zsum l + a].
Proof. intros. unfold psums. rewrite psums_go_app. do 2 f_equal. Qed.

Lemma psums_length : forall l, length (psums l) = length l.
Proof.
  unfold psums. intros l. generalize 0. induction l; intros; simpl; [reflexivity|].
  rewrite IHl; reflexivity.
Qed.

Lemma removelast_length : forall (l : list Z), length (removelast l) = pred (length l).
Proof.
  induction l as [|a [|b l] IH]; [reflexivity|reflexivity|].
  change (removelast (a :: b :: l)) with (a :: removelast (b :: l)).
  cbn [length]. rewrite IH. reflexivity.
Qed.

Open Scope R_scope.

Lemma zeval_app : forall p q x, zeval (p ++ q) x = zeval p x + x ^ length p * zeval q x.
Proof. intros. unfold zeval. rewrite map_app, peval_app, map_length. reflexivity. Qed.

Lemma zeval_sum : forall p, zeval p 1 = IZR (zsum p).
Proof.
  induction p as [|a p IH]; [reflexivity|].
  rewrite zeval_cons, IH. simpl. rewrite plus_IZR. ring.
Qed.

Lemma zsum_rev : forall p, zsum (rev p) = zsum p.
Proof.
  induction p as [|a p IH]; [reflexivity|]. simpl. rewrite zsum_app, IH. lia.
Qed.

(** One pass is a synthetic division by x - 1 of the reversed polynomial. *)
Lemma pass_eval : forall l x, l <> [] ->
  zeval (rev l) x = IZR (last (psums l) 0%Z) + (x - 1) * zeval (rev (removelast (psums l))) x.
Proof.
  intros l. induction l as [|a l IH] using rev_ind; intros x Hl; [congruence|].
  rewrite psums_app, removelast_last, last_last, rev_unit, zeval_cons.
  destruct l as [|b l].
  - simpl. unfold zeval; simpl. ring.
  - rewrite IH by congruence.
    set (l' := b :: l) in *.
    assert (Hl' : exists u v, l' = u ++ [v]).
    { destruct (exists_last (l := l') ltac:(discriminate)) as (u & v & E). eauto. }
    destruct Hl' as (u & v & E). rewrite E.
    rewrite psums_app, removelast_last, last_last, rev_unit, zeval_cons.
    rewrite zsum_app, !plus_IZR. ring.
Qed.

Lemma tc_eval : forall n l y, length l = n -> zeval (tc n l) y = zeval (rev l) (1 + y).
Proof.
  induction n as [|n IH]; intros l y Hl.
  - destruct l; [reflexivity|discriminate].
  - cbn [tc]. rewrite zeval_cons.
    rewrite (pass_eval l (1 + y)) by (intros ->; discriminate).
    rewrite IH.
    + ring.
    + rewrite removelast_length, psums_length, Hl. reflexivity.
Qed.

Lemma tc_length : forall n l, length (tc n l) = n.
Proof. induction n; intros; simpl; [reflexivity|]. rewrite IHn; reflexivity. Qed.

(** The passes compute (1+y)^(len-1) p(1/(1+y)). *)
Lemma tc_transform : forall p y, p <> [] -> -1 < y ->
  zeval (tc (length p) p) y = (1 + y) ^ (length p - 1) * zeval p (/ (1 + y)).
Proof.
  intros p y Hp Hy. rewrite tc_eval by reflexivity.
  pose proof (peval_rev (map IZR p) (1 + y) ltac:(lra)) as H.
  rewrite <- map_rev, map_length in H. fold (zeval (rev p) (1 + y)) in H.
  fold (zeval p (/ (1 + y))) in H.
  apply Rmult_eq_reg_r with (1 + y); [|lra]. rewrite H.
  destruct p as [|a p]; [congruence|]. cbn [length]. rewrite Nat.sub_succ, Nat.sub_0_r.
  simpl. ring.
Qed.

Open Scope Z_scope.

(** * Early exits *)

Definition okS (t : Z) (a : Z) : Prop := Z.sgn a = t \/ Z.sgn a = 0.

Lemma same_or_zero_spec : forall t l, same_or_zero t l = true <-> Forall (okS t) l.
Proof.
  intros t l. unfold same_or_zero. rewrite forallb_forall, Forall_forall.
  split; intros H x Hx; specialize (H x Hx); unfold okS in *;
    rewrite orb_true_iff, !Z.eqb_eq in *; exact H.
Qed.

Lemma psums_go_ok : forall t l acc, (t = -1 \/ t = 0 \/ t = 1) -> okS t acc -> Forall (okS t) l ->
  Forall (okS t) (psums_go acc l).
Proof.
  intros t l. induction l as [|a l IH]; intros acc Ht Hacc Hl; simpl; [constructor|].
  inversion Hl as [|? ? Ha Hl']; subst.
  assert (Hs : okS t (acc + a)).
  { unfold okS in *. destruct Ht as [Ht|[Ht|Ht]]; subst t;
      destruct (Z.sgn_spec acc) as [[? E]|[[? E]|[? E]]]; rewrite E in Hacc;
      destruct (Z.sgn_spec a) as [[? E']|[[? E']|[? E']]]; rewrite E' in Ha;
      destruct (Z.sgn_spec (acc + a)) as [[? E'']|[[? E'']|[? E'']]]; rewrite E''; lia. }
  constructor; [exact Hs|]. apply IH; assumption.
Qed.

Lemma psums_ok : forall t l, (t = -1 \/ t = 0 \/ t = 1) -> Forall (okS t) l -> Forall (okS t) (psums l).
Proof. intros. apply psums_go_ok; [assumption| |assumption]. right. reflexivity. Qed.

Lemma Forall_removelast : forall (P : Z -> Prop) l, Forall P l -> Forall P (removelast l).
Proof.
  intros P l H. induction H as [|a l Ha Hl IH]; [constructor|].
  destruct l; [constructor|]. change (removelast (a :: z :: l)) with (a :: removelast (z :: l)).
  constructor; assumption.
Qed.

Lemma Forall_last : forall (P : Z -> Prop) l, P 0 -> Forall P l -> P (last l 0).
Proof.
  intros P l H0 H. induction H as [|a l Ha Hl IH]; [exact H0|].
  destruct l; [exact Ha|]. exact IH.
Qed.

Lemma tc_ok : forall t n l, (t = -1 \/ t = 0 \/ t = 1) -> Forall (okS t) l -> Forall (okS t) (tc n l).
Proof.
  intros t n. induction n as [|n IH]; intros l Ht Hl; simpl; [constructor|].
  pose proof (psums_ok t l Ht Hl) as Hp.
  constructor.
  - apply Forall_last; [right; reflexivity|exact Hp].
  - apply IH; [exact Ht|]. apply Forall_removelast. exact Hp.
Qed.

Lemma varf_ok : forall t l s, (t = -1 \/ t = 0 \/ t = 1) -> (s = t \/ s = 0) -> Forall (okS t) l -> varf s l = 0%nat.
Proof.
  intros t l. induction l as [|a l IH]; intros s Ht Hs Hl; simpl; [reflexivity|].
  inversion Hl as [|? ? Ha Hl']; subst.
  destruct (Z.eqb_spec (Z.sgn a) 0) as [E|E]; [apply IH; assumption|].
  destruct Ha as [Ha|Ha]; [|contradiction].
  destruct (Z.eqb_spec (Z.sgn a) (- s)) as [E'|E']; [lia|].
  apply IH; [assumption|left; exact Ha|assumption].
Qed.

Lemma tail_same_spec : forall l s, (s = -1 \/ s = 0 \/ s = 1) -> tail_same s l = true ->
  exists t, (t = -1 \/ t = 0 \/ t = 1) /\ (s = t \/ s = 0) /\ Forall (okS t) l.
Proof.
  induction l as [|a l IH]; intros s Hs H.
  - exists s. repeat split; [exact Hs|left; reflexivity|constructor].
  - cbn [tail_same] in H. destruct (Z.eqb_spec s 0) as [E|E].
    + destruct (IH (Z.sgn a)) as (t & Ht & Hs' & Hf).
      { destruct (Z.sgn_spec a) as [[_ F]|[[_ F]|[_ F]]]; rewrite F; auto. }
      { exact H. }
      exists t. split; [exact Ht|]. split; [right; exact E|].
      constructor; [|exact Hf]. unfold okS. destruct Hs' as [->| ->]; auto.
    + exists s. split; [exact Hs|]. split; [left; reflexivity|].
      apply same_or_zero_spec. exact H.
Qed.

(** * The loop computes the capped number of sign variations *)

Definition capped (v : nat) (bound : Z) : dres :=
  if Z.of_nat v <=? bound then DCount v else DTooMany.

Lemma psums_zero : forall l, Forall (fun a => a = 0) (psums l) -> Forall (fun a => a = 0) l.
Proof.
  unfold psums. intros l.
  assert (H : forall acc, acc = 0 -> Forall (fun a => a = 0) (psums_go acc l) -> Forall (fun a => a = 0) l).
  { induction l as [|a l IH]; intros acc Hacc H; [constructor|].
    simpl in H. inversion H; subst. constructor; [lia|]. apply IH with (acc := 0 + a); [lia|assumption]. }
  apply H. reflexivity.
Qed.

Lemma last_removelast_zero : forall l, last l 0 = 0 -> Forall (fun a => a = 0) (removelast l) ->
  Forall (fun a => a = 0) l.
Proof.
  intros l H1 H2. destruct l as [|a l]; [constructor|].
  rewrite (app_removelast_last 0 (l := a :: l)) by discriminate.
  apply Forall_app. split; [exact H2|]. constructor; [exact H1|constructor].
Qed.

Lemma capped_stop : forall v bound, 0 <= bound -> Z.of_nat v <= bound ->
  capped v bound = DCount v.
Proof. intros. unfold capped. destruct (Z.leb_spec (Z.of_nat v) bound); [reflexivity|lia]. Qed.
Lemma capped_over : forall v bound, bound < Z.of_nat v -> capped v bound = DTooMany.
Proof. intros. unfold capped. destruct (Z.leb_spec (Z.of_nat v) bound); [lia|reflexivity]. Qed.

Lemma desc_loop_spec : forall n act s V bound,
  length act = S n -> (s = -1 \/ s = 0 \/ s = 1) -> 0 <= bound -> Z.of_nat V <= bound ->
  (s <> 0 \/ ~ Forall (fun a => a = 0) act) ->
  desc_loop n act s V bound = capped (V + varf s (tc (S n) act)) bound.
Proof.
  induction n as [|n IH]; intros act s V bound Hlen Hs Hb HV Hnz.
  - destruct act as [|a [|b act]]; try discriminate.
    cbn [desc_loop hd tc psums psums_go last removelast varf].
    replace (0 + a) with a by lia.
    destruct (Z.eqb_spec s (- Z.sgn a)) as [E|E].
    + destruct (Z.eqb_spec (Z.sgn a) 0) as [E0|E0].
      * exfalso. rewrite E0 in E. destruct Hnz as [Hnz|Hnz]; [apply Hnz; lia|].
        apply Hnz. constructor; [lia|constructor].
      * destruct (Z.eqb_spec (Z.sgn a) (- s)) as [E1|E1]; [|lia].
        cbn [varf]. destruct (Z.eqb_spec (Z.of_nat V) bound) as [E2|E2].
        -- rewrite capped_over by lia. reflexivity.
        -- rewrite capped_stop by lia. f_equal. lia.
    + destruct (Z.eqb_spec (Z.sgn a) 0) as [E0|E0].
      * rewrite capped_stop by lia. f_equal. lia.
      * destruct (Z.eqb_spec (Z.sgn a) (- s)) as [E1|E1]; [lia|].
        rewrite capped_stop by lia. f_equal. lia.
  - cbn [desc_loop].
    destruct (tail_same s (rev act)) eqn:Et.
    + destruct (tail_same_spec _ _ Hs Et) as (t & Ht & Hst & Hf).
      apply Forall_rev in Hf. rewrite rev_involutive in Hf.
      rewrite (varf_ok t) by (try assumption; apply tc_ok; assumption).
      rewrite capped_stop by lia. f_equal. lia.
    + remember (S n) as m eqn:Hm. cbn [tc].
      set (act' := psums act). cbn [varf].
      assert (Hlen' : length (removelast act') = S n).
      { unfold act'. rewrite removelast_length, psums_length, Hlen. simpl. lia. }
      subst m.
      assert (Hx : Z.sgn (last act' 0) = -1 \/ Z.sgn (last act' 0) = 0 \/ Z.sgn (last act' 0) = 1).
      { destruct (Z.sgn_spec (last act' 0)) as [[_ F]|[[_ F]|[_ F]]]; rewrite F; auto. }
      destruct (Z.eqb_spec s 0) as [E|E].
      * rewrite (IH (removelast act') (Z.sgn (last act' 0)) V bound Hlen' Hx Hb HV).
        -- subst s. destruct (Z.eqb_spec (Z.sgn (last act' 0)) 0) as [E1|E1].
           ++ rewrite E1. reflexivity.
           ++ destruct (Z.eqb_spec (Z.sgn (last act' 0)) (- 0)) as [E2|E2]; [lia|]. reflexivity.
        -- destruct (Z.eq_dec (Z.sgn (last act' 0)) 0) as [E1|E1]; [right|left; exact E1].
           intros Hf. destruct Hnz as [Hnz|Hnz]; [contradiction|]. apply Hnz.
           apply psums_zero. fold act'. apply last_removelast_zero; [lia|exact Hf].
      * destruct (Z.eqb_spec s (- Z.sgn (last act' 0))) as [E1|E1].
        -- destruct (Z.eqb_spec (Z.sgn (last act' 0)) 0) as [E2|E2]; [lia|].
           destruct (Z.eqb_spec (Z.sgn (last act' 0)) (- s)) as [E3|E3]; [|lia].
           destruct (Z.eqb_spec (Z.of_nat V) bound) as [E4|E4].
           ++ rewrite capped_over by lia. reflexivity.
           ++ rewrite (IH (removelast act') (- s) (S V) bound Hlen') by (try assumption; lia).
              rewrite E3. f_equal. lia.
        -- rewrite (IH (removelast act') s V bound Hlen' Hs Hb HV (or_introl E)).
           destruct (Z.eqb_spec (Z.sgn (last act' 0)) 0) as [E2|E2]; [reflexivity|].
           destruct (Z.eqb_spec (Z.sgn (last act' 0)) (- s)) as [E3|E3]; [lia|].
           assert (Z.sgn (last act' 0) = s) as -> by lia. reflexivity.
Qed.

(** The test returns the number of variations of the transformed polynomial,
    capped at the bound. *)
Lemma descartes01_var : forall p bound, p <> [] -> 0 <= bound ->
  descartes01 p bound = capped (var (tc (length p) p)) bound.
Proof.
  intros p bound Hp Hb. unfold descartes01.
  assert (Hst : Z.sgn (last p 0) = -1 \/ Z.sgn (last p 0) = 0 \/ Z.sgn (last p 0) = 1).
  { destruct (Z.sgn_spec (last p 0)) as [[_ F]|[[_ F]|[_ F]]]; rewrite F; auto. }
  destruct (same_or_zero (Z.sgn (last p 0)) p) eqn:Es.
  - apply same_or_zero_spec in Es.
    assert (E : var (tc (length p) p) = 0%nat).
    { unfold var. apply (varf_ok (Z.sgn (last p 0))); [exact Hst|right; reflexivity|].
      apply tc_ok; assumption. }
    rewrite E, capped_stop by lia. destruct p; [congruence|reflexivity].
  - (* not all zero, and at least two entries *)
    destruct p as [|a p]; [congruence|].
    destruct p as [|b p].
    { exfalso. unfold same_or_zero in Es. simpl in Es. rewrite Z.eqb_refl in Es. discriminate. }
    set (P := a :: b :: p) in *.
    assert (Hlen : length P = S (S (length p))) by reflexivity.
    replace (length P - 2)%nat with (length p) by (rewrite Hlen; lia).
    rewrite (desc_loop_spec (length p)).
    + rewrite Hlen. unfold var. cbn [tc varf].
      destruct (Z.eqb_spec (Z.sgn (last (psums P) 0)) 0) as [E|E].
      * rewrite E. reflexivity.
      * destruct (Z.eqb_spec (Z.sgn (last (psums P) 0)) (- 0)) as [E'|E']; [lia|]. reflexivity.
    + rewrite removelast_length, psums_length, Hlen. reflexivity.
    + destruct (Z.sgn_spec (last (psums P) 0)) as [[_ F]|[[_ F]|[_ F]]]; rewrite F; auto.
    + exact Hb.
    + simpl. exact Hb.
    + destruct (Z.eq_dec (Z.sgn (last (psums P) 0)) 0) as [E|E]; [right|left; exact E].
      intros Hf. assert (Hz : Forall (fun a => a = 0) P).
      { apply psums_zero. apply last_removelast_zero; [lia|exact Hf]. }
      assert (same_or_zero (Z.sgn (last P 0)) P = true); [|congruence].
      apply same_or_zero_spec. eapply Forall_impl; [|exact Hz].
      intros c Hc. right. simpl in Hc. rewrite Hc. reflexivity.
Qed.

(** * Roots in (0,1) *)
Open Scope R_scope.

Lemma zeval_nonzero_pzero : forall p, ~ Forall (fun a => a = 0%Z) p <-> ~ pzero (map IZR p).
Proof.
  intros p. split; intros H H'; apply H; clear H.
  - induction p as [|a p IH]; [constructor|]. simpl in H'. inversion H'; subst.
    constructor; [apply eq_IZR; assumption|]. apply IH. assumption.
  - induction H' as [|a p Ha Hp IH]; simpl; constructor; [subst; reflexivity|assumption].
Qed.

Lemma tc_nonzero : forall p, ~ Forall (fun a => a = 0%Z) p -> ~ pzero (map IZR (tc (length p) p)).
Proof.
  intros p Hp Hz. apply zeval_nonzero_pzero in Hp. apply Hp.
  apply (peval_zero_interval _ (1/2) 1); [lra|]. intros x Hx.
  assert (Hne : p <> []) by (intros ->; apply Hp; constructor).
  pose proof (tc_transform p (/ x - 1) Hne) as E.
  assert (Hix : 1 < / x). { rewrite <- Rinv_1. apply Rinv_lt_contravar; lra. }
  specialize (E ltac:(lra)).
  replace (1 + (/ x - 1)) with (/ x) in E by ring. rewrite Rinv_inv in E.
  unfold zeval at 1 in E. rewrite (peval_pzero _ _ Hz) in E.
  fold (zeval p x). symmetry in E. apply Rmult_integral in E. destruct E as [E|E]; [|exact E].
  exfalso. assert (0 < (/ x) ^ (length p - 1)) by (apply pow_lt; lra). lra.
Qed.

(** For a nonzero polynomial the roots in (0,1), listed with multiplicity, are at
    most as many as the variations. *)
Lemma tc_roots : forall p rs q, ~ Forall (fun a => a = 0%Z) p ->
  (forall r, In r rs -> 0 < r < 1) ->
  (forall x, zeval p x = linprod rs x * peval q x) ->
  (length rs <= var (tc (length p) p))%nat.
Proof.
  intros p rs q Hp Hr Hf.
  assert (Hne : p <> []) by (intros ->; apply Hp; constructor).
  set (T := tc (length p) p).
  set (ys := map (fun r => / r - 1) rs).
  set (C := fold_right (fun r acc => - r * acc) 1 rs).
  rewrite <- varR_IZR. fold T.
  assert (Hlen : length rs = length ys) by (unfold ys; rewrite map_length; reflexivity).
  rewrite Hlen.
  (* On (0,1): T(y) = (1+y)^n C' linprod ys y * q(1/(1+y)) *)
  (* multiply by a power to make both sides polynomials *)
  set (m := length q).
  set (n := (length p - 1)%nat).
  set (k := length rs).
  (* polynomial (1+y) as a list *)
  set (op := fun e : nat => Nat.iter e (fun l => pmul [1; 1] l) [1]).
  assert (Hop : forall e y, peval (op e) y = (1 + y) ^ e).
  { induction e as [|e IH]; intros y; [simpl; ring|].
    change (op (S e)) with (pmul [1;1] (op e)). rewrite peval_pmul, IH. simpl. ring. }
  (* q(1/(1+y)) (1+y)^m is a polynomial in y *)
  assert (Hex : exists L : list R, forall y, -1 < y -> peval L y = (1 + y) ^ m * peval q (/ (1 + y))).
  { unfold m. clear. induction q as [|a q [L IH]].
    - exists []. intros y Hy. simpl. ring.
    - exists (padd (pscal a (Nat.iter (S (length q)) (fun l => pmul [1; 1] l) [1])) L).
      intros y Hy. rewrite peval_padd, peval_pscal, (IH y Hy).
      assert (Hop : forall e, peval (Nat.iter e (fun l => pmul [1; 1] l) [1]) y = (1 + y) ^ e).
      { induction e as [|e IHe]; [simpl; ring|].
        change (Nat.iter (S e) (fun l : list R => pmul [1; 1] l) [1])
          with (pmul [1;1] (Nat.iter e (fun l : list R => pmul [1; 1] l) [1])).
        rewrite peval_pmul, IHe. simpl. ring. }
      rewrite Hop. cbn [length peval pow]. field. lra. }
  destruct Hex as [L HL].
  assert (HC : C <> 0).
  { unfold C. clear - Hr. induction rs as [|r rs IH]; simpl; [lra|].
    apply Rmult_integral_contrapositive_currified.
    - specialize (Hr r (or_introl eq_refl)). lra.
    - apply IH. intros s Hs. apply Hr. right. exact Hs. }
  assert (Hlin : forall y, -1 < y -> (1 + y) ^ k * linprod rs (/ (1 + y)) = C * linprod ys y).
  { unfold k, C, ys. clear - Hr. induction rs as [|r rs IH]; intros y Hy; [simpl; ring|].
    cbn [length linprod map fold_right pow].
    transitivity ((1 + y) * (/ (1 + y) - r) * ((1 + y) ^ length rs * linprod rs (/ (1 + y)))); [ring|].
    rewrite IH; [|intros s Hs; apply Hr; right; exact Hs|exact Hy].
    specialize (Hr r (or_introl eq_refl)).
    replace ((1 + y) * (/ (1 + y) - r)) with (- r * (y - (/ r - 1))) by (field; split; lra).
    ring. }
  (* two lists with equal values *)
  set (A := pmul (map IZR T) (op (m + k)%nat)).
  set (B := pscal C (pmul (op n) L)).
  assert (HAB : forall y, -1 < y -> peval A y = linprod ys y * peval B y).
  { intros y Hy. unfold A, B. rewrite peval_pmul, peval_pscal, peval_pmul, !Hop, (HL y Hy).
    fold (zeval T y). unfold T. rewrite (tc_transform p y Hne Hy), Hf. fold n.
    rewrite pow_add.
    transitivity ((1 + y) ^ n * ((1 + y) ^ k * linprod rs (/ (1 + y))) * peval q (/ (1 + y)) * (1 + y) ^ m); [ring|].
    rewrite (Hlin y Hy). ring. }
  (* dividing the extra factor (1+y): use the quotient directly *)
  assert (HTz : ~ pzero (map IZR T)) by (apply tc_nonzero; exact Hp).
  (* T itself vanishes to the right order: T = linprod ys * Q for some list Q *)
  assert (Hdiv : forall l (P : list R), ~ pzero P -> (forall y, In y l -> 0 < y) ->
            (exists E Q, (forall y, -1 < y -> peval P y * (1 + y) ^ E = linprod l y * peval Q y)) ->
            exists Q, forall y, peval P y = linprod l y * peval Q y).
  { clear. induction l as [|y0 l IH]; intros P HP Hl (E & Q & HQ).
    - exists P. intros y. simpl. ring.
    - assert (Hy0 : 0 < y0) by (apply Hl; left; reflexivity).
      assert (H0 : peval P y0 = 0).
      { specialize (HQ y0 ltac:(lra)). simpl in HQ.
        replace ((y0 - y0) * linprod l y0 * peval Q y0) with 0 in HQ by ring.
        apply Rmult_integral in HQ. destruct HQ as [HQ|HQ]; [exact HQ|].
        exfalso. assert (0 < (1 + y0) ^ E) by (apply pow_lt; lra). lra. }
      assert (Hlen : (2 <= length P)%nat).
      { destruct P as [|a [|b P]]; [exfalso; apply HP; constructor| |simpl; lia].
        simpl in H0. exfalso; apply HP. constructor; [lra|constructor]. }
      pose proof (factor_list P y0 Hlen H0) as Hfac.
      destruct (IH (pquot y0 P)) as [Q' HQ'].
      + intros Hz. apply HP. rewrite <- Hfac. apply plin_go_pzero. exact Hz.
      + intros y Hy. apply Hl. right. exact Hy.
      + exists E, Q. 
        (* equality away from y0, then everywhere by the interval lemma *)
        set (op := fun e : nat => Nat.iter e (fun l => pmul [1; 1] l) [1]).
        assert (Hop : forall e y, peval (op e) y = (1 + y) ^ e).
        { induction e as [|e IHe]; intros y; [simpl; ring|].
          change (op (S e)) with (pmul [1;1] (op e)). rewrite peval_pmul, IHe. simpl. ring. }
        set (lp := fold_right (fun r acc => plin r acc) Q l).
        assert (Hlp : forall x, peval lp x = linprod l x * peval Q x).
        { intros x. unfold lp. clear. induction l as [|a rs IH]; simpl; [ring|].
          rewrite peval_plin, IH. ring. }
        assert (HZ : pzero (padd (pmul (pquot y0 P) (op E)) (pscal (-1) lp))).
        { apply (peval_zero_interval _ y0 (y0 + 1)); [lra|]. intros y Hy.
          rewrite peval_padd, peval_pscal, peval_pmul, Hop, Hlp.
          specialize (HQ y ltac:(lra)). simpl in HQ. rewrite <- Hfac, peval_plin in HQ.
          assert (HE : (y - y0) * (peval (pquot y0 P) y * (1 + y) ^ E + -1 * (linprod l y * peval Q y)) = 0) by lra.
          apply Rmult_integral in HE. destruct HE as [HE|HE]; [lra|exact HE]. }
        intros y Hy.
        pose proof (peval_pzero _ y HZ) as HZy.
        rewrite peval_padd, peval_pscal, peval_pmul, Hop, Hlp in HZy. lra.
      + exists Q'. intros y. rewrite <- Hfac at 1. rewrite peval_plin, HQ'. simpl. ring. }
  destruct (Hdiv ys (map IZR T) HTz) as [Q HQ].
  { intros y Hy. unfold ys in Hy. apply in_map_iff in Hy. destruct Hy as (r & Er & Hin).
    specialize (Hr r Hin). subst y.
    assert (1 < / r). { rewrite <- Rinv_1. apply Rinv_lt_contravar; lra. } lra. }
  { exists (m + k)%nat, B. intros y Hy. rewrite <- (HAB y Hy). unfold A. rewrite peval_pmul, Hop. reflexivity. }
  apply (descartes_mult ys (map IZR T) Q HTz).
  - intros y Hy. unfold ys in Hy. apply in_map_iff in Hy. destruct Hy as (r & Er & Hin).
    specialize (Hr r Hin). subst y.
    assert (1 < / r). { rewrite <- Rinv_1. apply Rinv_lt_contravar; lra. } lra.
  - exists 0, 1. split; [lra|]. intros x _. apply HQ.
Qed.

(** The bijection y = 1/x - 1 between (0,1) and the positive reals. *)
Lemma tc_root_iff : forall p x, p <> [] -> 0 < x < 1 ->
  (zeval p x = 0 <-> zeval (tc (length p) p) (/ x - 1) = 0).
Proof.
  intros p x Hp Hx.
  assert (Hix : 1 < / x). { rewrite <- Rinv_1. apply Rinv_lt_contravar; lra. }
  rewrite (tc_transform p (/ x - 1) Hp) by lra.
  replace (1 + (/ x - 1)) with (/ x) by ring. rewrite Rinv_inv.
  assert (0 < (/ x) ^ (length p - 1)) by (apply pow_lt; lra).
  split; intros H0; [rewrite H0; ring|].
  apply Rmult_integral in H0. destruct H0; [lra|assumption].
Qed.

Lemma tc_var0 : forall p, ~ Forall (fun a => a = 0%Z) p -> var (tc (length p) p) = 0%nat ->
  forall x, 0 < x < 1 -> zeval p x <> 0.
Proof.
  intros p Hp Hv x Hx H0.
  assert (Hne : p <> []) by (intros ->; apply Hp; constructor).
  apply (tc_root_iff p x Hne Hx) in H0.
  rewrite <- varR_IZR in Hv.
  apply (descartes_zero _ (tc_nonzero p Hp) Hv (/ x - 1)); [|exact H0].
  assert (1 < / x). { rewrite <- Rinv_1. apply Rinv_lt_contravar; lra. } lra.
Qed.

Lemma tc_var1 : forall p, ~ Forall (fun a => a = 0%Z) p -> var (tc (length p) p) = 1%nat ->
  exists! x, 0 < x < 1 /\ zeval p x = 0.
Proof.
  intros p Hp Hv.
  assert (Hne : p <> []) by (intros ->; apply Hp; constructor).
  rewrite <- varR_IZR in Hv.
  destruct (descartes_one _ Hv) as [y [[Hy Hy0] Huniq]].
  assert (Hx : 0 < / (1 + y) < 1).
  { split; [apply Rinv_0_lt_compat; lra|]. rewrite <- Rinv_1. apply Rinv_lt_contravar; lra. }
  exists (/ (1 + y)). split.
  - split; [exact Hx|]. apply (tc_root_iff p _ Hne Hx).
    rewrite Rinv_inv. replace (1 + y - 1) with y by ring. exact Hy0.
  - intros x [Hx' Hx0]. apply (tc_root_iff p x Hne Hx') in Hx0.
    assert (1 < / x). { rewrite <- Rinv_1. apply Rinv_lt_contravar; lra. }
    rewrite (Huniq (/ x - 1)) by (split; [lra|exact Hx0]).
    replace (1 + (/ x - 1)) with (/ x) by ring. apply Rinv_inv.
Qed.
