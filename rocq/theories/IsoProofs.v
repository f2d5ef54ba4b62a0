(** Counting and isolating all real roots (C04, C06, C07, C08). *)
Require Import Reals List Lra Lia ZArith Bool Sorting.
From Verif Require Import PolyR SignVar RootModel DescartesProofs RootSpec VcaProofs VcaTerm.
Import ListNotations.
Open Scope R_scope.

(** * From an isolation to a root list *)
Lemma ints_roots : forall p ints,
  (forall d, In d ints -> exists! x, in_int d x /\ zeval p x = 0) ->
  exists rs, Forall2 (fun d x => in_int d x /\ zeval p x = 0) ints rs.
Proof.
  intros p ints. induction ints as [|d ints IH]; intros H; [exists []; constructor|].
  destruct (H d (or_introl eq_refl)) as (x & Hx & _).
  destruct IH as [rs Hrs]; [intros e He; apply H; right; exact He|].
  exists (x :: rs). constructor; assumption.
Qed.

Lemma forall2_in_l : forall (A B : Type) (Rr : A -> B -> Prop) l m, Forall2 Rr l m -> forall a, In a l -> exists b, In b m /\ Rr a b.
Proof.
  intros A B Rr l m H. induction H as [|x y l m H1 H2 IH]; intros a Hin; [destruct Hin|]. destruct Hin as [Hin|H].
  - subst. exists y. split; [left; reflexivity|exact H1].
  - destruct (IH a H) as (b & Hb & Hr). exists b. split; [right; exact Hb|exact Hr].
Qed.
Lemma forall2_in_r : forall (A B : Type) (Rr : A -> B -> Prop) l m, Forall2 Rr l m -> forall b, In b m -> exists a, In a l /\ Rr a b.
Proof.
  intros A B Rr l m H. induction H as [|x y l m H1 H2 IH]; intros b Hin; [destruct Hin|]. destruct Hin as [Hin|H].
  - subst. exists x. split; [left; reflexivity|exact H1].
  - destruct (IH b H) as (a & Ha & Hr). exists a. split; [right; exact Ha|exact Hr].
Qed.

Lemma forall2_len : forall (A B : Type) (Rr : A -> B -> Prop) l m, Forall2 Rr l m -> length l = length m.
Proof. intros A B Rr l m H. induction H; simpl; congruence. Qed.

Lemma ints_roots_nodup : forall p ints rs,
  StronglySorted (fun d e => ihi d <= ilo e) ints ->
  Forall2 (fun d x => in_int d x /\ zeval p x = 0) ints rs -> NoDup rs.
Proof.
  intros p ints rs HS H. revert HS. induction H as [|d x ints rs [H1 H2] H3 IH]; intros HS; [constructor|].
  inversion HS as [|? ? HS1 HS2]; subst. constructor; [|apply IH; exact HS1].
  intros Hin. destruct (forall2_in_r _ _ _ _ _ H3 x Hin) as (e & He & [He1 _]).
  rewrite Forall_forall in HS2. specialize (HS2 e He). unfold in_int in *. lra.
Qed.

Lemma isolates_root_list : forall p dom ex ints, isolates p dom ex ints -> NoDup (map dyv ex) ->
  exists l, root_list p dom l /\ length l = (length ex + length ints)%nat.
Proof.
  intros p dom ex ints HI Hnd.
  destruct (ints_roots p ints (iso_int_root _ _ _ _ HI)) as [rs Hrs].
  exists (map dyv ex ++ rs). split.
  - split.
    + assert (Hd : forall x, In x (map dyv ex) -> ~ In x rs).
      { intros x Hx Hr. apply in_map_iff in Hx. destruct Hx as (d & <- & Hd).
        destruct (forall2_in_r _ _ _ _ _ Hrs _ Hr) as (e & He & [Hin _]).
        exact (iso_exclusive _ _ _ _ HI d e Hd He Hin). }
      pose proof (ints_roots_nodup p ints rs (iso_int_sorted _ _ _ _ HI) Hrs) as Hn2.
      clear - Hnd Hn2 Hd. induction (map dyv ex) as [|a l IH]; [exact Hn2|].
      simpl. inversion Hnd; subst. constructor.
      * intros Hin. apply in_app_or in Hin. destruct Hin as [Hin|Hin]; [contradiction|].
        apply (Hd a); [left; reflexivity|exact Hin].
      * apply IH; [assumption|]. intros x Hx. apply Hd. right. exact Hx.
    + intros x. split.
      * intros Hin. apply in_app_or in Hin. destruct Hin as [Hin|Hin].
        -- apply in_map_iff in Hin. destruct Hin as (d & <- & Hd). apply (iso_exact_root _ _ _ _ HI d Hd).
        -- destruct (forall2_in_r _ _ _ _ _ Hrs _ Hin) as (e & He & [H1 H2]).
           split; [exact (iso_int_dom _ _ _ _ HI e x He H1)|exact H2].
      * intros [Hx H0]. apply in_or_app.
        destruct (iso_complete _ _ _ _ HI x Hx H0) as [(d & Hd & <-)|(d & Hd & Hin)].
        -- left. apply in_map. exact Hd.
        -- right. destruct (forall2_in_l _ _ _ _ _ Hrs d Hd) as (y & Hy & [Hy1 Hy2]).
           destruct (iso_int_root _ _ _ _ HI d Hd) as (z & _ & Hz).
           rewrite <- (Hz x (conj Hin H0)). rewrite (Hz y (conj Hy1 Hy2)). exact Hy.
  - rewrite app_length, map_length. f_equal. symmetry. apply (forall2_len _ _ _ _ _ Hrs).
Qed.

Lemma root_list_length : forall p dom l l', root_list p dom l -> root_list p dom l' -> length l = length l'.
Proof.
  intros p dom l l' [N1 H1] [N2 H2]. apply Nat.le_antisymm; apply NoDup_incl_length; try assumption;
    intros x Hx; [apply H2, H1|apply H1, H2]; exact Hx.
Qed.

Lemma linprod_deriv_multiple : forall p rs a (q : list R),
  (forall x, zeval p x = linprod rs x * peval q x) ->
  forall l1 l2 l3, rs = l1 ++ a :: l2 ++ a :: l3 -> zeval p a = 0 /\ peval (pderiv (map IZR p)) a = 0.
Proof.
  intros p rs a q E l1 l2 l3 Hrs.
  destruct (linprod_list (l1 ++ l2 ++ l3)) as [w Hw].
  set (u := plin a (pmul w q)).
  assert (E2 : forall x, zeval p x = (x - a) * peval u x).
  { intros x. rewrite E, Hrs. unfold u. rewrite peval_plin, peval_pmul, Hw.
    rewrite !linprod_app. simpl. rewrite linprod_app. simpl. ring. }
  assert (Hu : peval u a = 0) by (unfold u; rewrite peval_plin; ring).
  split; [rewrite E2; ring|].
  assert (D1 : derivable_pt_lim (fun z => peval [- a; 1] z * peval u z) a
             (peval (pderiv [- a; 1]) a * peval u a + peval [- a; 1] a * peval (pderiv u) a)).
  { apply derivable_pt_lim_mult with (f1 := peval [- a; 1]) (f2 := peval u); apply peval_derivable_lim. }
  assert (D2 : derivable_pt_lim (peval (map IZR p)) a
             (peval (pderiv [- a; 1]) a * peval u a + peval [- a; 1] a * peval (pderiv u) a)).
  { intros eps He. destruct (D1 eps He) as [d Hd]. exists d. intros h Hh Hhd. specialize (Hd h Hh Hhd).
    fold (zeval p (a + h)). fold (zeval p a). rewrite !E2.
    cbn [peval] in Hd.
    replace ((a + h - a) * peval u (a + h) - (a - a) * peval u a) with
      ((- a + (a + h) * (1 + (a + h) * 0)) * peval u (a + h) - (- a + a * (1 + a * 0)) * peval u a) by ring.
    exact Hd. }
  rewrite (uniqueness_limite _ _ _ _ (peval_derivable_lim (map IZR p) a) D2), Hu. simpl. ring.
Qed.

Lemma nodup_simple : forall p (dom : R -> Prop) rs q,
  (forall x, zeval p x = linprod rs x * peval q x) ->
  (forall x, In x rs -> dom x) -> simple_roots p dom -> NoDup rs.
Proof.
  intros p dom rs q E Hdom HS.
  assert (Hgen : forall l1 l2, rs = l1 ++ l2 -> NoDup l2).
  { intros l1 l2. revert l1. induction l2 as [|a l2 IH]; intros l1 Ers; [constructor|].
    constructor.
    - intros Hin. apply in_split in Hin. destruct Hin as (m1 & m2 & ->).
      destruct (linprod_deriv_multiple p rs a q E l1 m1 m2 Ers) as [H1 H2].
      apply (HS a); [|exact H1|exact H2]. apply Hdom. rewrite Ers. apply in_or_app. right; left; reflexivity.
    - apply (IH (l1 ++ [a])). rewrite <- app_assoc. exact Ers. }
  apply (Hgen [] rs eq_refl).
Qed.

Theorem count_unit_correct : forall P, nonzero P -> simple_roots P unit_cc ->
  exists f0 l, root_list P unit_co l /\
    forall f, (f0 <= f)%nat -> num_real_roots_0_1 f P = Some (length l).
Proof.
  intros P HP HS. destruct (vca_terminates P HP HS) as [f0 Hf0].
  destruct (Hf0 f0 (Nat.le_refl _)) as (ex & ints & E0).
  pose proof (vca_correct f0 P HP) as HC. rewrite E0 in HC.
  destruct (iso_exact_mult _ _ _ _ HC) as (q & Eq & _).
  assert (Hnd : NoDup (map dyv ex)).
  { apply (nodup_simple P unit_cc _ q Eq); [|exact HS]. intros x Hx. apply in_map_iff in Hx.
    destruct Hx as (d & <- & Hd). destruct (iso_exact_root _ _ _ _ HC d Hd) as [H _].
    unfold unit_co, unit_cc in *; lra. }
  destruct (isolates_root_list P unit_co ex ints HC Hnd) as (l & Hl & Hlen).
  exists f0, l. split; [exact Hl|]. intros f Hf. unfold num_real_roots_0_1.
  unfold vca in E0 |- *. rewrite (vca_loop_mono f0 f) by (assumption || (rewrite E0; discriminate)).
  rewrite E0, Hlen. reflexivity.
Qed.

(** Whatever the multiplicities: exact roots counted with multiplicity, the other ones once. *)
Lemma count_unit_partial : forall f P n, nonzero P -> num_real_roots_0_1 f P = Some n ->
  exists ex ints, isolates P unit_co ex ints /\ n = (length ex + length ints)%nat.
Proof.
  intros f P n HP E. unfold num_real_roots_0_1 in E.
  pose proof (vca_correct f P HP) as HC. destruct (vca f P [] []) as [ex ints| | |]; try discriminate.
  inversion E. exists ex, ints. split; [exact HC|reflexivity].
Qed.

(** * Interval count against the Descartes bound *)
Lemma tc_length_var : forall p, (var (tc (length p) p) <= length p)%nat.
Proof.
  intros p. unfold var.
  assert (H : forall l s, (varf s l <= length l)%nat).
  { induction l as [|a l IH]; intros s; [simpl; lia|]. simpl.
    repeat match goal with |- context [if ?b then _ else _] => destruct b end;
      repeat match goal with |- context [varf ?s l] => pose proof (IH s); clear IH end; try lia. }
  rewrite <- (tc_length (length p) p) at 2. apply H.
Qed.

Lemma isolates_divides : forall p ex ints, nonzero p -> isolates p unit_co ex ints ->
  exists rs, (forall r, In r rs -> 0 < r < 1) /\ (exists q, forall x, zeval p x = linprod rs x * peval q x) /\
    length rs = length ints /\ NoDup rs.
Proof.
  intros p ex ints HP HI.
  destruct (ints_roots p ints (iso_int_root _ _ _ _ HI)) as [rs Hrs].
  exists rs.
  assert (Hin : forall r, In r rs -> 0 < r < 1 /\ zeval p r = 0).
  { intros r Hr. destruct (forall2_in_r _ _ _ _ _ Hrs _ Hr) as (e & He & [H1 H2]).
    split; [|exact H2].
    pose proof (iso_int_dom _ _ _ _ HI e r He H1) as Hd. unfold unit_co in Hd.
    destruct (Req_dec r 0) as [->|Hr0]; [exfalso|lra].
    (* an interior point slightly to the left of 0 would be in the domain *)
    unfold in_int in H1.
    assert (Hm : in_int e (ilo e / 2)) by (unfold in_int; lra).
    pose proof (iso_int_dom _ _ _ _ HI e _ He Hm) as Hd2. unfold unit_co in Hd2. lra. }
  split; [intros r Hr; apply Hin; exact Hr|]. 
  pose proof (ints_roots_nodup p ints rs (iso_int_sorted _ _ _ _ HI) Hrs) as Hnd.
  split; [|split; [symmetry; apply (forall2_len _ _ _ _ _ Hrs)|exact Hnd]].
  assert (Hz : forall r, In r rs -> zeval p r = 0) by (intros r Hr; apply Hin; exact Hr).
  clear - Hz Hnd HP. revert Hz.
  assert (Hgen : forall (pl : list R), ~ pzero pl -> forall rs, NoDup rs -> (forall r, In r rs -> peval pl r = 0) ->
     exists q, forall x, peval pl x = linprod rs x * peval q x).
  { intros pl HPl rs0 Hn. induction Hn as [|r rs0 Hr Hn IH]; intros Hz.
    - exists pl. intros; simpl; ring.
    - destruct IH as [q Hq]; [intros; apply Hz; right; assumption|].
      assert (Hqr : peval q r = 0).
      { specialize (Hz r (or_introl eq_refl)). rewrite Hq in Hz. apply Rmult_integral in Hz.
        destruct Hz as [Hz|Hz]; [|exact Hz]. apply linprod_zero in Hz. contradiction. }
      destruct (le_lt_dec 2 (length q)) as [Hl|Hl].
      + exists (pquot r q). intros x. rewrite Hq. simpl.
        pose proof (factor_list q r Hl Hqr) as Hf. rewrite <- Hf at 1. rewrite peval_plin. ring.
      + exfalso. apply HPl. apply (peval_zero_interval _ 0 1); [lra|]. intros x _. rewrite Hq.
        assert (peval q x = 0); [|nra].
        destruct q as [|a [|b q]]; simpl in Hl, Hqr |- *; try lra; lia. }
  intros Hz. apply (Hgen (map IZR p)); [apply zeval_nonzero_pzero; exact HP|exact Hnd|exact Hz].
Qed.
