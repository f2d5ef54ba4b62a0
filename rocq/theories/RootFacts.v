(** Statements of the root properties put together; counterexamples. *)
Require Import Reals List ZArith Lia Lra Bool Sorting.
From Verif Require Import PolyR SignVar RootModel RootSpec DescartesProofs VcaProofs VcaTerm IsoProofs IsoAll CountAll BoundProofs.
Import ListNotations.
Open Scope R_scope.

Lemma descartes_unit : forall p B, nonzero p -> (0 <= B)%Z ->
  exists t : list Z, length t = length p /\
    (forall y, -1 < y -> zeval t y = (1 + y) ^ (length p - 1) * zeval p (/ (1 + y))) /\
    ((Z.of_nat (var t) <= B)%Z -> descartes01 p B = DCount (var t)) /\
    ((B < Z.of_nat (var t))%Z -> descartes01 p B = DTooMany) /\
    (forall rs, (forall r, In r rs -> 0 < r < 1) -> divides_out rs p -> (length rs <= var t)%nat) /\
    (var t = 0%nat -> forall x, 0 < x < 1 -> zeval p x <> 0) /\
    (var t = 1%nat -> exists! x, 0 < x < 1 /\ zeval p x = 0).
Proof.
  intros p B Hp HB. exists (tc (length p) p).
  assert (Hne : p <> []) by (intros ->; apply Hp; constructor).
  split; [apply tc_length|]. split; [intros y Hy; apply tc_transform; assumption|].
  rewrite descartes01_var by assumption. unfold capped.
  split; [intros H; destruct (Z.leb_spec (Z.of_nat (var (tc (length p) p))) B); [reflexivity|lia]|].
  split; [intros H; destruct (Z.leb_spec (Z.of_nat (var (tc (length p) p))) B); [lia|reflexivity]|].
  split; [intros rs Hr (q & Hq); apply (tc_roots p rs q Hp Hr Hq)|].
  split; [intros H; apply tc_var0; assumption|intros H; apply tc_var1; assumption].
Qed.

(** * Counterexample for the root bound: x^4 - x^3 - x^2 - 2x - 2 *)
Definition pbad : list Z := [-2; -2; -1; -1; 1]%Z.

Lemma pbad_nonzero : nonzero pbad.
Proof. intros H. inversion H. discriminate. Qed.

Ltac zev := unfold zeval; cbn [map peval]; lra.

Lemma pbad_root : exists x, 2 < x < 3 /\ zeval pbad x = 0.
Proof.
  assert (E2 : peval (map IZR pbad) 2 = -2) by (unfold pbad; cbn [map peval]; lra).
  assert (E3 : peval (map IZR pbad) 3 = 37) by (unfold pbad; cbn [map peval]; lra).
  destruct (peval_ivt (map IZR pbad) 2 3 ltac:(lra)) as (x & Hx & H0); [rewrite E2, E3; lra|].
  exists x. split; assumption.
Qed.

Lemma pbad_neg_root : exists x, -2 < x < 0 /\ zeval pbad x = 0.
Proof.
  assert (E2 : peval (map IZR pbad) (-2) = 22) by (unfold pbad; cbn [map peval]; lra).
  assert (E3 : peval (map IZR pbad) 0 = -2) by (unfold pbad; cbn [map peval]; lra).
  destruct (peval_ivt (map IZR pbad) (-2) 0 ltac:(lra)) as (x & Hx & H0); [rewrite E2, E3; lra|].
  exists x. split; assumption.
Qed.

Lemma bound_refuted : exists p x, nonzero p /\ 0 < x /\ zeval p x = 0 /\
  forall flog0, exists k, positive_root_upper_bound flog0 p = Some k /\ pw2 k < x.
Proof.
  destruct pbad_root as (x & Hx & H0). exists pbad, x.
  split; [exact pbad_nonzero|]. split; [lra|]. split; [exact H0|].
  intros flog0. exists 1%Z. split; [reflexivity|]. unfold pw2; simpl. lra.
Qed.

Lemma isolate_pbad : forall flog0, isolate flog0 100 pbad = VDone [] [(-1, 1)%Z].
Proof. intros flog0. vm_compute. reflexivity. Qed.

Lemma isolate_refuted : exists p, nonzero p /\ forall flog0, exists f ex ints,
  isolate flog0 f p = VDone ex ints /\ ~ isolates p reals ex ints.
Proof.
  exists pbad. split; [exact pbad_nonzero|]. intros flog0.
  exists 100%nat, [], [(-1, 1)%Z]. split; [apply isolate_pbad|].
  intros HI. destruct pbad_root as (x & Hx & H0).
  destruct (iso_complete _ _ _ _ HI x I H0) as [(d & [] & _)|(d & [<-|[]] & Hd)].
  unfold in_int, ihi, pw2 in Hd; simpl in Hd. lra.
Qed.

Lemma upper_bound_refuted : exists p rs, nonzero p /\ NoDup rs /\ (forall r, In r rs -> zeval p r = 0) /\
  forall flog0, exists n, num_real_roots_upper_bound flog0 p = CVal n /\ (n < length rs)%nat.
Proof.
  destruct pbad_root as (x & Hx & H0). destruct pbad_neg_root as (y & Hy & H1).
  exists pbad, [y; x]. split; [exact pbad_nonzero|].
  split; [repeat constructor; simpl; intuition lra|].
  split; [intros r [<-|[<-|[]]]; assumption|].
  intros flog0. exists 1%nat. split; [vm_compute; reflexivity|simpl; lia].
Qed.

(** * Where the bound is right *)
(** At most two coefficients have the sign opposite to the leading one, and none is zero. *)
Definition few_opposite (p : list Z) : Prop :=
  (forall a, In a p -> a <> 0%Z) /\ (length (opposite p) <= 2)%nat.

Lemma few_good : forall flog0 p, p <> [] -> few_opposite p -> good_bound flog0 p.
Proof.
  intros flog0 p Hp [Hnz Hop]. unfold good_bound. destruct (root_bound flog0 p) as [k|] eqn:E.
  - intros x Hx H0. destruct (Rlt_le_dec x (pw2 k)) as [H|H]; [exact H|exfalso].
    apply (root_bound_few flog0 p k x Hp Hnz E); [left; split; assumption|exact H0].
  - apply (root_bound_none flog0 p Hp); [|exact E]. apply Hnz. apply last_In. exact Hp.
Qed.

Lemma bound_partial : forall flog0 p, p <> [] -> (forall a, In a p -> a <> 0%Z) ->
  (length (opposite p) <= 3)%nat ->
  match positive_root_upper_bound flog0 p with
  | None => forall x, 0 < x -> zeval p x <> 0
  | Some k => forall x, 0 < x -> zeval p x = 0 -> x <= pw2 k
  end.
Proof.
  intros flog0 p Hp Hnz Hop. unfold positive_root_upper_bound.
  destruct p as [|a q]; [congruence|].
  assert (Ha : a <> 0%Z) by (apply Hnz; left; reflexivity).
  cbn [forallb low_zeros]. destruct (Z.eqb_spec 0 a) as [E|_]; [congruence|]. cbn [andb].
  destruct (Z.eqb_spec a 0) as [E|_]; [congruence|]. cbn [snd].
  destruct (root_bound flog0 (a :: q)) as [k|] eqn:E.
  - intros x Hx H0. destruct (Rle_lt_dec x (pw2 k)) as [H|H]; [exact H|exfalso].
    apply (root_bound_few flog0 _ k x Hp Hnz E); [right; split; assumption|exact H0].
  - apply (root_bound_none flog0 _ Hp); [|exact E]. apply Hnz. apply last_In. exact Hp.
Qed.

Lemma bound_none : forall flog0 p, nonzero p -> last p 0%Z <> 0%Z ->
  positive_root_upper_bound flog0 p = None -> forall x, 0 < x -> zeval p x <> 0.
Proof.
  intros flog0 p Hp Hl E x Hx. unfold positive_root_upper_bound in E.
  destruct (forallb (Z.eqb 0) p); [discriminate|].
  destruct (low_zeros p) as [n r] eqn:EL. cbn [snd] in E.
  destruct (low_zeros_spec p n r EL) as (Ev & Hne & _). destruct (Hne Hp) as [Hr _].
  assert (Hlast : last r 0%Z <> 0%Z).
  { clear - EL Hr Hl. revert n r EL Hr Hl. induction p as [|a q IH]; intros n r EL Hr Hl; simpl in EL; [congruence|].
    destruct (Z.eqb_spec a 0) as [Ea|Ea]; [|injection EL as _ <-; exact Hl].
    destruct (low_zeros q) as [m r'] eqn:E'. injection EL as _ <-.
    destruct q as [|b q]; [simpl in E'; congruence|]. apply (IH m r' eq_refl Hr). exact Hl. }
  rewrite Ev. apply Rmult_integral_contrapositive. split.
  - apply pow_nonzero. lra.
  - apply (root_bound_none flog0 r Hr Hlast E x Hx).
Qed.

Lemma few_low : forall p, p <> [] -> few_opposite p -> nonzero p /\ snd (low_zeros p) = p.
Proof.
  intros [|a q] Hp [Hnz _]; [congruence|]. assert (Ha : a <> 0%Z) by (apply Hnz; left; reflexivity). split.
  - intros H. inversion H; congruence.
  - simpl. destruct (Z.eqb_spec a 0); [congruence|reflexivity].
Qed.

Lemma isolate_few : forall flog0 f p, p <> [] -> few_opposite p -> few_opposite (flip p) ->
  match isolate flog0 f p with
  | VDone ex ints => isolates p reals ex ints
  | VFuel => True
  | VUndef | VAbort => False
  end.
Proof.
  intros flog0 f p Hp H1 H2. destruct (few_low p Hp H1) as [Hn El].
  apply isolate_correct; [exact Hn| |]; rewrite El; apply few_good; try assumption.
  intros E. apply Hp. apply length_zero_iff_nil. destruct (flip_spec p) as [HL _]. rewrite <- HL, E. reflexivity.
Qed.

Lemma upper_few : forall flog0 p, p <> [] -> few_opposite p -> few_opposite (flip p) ->
  exists n, num_real_roots_upper_bound flog0 p = CVal n /\ forall rs, divides_out rs p -> (length rs <= n)%nat.
Proof.
  intros flog0 p Hp H1 H2. destruct (few_low p Hp H1) as [Hn El].
  apply upper_bound_correct; [exact Hn| |]; rewrite El; apply few_good; try assumption.
  intros E. apply Hp. apply length_zero_iff_nil. destruct (flip_spec p) as [HL _]. rewrite <- HL, E. reflexivity.
Qed.
