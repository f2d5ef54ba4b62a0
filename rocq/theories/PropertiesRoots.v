(** Properties C01 - C08.  Specifications: RootSpec.v; model: RootModel.v. *)
Require Import Reals List ZArith Lia Lra Sorting.
From Verif Require Import PolyR SignVar RootModel RootSpec BoundProofs IsoAll IsoProofs VcaProofs VcaTerm CountAll RootFacts BoundFactor IsoWithin CountWithin EmbWithin.
Import ListNotations.
Open Scope R_scope.

(** C01. [t] is the polynomial (1+y)^n p(1/(1+y)) and [var t] its number of
    sign changes. *)
Theorem C01_descartes_unit : forall p B, nonzero p -> (0 <= B)%Z ->
  exists t : list Z, length t = length p /\
    (forall y, -1 < y -> zeval t y = (1 + y) ^ (length p - 1) * zeval p (/ (1 + y))) /\
    ((Z.of_nat (var t) <= B)%Z -> descartes01 p B = DCount (var t)) /\
    ((B < Z.of_nat (var t))%Z -> descartes01 p B = DTooMany) /\
    (forall rs, (forall r, In r rs -> 0 < r < 1) -> divides_out rs p -> (length rs <= var t)%nat) /\
    (var t = 0%nat -> forall x, 0 < x < 1 -> zeval p x <> 0) /\
    (var t = 1%nat -> exists! x, 0 < x < 1 /\ zeval p x = 0).
Proof. exact descartes_unit. Qed.
Print Assumptions C01_descartes_unit.

Example C01_case : nonzero [1; -6; 8]%Z /\ descartes01 [1; -6; 8]%Z 2 = DCount 2 /\
  descartes01 [1; -6; 8]%Z 1 = DTooMany /\ divides_out [1/2; 1/4] [1; -6; 8]%Z.
Proof.
  split; [intros H; inversion H; discriminate|]. split; [reflexivity|]. split; [reflexivity|].
  exists [8]. intros x. unfold zeval; simpl. lra.
Qed.

(** C02. *)
Theorem C02_isolation_unit : forall fuel p, nonzero p ->
  match vca fuel p [] [] with
  | VDone ex ints => isolates p unit_co ex ints
  | VFuel => True
  | VUndef | VAbort => False
  end.
Proof. exact vca_correct. Qed.
Print Assumptions C02_isolation_unit.

Example C02_case : nonzero [1; -8; 8]%Z /\ vca 20 [1; -8; 8]%Z [] [] = VDone [] [(0, -1); (1, -1)]%Z.
Proof. split; [intros H; inversion H; discriminate|reflexivity]. Qed.

(** C03. *)
Theorem C03_isolation_unit_terminates : forall p, nonzero p -> simple_roots p unit_cc ->
  exists f0, forall fuel, (f0 <= fuel)%nat -> exists ex ints, vca fuel p [] [] = VDone ex ints.
Proof. exact vca_terminates. Qed.
Print Assumptions C03_isolation_unit_terminates.

Example C03_case : nonzero [1; -8; 8]%Z /\ simple_roots [1; -8; 8]%Z unit_cc.
Proof.
  split; [intros H; inversion H; discriminate|].
  intros x _. unfold zeval; simpl. intros H0 H1. nra.
Qed.

(** C04. *)
Theorem C04_count_unit : forall p, nonzero p -> simple_roots p unit_cc ->
  exists f0 l, root_list p unit_co l /\
    forall fuel, (f0 <= fuel)%nat -> num_real_roots_0_1 fuel p = Some (length l).
Proof. exact count_unit_correct. Qed.
Print Assumptions C04_count_unit.

Example C04_case : nonzero [0; 1; -8; 8]%Z /\ simple_roots [0; 1; -8; 8]%Z unit_cc /\
  num_real_roots_0_1 20 [0; 1; -8; 8]%Z = Some 3%nat.
Proof.
  split; [intros H; inversion H; inversion H3; discriminate|]. split; [|reflexivity].
  intros x _. unfold zeval; simpl. intros H0 H1.
  assert (E : 32 * (x * (3 - 4 * x)) = 11) by nra. nra.
Qed.

(** C05: false as stated. *)
Theorem C05_root_bound_refuted : exists p x, nonzero p /\ 0 < x /\ zeval p x = 0 /\
  forall flog0, exists k, positive_root_upper_bound flog0 p = Some k /\ pw2 k < x.
Proof. exact bound_refuted. Qed.
Print Assumptions C05_root_bound_refuted.

(** The answer WORD_MIN is always right. *)
Theorem C05_no_positive_root_partial : forall flog0 p, nonzero p -> last p 0%Z <> 0%Z ->
  positive_root_upper_bound flog0 p = None -> forall x, 0 < x -> zeval p x <> 0.
Proof. exact bound_none. Qed.
Print Assumptions C05_no_positive_root_partial.

Example C05_case_none : nonzero [0; 2; 0; 3]%Z /\ positive_root_upper_bound 0 [0; 2; 0; 3]%Z = None.
Proof. split; [intros H; inversion H; inversion H3; discriminate|reflexivity]. Qed.

(** Missing for the full statement: polynomials with zero coefficients or with
    more than three coefficients of the sign opposite to the leading one. *)
Theorem C05_root_bound_partial : forall flog0 p, p <> [] -> (forall a, In a p -> a <> 0%Z) ->
  (length (opposite p) <= 3)%nat ->
  match positive_root_upper_bound flog0 p with
  | None => forall x, 0 < x -> zeval p x <> 0
  | Some k => forall x, 0 < x -> zeval p x = 0 -> x <= pw2 k
  end.
Proof. exact bound_partial. Qed.
Print Assumptions C05_root_bound_partial.

Example C05_case : (forall a, In a [-7; 3; -1; -5; 2]%Z -> a <> 0%Z) /\
  length (opposite [-7; 3; -1; -5; 2]%Z) = 3%nat /\ positive_root_upper_bound 0 [-7; 3; -1; -5; 2]%Z = Some 3%Z.
Proof. split; [simpl; intuition lia|]. split; reflexivity. Qed.

(** The search for a smaller bound goes on when it meets the current maximum;
    breaking off there would give 1. *)
Example C05_case_tie : (forall a, In a [8; -9; -1; -1; -3; 5]%Z -> a <> 0%Z) /\ positive_root_upper_bound 0 [8; -9; -1; -1; -3; 5]%Z = Some 2%Z.
Proof. split; [|vm_compute; reflexivity]. intros a H. cbn in H. intuition lia. Qed.

(** Of two coefficients with the same least bound the first is the one whose counter
    is raised; raising that of the last would give 2. *)
Example C05_case_first : (forall a, In a [-4; -1; -1; 2]%Z -> a <> 0%Z) /\ positive_root_upper_bound 0 [-4; -1; -1; 2]%Z = Some 1%Z.
Proof. split; [|vm_compute; reflexivity]. intros a H. cbn in H. intuition lia. Qed.

(** Where the bound is wrong, it is wrong by less than a factor of two. *)
Theorem C05_factor_two_partial : forall flog0 p k x, p <> [] -> (forall a, In a p -> a <> 0%Z) ->
  positive_root_upper_bound flog0 p = Some k -> 0 < x -> zeval p x = 0 -> x < 2 * pw2 k.
Proof. exact bound_two. Qed.
Print Assumptions C05_factor_two_partial.

(** Here the root is above 2 = 2^1. *)
Example C05_case_factor : (forall a, In a [-2; -2; -1; -1; 1]%Z -> a <> 0%Z) /\
  positive_root_upper_bound 0 [-2; -2; -1; -1; 1]%Z = Some 1%Z /\ exists x, 2 < x < 3 /\ zeval [-2; -2; -1; -1; 1]%Z x = 0.
Proof. split; [simpl; intuition lia|]. split; [reflexivity|exact pbad_root]. Qed.

(** With zero coefficients, for which fmpz_flog_ui answers [flog0], by less than
    a factor of 5/2. *)
Theorem C05_factor_zeros_partial : forall flog0 p k x, (flog0 <= 0)%Z -> nonzero p -> last p 0%Z <> 0%Z ->
  positive_root_upper_bound flog0 p = Some k -> 0 < x -> zeval p x = 0 -> x < 5 / 2 * pw2 k.
Proof. exact bound_zeros. Qed.
Print Assumptions C05_factor_zeros_partial.

Example C05_case_zeros : nonzero [0; -9; 0; 1]%Z /\ last [0; -9; 0; 1]%Z 0%Z <> 0%Z /\
  positive_root_upper_bound 0 [0; -9; 0; 1]%Z = Some 3%Z /\ zeval [0; -9; 0; 1]%Z 3 = 0.
Proof.
  split; [intros H; inversion H; inversion H3; discriminate|]. split; [discriminate|]. split; [reflexivity|].
  unfold zeval. cbn. ring.
Qed.

(** C06: false as stated. *)
Theorem C06_isolation_refuted : exists p, nonzero p /\ forall flog0, exists fuel ex ints,
  isolate flog0 fuel p = VDone ex ints /\ ~ isolates p reals ex ints.
Proof. exact isolate_refuted. Qed.
Print Assumptions C06_isolation_refuted.

(** Right whenever the root bounds computed for the positive and the negative
    side are strict bounds ([good_bound]). *)
Theorem C06_isolation_partial : forall flog0 fuel p, nonzero p ->
  good_bound flog0 (snd (low_zeros p)) -> good_bound flog0 (flip (snd (low_zeros p))) ->
  match isolate flog0 fuel p with
  | VDone ex ints => isolates p reals ex ints
  | VFuel => True
  | VUndef | VAbort => False
  end.
Proof. exact isolate_correct. Qed.
Print Assumptions C06_isolation_partial.

(** A class of polynomials described by coefficients only. *)
Theorem C06_isolation_few_partial : forall flog0 fuel p, p <> [] -> few_opposite p -> few_opposite (flip p) ->
  match isolate flog0 fuel p with
  | VDone ex ints => isolates p reals ex ints
  | VFuel => True
  | VUndef | VAbort => False
  end.
Proof. exact isolate_few. Qed.
Print Assumptions C06_isolation_few_partial.

Example C06_case : few_opposite [-1; -3; 1]%Z /\ few_opposite (flip [-1; -3; 1]%Z) /\
  isolate 0 20 [-1; -3; 1]%Z = VDone [] [(-1, 0); (0, 3)]%Z.
Proof. split; [split; simpl; [intuition lia|lia]|]. split; [split; simpl; [intuition lia|lia]|]. reflexivity. Qed.

(** For every polynomial: the roots between the two computed bounds are isolated,
    also when a bound is wrong.  In full these are all the real roots. *)
Theorem C06_within_partial : forall flog0 fuel p, nonzero p ->
  match isolate flog0 fuel p with
  | VDone ex ints => isolates p (in_bounds flog0 p) ex ints
  | VFuel => True
  | VUndef | VAbort => False
  end.
Proof. exact isolate_within. Qed.
Print Assumptions C06_within_partial.

(** A root that is missed is less than 5/2 times as far as the bound of its side. *)
Theorem C06_missed_partial : forall flog0 p x, (flog0 <= 0)%Z -> nonzero p -> last p 0%Z <> 0%Z -> zeval p x = 0 -> ~ in_bounds flog0 p x ->
  exists k, pw2 k <= Rabs x < 5 / 2 * pw2 k /\
    ((0 < x /\ root_bound flog0 (snd (low_zeros p)) = Some k) \/ (x < 0 /\ root_bound flog0 (flip (snd (low_zeros p))) = Some k)).
Proof. exact missed_roots. Qed.
Print Assumptions C06_missed_partial.

(** One root is found, the other one missed. *)
Example C06_case_within : nonzero [-2; -2; -1; -1; 1]%Z /\ isolate 0 100 [-2; -2; -1; -1; 1]%Z = VDone [] [(-1, 1)%Z] /\
  exists x, zeval [-2; -2; -1; -1; 1]%Z x = 0 /\ ~ in_bounds 0 [-2; -2; -1; -1; 1]%Z x.
Proof.
  split; [exact pbad_nonzero|]. split; [vm_compute; reflexivity|]. destruct pbad_root as (x & Hx & H0).
  exists x. split; [exact H0|]. intros [H _]. specialize (H ltac:(lra)).
  change (root_bound 0 (snd (low_zeros [-2; -2; -1; -1; 1]%Z))) with (Some 1%Z) in H. cbn [below] in H.
  change (pw2 1) with (2 ^ 1) in H. lra.
Qed.

(** The isolation always ends when all the real roots are simple. *)
Theorem C06_isolation_terminates : forall flog0 p, nonzero p -> simple_roots p reals ->
  exists f0, forall fuel, (f0 <= fuel)%nat -> exists ex ints, isolate flog0 fuel p = VDone ex ints.
Proof. exact isolate_terminates. Qed.
Print Assumptions C06_isolation_terminates.

(** C07: false as stated. *)
Theorem C07_upper_bound_refuted : exists p rs, nonzero p /\ NoDup rs /\ (forall r, In r rs -> zeval p r = 0) /\
  forall flog0, exists n, num_real_roots_upper_bound flog0 p = CVal n /\ (n < length rs)%nat.
Proof. exact upper_bound_refuted. Qed.
Print Assumptions C07_upper_bound_refuted.

Theorem C07_upper_bound_partial : forall flog0 p, nonzero p ->
  good_bound flog0 (snd (low_zeros p)) -> good_bound flog0 (flip (snd (low_zeros p))) ->
  exists n, num_real_roots_upper_bound flog0 p = CVal n /\
    forall rs, divides_out rs p -> (length rs <= n)%nat.
Proof. exact upper_bound_correct. Qed.
Print Assumptions C07_upper_bound_partial.

(** For every polynomial the roots between the computed bounds are counted. *)
Theorem C07_within_partial : forall flog0 p, nonzero p ->
  exists n, num_real_roots_upper_bound flog0 p = CVal n /\
    forall rs, divides_out rs p -> (forall r, In r rs -> in_bounds flog0 p r) -> (length rs <= n)%nat.
Proof. exact upper_bound_within. Qed.
Print Assumptions C07_within_partial.

Example C07_case_within : nonzero [-2; -2; -1; -1; 1]%Z /\ num_real_roots_upper_bound 0 [-2; -2; -1; -1; 1]%Z = CVal 1 /\
  exists r, divides_out [r] [-2; -2; -1; -1; 1]%Z /\ in_bounds 0 [-2; -2; -1; -1; 1]%Z r.
Proof.
  split; [exact pbad_nonzero|]. split; [vm_compute; reflexivity|]. destruct pbad_neg_root as (x & Hx & H0).
  exists x. split.
  - exists (pquot x (map IZR [-2; -2; -1; -1; 1]%Z)). intros y. cbn [linprod]. rewrite Rmult_1_r.
    rewrite <- (peval_plin x (pquot x (map IZR [-2; -2; -1; -1; 1]%Z)) y), factor_list; [reflexivity|cbn; lia|exact H0].
  - split; intros H; [lra|].
    change (root_bound 0 (flip (snd (low_zeros [-2; -2; -1; -1; 1]%Z)))) with (Some 1%Z). cbn [below].
    change (pw2 1) with (2 ^ 1). lra.
Qed.

Theorem C07_upper_bound_few_partial : forall flog0 p, p <> [] -> few_opposite p -> few_opposite (flip p) ->
  exists n, num_real_roots_upper_bound flog0 p = CVal n /\
    forall rs, divides_out rs p -> (length rs <= n)%nat.
Proof. exact upper_few. Qed.
Print Assumptions C07_upper_bound_few_partial.

Example C07_case : few_opposite [1; -2; 1]%Z /\ few_opposite (flip [1; -2; 1]%Z) /\
  num_real_roots_upper_bound 0 [1; -2; 1]%Z = CVal 2 /\ divides_out [1; 1] [1; -2; 1]%Z.
Proof.
  split; [split; simpl; [intuition lia|lia]|]. split; [split; simpl; [intuition lia|lia]|]. split; [reflexivity|].
  exists [1]. intros x. unfold zeval; simpl. lra.
Qed.

(** C08, the slots. *)
Theorem C08_slots : forall flog0 fuel p ex ints, nonzero p ->
  isolate flog0 fuel p = VDone ex ints ->
  exists n, num_real_roots_upper_bound flog0 p = CVal n /\ (length ex + length ints <= n)%nat.
Proof. exact slots_sufficient. Qed.
Print Assumptions C08_slots.

Example C08_case : isolate 0 50 [1; 0; -10; 0; 1]%Z = VDone [] [(-2, 1); (-1, 1); (0, 1); (1, 1)]%Z.
Proof. vm_compute. reflexivity. Qed.
