(** Properties C13-C19 and C49: ball arithmetic on polynomials and fields.
    [arb_ok o] is the enclosure contract of FLINT's ball operations (ArbSpec.v);
    [dyops] is a concrete implementation satisfying it. *)
Require Import Reals List ZArith Bool Lia Lra.
From Verif Require Import PolyR RootSpec RootModel ExtraModel VcaProofs Dyadic DyadicProofs ArbModel ArbSpec ArbProofs
  FieldProofs RefineProofs DyBall DyBallProofs ArbRefute LinearCheck.
Import ListNotations.
Open Scope R_scope.

(** The contracts can be met. *)
Example contracts_met : arb_ok dyops /\ arb_conv dyops.
Proof. split; [exact dyops_ok|exact dyops_conv]. Qed.

(** C13. *)
Theorem C13_evaluate : forall o, arb_ok o -> forall p a x prec, (2 <= prec)%Z -> inb x a ->
  inb (zeval p x) (eval_arb o p a prec).
Proof. exact eval_arb_ok. Qed.
Print Assumptions C13_evaluate.

Theorem C13_evaluate_rational : forall o, arb_ok o -> forall p d a x prec, (2 <= prec)%Z -> inb x a -> d <> 0%Z ->
  inb (zeval p x / IZR d) (eval_arb_q o p d a prec).
Proof. exact eval_arb_q_ok. Qed.
Print Assumptions C13_evaluate_rational.

Example C13_case : inb 1.25 (Fin (1, 0) (1, -2))%Z /\
  eval_arb dyops [-2; 0; 1]%Z (Fin (1, 0) (1, -2))%Z 10 = Fin (-1, 0)%Z (36, -6)%Z.
Proof.
  split; [|vm_compute; reflexivity]. apply inb_bounds. rewrite dyv_int.
  change (-2)%Z with (- (2))%Z. rewrite (dyv_neg_exp _ 2) by lia. change (2 ^ 2)%Z with 4%Z. lra.
Qed.

(** C14: false as stated when the leading coefficient is negative, because its
    absolute value is rounded down; right up to a factor two. *)
Theorem C14_condition_refuted : exists p b prec x, (2 <= prec)%Z /\ p <> [] /\ is_finite b = true /\ inb x b /\
  pw2 (cond_2exp p b prec) <= abs_sum p x.
Proof. exact cond_2exp_refuted. Qed.
Print Assumptions C14_condition_refuted.

Theorem C14_condition_partial : forall p b prec x, (2 <= prec)%Z -> p <> [] -> is_finite b = true -> inb x b ->
  (0 < last p 0 \/ zbits (last p 0) <= prec)%Z -> abs_sum p x < pw2 (cond_2exp p b prec).
Proof. exact cond_2exp_strong. Qed.
Print Assumptions C14_condition_partial.

Theorem C14_condition_factor_partial : forall p b prec x, (2 <= prec)%Z -> p <> [] -> is_finite b = true -> inb x b ->
  abs_sum p x < pw2 (cond_2exp p b prec + 1).
Proof. exact cond_2exp_weak. Qed.
Print Assumptions C14_condition_factor_partial.

Example C14_case : inb 0.3 jump_ball /\ cond_2exp jump_pol jump_ball 64 = 4%Z.
Proof. split; [apply jump_in; lra|vm_compute; reflexivity]. Qed.

(** C15. *)
Theorem C15_newton_keeps : forall o, arb_ok o -> forall pol a x prec b t,
  newton_step o pol (zderiv pol) a prec = Val (b, Some t) ->
  inb x a -> zeval pol x = 0 -> inb x t.
Proof. exact newton_encloses. Qed.
Print Assumptions C15_newton_keeps.

Theorem C15_newton_shrinks : forall o pol der a prec t,
  newton_step o pol der a prec = Val (true, Some t) -> subset t a /\ t <> a.
Proof. exact newton_success. Qed.
Print Assumptions C15_newton_shrinks.

Example C15_case : exists t, newton_step dyops [-2; 0; 1]%Z (zderiv [-2; 0; 1]%Z) (Fin (3, -1) (1, -2))%Z 20 = Val (true, Some t) /\
  inb (sqrt 2) (Fin (3, -1) (1, -2))%Z /\ zeval [-2; 0; 1]%Z (sqrt 2) = 0.
Proof.
  eexists. split; [vm_compute; reflexivity|].
  assert (S1 : 1 < sqrt 2) by (rewrite <- sqrt_1 at 1; apply sqrt_lt_1; lra).
  assert (S2 : sqrt 2 * sqrt 2 = 2) by (apply sqrt_sqrt; lra).
  split; [|rewrite zeval2; lra].
  apply inb_bounds. change (-2)%Z with (- (2))%Z. change (-1)%Z with (- (1))%Z.
  rewrite (dyv_neg_exp _ 2), (dyv_neg_exp _ 1) by lia. change (2 ^ 2)%Z with 4%Z. change (2 ^ 1)%Z with 2%Z.
  assert (sqrt 2 < 1.5) by nra. assert (1.25 < sqrt 2) by nra. lra.
Qed.

(** C16: false as stated.  The endpoints of the ball are rounded outwards first
    and may pass another root; the step then keeps that one.  Right when the
    rounded interval isolates the root. *)
Theorem C16_bisection_refuted : exists pol a x prec t, unique_root pol a /\ simple_root pol x /\ inb x a /\
  bisection_step dyops pol a prec = Val (true, Some t) /\ ~ inb x t.
Proof. exact bisection_refuted. Qed.
Print Assumptions C16_bisection_refuted.

Theorem C16_bisection_partial : forall o, arb_ok o -> forall pol a x prec l r t,
  bisection_step o pol a prec = Val (true, Some t) ->
  interval a prec = Some (l, r) -> only_root pol (dyv l) (dyv r) x -> simple_root pol x ->
  inb x a -> inb x t.
Proof. exact bisection_encloses. Qed.
Print Assumptions C16_bisection_partial.

Example C16_case : exists t l r, bisection_step dyops [-2; 0; 1]%Z (Fin (3, -1) (1, -1))%Z 20 = Val (true, Some t) /\
  interval (Fin (3, -1) (1, -1))%Z 20 = Some (l, r) /\ dyv l = 1 /\ dyv r = 2 /\
  only_root [-2; 0; 1]%Z 1 2 (sqrt 2) /\ simple_root [-2; 0; 1]%Z (sqrt 2).
Proof.
  assert (S1 : 1 < sqrt 2) by (rewrite <- sqrt_1 at 1; apply sqrt_lt_1; lra).
  assert (S2 : sqrt 2 * sqrt 2 = 2) by (apply sqrt_sqrt; lra).
  do 3 eexists. split; [vm_compute; reflexivity|]. split; [vm_compute; reflexivity|].
  split; [|split; [|split; [split|split]]].
  - unfold dyv, pw2. simpl. lra.
  - unfold dyv, pw2. simpl. lra.
  - rewrite zeval2. lra.
  - intros y Hy Zy. rewrite zeval2 in Zy. assert (E : (y - sqrt 2) * (y + sqrt 2) = 0) by lra.
    apply Rmult_integral in E. destruct E; lra.
  - rewrite zeval2. lra.
  - simpl. lra.
Qed.

(** C17: false as stated, already at the default precision: the test looks at
    the ball rounded outwards.  Right for the rounded interval. *)
Theorem C17_check_refuted : exists pol a nf, check_unique dyops 100 pol a 64 = Val true /\
  renf_init dyops true 100 pol 1 a 64 = Val nf /\ f_emb nf = a /\
  forall x, inb x a -> zeval pol x <> 0.
Proof. exact check_refuted. Qed.
Print Assumptions C17_check_refuted.

Theorem C17_check_partial : forall o, arb_ok o -> forall fuel pol a prec,
  last pol 0%Z <> 0%Z -> check_unique o fuel pol a prec = Val true -> (exists x, inb x a) ->
  (forall l r, interval a prec = Some (l, r) -> inb (dyv l) a /\ inb (dyv r) a) ->
  is_finite a = true -> unique_root pol a.
Proof. exact check_unique_exact. Qed.
Print Assumptions C17_check_partial.

Theorem C17_check_rounded_partial : forall o, arb_ok o -> forall fuel pol a prec l r,
  last pol 0%Z <> 0%Z -> (3 <= length pol)%nat ->
  check_unique o fuel pol a prec = Val true -> interval a prec = Some (l, r) ->
  (exists x, inb x a) ->
  (exists x, dyv l < x < dyv r /\ zeval pol x = 0) /\
  (forall x y, inb x a -> inb y a -> zeval pol x = 0 -> zeval pol y = 0 -> x = y).
Proof. exact check_unique_accepts. Qed.
Print Assumptions C17_check_rounded_partial.

(** Degree 1: the check is exact, whatever the ball. *)
Theorem C17_check_linear_partial : forall o fuel c0 c1 a prec, c1 <> 0%Z -> exists b,
  check_unique o fuel [c0; c1] a prec = Val b /\ (b = true <-> unique_root [c0; c1] a).
Proof. exact check_unique_linear_iff. Qed.
Print Assumptions C17_check_linear_partial.

Example C17_case : check_unique dyops 10 [-2; 0; 1]%Z (Fin (3, -1) (1, -1))%Z 64 = Val true /\
  (exists l r, interval (Fin (3, -1) (1, -1))%Z 64 = Some (l, r) /\ dyv l = 1 /\ dyv r = 2) /\
  check_unique dyops 10 [-3; 2]%Z (Fin (1, 0) (1, -1))%Z 64 = Val true.
Proof.
  split; [vm_compute; reflexivity|]. split; [|vm_compute; reflexivity].
  do 2 eexists. split; [vm_compute; reflexivity|]. split; unfold dyv, pw2; simpl; lra.
Qed.

(** C18: false as stated, because of C16; the field made for the root 0.312...
    of 41x^2-16x+1 from a ball containing no other root becomes the field of the
    root 0.078...  Right when the refinement stays in a family of balls whose
    outward rounding isolates the root, in particular when the polynomial has
    only one real root. *)
Theorem C18_refine_refuted : exists pol a x nf, unique_root pol a /\ simple_root pol x /\ inb x a /\
  check_unique dyops 100 pol a 64 = Val true /\
  renf_init dyops true 100 pol 1 a 64 = Val nf /\ ~ inb x (f_emb nf) /\
  exists y, zeval pol y = 0 /\ inb y (f_emb nf).
Proof. exact init_refuted. Qed.
Print Assumptions C18_refine_refuted.

Theorem C18_refine_partial : forall o, arb_ok o -> forall pol x N, safe_balls o pol x N -> simple_root pol x ->
  forall debug fuel precs nf nf', f_pol nf = pol -> inb x (f_emb nf) -> N (f_emb nf) ->
  refines o debug fuel nf precs = Val nf' ->
  inb x (f_emb nf') /\ (is_finite (f_emb nf') = true -> forall y, inb y (f_emb nf') -> zeval pol y = 0 -> y = x) /\
  same_field nf nf' /\ f_imm nf' = f_imm nf /\
  (forall ps p, precs = ps ++ [p] -> (p <= rel_accuracy (f_emb nf'))%Z).
Proof. exact refines_isolates. Qed.
Print Assumptions C18_refine_partial.

Theorem C18_single_root_partial : forall o pol x, zeval pol x = 0 -> (forall y, zeval pol y = 0 -> y = x) ->
  safe_balls o pol x (fun _ => True).
Proof. exact single_root_safe. Qed.
Print Assumptions C18_single_root_partial.

Definition cube_field : renf :=
  {| f_pol := [-2; 0; 0; 1]; f_den := 1; f_emb := Fin (5, -2) (1, -2); f_prec := 64; f_imm := 0 |}%Z.
Example C18_case : exists nf, refines dyops true 100 cube_field [20; 64]%Z = Val nf.
Proof. eexists. vm_compute. reflexivity. Qed.

(** C19: false as stated, already for two fields fresh from their constructor;
    the balls of the roots 2^66 - sqrt 2 and 2^66 + sqrt 2 touch.  Equal roots
    are recognised, and fields are kept apart once the roots are further apart
    than the balls are wide. *)
Theorem C19_equal_refuted : exists pol a1 a2 nf1 nf2 x y,
  renf_init dyops true 300 pol 1 a1 64 = Val nf1 /\ renf_init dyops true 300 pol 1 a2 64 = Val nf2 /\
  inb x (f_emb nf1) /\ zeval pol x = 0 /\ (forall z, inb z (f_emb nf1) -> zeval pol z = 0 -> z = x) /\
  inb y (f_emb nf2) /\ zeval pol y = 0 /\ (forall z, inb z (f_emb nf2) -> zeval pol z = 0 -> z = y) /\
  renf_equal nf1 nf2 = true /\ x <> y.
Proof. exact equal_refuted. Qed.
Print Assumptions C19_equal_refuted.

Theorem C19_equal_same : forall nf1 nf2 x, f_pol nf1 = f_pol nf2 -> f_den nf1 = f_den nf2 ->
  inb x (f_emb nf1) -> inb x (f_emb nf2) -> renf_equal nf1 nf2 = true.
Proof. exact renf_equal_same. Qed.
Print Assumptions C19_equal_same.

Theorem C19_equal_partial : forall nf1 nf2 x y, renf_equal nf1 nf2 = true ->
  is_finite (f_emb nf1) = true -> is_finite (f_emb nf2) = true ->
  inb x (f_emb nf1) -> inb y (f_emb nf2) ->
  f_pol nf1 = f_pol nf2 /\ f_den nf1 = f_den nf2 /\
  Rabs (x - y) <= 2 * (ball_rad (f_emb nf1) + ball_rad (f_emb nf2)).
Proof. exact renf_equal_close. Qed.
Print Assumptions C19_equal_partial.

Example C19_case : exists nf, refines dyops true 100 cube_field [20; 64]%Z = Val nf /\
  renf_equal nf cube_field = true.
Proof. eexists. split; vm_compute; reflexivity. Qed.

(** C49: false as stated; a ball centred at 0 has the accuracy -WORD_MAX, whose
    absolute value is doubled in a signed word. *)
Theorem C49_no_overflow_refuted : exists pol a, unique_root pol a /\ check_unique dyops 100 pol a 64 = Val true /\
  forall o debug fuel, check_unique o fuel pol a 64 = Val true -> renf_init o debug fuel pol 1 a 64 = Undef.
Proof. exact init_overflow. Qed.
Print Assumptions C49_no_overflow_refuted.

Theorem C49_no_overflow_partial : forall nf m r c, f_emb nf = Fin m r -> fst m <> 0%Z -> fst r <> 0%Z ->
  (Z.abs (dexp r + 1 - dexp m) < 2 ^ 62)%Z -> exists cp, comp_prec nf c = Val cp.
Proof. exact comp_prec_defined. Qed.
Print Assumptions C49_no_overflow_partial.

Example C49_case : f_emb cube_field = Fin (5, -2)%Z (1, -2)%Z /\ comp_prec cube_field 64 = Val 14%Z.
Proof. split; vm_compute; reflexivity. Qed.
