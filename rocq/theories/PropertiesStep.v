(** Property C86: the steps of Newton and of bisection on objects in memory, of which the
    ball to refine may be the one that receives the result.  [m i] is the value of the
    object [i]; the objects that a step makes and clears are different from each other and
    from those it is given. *)
Require Import Reals List ZArith Bool Lia Lra.
From Verif Require Import PolyR RootSpec RootModel ExtraModel Dyadic ArbModel ArbSpec DyBall DyBallProofs FlSpec FlProofs StepModel StepProofs.
Import ListNotations.
Open Scope R_scope.

(** C86 does not hold in place: with the result in the place of the ball, a step of Newton
    on this input says 0 and leaves a ball without the root, in every arithmetic like
    FLINT's and at every precision ... *)
Theorem C86_newton_refuted : exists pol a x, simple_root pol x /\ inb x a /\
  forall o, arb_fl o -> forall prec tm ty i m, (2 <= prec)%Z -> m i = a ->
  exists m', newton_in o prec pol (zderiv pol) tm ty i i m = Val (m', false) /\ ~ inb x (m' i).
Proof. exact newton_in_place_lost. Qed.
Print Assumptions C86_newton_refuted.

(** ... and never says 1, whatever the arithmetic is. *)
Theorem C86_newton_never : forall o prec pol der tm ty i m m' b, newton_in o prec pol der tm ty i i m = Val (m', b) -> b = false.
Proof. exact newton_in_place. Qed.
Print Assumptions C86_newton_never.

(** With different objects the ball and all other objects stay as they are, and when the
    step says 1 the result is a different ball inside it with the same roots. *)
Theorem C86_newton_partial : forall o, arb_ok o -> forall prec pol tm ty res a m, (2 <= prec)%Z -> a <> res -> ~ In tm [ty; res; a] -> ~ In ty [res; a] ->
  exists m' b, newton_in o prec pol (zderiv pol) tm ty res a m = Val (m', b) /\ (forall j, ~ In j [res; tm; ty] -> m' j = m j) /\
  (b = true -> subset (m' res) (m a) /\ m' res <> m a /\ forall x, inb x (m a) -> zeval pol x = 0 -> inb x (m' res)).
Proof. exact newton_objects. Qed.
Print Assumptions C86_newton_partial.

(** It is the function of the value of the ball that C15 and C17 to C19 are about; without a
    value it says 0. *)
Theorem C86_newton_value : forall o prec pol der tm ty res a m, (2 <= prec)%Z -> a <> res -> ~ In tm [ty; res; a] -> ~ In ty [res; a] ->
  exists m' b t, newton_in o prec pol der tm ty res a m = Val (m', b) /\ newton_step o pol der (m a) prec = Val (b, t) /\
  (forall v, t = Some v -> m' res = v) /\ (t = None -> b = false) /\ forall j, ~ In j [res; tm; ty] -> m' j = m j.
Proof. exact newton_in_spec. Qed.
Print Assumptions C86_newton_value.

(** Bisection in place is the same as elsewhere: what it says and what it leaves only depend
    on the ball; when it says 0 the result is not touched, so that the ball is still there. *)
Theorem C86_bisection : forall o prec pol tb tc tr res a m, (2 <= prec)%Z ->
  ~ In tb [tc; tr; res; a] -> ~ In tc [tr; res; a] -> ~ In tr [res; a] ->
  exists m' b, bisection_in o prec pol tb tc tr res a m = Val (m', b) /\ (forall j, ~ In j [res; tb; tc; tr] -> m' j = m j) /\
  (b = false -> m' res = m res) /\
  forall tb' tc' tr' i j n, n i = m a -> ~ In tb' [tc'; tr'; j; i] -> ~ In tc' [tr'; j; i] -> ~ In tr' [j; i] ->
    exists n', bisection_in o prec pol tb' tc' tr' j i n = Val (n', b) /\ (b = true -> n' j = m' res).
Proof. exact bisection_objects. Qed.
Print Assumptions C86_bisection.

(** It is the function of the value that C16 to C19 are about. *)
Theorem C86_bisection_value : forall o prec pol tb tc tr res a m, (2 <= prec)%Z ->
  ~ In tb [tc; tr; res; a] -> ~ In tc [tr; res; a] -> ~ In tr [res; a] ->
  exists m' b t, bisection_in o prec pol tb tc tr res a m = Val (m', b) /\ bisection_step o pol (m a) prec = Val (b, t) /\
  (forall v, t = Some v -> b = true /\ m' res = v) /\ (t = None -> b = false /\ m' res = m res) /\ forall j, ~ In j [res; tb; tc; tr] -> m' j = m j.
Proof. exact bisection_in_spec. Qed.
Print Assumptions C86_bisection_value.

(** The root is kept in place too, if it is the only one between the ends. *)
Theorem C86_bisection_root : forall o, arb_ok o -> forall prec pol tb tc tr res a m m' x l r,
  ~ In tb [tc; tr; res; a] -> ~ In tc [tr; res; a] -> ~ In tr [res; a] ->
  bisection_in o prec pol tb tc tr res a m = Val (m', true) -> interval (m a) prec = Some (l, r) ->
  only_root pol (dyv l) (dyv r) x -> simple_root pol x -> inb x (m a) -> inb x (m' res).
Proof. exact bisection_root. Qed.
Print Assumptions C86_bisection_root.

(** The input of the refutation: with different objects the step says 1 and the radius
    becomes less than 1/256; in place it says 0 and the ball becomes 0. *)
Definition step_mem : nat -> ball := fun _ => step_ball.
Definition rad_below (b : ball) (d : dy) : bool := match b with Fin _ r => negb (dleb d r) | Top => false end.
Definition step_gives (r : out ((nat -> ball) * bool)) (b : bool) (f : (nat -> ball) -> bool) : bool :=
  match r with Val (m, c) => Bool.eqb c b && f m | _ => false end.
Example C86_newton_case :
  step_gives (newton_in dyops 64 step_pol (zderiv step_pol) 3 4 1 0 step_mem) true (fun m => rad_below (m 1%nat) (1, -8)%Z && bequal (m 0%nat) step_ball) = true /\
  step_gives (newton_in dyops 64 step_pol (zderiv step_pol) 3 4 0 0 step_mem) false (fun m => bequal (m 0%nat) bzero) = true.
Proof. split; vm_compute; reflexivity. Qed.

(** Bisection of the same ball, in place and elsewhere; and one that says 0, as 2 is a root
    of x^2 - 2x and an end. *)
Example C86_bisection_case :
  step_gives (bisection_in dyops 64 step_pol 3 4 5 0 0 step_mem) true (fun m => rad_below (m 0%nat) (3, -6)%Z) = true /\
  step_gives (bisection_in dyops 64 step_pol 3 4 5 1 0 step_mem) true (fun m => rad_below (m 1%nat) (3, -6)%Z && bequal (m 0%nat) step_ball) = true /\
  step_gives (bisection_in dyops 64 [0; -2; 1]%Z 3 4 5 0 0 (fun _ => Fin (3, 0)%Z (1, 0)%Z)) false (fun m => bequal (m 0%nat) (Fin (3, 0)%Z (1, 0)%Z)) = true.
Proof. split; [|split]; vm_compute; reflexivity. Qed.
