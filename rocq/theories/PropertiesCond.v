(** Property C80 and the other half of C14.  Models: ArbModel.v, ElemModel.v. *)
Require Import Reals List ZArith Lia Lra.
From Verif Require Import PolyR RootSpec Dyadic ArbModel ArbSpec ElemModel ElemSpec DyRate CondTight CondLoss.
Import ListNotations.
Open Scope R_scope.

(** C14: the number is the smallest possible up to rounding, unless the sum
    vanishes on the whole ball. *)
Theorem C14_condition_tight : forall prec, (2 <= prec)%Z -> forall p b, is_finite b = true -> (exists x, inb x b /\ 0 < abs_sum p x) ->
  exists x, inb x b /\ pw2 (cond_2exp p b prec - 1) <= (1 + pw2 (1 - prec)) ^ (3 * length p) * abs_sum p x.
Proof. exact cond_2exp_tight. Qed.
Print Assumptions C14_condition_tight.

Example C14_tight_case : inb 1 (Fin (9, -3) (1, -3))%Z /\ abs_sum [3; 0; -2]%Z 1 = 5 /\ cond_2exp [3; 0; -2]%Z (Fin (9, -3) (1, -3))%Z 64 = 3%Z.
Proof.
  split; [|split; [|reflexivity]].
  - unfold inb, dyv. cbn [fst snd]. rewrite pw2_m3. unfold Rabs. destruct (Rcase_abs _); lra.
  - unfold abs_sum, zeval. rewrite Rabs_R1. cbn. lra.
Qed.

(** C80: false as documented.  The number computed ignores the size of the value,
    so with cancellation any number of further bits is lost, whatever precision
    is used for the evaluation and whatever enclosing ball arithmetic. *)
Theorem C80_lost_bits_refuted : forall o, arb_ok o -> forall K, (0 <= K)%Z -> exists nf a x, minimal (f_pol nf) x /\ inb x (f_emb nf) /\ canon (f_pol nf) a /\
  (forall prec, (2 <= prec)%Z -> exists b, set_evaluation o nf a prec = Val b /\ inb (ev x a) b /\
    elem_cond nf a + K <= rel_accuracy (f_emb nf) - rel_accuracy b)%Z.
Proof. exact loss_refuted. Qed.
Print Assumptions C80_lost_bits_refuted.

(** What the number does bound: if the generator is known up to a relative error
    2^-p, the numerator of the element is known up to the absolute error 2^(c+1-p)
    times the degree. *)
Theorem C80_lost_bits_absolute_partial : forall nf a x y p, canon (f_pol nf) a -> is_finite (f_emb nf) = true -> inb x (f_emb nf) -> inb y (f_emb nf) ->
  Rabs (y - x) <= Rmax (Rabs x) (Rabs y) * pw2 (- p) ->
  Rabs (ev y a - ev x a) <= INR (length (e_num a) - 1) * pw2 (elem_cond nf a + 1 - p) / IZR (e_den a).
Proof. exact loss_absolute. Qed.
Print Assumptions C80_lost_bits_absolute_partial.

(** The error is relative to the value if the numerator is at least one. *)
Theorem C80_lost_bits_large_partial : forall nf a x y p, canon (f_pol nf) a -> is_finite (f_emb nf) = true -> inb x (f_emb nf) -> inb y (f_emb nf) ->
  Rabs (y - x) <= Rmax (Rabs x) (Rabs y) * pw2 (- p) -> 1 <= IZR (e_den a) * Rabs (ev x a) ->
  Rabs (ev y a - ev x a) <= INR (length (e_num a) - 1) * pw2 (elem_cond nf a + 1 - p) * Rabs (ev x a).
Proof. exact loss_relative. Qed.
Print Assumptions C80_lost_bits_large_partial.

(** (3+x)/2 for x between 1 and 5/4: three bits, and the values 2 and 17/8. *)
Example C80_case : let nf := {| f_pol := [-5; 0; 4]%Z; f_den := 1; f_emb := Fin (9, -3)%Z (1, -3)%Z; f_prec := 64; f_imm := 0 |} in
  let a := {| e_num := [3; 1]%Z; e_den := 2 |} in
  canon (f_pol nf) a /\ elem_cond nf a = 3%Z /\ inb 1 (f_emb nf) /\ inb (5 / 4) (f_emb nf) /\
  Rabs (5 / 4 - 1) <= Rmax (Rabs 1) (Rabs (5 / 4)) * pw2 (- 2) /\ 1 <= IZR (e_den a) * Rabs (ev 1 a) /\ ev 1 a = 2 /\ ev (5 / 4) a = 17 / 8.
Proof.
  cbv zeta. assert (E1 : ev 1 {| e_num := [3; 1]%Z; e_den := 2 |} = 2) by (unfold ev, zeval; cbn; lra).
  split.
  { split; cbn; [lia|discriminate|lia|]. intros g G _ H. apply Z.divide_1_r_nonneg; [lia|]. apply H. right. left. reflexivity. }
  split; [reflexivity|].
  assert (P : pw2 (-3) = 1 / 8) by exact pw2_m3.
  split; [|split].
  1,2: unfold inb, dyv; cbn [f_emb fst snd]; rewrite P; unfold Rabs; destruct (Rcase_abs _); lra.
  split.
  { rewrite !Rabs_pos_eq by lra. rewrite Rmax_right by lra. change (- (2))%Z with (-2)%Z. rewrite pw2_m2. lra. }
  split; [rewrite E1; cbn [e_den]; rewrite Rabs_pos_eq; lra|]. split; [exact E1|]. unfold ev, zeval. cbn. lra.
Qed.
