(** Property C81: setting an element refines it to the precision asked for. *)
Require Import Reals List ZArith Lra Lia.
From Verif Require Import PolyR RootSpec RootModel ExtraModel Dyadic VcaProofs ArbModel ArbSpec DyBall DyBallProofs FieldProofs ElemModel ElemSpec ElemProofs NfArith FlSpec FlProofs SetAcc SetExplicit FineSpec.
Import ListNotations.
Open Scope R_scope.

(** However large the precision, with a field that is created as it is. *)
Theorem C81_refined_refuted : exists pol a x e, minimal pol x /\ inb x a /\ (forall y, inb y a -> zeval pol y = 0 -> y = x) /\ canon pol e /\
  forall o, arb_ok o -> arb_fl o -> forall debug fuel, exists nf, renf_init o debug (S fuel) pol 1 a 64 = Val nf /\
  forall n m i prec, (2 <= prec)%Z -> exists m', run o n debug fuel nf m (KSetNf i e prec) = Val (nf, m') /\ (rel_accuracy (r_emb (m' i)) <= 68)%Z.
Proof. exact set_nf_poor. Qed.
Print Assumptions C81_refined_refuted.

(** With a field that is sharp enough for the element. *)
Theorem C81_refined_partial : forall o pol x, arb_ok o -> arb_conv o -> minimal pol x -> forall e, canon pol e -> ev x e <> 0 ->
  forall acc, (0 <= acc)%Z -> (acc + 2 < WORD_MAX)%Z -> exists P, forall n debug fuel nf m i prec, f_pol nf = pol -> inb x (f_emb nf) ->
  (2 <= f_prec nf)%Z -> (P <= rel_accuracy (f_emb nf))%Z -> (P <= prec)%Z ->
  exists m', run o n debug fuel nf m (KSetNf i e prec) = Val (nf, m') /\ r_elem (m' i) = e /\ inb (ev x e) (r_emb (m' i)) /\ (acc <= rel_accuracy (r_emb (m' i)))%Z.
Proof. exact set_nf_sharp. Qed.
Print Assumptions C81_refined_partial.

(** The generator of Q(sqrt 2) at precision 1000: 65 bits. *)
Example C81_case : arb_ok dyops /\ arb_conv dyops /\ arb_fl dyops /\ minimal (f_pol two_field) (sqrt 2) /\ canon (f_pol two_field) two_gen /\
  match run dyops (nfc (f_pol two_field)) true 0 two_field (fun _ => {| r_elem := two_gen; r_emb := Top |}) (KSetNf 0 two_gen 1000) with
  | Val (_, m') => rel_accuracy (r_emb (m' 0%nat)) = 65%Z
  | _ => False
  end.
Proof.
  split; [exact dyops_ok|]. split; [exact dyops_conv|]. split; [exact dyops_fl|]. split; [exact two_min|]. split; [exact gen_canon|].
  vm_compute. reflexivity.
Qed.

(** How sharp the field and how large the precision must be, with every ball arithmetic
    that rounds like FLINT: in terms of the values of the numerator and its derivative
    with absolute values for coefficients. *)
Theorem C81_explicit_partial : forall o, arb_fl o -> arb_ok o ->
  forall pol x, minimal pol x -> (3 <= length pol)%nat -> forall e, canon pol e -> ev x e <> 0 ->
  forall acc X m r prec, (0 <= acc)%Z -> (acc <= WORD_MAX)%Z -> inb x (Fin m r) -> Rabs x + 2 * dyv r <= X -> (2 <= prec)%Z ->
  16 * pw2 acc * growth (e_num e) * abs_sum (zderiv (e_num e)) X * dyv r <= Rabs (zeval (e_num e) x) ->
  64 * pw2 acc * (growth (e_num e) * INR (length (e_num e)) + 1) * abs_sum (e_num e) X * pw2 (1 - prec) <= Rabs (zeval (e_num e) x) ->
  forall n debug fuel nf el i, f_pol nf = pol -> f_emb nf = Fin m r -> (2 <= f_prec nf)%Z ->
  exists el', run o n debug fuel nf el (KSetNf i e prec) = Val (nf, el') /\ r_elem (el' i) = e /\ inb (ev x e) (r_emb (el' i)) /\ (acc <= rel_accuracy (r_emb (el' i)))%Z.
Proof. exact set_nf_explicit. Qed.
Print Assumptions C81_explicit_partial.

(** The generator of Q(sqrt 2) above: 62 bits from precision 80 on. *)
Example C81_explicit_case : minimal (f_pol two_field) (sqrt 2) /\ canon (f_pol two_field) two_gen /\ ev (sqrt 2) two_gen <> 0 /\ inb (sqrt 2) two_ball /\
  Rabs (sqrt 2) + 2 * dyv (1, -66)%Z <= 3 / 2 /\
  16 * pw2 62 * growth (e_num two_gen) * abs_sum (zderiv (e_num two_gen)) (3 / 2) * dyv (1, -66)%Z <= Rabs (zeval (e_num two_gen) (sqrt 2)) /\
  64 * pw2 62 * (growth (e_num two_gen) * INR (length (e_num two_gen)) + 1) * abs_sum (e_num two_gen) (3 / 2) * pw2 (1 - 80) <= Rabs (zeval (e_num two_gen) (sqrt 2)).
Proof.
  assert (S2 : sqrt 2 * sqrt 2 = 2) by (apply sqrt_sqrt; lra). pose proof (sqrt_pos 2) as S0. assert (S1 : 1.414 <= sqrt 2 <= 1.415) by nra.
  split; [exact two_min|]. split; [exact gen_canon|]. split; [unfold ev, two_gen; cbn [e_num e_den]; rewrite !zeval_cons, zeval_nil; lra|]. split; [exact two_in|].
  assert (R : dyv (1, -66)%Z = / IZR (2 ^ 66)) by (unfold dyv, pw2; simpl; lra).
  assert (V : Rabs (zeval (e_num two_gen) (sqrt 2)) = sqrt 2) by (unfold two_gen; cbn [e_num]; rewrite !zeval_cons, zeval_nil, Rabs_pos_eq; lra).
  assert (A1 : abs_sum (zderiv (e_num two_gen)) (3 / 2) = 1) by (change (zeval [1%Z] (3 / 2) = 1) || change (zeval [1%Z] (Rabs (3 / 2)) = 1); rewrite !zeval_cons, zeval_nil; lra).
  assert (A0 : abs_sum (e_num two_gen) (3 / 2) = 3 / 2) by (unfold abs_sum, two_gen; cbn [e_num map Z.abs]; rewrite !zeval_cons, zeval_nil, Rabs_pos_eq; lra).
  assert (P1 : pw2 62 = IZR (2 ^ 62)) by (rewrite pw2_IZR by lia; reflexivity).
  assert (P2 : pw2 (1 - 80) = / IZR (2 ^ 79)) by (unfold pw2; simpl; lra).
  rewrite V, A1, A0, R, P1, P2, Rabs_pos_eq by lra. unfold growth, slack. cbn [e_num two_gen length Nat.mul Nat.add pow INR].
  change (2 ^ 66)%Z with 73786976294838206464%Z. change (2 ^ 62)%Z with 4611686018427387904%Z. change (2 ^ 79)%Z with 604462909807314587353088%Z.
  split; [lra|]. split; lra.
Qed.
