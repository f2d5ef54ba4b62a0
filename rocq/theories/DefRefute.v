(** A program that does not return. *)
Require Import Reals List ZArith Bool Lia Lra.
From Verif Require Import PolyR RootSpec RootModel ExtraModel Dyadic DyadicProofs ArbModel ArbSpec DyBall DyBallProofs
  ElemModel ElemSpec ElemProofs NfArith NfArithProofs ElemRefute ElemEdge RateSpec DyRate DefSpec.
Import ListNotations.
Open Scope R_scope.

(** The sign of a generator met after one addition and one subtraction is undefined. *)
Lemma program_refuted : exists pol a x l nf m, reached pol a x l nf m /\ library dyops (nfc pol) pol x /\
  allowed pol (values x m) (KSgn 0) /\ run dyops (nfc pol) true 100 nf m (KSgn 0) = Undef.
Proof.
  pose (l := [KGen 0; KAddZ 0 0 1; KSubZ 0 0 1]%Z).
  assert (E : sure (tstate l) (fun '(nf, m) => undef (sgn dyops true 100 nf (m 0%nat))) = true) by calc.
  apply sure_spec in E. destruct E as ([nf m] & Es & E). destruct (treached l nf m Es) as (x & Hr).
  exists tpol, tball, x, l, nf, m. split; [exact Hr|]. split; [|split; [exact I|]].
  - destruct Hr as (Hm & _). constructor; [exact dyops_ok|exact dyops_conv|exact dyops_rate|exact Hm|cbn; lia|apply nfc_ok, Hm].
  - apply undef_spec in E. cbn [run]. rewrite E. reflexivity.
Qed.

(** Zero has no coefficients in degree three or more; the floor, the ceiling and
    the quotient by a rational number read the first one nevertheless. *)
Definition zstate : out (renf * mem) :=
  bind (renf_init dyops true 100 cube_pol 1 (Fin (5, -2) (1, -2)) 64)%Z (fun nf => runs dyops (nfc cube_pol) true 100 nf mem0 [KGen 1; KSub 0 1 1; KOne 2]).

Lemma zero_refuted : exists pol a x l nf m, reached pol a x l nf m /\ 1 < x < 2 /\ ev x (r_elem (m 0%nat)) = 0 /\
  floor dyops true 100 nf (m 0%nat) = Undef /\ ceil dyops true 100 nf (m 0%nat) = Undef /\
  ev x (r_elem (m 2%nat)) = 1 /\ fdiv dyops (nfc pol) true false 100 nf (m 0%nat) (m 2%nat) = Undef.
Proof.
  assert (E : sure zstate (fun '(nf, m) =>
    elem_eqb (r_elem (m 0%nat)) {| e_num := []; e_den := 1 |} && (elem_eqb (r_elem (m 2%nat)) {| e_num := [1%Z]; e_den := 1 |} &&
     (undef (floor dyops true 100 nf (m 0%nat)) && (undef (ceil dyops true 100 nf (m 0%nat)) &&
     undef (fdiv dyops (nfc cube_pol) true false 100 nf (m 0%nat) (m 2%nat)))))) = true) by calc.
  apply sure_spec in E. destruct E as ([nf m] & Es & E). do 4 (apply andb_true_iff in E; destruct E as [?E E]).
  destruct cube_root as (z & Hz & Ez).
  exists cube_pol, (Fin (5, -2) (1, -2))%Z, z, [KGen 1; KSub 0 1 1; KOne 2]%Z, nf, m. split; [|split; [exact Hz|]].
  - split; [apply cube_minimal, Ez|]. split; [apply (cube_field_ok z Hz Ez)|]. split; [intros y _ Hy; apply minimal_cube_unique; assumption|].
    unfold zstate in Es. destruct (renf_init _ _ _ _ _ _ _) as [nf0| | |]; try discriminate. exists nf0. split; [reflexivity|exact Es].
  - apply elem_eqb_eq in E0, E1. rewrite E0, E1. split; [unfold ev, zeval; cbn; lra|].
    split; [apply undef_spec; assumption|]. split; [apply undef_spec; assumption|]. split; [unfold ev, zeval; cbn; lra|apply undef_spec; assumption].
Qed.
