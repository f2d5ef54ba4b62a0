(** Elements that are given to the wrong RealEmbeddedNumberField. *)
Require Import Reals List ZArith Bool Lia Lra.
From Verif Require Import PolyR RootSpec RootModel ExtraModel Dyadic ArbModel ArbSpec ElemModel ElemSpec ElemProofs ElemRefute EndsRefute NfArith NfArithProofs DyBall
  CxxModel CxxSpec CxxRefute PyModel PySpec SageModel SageSpec.
Import ListNotations.
Open Scope R_scope.

(** The fields: rational numbers, sqrt 2, - sqrt 2, and the cubic root of 2 from
    then on.  The objects: both generators, 3/2 as rational number, 3 in the cubic
    field, 5 - sqrt 2; zeros of the field of sqrt 2. *)
Definition spol (f : nat) : list Z := match f with 0 => one_pol | 1 | 2 => EndsRefute.sq_pol | _ => cube_pol end%nat.
Definition sx (z : R) (f : nat) : R := match f with O => 1 | S O => sqrt 2 | S (S O) => - sqrt 2 | _ => z end.
Definition sobj (f : nat) (l : list Z) (d : Z) : obj := {| ob_field := f; ob_val := {| r_elem := {| e_num := l; e_den := d |}; r_emb := Top |} |}.
Definition sworld : world :=
  {| w_fields := fun f => {| f_pol := spol f; f_den := 1; f_emb := Top; f_prec := 64; f_imm := 0 |};
     w_objs := fun i => match i with
       | 0 => sobj 1 [0; 1]%Z 1 | 1 => sobj 2 [0; 1]%Z 1 | 2 => sobj 0 [3]%Z 2 | 3 => sobj 3 [3]%Z 1 | 4 => sobj 1 [5; -1]%Z 1
       | _ => sobj 1 [] 1
       end%nat |}.

Lemma sqrt22 : sqrt 2 * sqrt 2 = 2.
Proof. apply sqrt_sqrt; lra. Qed.
Lemma sminimal : forall z, z * z * z = 2 -> forall f, minimal (spol f) (sx z f).
Proof.
  intros z Hz [|[|[|f]]]; cbn [spol sx]; [exact one_minimal|apply EndsRefute.sq_minimal, sqrt22|apply EndsRefute.sq_minimal|apply cube_minimal; exact Hz].
  pose proof sqrt22. lra.
Qed.
Lemma sexact : exact_world spol sworld.
Proof.
  constructor; [reflexivity|].
  intros [|[|[|[|[|i]]]]]; unfold num_of, val, fld, sworld, sobj; cbn [w_objs ob_field ob_val r_elem]; constructor; cbn [e_num e_den spol last length EndsRefute.sq_pol one_pol cube_pol]; try lia;
    intros g Hg D A; try (apply Z.divide_1_r_nonneg in D; lia).
  assert (D3 : (g | 3)%Z) by (apply A; left; reflexivity). assert (D1 : (g | 1)%Z) by (replace 1%Z with (3 - 2)%Z by lia; apply Z.divide_sub_r; assumption).
  apply Z.divide_1_r_nonneg in D1; lia.
Qed.

Lemma foreign : exists pol x w a v, (forall f, minimal (pol f) (x f)) /\ exact_world pol w /\
  to_number_field w a = Ret v /\ rational_poly v (x (s_parent a)) <> value x w (s_obj a).
Proof.
  destruct cube_root as (z & _ & Hz). exists spol, (sx z), sworld, (wrap 1 1), [(0, 1); (1, 1)]%Z.
  split; [apply sminimal; exact Hz|]. split; [exact sexact|]. split; [vm_compute; reflexivity|].
  unfold value, ev, fld, num_of, val, sworld, sobj, wrap. cbn [s_parent s_obj w_objs ob_field ob_val r_elem e_num e_den sx rational_poly fst snd].
  rewrite !zeval_cons, zeval_nil. assert (0 < sqrt 2) by (apply sqrt_lt_R0; lra). lra.
Qed.

Lemma higher : exists pol x w a, (forall f, minimal (pol f) (x f)) /\ exact_world pol w /\
  value x w (s_obj a) = 3 /\ to_number_field w a = Throw.
Proof.
  destruct cube_root as (z & _ & Hz). exists spol, (sx z), sworld, (wrap 1 3).
  split; [apply sminimal; exact Hz|]. split; [exact sexact|]. split; [|vm_compute; reflexivity].
  unfold value, ev, fld, num_of, val, sworld, sobj, wrap. cbn [s_parent s_obj w_objs ob_field ob_val r_elem e_num e_den].
  rewrite !zeval_cons, zeval_nil. field.
Qed.
