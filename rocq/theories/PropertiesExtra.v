(** Properties C09 - C12.  Model: ExtraModel.v. *)
Require Import Reals List ZArith Lia Lra.
From Verif Require Import PolyR RootModel RootSpec ExtraModel ExtraProofs SquarefreeProofs PremProofs.
Import ListNotations.
Open Scope R_scope.

(** C09. [num] is FLINT's count of real roots, assumed right about p (FLINT
    documents it for squarefree p).  FLINT polynomials have no leading zero. *)
Theorem C09_has_real_root : forall num p, p = [] \/ last p 0%Z <> 0%Z ->
  (num p <> 0%Z <-> exists x, zeval p x = 0) ->
  (has_real_root num p = true <-> exists x, zeval p x = 0).
Proof. exact has_real_root_correct. Qed.
Print Assumptions C09_has_real_root.

Example C09_case : let num := fun p : list Z => if (nth 1 p 0 =? 0)%Z then 0%Z else 2%Z in
  (num [1; 0; 1]%Z <> 0%Z <-> exists x, zeval [1; 0; 1]%Z x = 0) /\
  (num [1; -3; 1]%Z <> 0%Z <-> exists x, zeval [1; -3; 1]%Z x = 0) /\
  has_real_root num [1; 0; 1]%Z = false /\ has_real_root num [1; -3; 1]%Z = true.
Proof.
  split; [|split; [|split; reflexivity]].
  - simpl. split; [congruence|]. intros (x & Hx). unfold zeval in Hx; simpl in Hx. nra.
  - simpl. split; [|discriminate]. intros _. 
    assert (E : peval (map IZR [1; -3; 1]%Z) 0 * peval (map IZR [1; -3; 1]%Z) 1 < 0) by (simpl; lra).
    destruct (peval_ivt (map IZR [1; -3; 1]%Z) 0 1 ltac:(lra) E) as (x & _ & Hx). exists x. exact Hx.
Qed.

(** C10: false as stated; x^2 - 2 has no root in (0,1) but the count is 1,
    whatever pseudo-division is used. *)
Theorem C10_sturm_refuted : exists p, last p 0%Z <> 0%Z /\ simple_roots p reals /\ zeval p 0 <> 0 /\ zeval p 1 <> 0 /\
  root_list p unit_oo [] /\
  forall prem, prem_ok prem -> exists fuel, num_real_roots_0_1_sturm prem fuel p = SDone 1.
Proof. exact sturm_refuted. Qed.
Print Assumptions C10_sturm_refuted.

Example C10_case : prem_ok prem0 /\ num_real_roots_0_1_sturm prem0 10 [-2; 0; 1]%Z = SDone 1.
Proof. split; [exact prem0_ok|reflexivity]. Qed.

(** C11. *)
Theorem C11_scale_unit : forall p a b, (0 < snd a)%Z -> (0 < snd b)%Z -> qval a < qval b ->
  last p 0%Z <> 0%Z -> (2 <= length p)%nat -> exists c, 0 < c /\
  forall x, zeval (scale_0_1 p a b) x * c = IZR (Z.sgn (last p 0%Z)) * zeval p (qval a + (qval b - qval a) * x).
Proof. exact scale_0_1_spec. Qed.
Print Assumptions C11_scale_unit.

Theorem C11_scale_unit_constant : forall p a b, (length p <= 1)%nat -> scale_0_1 p a b = p.
Proof. exact scale_0_1_const. Qed.
Print Assumptions C11_scale_unit_constant.

Example C11_case : qval (1, 2)%Z < qval (5, 3)%Z /\ scale_0_1 [-2; 0; 1]%Z (1, 2)%Z (5, 3)%Z = [-9; 6; 7]%Z.
Proof. split; [unfold qval; simpl; lra|reflexivity]. Qed.

(** C12. [is_gcd] and [is_quotient] are the contracts of FLINT's gcd and exact
    division at the arguments of the call. *)
Theorem C12_squarefree : forall pgcd pdiv p, nonzero p -> last p 0%Z <> 0%Z ->
  is_gcd (pgcd p (normal (zderiv p))) p (normal (zderiv p)) ->
  is_quotient (pdiv p (pgcd p (normal (zderiv p)))) p (pgcd p (normal (zderiv p))) ->
  let r := squarefree_part pgcd pdiv p in
  (forall x, zeval r x = 0 <-> zeval p x = 0) /\ simple_roots r reals /\ (0 < last r 0%Z)%Z.
Proof. exact squarefree_correct. Qed.
Print Assumptions C12_squarefree.

Example C12_case : let p := [1; -2; 1]%Z in let g := [-1; 1]%Z in
  is_gcd g p (normal (zderiv p)) /\ is_quotient [-1; 1]%Z p g.
Proof. exact squarefree_example. Qed.
