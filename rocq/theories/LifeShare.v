(** Two fields that the registry takes for one, and fields that it tells apart. *)
Require Import Reals List ZArith Bool Lia Lra Psatz.
From Verif Require Import PolyR RootSpec RootModel ExtraModel Dyadic DyadicProofs ArbModel ArbSpec ArbProofs FieldProofs RefineProofs
  ArbRefute DyBall DyBallProofs ElemModel ElemSpec ElemProofs ElemRefute NfArith NfArithProofs GetdModel GetdSpec GetdMore CxxRefute
  LifeModel LifeSpec LifeFields.
Import ListNotations.
Open Scope R_scope.

(** A [renf_class] just made: the polynomial has the only root [r] in the ball
    [a], and the generator is the one computed at once. *)
Definition made (pol : list Z) (a : ball) (r : R) (d : fdata nat) : Prop :=
  minimal pol r /\ inb r a /\ (forall z, inb z a -> zeval pol z = 0 -> z = r) /\
  exists nf, renf_init dyops true 100 pol 1 a 64 = Val nf /\ q_nf d = nf /\ gen dyops (nfc pol) nf = Val (q_gen d).

Definition fruns (pol : nat -> list Z) (sh : dbl -> Z) :=
  runs (fdata nat) Z Z (fhash dyops (fun i => nfc (pol i)) true 100 sh) Z.eqb feq (fun _ => 0%Z) (fun _ => 1%Z) (fun _ => 2%Z)
    (fun _ => true) (fun _ v => v) {| q_id := 0%nat; q_nf := one_nf; q_gen := mem0 0%nat; q_name := 0%nat |} true (start (fdata nat) Z Z).

Lemma touch_minimal : forall z, zeval touch_pol z = 0 -> minimal touch_pol z.
Proof.
  intros z Hz. constructor; [exact Hz|cbn; lia|cbn; lia|]. rewrite touch_eval in Hz.
  intros p L E. destruct p as [|a [|b [|? ?]]]; [constructor| | |cbn in L; lia].
  - rewrite zeval_cons, zeval_nil in E. constructor; [|constructor]. apply eq_IZR. lra.
  - rewrite !zeval_cons, zeval_nil in E. assert (B : b = 0%Z).
    { apply (square_descent 1 eq_refl (a + b * big) b). apply eq_IZR. rewrite !mult_IZR, !plus_IZR, mult_IZR.
      replace (IZR a + IZR b * IZR big) with (- (IZR b * (z - IZR big))) by lra.
      replace (- (IZR b * (z - IZR big)) * - (IZR b * (z - IZR big))) with ((z - IZR big) * (z - IZR big) * (IZR b * IZR b)) by ring.
      replace ((z - IZR big) * (z - IZR big)) with 2 by lra. lra. }
    subst b. repeat constructor. apply eq_IZR. lra.
Qed.

Definition touch_gen (b : ball) : relem := {| r_elem := {| e_num := [0; 1]; e_den := 1 |}%Z; r_emb := b |}.
Definition touch_data (i : nat) (m : Z) (g : ball) : fdata nat :=
  {| q_id := i; q_nf := touch_field m; q_gen := touch_gen g; q_name := 0 |}.

Definition low_data : fdata nat := touch_data 0 (big - 1) (Fin (18446744073709551615, 2) (805306369, -27))%Z.
Definition high_data : fdata nat := touch_data 1 (big + 1) (Fin (9223372036854775808, 3) (805306369, -27))%Z.

Definition two_makes {D : Type} (d1 d2 : D) : list (op D Z) := [HMake 0 d1 (100, (1, 2, 3)); HMake 1 d2 (101, (4, 5, 6))]%nat.
Lemma second_make : forall (D : Type) hash (deq : D -> D -> bool) d1 d2 (t : D) k, hash d1 = Val (d1, k) -> hash d2 = Val (d2, k) ->
  deq d1 d2 = true -> deq d2 d1 = true ->
  exists s, runs D Z Z hash Z.eqb deq (fun _ => 0%Z) (fun _ => 1%Z) (fun _ => 2%Z) (fun _ => true) (fun _ v => v) t true (start D Z Z)
      (two_makes d1 d2) = Val (s, [Done; Done]) /\ pointee s 0 = Some 100%nat /\ pointee s 1 = Some 100%nat.
Proof.
  intros D hash deq d1 d2 t k F1 F2 Q Q'.
  set (run := run1 D Z Z hash Z.eqb deq (fun _ => 0%Z) (fun _ => 1%Z) (fun _ => 2%Z) (fun _ => true) (fun _ v => v) t true).
  assert (E1 : exists s1, run (start D Z Z) (HMake 0 d1 (100, (1, 2, 3)))%nat = Val (s1, Done) /\
    s1 = {| fields := [(100%nat, {| fd_data := d1; fd_count := 4; fd_cache := [1; 2; 3]%nat |})]; stores := [(3%nat, 2); (2%nat, 1); (1%nat, 0)]%Z;
            registry := [(100%nat, k)]; handles := [(0%nat, Some 100%nat)]; elems := []; static := None |}).
  { eexists. split; [|reflexivity]. unfold run. lazy. rewrite F1. reflexivity. }
  destruct E1 as (s1 & E1 & ->).
  match type of E1 with _ = Val (?s, _) => assert (E2 : exists s2, run s (HMake 1 d2 (101, (4, 5, 6)))%nat = Val (s2, Done) /\
    pointee s2 0 = Some 100%nat /\ pointee s2 1 = Some 100%nat) end.
  { eexists. split. 1: unfold run; lazy -[Z.eqb]; rewrite F2; lazy -[Z.eqb]; rewrite ?Z.eqb_refl, ?Q, ?Q'; reflexivity.
    split; reflexivity. }
  destruct E2 as (s2 & E2 & P). exists s2. split; [|exact P]. unfold two_makes. cbn [runs]. fold run. rewrite E1. cbn [bind]. rewrite E2. reflexivity.
Qed.

(** Whatever the hash of double: the second call returns the first field. *)
Lemma share_refuted : exists pol a1 a2 x y d1 d2, made pol a1 x d1 /\ made pol a2 y d2 /\ x <> y /\
  forall sh, exists s, fruns (fun _ => pol) sh (two_makes d1 d2) = Val (s, [Done; Done]) /\
    pointee s 0 = Some 100%nat /\ pointee s 1 = Some 100%nat.
Proof.
  exists touch_pol, (Fin (big - 1, 0) (1, 0))%Z, (Fin (big + 1, 0) (1, 0))%Z, (IZR big - sqrt 2), (IZR big + sqrt 2),
    low_data, high_data.
  assert (S1 : 1 < sqrt 2) by (rewrite <- sqrt_1 at 1; apply sqrt_lt_1; lra).
  assert (S2 : sqrt 2 * sqrt 2 = 2) by (apply sqrt_sqrt; lra).
  assert (S3 : sqrt 2 < 2) by nra.
  assert (R : forall z, zeval touch_pol z = 0 -> z = IZR big - sqrt 2 \/ z = IZR big + sqrt 2).
  { intros z Hz. rewrite touch_eval in Hz.
    assert (E : (z - IZR big - sqrt 2) * (z - IZR big + sqrt 2) = 0) by nra.
    apply Rmult_integral in E. destruct E; lra. }
  split; [|split; [|split; [lra|]]].
  - split; [apply touch_minimal; rewrite touch_eval; nra|]. rewrite inb_bounds, !dyv_int, minus_IZR. split; [lra|].
    split. { intros z Hz Zz. rewrite inb_bounds, !dyv_int, minus_IZR in Hz. destruct (R z Zz); lra. }
    exists (touch_field (big - 1)). split; [vm_compute; reflexivity|]. split; [reflexivity|vm_compute; reflexivity].
  - split; [apply touch_minimal; rewrite touch_eval; nra|]. rewrite inb_bounds, !dyv_int, plus_IZR. split; [lra|].
    split. { intros z Hz Zz. rewrite inb_bounds, !dyv_int, plus_IZR in Hz. destruct (R z Zz); lra. }
    exists (touch_field (big + 1)). split; [vm_compute; reflexivity|]. split; [reflexivity|vm_compute; reflexivity].
  - intros sh.
    assert (H1 : hash_key dyops (nfc touch_pol) true 100 (touch_field (big - 1)) (touch_gen (Fin (18446744073709551615, 2) (805306369, -27)))%Z =
      Val (touch_field (big - 1), touch_gen (Fin (18446744073709551615, 2) (805306369, -27)), DF (9007199254740992, 13))%Z) by (vm_compute; reflexivity).
    assert (H2 : hash_key dyops (nfc touch_pol) true 100 (touch_field (big + 1)) (touch_gen (Fin (9223372036854775808, 3) (805306369, -27)))%Z =
      Val (touch_field (big + 1), touch_gen (Fin (9223372036854775808, 3) (805306369, -27)), DF (9007199254740992, 13))%Z) by (vm_compute; reflexivity).
    apply (second_make (fdata nat) _ feq low_data high_data _ (sh (DF (9007199254740992, 13)%Z))).
    + unfold fhash, low_data. cbn [q_id q_nf q_gen q_name touch_data]. rewrite H1. reflexivity.
    + unfold fhash, high_data. cbn [q_id q_nf q_gen q_name touch_data]. rewrite H2. reflexivity.
    + vm_compute. reflexivity.
    + vm_compute. reflexivity.
Qed.

(** The rationals and Q(2^(1/3)): the contract holds. *)
Definition twopol (b : bool) : list Z := if b then cube_pol else one_pol.
Lemma two_ok : exists x : bool -> R, x false = 1 /\ x true * x true * x true = 2 /\
  forall debug fuel sh, (forall a b, dbl_eq a b -> sh a = sh b) ->
  registry_ok (good_data dyops (fun i => nfc (twopol i)) twopol (fun _ => 1%Z) x (fun _ _ => True)) data_class
    (hash_of dyops (fun i => nfc (twopol i)) debug fuel sh twopol (fun _ => 1%Z) x (fun _ _ => True))
    (fhash dyops (fun i => nfc (twopol i)) debug fuel sh) Z.eqb feq.
Proof.
  destruct cube_root as (z & Hz & E). exists (fun b : bool => if b then z else 1). split; [reflexivity|]. split; [exact E|].
  intros debug fuel sh Hsh. apply fields_ok; [|exact Hsh|].
  - intros [|]; [apply cube_setting, E|]. constructor; [exact dyops_ok|exact one_minimal|apply nfc_ok, one_minimal|].
    apply single_root_safe; [apply (min_root _ _ one_minimal)|exact one_root].
  - intros [|] [|] b c P _ _ _ _ _ _; try reflexivity; discriminate P.
Qed.
