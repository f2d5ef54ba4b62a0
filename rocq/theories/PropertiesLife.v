(** Properties C35, C36 and C38: fields and elements as objects, in one thread. *)
Require Import Reals List ZArith Bool Lia Lra.
From Verif Require Import PolyR RootSpec Dyadic ArbModel ArbSpec DyBall DyBallProofs RefineProofs FlSpec FlProofs FineSpec FineDy FlShare ElemModel ElemSpec NfArith NfArithProofs ElemRefute GetdModel GetdSpec
  LifeModel LifeSpec LifeProofs LifeRefute LifeFields LifeShare.
Import ListNotations.

(** * C35 *)
(** A legal operation never uses an object after its destruction, destroys one
    twice, follows a null pointer or breaks an assertion. *)
Theorem C35_safe : forall (D H V K : Type) hash heq deq zero one gen ratl conv trivial debug good cls hof,
  @registry_ok D H K good cls hof hash heq deq -> good trivial ->
  let run := run1 D H V hash heq deq zero one gen ratl conv trivial debug in
  forall s rs k, reachable good cls run s rs -> legal good cls s k -> run s k <> Undef /\ run s k <> Abort.
Proof. exact (@life_safe). Qed.
Print Assumptions C35_safe.

(** A field exists exactly as long as a handle, an element or the static variable
    refers to it. *)
Theorem C35_lifetime : forall (D H V K : Type) hash heq deq zero one gen ratl conv trivial debug good cls hof,
  @registry_ok D H K good cls hof hash heq deq -> good trivial ->
  let run := run1 D H V hash heq deq zero one gen ratl conv trivial debug in
  forall s rs a, reachable good cls run s rs -> (field_alive s a <-> referenced s a).
Proof. exact (@life_field). Qed.
Print Assumptions C35_lifetime.

(** No field and no entry of the registry is left at the end. *)
Theorem C35_end : forall (D H V K : Type) hash heq deq zero one gen ratl conv trivial debug good cls hof,
  @registry_ok D H K good cls hof hash heq deq -> good trivial ->
  let run := run1 D H V hash heq deq zero one gen ratl conv trivial debug in
  forall s rs, reachable good cls run s rs -> all_gone s -> fields s = [] /\ registry s = [] /\ (Forall (eq Done) rs -> stores s = []).
Proof. exact (@life_end). Qed.
Print Assumptions C35_end.

(** Memory of elements: what is owned is alive.  Missing: nothing else is alive in
    histories with exceptions. *)
Theorem C35_no_leak_partial : forall (D H V K : Type) hash heq deq zero one gen ratl conv trivial debug good cls hof,
  @registry_ok D H K good cls hof hash heq deq -> good trivial ->
  let run := run1 D H V hash heq deq zero one gen ratl conv trivial debug in
  forall s rs x, reachable good cls run s rs ->
  (owned s x -> memory_alive s x) /\ (Forall (eq Done) rs -> memory_alive s x -> owned s x).
Proof. exact (@life_memory). Qed.
Print Assumptions C35_no_leak_partial.

(** A constructor that throws leaks. *)
Theorem C35_leak_refuted : exists s rs, toy_reachable s rs /\ all_gone s /\ stores s <> [].
Proof. exact leak_refuted. Qed.
Print Assumptions C35_leak_refuted.

Example C35_contract : registry_ok toy_good fst toy_of toy_hash Nat.eqb toy_eq.
Proof. exact toy_ok. Qed.
Example C35_history : toy_reachable tale_end (repeat Done 18) /\ ~ all_gone tale_end.
Proof. split; [exact tale_reachable|]. intros (_ & E & _). discriminate E. Qed.
(** Other leak: the copy of a string that cannot be read. *)
Example C35_string : toy_reachable (lost 11 0) [Done; Thrown; Done].
Proof. exact misread_leaks. Qed.

(** * C36 *)
(** Under the contract of hash and equality, live fields are pairwise of different
    classes, and making a field gives the live field of its class if there is one. *)
Theorem C36_unique_partial : forall (D H V K : Type) hash heq deq zero one gen ratl conv trivial debug good cls hof,
  @registry_ok D H K good cls hof hash heq deq -> good trivial ->
  let run := run1 D H V hash heq deq zero one gen ratl conv trivial debug in
  forall s rs a b d e, reachable good cls run s rs -> data_at s a d -> data_at s b e -> (a = b <-> cls d = cls e).
Proof. exact (@life_unique). Qed.
Print Assumptions C36_unique_partial.
Theorem C36_make_partial : forall (D H V K : Type) hash heq deq zero one gen ratl conv trivial debug good cls hof,
  @registry_ok D H K good cls hof hash heq deq -> good trivial ->
  let run := run1 D H V hash heq deq zero one gen ratl conv trivial debug in
  forall s rs h d r s' o, reachable good cls run s rs -> legal good cls s (HMake h d r) -> run s (HMake h d r) = Val (s', o) ->
  exists a d', pointee s' h = Some a /\ data_at s' a d' /\ cls d' = cls d /\ forall b e, data_at s b e -> (b = a <-> cls e = cls d).
Proof. exact (@life_make). Qed.
Print Assumptions C36_make_partial.

(** The hash and equality of the library keep the contract, classes being root and
    name, however the enclosures are refined.  Missing: roots whose enclosures
    overlap. *)
Theorem C36_contract_partial : forall (Ix : Type) o n debug fuel sh pol den x N,
  (forall i : Ix, setting o (n i) (pol i) (x i) (N i)) -> (forall a b, dbl_eq a b -> sh a = sh b) -> separated pol den x N ->
  registry_ok (good_data o n pol den x N) data_class (hash_of o n debug fuel sh pol den x N) (fhash o n debug fuel sh) Z.eqb feq.
Proof. exact (@fields_ok). Qed.
Print Assumptions C36_contract_partial.

(** Two fields for different roots, and one object. *)
Theorem C36_refuted : exists pol a1 a2 x y d1 d2, made pol a1 x d1 /\ made pol a2 y d2 /\ x <> y /\
  forall sh, exists s, fruns (fun _ => pol) sh (two_makes d1 d2) = Val (s, [Done; Done]) /\
    pointee s 0 = Some 100%nat /\ pointee s 1 = Some 100%nat.
Proof. exact share_refuted. Qed.
Print Assumptions C36_refuted.

(** The same with every ball arithmetic that rounds like FLINT. *)
Theorem C36_flint_refuted : exists pol a1 a2 x y, minimal pol x /\ inb x a1 /\ (forall z, inb z a1 -> zeval pol z = 0%R -> z = x) /\
  minimal pol y /\ inb y a2 /\ (forall z, inb z a2 -> zeval pol z = 0%R -> z = y) /\ x <> y /\
  forall o n, arb_ok o -> arb_fl o -> arb_fine o -> nf_ok pol x n -> forall debug, exists nf1 nf2 g1 g2,
    renf_init o debug 300 pol 1 a1 64 = Val nf1 /\ gen o n nf1 = Val g1 /\ renf_init o debug 300 pol 1 a2 64 = Val nf2 /\ gen o n nf2 = Val g2 /\
    forall fuel sh name, (forall a b, dbl_eq a b -> sh a = sh b) ->
    let d1 := {| q_id := 0%nat; q_nf := nf1; q_gen := g1; q_name := name |} in
    let d2 := {| q_id := 1%nat; q_nf := nf2; q_gen := g2; q_name := name |} in
    forall t, exists s, runs (fdata nat) Z Z (fhash o (fun _ => n) debug (S fuel) sh) Z.eqb feq (fun _ => 0%Z) (fun _ => 1%Z) (fun _ => 2%Z)
        (fun _ => true) (fun _ v => v) t true (start (fdata nat) Z Z) (two_makes d1 d2) = Val (s, [Done; Done]) /\
      pointee s 0 = Some 100%nat /\ pointee s 1 = Some 100%nat.
Proof. exact share_every. Qed.
Print Assumptions C36_flint_refuted.
Example C36_flint_case : arb_ok dyops /\ arb_fl dyops /\ arb_fine dyops /\ forall pol x, minimal pol x -> nf_ok pol x (nfc pol).
Proof. split; [exact dyops_ok|]. split; [exact dyops_fl|]. split; [exact dyops_fine|exact nfc_ok]. Qed.

Example C36_fields : exists x : bool -> R, x false = 1%R /\ (x true * x true * x true)%R = 2%R /\
  forall debug fuel sh, (forall a b, dbl_eq a b -> sh a = sh b) ->
  registry_ok (good_data dyops (fun i => nfc (twopol i)) twopol (fun _ => 1%Z) x (fun _ _ => True)) data_class
    (hash_of dyops (fun i => nfc (twopol i)) debug fuel sh twopol (fun _ => 1%Z) x (fun _ _ => True))
    (fhash dyops (fun i => nfc (twopol i)) debug fuel sh) Z.eqb feq.
Proof. exact two_ok. Qed.
Example C36_same : exists s, toy_runs (start toy nat Z) [HMake 0 (1, 0) (100, (1, 2, 3)); HMake 1 (3, 0) (101, (4, 5, 6)); HMake 2 (1, 7) (102, (7, 8, 9))]%nat =
    Val (s, [Done; Done; Done]) /\ pointee s 0 = pointee s 2 /\ pointee s 0 <> pointee s 1.
Proof. eexists. split; [vm_compute; reflexivity|]. split; [reflexivity|discriminate]. Qed.

(** * C38 *)
(** What each operation does to the variables.  Missing: copying an element that
    has been moved from. *)
Theorem C38_effect_partial : forall (D H V K : Type) hash heq deq zero one gen ratl conv trivial debug good cls hof,
  @registry_ok D H K good cls hof hash heq deq -> good trivial ->
  let run := run1 D H V hash heq deq zero one gen ratl conv trivial debug in
  forall s rs k s' r, reachable good cls run s rs -> legal good cls s k -> run s k = Val (s', r) -> effect ratl conv s k s' r.
Proof. exact (@life_effect). Qed.
Print Assumptions C38_effect_partial.
Theorem C38_once : forall (D H V K : Type) hash heq deq zero one gen ratl conv trivial debug good cls hof,
  @registry_ok D H K good cls hof hash heq deq -> good trivial ->
  let run := run1 D H V hash heq deq zero one gen ratl conv trivial debug in
  forall s rs e f y z, reachable good cls run s rs -> get e (elems s) = Some y -> get f (elems s) = Some z -> e <> f ->
  ob_nf y <> None -> ob_nf z <> None -> ob_st y <> ob_st z.
Proof. exact (@life_once). Qed.
Print Assumptions C38_once.

(** Copying or copy assigning an element that has been moved from. *)
Theorem C38_copy_refuted : exists s rs e f g x, toy_reachable s rs /\ has_elem s e /\ has_elem s f /\ new_elem s g /\ free s [x] /\
  toy_run s (ECopy g (Var e) x) = Undef /\ toy_run s (EAssign f (Var e) x) = Undef.
Proof. exact copy_refuted. Qed.
Print Assumptions C38_copy_refuted.

Example C38_history : toy_reachable tale_end (repeat Done 18) /\ content tale_end 1 = Some (101%nat, 42%Z) /\ content tale_end 2 = Some (101%nat, 42%Z).
Proof. split; [exact tale_reachable|]. split; reflexivity. Qed.
