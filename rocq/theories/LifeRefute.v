(** A small instance of the model of lifetimes, histories in it, and the ways in
    which the library leaks memory or uses null pointers. *)
Require Import List ZArith Bool Lia.
From Verif Require Import ArbModel LifeModel LifeSpec LifeProofs.
Import ListNotations.
Open Scope Z_scope.

(** Fields are a class and a precision; hashing refines and has collisions. *)
Definition toy := (nat * nat)%type.
Definition toy_hash (d : toy) : out (toy * nat) := Val ((fst d, S (snd d)), Nat.modulo (fst d) 2).
Definition toy_eq (d e : toy) : bool := Nat.eqb (fst d) (fst e).
Definition toy_gen (d : toy) : Z := Z.of_nat (10 + fst d).
Definition toy_zero (d : toy) : Z := 0.
Definition toy_one (d : toy) : Z := 1.
Definition toy_conv (d : toy) (v : Z) : Z := v.
Definition toy_good (d : toy) : Prop := True.
Definition toy_of (k h : nat) : Prop := h = Nat.modulo k 2.
Definition toy_run := run1 toy nat Z toy_hash Nat.eqb toy_eq toy_zero toy_one toy_gen Z.even toy_conv (0, 0)%nat true.
Definition toy_runs := runs toy nat Z toy_hash Nat.eqb toy_eq toy_zero toy_one toy_gen Z.even toy_conv (0, 0)%nat true.
Definition toy_reachable := reachable toy_good fst toy_run.

Lemma toy_ok : registry_ok toy_good fst toy_of toy_hash Nat.eqb toy_eq.
Proof.
  constructor.
  - intros d _. cbn. repeat split.
  - intros k h h' -> ->. apply Nat.eqb_refl.
  - intros d d' _ _. apply Nat.eqb_eq.
Qed.

(** [runs] from the start along legal operations is reachable. *)
Fixpoint toy_legal (s : state toy nat Z) (l : list (op toy Z)) : Prop :=
  match l with
  | [] => True
  | k :: l' => legal toy_good fst s k /\ match toy_run s k with Val (s', _) => toy_legal s' l' | _ => True end
  end.
Lemma legal_reachable : forall l s rs, toy_reachable s rs -> toy_legal s l -> forall s' os,
  toy_runs s l = Val (s', os) -> toy_reachable s' (rev os ++ rs).
Proof.
  induction l as [|k l IH]; intros s rs R L s' os E; unfold toy_runs in E; cbn [runs] in E; fold toy_runs in E.
  - injection E as <- <-. exact R.
  - destruct L as [Lk Ll]. fold (toy_run s k) in E. destruct (toy_run s k) as [[s1 r]| | |] eqn:E1; cbn [bind] in E; try discriminate E.
    destruct (toy_runs s1 l) as [[s2 os2]| | |] eqn:E2; cbn [bind] in E; try discriminate E.
    injection E as <- <-. cbn [rev]. rewrite <- app_assoc. cbn [app]. apply (IH s1 (r :: rs)); [|exact Ll|exact E2]. apply (re_step _ _ _ s rs k); assumption.
Qed.

Ltac easy_legal := cbn;
  repeat match goal with
  | |- _ /\ _ => split
  | |- True => exact Logic.I
  | |- room_free _ _ _ => split; cbn [fst cells app]
  | |- free _ _ => split
  | |- toy_good _ => exact Logic.I
  | |- NoDup [] => constructor
  | |- NoDup (_ :: _) => constructor; [cbn; intuition discriminate|]
  | |- forall x, In x _ -> _ => let x := fresh in let i := fresh in intros x i; cbn in i; repeat (destruct i as [i|i]; [subst x; reflexivity|]); destruct i
  | |- filled _ _ => eexists; split; [reflexivity|discriminate]
  | |- _ => reflexivity
  | |- _ => discriminate
  | |- (_ < _)%nat => lia
  end.

Lemma walk_step : forall s k l s' r, legal toy_good fst s k -> toy_run s k = Val (s', r) -> toy_legal s' l -> toy_legal s (k :: l).
Proof. intros s k l s' r L E T. split; [exact L|]. rewrite E. exact T. Qed.
Ltac walk := lazymatch goal with
  | |- toy_legal _ [] => exact Logic.I
  | |- toy_legal _ (_ :: _) => eapply walk_step; [easy_legal|vm_compute; reflexivity|walk]
  end.

(** Two fields with equal hashes, one of them made twice; elements copied, moved,
    assigned across fields, onto themselves and from the cache; a conversion that
    works and one that throws. *)
Definition tale : list (op toy Z) :=
  [HMake 0 (1, 0) (100, (1, 2, 3)); HMake 1 (3, 0) (101, (4, 5, 6)); HMake 2 (1, 7) (102, (7, 8, 9));
   ENew 0 (OfHandle 0) 42%Z 10; ECopy 1 (Cached 1 2) 11; EMove 2 0; EAssign 1 (Var 1) 12; EAssign 1 (Var 2) 12;
   EMoveAssign 2 2; EConvert 3 (OfHandle 1) (Var 1) 13; HDrop 0; HDrop 2; EDrop 0; ESwap 1 3;
   ENumber 2 7%Z 14 (103, (15, 16, 17)); EDrop 3; HDrop 1; EAssign 2 (Var 1) 18]%nat.
Definition tale_end : state toy nat Z :=
  {| fields := [(103, {| fd_data := (0, 1)%nat; fd_count := 4; fd_cache := [15; 16; 17]%nat |});
                (101, {| fd_data := (3, 1)%nat; fd_count := 5; fd_cache := [4; 5; 6]%nat |})]%nat;
     stores := [(18%nat, 42); (17%nat, 10); (16%nat, 1); (15%nat, 0); (13%nat, 42); (6%nat, 13); (5%nat, 1); (4%nat, 0)];
     registry := [(103, 0); (101, 1)]%nat;
     handles := []; elems := [(2, {| ob_nf := Some 101; ob_st := 18 |}); (1, {| ob_nf := Some 101; ob_st := 13 |})]%nat;
     static := Some (Some 103%nat) |}.
Lemma tale_runs : toy_runs (start toy nat Z) tale = Val (tale_end, repeat Done 18).
Proof. vm_compute. reflexivity. Qed.
Lemma tale_legal : toy_legal (start toy nat Z) tale.
Proof. unfold tale, start. walk. Qed.
Lemma tale_reachable : toy_reachable tale_end (repeat Done 18).
Proof.
  exact (legal_reachable tale (start toy nat Z) [] (re_start _ _ _) tale_legal tale_end (repeat Done 18) tale_runs).
Qed.

(** A conversion that throws loses the memory of the new element. *)
Definition throwing : list (op toy Z) :=
  [HMake 0 (1, 0)%nat (100, (1, 2, 3))%nat; HMake 1 (3, 0)%nat (101, (4, 5, 6))%nat; ENew 0 (OfHandle 0) 41 10; EConvert 1 (OfHandle 1) (Var 0) 11;
   EDrop 0; HDrop 0; HDrop 1].
Definition lost (x : nat) (v : Z) : state toy nat Z :=
  {| fields := []; stores := [(x, v)]; registry := []; handles := []; elems := []; static := None |}.
Lemma throwing_leaks : toy_reachable (lost 11 41) [Done; Done; Done; Thrown; Done; Done; Done].
Proof.
  apply (legal_reachable throwing (start toy nat Z) [] (re_start _ _ _)) with (os := [Done; Done; Done; Thrown; Done; Done; Done]).
  - unfold throwing, start. walk.
  - vm_compute. reflexivity.
Qed.

(** A string that cannot be read: its copy is lost. *)
Definition misread : list (op toy Z) := [HMake 0 (1, 0)%nat (100, (1, 2, 3))%nat; EString 0 (OfHandle 0) None 10 11; HDrop 0].
Lemma misread_leaks : toy_reachable (lost 11 0) [Done; Thrown; Done].
Proof.
  apply (legal_reachable misread (start toy nat Z) [] (re_start _ _ _)) with (os := [Done; Thrown; Done]).
  - unfold misread, start. walk.
  - vm_compute. reflexivity.
Qed.

Lemma leak_refuted : exists s rs, toy_reachable s rs /\ all_gone s /\ stores s <> [].
Proof.
  exists (lost 11 41). eexists. split; [exact throwing_leaks|]. split; [|discriminate]. repeat split. discriminate.
Qed.

(** Copying an element that has been moved from. *)
Definition moved : list (op toy Z) := [HMake 0 (1, 0)%nat (100, (1, 2, 3))%nat; ENew 0 (OfHandle 0) 41 10; EMove 1 0].
Definition moved_end : state toy nat Z :=
  {| fields := [(100%nat, {| fd_data := (1, 1)%nat; fd_count := 5; fd_cache := [1; 2; 3]%nat |})];
     stores := [(10%nat, 41); (3%nat, 11); (2%nat, 1); (1%nat, 0)]; registry := [(100, 1)]%nat; handles := [(0%nat, Some 100%nat)];
     elems := [(1, {| ob_nf := Some 100; ob_st := 10 |}); (0, {| ob_nf := None; ob_st := 10 |})]%nat; static := None |}.
Lemma moved_reachable : toy_reachable moved_end [Done; Done; Done].
Proof.
  apply (legal_reachable moved (start toy nat Z) [] (re_start _ _ _)) with (os := [Done; Done; Done]).
  - unfold moved, start. walk.
  - vm_compute. reflexivity.
Qed.
Lemma copy_refuted : exists s rs e f g x, toy_reachable s rs /\ has_elem s e /\ has_elem s f /\ new_elem s g /\ free s [x] /\
  toy_run s (ECopy g (Var e) x) = Undef /\ toy_run s (EAssign f (Var e) x) = Undef.
Proof.
  exists moved_end, [Done; Done; Done], 0%nat, 1%nat, 2%nat, 11%nat. split; [exact moved_reachable|].
  split; [discriminate|]. split; [discriminate|]. split; [reflexivity|]. split; [easy_legal|]. split; reflexivity.
Qed.
