(** C70: temporaries.  Only statements; proofs are in Temp.v and TempRefute.v. *)
Require Import List ZArith Bool String Ascii.
From Verif Require Import RootModel ExtraModel Dyadic ArbModel ElemModel NfArith StrModel TempModel TempSpec Temp TempRefute DyBall.
Import ListNotations.
Open Scope string_scope.
Open Scope list_scope.

(** Every execution of the functions listed in [programs], in whatever way its
    conditions turn out and however often its loops run, releases each temporary
    exactly once and uses none that is not allocated. *)
Theorem C70_tidy_partial : forall name c, In (name, c) programs -> tidy c.
Proof. intros name c I. exact (proj1 (Forall_forall _ _) programs_tidy (name, c) I). Qed.
Print Assumptions C70_tidy_partial.

(** The full property also names fmpq_poly_check_unique_real_root and the
    constructor from a string; it is false for both.  A ball that is accepted
    with temporaries left behind: *)
Theorem C70_unique_refuted :
  exists pol a prec t, check_unique_events dyops 10 pol a prec = Val (true, t) /\ ~ disciplined t.
Proof. destruct unique_lost as (t & H). exact (ex_intro _ _ (ex_intro _ _ (ex_intro _ _ (ex_intro _ t H)))). Qed.
Print Assumptions C70_unique_refuted.

(** The traced function is the modelled one, its events are an execution of its
    program, only b, l and r can be lost, and nothing is lost exactly when the
    polynomial is at most linear or the ball is accepted by the cheap test. *)
Theorem C70_unique_answer : forall o fuel pol a prec,
  check_unique o fuel pol a prec = bind (check_unique_events o fuel pol a prec) (fun r => Val (fst r)).
Proof. exact unique_events_answer. Qed.
Print Assumptions C70_unique_answer.
Theorem C70_unique_partial : forall o fuel pol a prec b t,
  check_unique_events o fuel pol a prec = Val (b, t) ->
  exec t_check_unique t Left /\ usable t /\
  (forall x, x <> "b" -> x <> "l" -> x <> "r" -> lives (filter (about x) t)) /\
  (List.length pol <= 2 \/ (b = true /\ contains_zero (eval_arb o (zderiv pol) a prec) = false) <-> disciplined t)%nat.
Proof.
  intros o fuel pol a prec b t H. rewrite <- negb_true_iff. exact (unique_events_cases o fuel pol a prec b t H).
Qed.
Print Assumptions C70_unique_partial.

Theorem C70_string_answer : forall zd n var s,
  of_string zd n var s = bind (of_string_events zd n var s) (fun r => Val (fst r)).
Proof. exact of_string_events_answer. Qed.
Print Assumptions C70_string_answer.
(** The constructor loses the copy of the string exactly when it throws. *)
Theorem C70_string_partial : forall zd n var s r t,
  of_string_events zd n var s = Val (r, t) ->
  (exists e, exec t_of_string t e /\ (e = Through \/ e = Left)) /\ usable t /\ (r <> None <-> disciplined t).
Proof. exact of_string_events_cases. Qed.
Print Assumptions C70_string_partial.
Theorem C70_string_refuted :
  exists s t, of_string_events (fun _ => Undef) (nfc [-2; 0; 1]%Z) ["a"%char] s = Val (None, t) /\ ~ disciplined t.
Proof.
  exists ["b"%char]. eexists. split; [vm_compute; reflexivity|]. intros D.
  exact (proj2 (proj2 (proj2 (of_string_events_cases (fun _ => Undef) (nfc [-2; 0; 1]%Z) ["a"%char] ["b"%char] None _ eq_refl))) D eq_refl).
Qed.
Print Assumptions C70_string_refuted.

(** An execution of a listed program: a bisection step that fails at the right
    endpoint. *)
Example C70_case : In ("_fmpz_poly_bisection_step_arb", t_bisection_arb) programs /\
  exec t_bisection_arb
    [EInit "arf" "l"; EInit "arf" "r"; EInit "arb" "b"; EInit "arb" "c"; EInit "arb" "rres"; EUse "l"; EUse "r";
     EUse "b"; EUse "l"; EUse "c"; EUse "b"; EUse "c"; EUse "c"; EUse "b"; EUse "r"; EUse "c"; EUse "b"; EUse "c";
     EClear "arf" "l"; EClear "arf" "r"; EClear "arb" "b"; EClear "arb" "c"; EClear "arb" "rres"] Left.
Proof.
  split; [do 15 right; left; reflexivity|]. apply (play_exec _ [false; true] _ _ []). reflexivity.
Qed.
(** An untidy program, rejected: the release is missing on one branch. *)
Example C70_untidy : ~ tidy (Init "arb" "b" ;; Maybe Leave ;; Clear "arb" "b").
Proof.
  intros T. assert (E : exec (Init "arb" "b" ;; Maybe Leave ;; Clear "arb" "b") [EInit "arb" "b"] Left).
  { apply (ex_seq _ _ [_] []); [constructor|]. apply ex_seq_stop; [|discriminate]. apply ex_left. constructor. }
  specialize (T _ _ E "b"). simpl in T. inversion T as [|k x us l U L' Q]. destruct us; simpl in *; discriminate.
Qed.
