(** C91: further loops over coefficients stay within arrays and words, and evaluation may
    overwrite its argument. *)
Require Import List ZArith Bool.
From Verif Require Import RootModel ExtraModel ExtraProofs PremProofs Dyadic ArbModel DyBall ArrModel IdxModel LoopModel LoopProofs.
Import ListNotations.
Open Scope Z_scope.

(** The test for a real root gives the answer of C09, whatever is behind the coefficients. *)
Theorem C91_has : forall num p r, Z.of_nat (length p) <= 2 ^ 60 -> has_idx num (p ++ r) (length p) = Val (has_real_root num p).
Proof. exact has_idx_ok. Qed.
Print Assumptions C91_has.

(** Sturm's count answers, as in C10, for every nonzero polynomial of length below 2^31: the
    int that counts does not overflow and all divisions are exact. *)
Theorem C91_sturm : forall prem, prem_ok prem -> forall fuel p, p <> [] -> Z.of_nat (length p) < 2 ^ 31 -> (length p < fuel)%nat ->
  exists t, num_real_roots_0_1_sturm prem fuel p = SDone t /\ sturm_idx prem fuel p = Val t.
Proof. exact sturm_idx_all. Qed.
Print Assumptions C91_sturm.

(** Evaluation writes the value at the old argument to the result and nothing else, also if
    the result is the argument. *)
Theorem C91_evaluate : forall o ri ai prec m a p r, (ri < length m)%nat -> rd m ai = Val a ->
  eval_idx o (p ++ r) (length p) ri ai prec m = wr m ri (eval_arb o p a prec).
Proof. exact eval_idx_ok. Qed.
Print Assumptions C91_evaluate.

(** The condition number is written if it is a word. *)
Theorem C91_cond : forall p r x prec, p <> [] -> cond_idx (p ++ r) (length p) x prec =
  Val (let e := cond_2exp p x prec in if (word_min <=? e) && (e <=? word_max) then Some e else None).
Proof. exact cond_idx_ok. Qed.
Print Assumptions C91_cond.

(** 1 - 3x + x^2 and x^4 + 1 with 77 behind; too few coefficients are undefined. *)
Example C91_has_case : has_idx (fun _ => 0) [1; -3; 1; 77] 3 = Val false /\ has_idx (fun p => Z.of_nat (length p)) [1; -3; 1; 77] 3 = Val true /\
  has_idx (fun _ => 0) [1; -1; 0; -1; 1; 77] 5 = Val false /\ has_idx (fun _ => 0) [1; 1; -1; 1; 1] 5 = Val false /\
  has_idx (fun _ => 0) [-1; 0; 1; 77] 3 = Val true /\ has_idx (fun _ => 0) [0; 1; 1] 3 = Val true /\ has_idx (fun _ => 0) [] 0 = Val true /\
  has_idx (fun _ => 0) [7] 1 = Val false /\ has_idx (fun _ => 0) [7; 1] 3 = Undef /\ has_idx (fun _ => 1) [1; 0; 0; 0; 1] 5 = Val true.
Proof. vm_compute. repeat split; reflexivity. Qed.

Example C91_sturm_case : prem_ok prem0 /\ sturm_idx prem0 10 [1; -3; 1] = Val 1 /\ sturm_idx prem0 10 [3; -16; 23; -6] = Val 2 /\
  sturm_idx prem0 10 [-2; 0; 1] = Val 1 /\ sturm_idx prem0 10 [] = Abort /\ sturm_idx prem0 1 [1; -3; 1] = Fuel /\ int (2 ^ 31) = Undef /\
  divexact 2 0 [3] = Undef /\ divexact 0 0 [0] = Undef.
Proof. split; [exact prem0_ok|]. vm_compute. repeat split; reflexivity. Qed.

(** x^2 - 2 at 3, into another place and in place; without the temporary ball the argument
    is lost. *)
Example C91_evaluate_case :
  eval_idx dyops [-2; 0; 1; 77] 3 0 1 53 [bint 5; bint 3; bint 6] = Val [bint 7; bint 3; bint 6] /\
  eval_idx dyops [-2; 0; 1; 77] 3 1 1 53 [bint 5; bint 3; bint 6] = Val [bint 5; bint 7; bint 6] /\
  eval_raw dyops [-2; 0; 1; 77] 3 1 1 53 [bint 5; bint 3; bint 6] = Val [bint 5; bint (-1); bint 6] /\
  eval_idx dyops [-2; 0] 3 0 1 53 [bint 5; bint 3] = Undef.
Proof. vm_compute. repeat split; reflexivity. Qed.

Example C91_cond_case : cond_idx [-2; 0; 1; 77] 3 (bint 3) 16 = Val (Some 4) /\ cond_2exp [-2; 0; 1] (bint 3) 16 = 4 /\
  cond_idx [0; 1] 2 (Fin (1, 2 ^ 64) (0, 2 ^ 64)) 16 = Val None /\ cond_idx [] 0 (bint 3) 16 = Undef /\ cond_idx [1] 2 (bint 3) 16 = Undef.
Proof. vm_compute. repeat split; reflexivity. Qed.
