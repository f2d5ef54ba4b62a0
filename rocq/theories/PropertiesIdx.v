(** Property C89: the loops over coefficients stay within the arrays and the words. *)
Require Import List ZArith Bool Reals.
From Verif Require Import PolyR RootSpec RootModel ExtraModel IsoWithin ArbModel ArrModel IdxModel IdxSpec IdxProofs IdxBound IdxUpper.
Import ListNotations.
Open Scope Z_scope.

(** The Descartes test reads nothing but its [length p] coefficients and the entries of its
    own array, and counts as in C01; without coefficients it reads in front of them. *)
Theorem C89_descartes : forall p rest bound, desc_idx (p ++ rest) (length p) bound =
  match descartes01 p bound with DCount v => Val (Some v) | DTooMany => Val None | DUndef => Undef end.
Proof. exact desc_idx_ok. Qed.
Print Assumptions C89_descartes.

(** A count is not mistaken for WORD_MAX. *)
Theorem C89_marks : forall p bound v, descartes01 p bound = DCount v -> (v <= length p)%nat.
Proof. exact descartes_le. Qed.
Print Assumptions C89_marks.

(** The root bound of C05: no sum leaves the words, the assertion holds, WORD_MIN is
    returned if there is no bound and only then. *)
Theorem C89_bound : forall flog0 p rest, handy flog0 p -> p <> [] ->
  bound_idx flog0 (p ++ rest) (length p) = Val (match root_bound flog0 p with None => word_min | Some k => k end) /\
  forall k, root_bound flog0 p = Some k -> Z.abs k <= 2 ^ 62.
Proof. exact bound_idx_ok. Qed.
Print Assumptions C89_bound.

(** The bound of C07 on the number of real roots. *)
Theorem C89_upper : forall flog0 p, handy flog0 p -> nonzero p ->
  exists n, num_real_roots_upper_bound flog0 p = CVal n /\ upper_idx flog0 p = Val (Z.of_nat n).
Proof. exact upper_idx_ok. Qed.
Print Assumptions C89_upper.

(** The substitution of C11 changes the first [length p] entries only. *)
Theorem C89_scale : forall p rest a b, scale_idx (p ++ rest) (length p) a b = Val (scale_0_1 p a b ++ rest).
Proof. exact scale_idx_ok. Qed.
Print Assumptions C89_scale.

(** (2x - 1)(3x - 1)(x - 3): two roots in (0, 1).  With bound 1 the test gives up. *)
Example C89_case : desc_idx [-3; 16; -23; 6; 77] 4 3 = Val (Some 2%nat) /\ descartes01 [-3; 16; -23; 6] 3 = DCount 2 /\
  desc_idx [-3; 16; -23; 6; 77] 4 1 = Val None /\ desc_idx [] 0 1 = Undef /\ desc_idx [-3; 16; -23] 4 3 = Undef /\
  bound_idx 0 [-3; 16; -23; 6; 77] 4 = Val 4 /\ bound_idx 0 [3; 16; 0; 6] 4 = Val word_min /\
  upper_idx 0 [0; 0; -3; 16; -23; 6] = Val 5 /\ upper_idx 0 [0; 0] = Abort /\
  scale_idx [-3; 16; -23; 6; 77] 4 (1, 3) (1, 1) = Val [0; 4; -17; 4; 77].
Proof. vm_compute. repeat split; reflexivity. Qed.

Example C89_handy_case : handy 0 [0; 0; -3; 16; -23; 6] /\ nonzero [0; 0; -3; 16; -23; 6].
Proof.
  split.
  - split; [vm_compute; discriminate|]. split; [vm_compute; discriminate|]. repeat constructor; vm_compute; discriminate.
  - intros F. inversion_clear F as [|? ? _ F']. inversion_clear F' as [|? ? _ F]. inversion_clear F as [|? ? E _]. discriminate.
Qed.

(** Words matter: with another value of flog(0) the sums overflow. *)
Example C89_overflow_case : bound_idx (- 2 ^ 63) [-1; 0; 1] 3 = Undef /\ bound_idx (- 2 ^ 60) [-1; 0; 1] 3 = Val 1.
Proof. vm_compute. split; reflexivity. Qed.
