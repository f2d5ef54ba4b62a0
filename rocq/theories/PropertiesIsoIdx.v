(** C90: isolation of real roots on words. *)
Require Import List ZArith.
From Verif Require Import RootSpec RootModel CountAll IsoWithin ArbModel ArrModel ArrSpec IdxModel IdxSpec IsoIdxModel IsoIdxProofs PropertiesArr PropertiesIdx.
Import ListNotations.
Open Scope Z_scope.

(** Whatever the function without words of C87 writes within 2^60 turns of each of the two
    loops, the function with 64-bit words writes: no sum leaves the words, no assertion
    fails, no index leaves the coefficients. *)
Theorem C90_words : forall flog0 fuel p s s', handy flog0 p -> Z.of_nat fuel <= 2 ^ 60 ->
  isolate_arr flog0 fuel p s = Val s' -> isolate_idx flog0 fuel p s = Val s'.
Proof. exact isolate_words. Qed.
Print Assumptions C90_words.

(** With arrays as long as the number that the function with words of C89 returns, the
    entries isolate all roots within the bounds (see C06). *)
Theorem C90_isolate : forall flog0 p n, handy flog0 p -> nonzero p -> simple_roots p reals -> upper_idx flog0 p = Val (Z.of_nat n) ->
  exists f0, forall fuel s, (f0 <= fuel)%nat -> Z.of_nat fuel <= 2 ^ 60 -> room n (a_ex s) ->
  (a_c s <> None -> a_k s <> None -> room n (a_c s) /\ room n (a_k s)) ->
  exists ex ints s', isolate_idx flog0 fuel p s = Val s' /\ filled ex ints s s' /\ isolates p (in_bounds flog0 p) ex ints.
Proof. exact isolate_words_all. Qed.
Print Assumptions C90_isolate.

(** The function for [0, 1): coefficients of any size. *)
Theorem C90_unit : forall fuel p s s', Z.of_nat fuel <= 2 ^ 60 -> vca_arr fuel 0 0 p s = Val s' -> vca_idx fuel 0 0 p s = Val s'.
Proof. exact vca_words. Qed.
Print Assumptions C90_unit.

(** The zero polynomial is refused. *)
Theorem C90_zero : forall flog0 fuel p s, Forall (fun a => a = 0) p -> isolate_idx flog0 fuel p s = Abort.
Proof. exact isolate_words_zero. Qed.
Print Assumptions C90_zero.

(** The polynomial of [C87_case], with and without arrays; arrays that are too short. *)
Example C90_case :
  isolate_idx 0 200 arr_pol {| a_ex := Some (repeat (7, 7) 6); a_c := Some (repeat 9 5); a_k := Some (repeat 8 4); a_nex := 5; a_nint := 6 |} =
    Val {| a_ex := Some [(-3, 1); (-1, 2); (-1, 1); (0, 0); (1, 1); (7, 7)]; a_c := Some [-4; -1; 0; 1; 9]; a_k := Some [1; 1; 1; 1]; a_nex := 5; a_nint := 4 |} /\
  isolate_idx 0 200 arr_pol {| a_ex := None; a_c := Some [9]; a_k := None; a_nex := 5; a_nint := 6 |} =
    Val {| a_ex := None; a_c := Some [9]; a_k := None; a_nex := 5; a_nint := 4 |} /\
  isolate_idx 0 200 arr_pol {| a_ex := Some (repeat (7, 7) 4); a_c := None; a_k := None; a_nex := 0; a_nint := 0 |} = Undef /\
  isolate_idx 0 200 arr_pol {| a_ex := None; a_c := Some (repeat 9 5); a_k := Some (repeat 8 3); a_nex := 0; a_nint := 0 |} = Undef /\
  upper_idx 0 arr_pol = Val 9.
Proof. vm_compute. auto. Qed.

Example C90_handy_case : handy 0 arr_pol.
Proof. split; [vm_compute; discriminate|]. split; [vm_compute; discriminate|]. repeat constructor; vm_compute; discriminate. Qed.

(** -x + x^3 meets the hypotheses of [C90_isolate]. *)
Example C90_isolate_case : handy 0 [0; -1; 0; 1] /\ nonzero [0; -1; 0; 1] /\ simple_roots [0; -1; 0; 1] reals /\ upper_idx 0 [0; -1; 0; 1] = Val (Z.of_nat 3).
Proof.
  split; [split; [vm_compute; discriminate|]; split; [vm_compute; discriminate|]; repeat constructor; vm_compute; discriminate|].
  destruct C87_isolate_case as [A [B _]]. split; [exact A|]. split; [exact B|]. vm_compute. reflexivity.
Qed.

(** The polynomial 3x - 1 on [0, 1). Words matter: with exponents at their end the next
    halving is undefined, and so is the exponent of a root at which nothing is left. *)
Example C90_unit_case :
  vca_idx 20 0 0 [-1; 3] {| a_ex := Some [(5, 0); (7, 7)]; a_c := Some [9]; a_k := Some [9]; a_nex := 1; a_nint := 0 |} =
    Val {| a_ex := Some [(5, 0); (7, 7)]; a_c := Some [0]; a_k := Some [0]; a_nex := 1; a_nint := 1 |} /\
  addk 1 0 [word_max] = Undef /\ addk (-1) 0 [word_max] = Val [word_max - 1] /\ shift_idx word_min (1, 0) = Undef /\
  vca_idx 20 0 0 [] {| a_ex := None; a_c := None; a_k := None; a_nex := 0; a_nint := 0 |} = Undef /\
  strip_idx 0 (-1) [0; 1] {| a_ex := Some [(7, 7)]; a_c := None; a_k := None; a_nex := 0; a_nint := 0 |} = Abort.
Proof. vm_compute. repeat split; reflexivity. Qed.
