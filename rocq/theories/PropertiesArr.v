(** Property C87: the arrays and counters of the isolation of real roots.  [isolate] and
    [vca] give the exact roots and intervals as lists (RootModel.v, C02 and C06). *)
Require Import Reals List ZArith Bool Lia.
From Verif Require Import RootSpec RootModel ArbModel IsoWithin CountAll ArrModel ArrSpec ArrProofs PropertiesMore.
Import ListNotations.
Open Scope Z_scope.

(** C87: what is found is written to the first entries and nowhere else, whether the arrays
    are there or not; they need as many entries as the counters say at the end. *)
Theorem C87_arrays : forall flog0 fuel pol ex ints, isolate flog0 fuel pol = VDone ex ints -> forall s,
  room (length ex) (a_ex s) -> (a_c s <> None -> a_k s <> None -> room (length ints) (a_c s) /\ room (length ints) (a_k s)) ->
  exists s', isolate_arr flog0 fuel pol s = Val s' /\ filled ex ints s s'.
Proof. exact arrays_filled. Qed.
Print Assumptions C87_arrays.

(** Arrays as long as the bound of C07 are long enough; then the call returns, and the
    entries isolate all roots within the bounds (see C06). *)
Theorem C87_isolate : forall flog0 p n, nonzero p -> simple_roots p reals -> num_real_roots_upper_bound flog0 p = CVal n ->
  exists f0, forall fuel s, (f0 <= fuel)%nat -> room n (a_ex s) -> (a_c s <> None -> a_k s <> None -> room n (a_c s) /\ room n (a_k s)) ->
  exists ex ints s', isolate_arr flog0 fuel p s = Val s' /\ filled ex ints s s' /\ isolates p (in_bounds flog0 p) ex ints.
Proof. exact arrays_isolate. Qed.
Print Assumptions C87_isolate.

(** Without arrays the roots are counted, whatever the counters were before. *)
Theorem C87_null : forall flog0 p, nonzero p -> simple_roots p reals -> exists f0, forall fuel e i, (f0 <= fuel)%nat ->
  exists s' l, isolate_arr flog0 fuel p {| a_ex := None; a_c := None; a_k := None; a_nex := e; a_nint := i |} = Val s' /\
  root_list p (in_bounds flog0 p) l /\ (a_nex s' + a_nint s')%nat = length l.
Proof. exact arrays_null. Qed.
Print Assumptions C87_null.

(** The function for [0, 1) appends to what is there. *)
Theorem C87_append : forall fuel p ex ints, vca fuel p [] [] = VDone ex ints -> forall s0 e w s,
  filled e w s0 s -> room (length (e ++ ex)) (a_ex s0) ->
  (a_c s0 <> None -> a_k s0 <> None -> room (length (w ++ ints)) (a_c s0) /\ room (length (w ++ ints)) (a_k s0)) ->
  exists s', vca_arr fuel 0 0 p s = Val s' /\ filled (e ++ ex) (w ++ ints) s0 s'.
Proof. exact arrays_append. Qed.
Print Assumptions C87_append.

(** The zero polynomial is refused. *)
Theorem C87_zero : forall flog0 fuel pol s, Forall (fun a => a = 0) pol -> isolate_arr flog0 fuel pol s = Abort.
Proof. exact arrays_zero. Qed.
Print Assumptions C87_zero.

(** x (x+1) (x+2) (x+4) (x+6) (x+7) (x-1) (x-2) (x-3): three negative exact roots and two
    intervals of each sign; the entries behind and the counters before do not matter.
    Without k_array nothing is written to c_array. *)
Definition arr_pol : list Z := [0; -2016; -456; 2692; 626; -715; -184; 38; 14; 1].
Example C87_case :
  isolate_arr 0 200 arr_pol {| a_ex := Some (repeat (7, 7) 6); a_c := Some (repeat 9 5); a_k := Some (repeat 8 4); a_nex := 5; a_nint := 6 |} =
    Val {| a_ex := Some [(-3, 1); (-1, 2); (-1, 1); (0, 0); (1, 1); (7, 7)]; a_c := Some [-4; -1; 0; 1; 9]; a_k := Some [1; 1; 1; 1]; a_nex := 5; a_nint := 4 |} /\
  isolate_arr 0 200 arr_pol {| a_ex := None; a_c := Some [9]; a_k := None; a_nex := 5; a_nint := 6 |} =
    Val {| a_ex := None; a_c := Some [9]; a_k := None; a_nex := 5; a_nint := 4 |} /\
  isolate 0 200 arr_pol = VDone [(-3, 1); (-1, 2); (-1, 1); (0, 0); (1, 1)] [(-4, 1); (-1, 1); (0, 1); (1, 1)] /\
  num_real_roots_upper_bound 0 arr_pol = CVal 9.
Proof. vm_compute. auto. Qed.

(** With too little room it writes behind the array. *)
Example C87_room_case :
  isolate_arr 0 200 arr_pol {| a_ex := Some (repeat (7, 7) 4); a_c := None; a_k := None; a_nex := 0; a_nint := 0 |} = Undef /\
  isolate_arr 0 200 arr_pol {| a_ex := None; a_c := Some (repeat 9 5); a_k := Some (repeat 8 3); a_nex := 0; a_nint := 0 |} = Undef.
Proof. vm_compute. auto. Qed.

(** -x + x^3 meets the hypotheses of [C87_isolate] and [C87_null]. *)
Example C87_isolate_case : nonzero [0; -1; 0; 1] /\ simple_roots [0; -1; 0; 1] reals /\ num_real_roots_upper_bound 0 [0; -1; 0; 1] = CVal 3.
Proof. destruct C06_count_case as [A [B _]]. split; [exact A|]. split; [exact B|reflexivity]. Qed.

(** Appending to arrays that hold one exact root and no interval: 3x - 1. *)
Example C87_append_case : vca 20 [-1; 3] [] [] = VDone [] [(0, 0)] /\
  filled [(5, 0)] [] {| a_ex := Some [(7, 7); (7, 7)]; a_c := Some [9]; a_k := Some [9]; a_nex := 0; a_nint := 0 |}
    {| a_ex := Some [(5, 0); (7, 7)]; a_c := Some [9]; a_k := Some [9]; a_nex := 1; a_nint := 0 |} /\
  vca_arr 20 0 0 [-1; 3] {| a_ex := Some [(5, 0); (7, 7)]; a_c := Some [9]; a_k := Some [9]; a_nex := 1; a_nint := 0 |} =
    Val {| a_ex := Some [(5, 0); (7, 7)]; a_c := Some [0]; a_k := Some [0]; a_nex := 1; a_nint := 1 |}.
Proof. split; [reflexivity|]. split; [|reflexivity]. unfold filled. cbn. intuition discriminate. Qed.
