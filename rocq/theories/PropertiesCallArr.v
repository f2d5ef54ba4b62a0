(** Property C88: the arrays that the callers of root isolation allocate. *)
Require Import List ZArith Bool.
From Verif Require Import RootSpec RootModel ExtraModel ArbModel DyBall EmbModel ToolsModel ToolsSpec ToolsRand ArrModel ArrSpec CallArrModel CallArrProofs.
Import ListNotations.
Open Scope Z_scope.

(** All embeddings: whatever uninitialized memory holds, no array is left, the fields go to
    the first entries of the array of the caller if that has room for them, and the other
    entries stay.  This is for every polynomial on which the isolation returns. *)
Theorem C88_embeddings : forall flog0 junk je ji o debug fuel p ex ints lim prec slots, nonzero p -> isolate flog0 fuel p = VDone ex ints ->
  (Nat.min (Z.to_nat lim) (length ints) <= length slots)%nat ->
  set_embeddings_arr o debug flog0 junk je ji fuel p lim prec slots =
  bind (set_embeddings o debug flog0 fuel p lim prec) (fun '(fs, n) => Val (fill (map Some fs) slots, n)).
Proof. exact call_embeddings. Qed.
Print Assumptions C88_embeddings.

(** The room is needed. *)
Theorem C88_short : forall flog0 junk je ji o debug fuel p lim prec slots fs n, nonzero p -> set_embeddings o debug flog0 fuel p lim prec = Val (fs, n) ->
  (length slots < length fs)%nat -> set_embeddings_arr o debug flog0 junk je ji fuel p lim prec slots = Undef.
Proof. exact call_short. Qed.
Print Assumptions C88_short.

(** Random fields: arrays of the length of the polynomial are enough. *)
Theorem C88_random : forall flog0 junk je ji has ds p, Forall draw_ok ds -> rand_pol has ds = Val p -> exists f0, forall o debug fuel pick len prec, (f0 <= fuel)%nat ->
  randtest_arr o debug flog0 junk je ji has fuel ds pick len prec = randtest o debug flog0 has fuel ds pick len prec.
Proof. exact call_random. Qed.
Print Assumptions C88_random.

Theorem C88_length : forall flog0 fuel p ex ints, nonzero p -> isolate flog0 fuel p = VDone ex ints -> (length ints < length p)%nat.
Proof. exact ints_lt_length. Qed.
Print Assumptions C88_length.

(** Counting without arrays. *)
Theorem C88_count : forall flog0 fuel p n, num_real_roots_vca flog0 fuel p = Some n -> num_real_roots_vca_arr flog0 fuel p = Val n.
Proof. exact call_count. Qed.
Print Assumptions C88_count.

(** The zero polynomial is refused. *)
Theorem C88_zero : forall flog0 junk je ji o debug fuel p lim prec slots, Forall (fun a => a = 0) p ->
  set_embeddings_arr o debug flog0 junk je ji fuel p lim prec slots = Abort /\ num_real_roots_vca_arr flog0 fuel p = Abort.
Proof. exact call_zero. Qed.
Print Assumptions C88_zero.

(** x^4 - 10 x^2 + 1 has four roots: with five entries the last one stays as it is, with
    a limit of two only two are written, and three entries are not enough. *)
Definition call_junk (i : nat) : Z := Z.of_nat i + 77.
Definition call_gives (lim : Z) (slots : nat) : option (list bool * Z) :=
  match set_embeddings_arr dyops true 0 call_junk 5 6 500 [1; 0; -10; 0; 1] lim 64 (repeat None slots) with
  | Val (l, n) => Some (map (fun a => match a with Some _ => true | None => false end) l, n)
  | _ => None
  end.
Example C88_case : call_gives 5 5 = Some ([true; true; true; true; false], 4) /\ call_gives 2 3 = Some ([true; true; false], 4) /\
  call_gives (-1) 1 = Some ([false], 4) /\
  set_embeddings_arr dyops true 0 call_junk 5 6 500 [1; 0; -10; 0; 1] 5 64 (repeat None 3) = Undef /\
  isolate 0 500 [1; 0; -10; 0; 1] = VDone [] [(-2, 1); (-1, 1); (0, 1); (1, 1)] /\
  num_real_roots_vca_arr 0 500 [1; 0; -10; 0; 1] = Val 4%nat /\ num_real_roots_vca 0 500 [1; 0; -10; 0; 1] = Some 4%nat.
Proof. vm_compute. repeat split; reflexivity. Qed.

(** A rational root that is found exactly is refused. *)
Example C88_rational_case : set_embeddings_arr dyops true 0 call_junk 0 0 500 [0; -2; 0; 1] 5 64 (repeat None 3) = Abort /\ isolate 0 500 [0; -2; 0; 1] = VDone [(0, 0)] [(-1, 1); (0, 1)].
Proof. vm_compute. split; reflexivity. Qed.

Definition rand_gives : bool :=
  match randtest_arr dyops true 0 call_junk 5 6 (has_real_root (fun _ => 0)) 100 [draw_2] 7 3 64 with Val _ => true | _ => false end.
Example C88_random_case : draw_ok draw_2 /\ rand_pol (has_real_root (fun _ => 0)) [draw_2] = Val [-1; 1; 1] /\ rand_gives = true.
Proof. split; [exact draw_2_ok|]. split; [reflexivity|]. vm_compute. reflexivity. Qed.
