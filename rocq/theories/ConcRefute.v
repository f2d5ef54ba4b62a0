(** Two threads on one element, and a field that is marked while assertions are
    compiled out. *)
Require Import List ZArith Bool Reals Lra Lia.
From Verif Require Import RootModel RootSpec ExtraModel Dyadic ArbModel ArbSpec ElemModel ElemSpec NfArith DyBall
  PolyR ConcModel ConcSpec EndsRefute NfArithProofs DyBallProofs ArbProofs ElemProofs ElemLoops ElemHist.
Import ListNotations.
Open Scope Z_scope.

(** The threads of a schedule, one after the other. *)
Fixpoint play {A} (l : list nat) (s : state A) : option (state A) :=
  match l with
  | [] => Some s
  | t :: l' =>
      let '(nf, m, ps) := s in
      match step1 nf m (ps t) with
      | Some (nf', m', p') => play l' (nf', m', fun u => if Nat.eqb u t then p' else ps u)
      | None => None
      end
  end.
Lemma play_steps {A} l : forall s s' : state A, play l s = Some s' -> steps s s'.
Proof.
  induction l as [|t l IH]; intros [[nf m] ps] s' E; cbn in E.
  - injection E as <-. constructor.
  - destruct (step1 nf m (ps t)) as [[[nf' m'] p']|] eqn:E1; [|discriminate].
    eapply steps_one; [exact E1|]. now apply IH.
Qed.

Definition sq : list Z := [-2; 0; 1].
(** The square root of 2 to 30 bits, marked; elements are computed with 8 bits. *)
Definition sq_field : renf :=
  {| f_pol := sq; f_den := 1; f_emb := Fin (1518500249, -30) (1, -30); f_prec := 8; f_imm := 1 |}.
Definition zeros : mem := fun _ => {| r_elem := {| e_num := []; e_den := 1 |}; r_emb := bzero |}.
Definition near : list call := [KSetPoly 0 [-577; 408] 1].
Definition near_mem : mem := match runs dyops (nfc sq) true 50 sq_field zeros near with Val (_, m) => m | _ => zeros end.
Definition both_sgn : pool (list ans) := fun _ => p_calls dyops (nfc sq) true 50 [KSgn 0].
(** Thread 0 has written the first of three enclosures when thread 1 looks. *)
Definition sched : list nat := repeat 0%nat 9 ++ repeat 1%nat 3.

Lemma near_run : exists nf, runs dyops (nfc sq) true 50 sq_field zeros near = Val (nf, near_mem) /\ nf = sq_field.
Proof. eexists. split; [reflexivity|reflexivity]. Qed.

Lemma sqrt2_near : (408 * sqrt 2 - 577 < 0)%R.
Proof.
  assert (H : (sqrt 2 * sqrt 2 = 2)%R) by (apply sqrt_sqrt; lra). pose proof (sqrt_pos 2).
  destruct (Rlt_le_dec (408 * sqrt 2 - 577) 0); [assumption|]. nra.
Qed.

Lemma sq_field_in : inb (sqrt 2) (f_emb sq_field).
Proof.
  assert (H : (sqrt 2 * sqrt 2 = 2)%R) by (apply sqrt_sqrt; lra). pose proof (sqrt_pos 2).
  unfold inb, sq_field, dyv. cbn [f_emb fst snd]. unfold pw2. cbn [powerRZ].
  replace (2 ^ Pos.to_nat 30)%R with 1073741824%R by (change (Pos.to_nat 30) with 30%nat; simpl; lra).
  apply Rabs_le. split.
  - destruct (Rle_lt_dec (- (1 * / 1073741824)) (sqrt 2 - 1518500249 * / 1073741824)); [assumption|]. nra.
  - destruct (Rle_lt_dec (sqrt 2 - 1518500249 * / 1073741824) (1 * / 1073741824)); [assumption|]. nra.
Qed.

(** One element shared by two threads that ask for its sign. *)
Lemma shared_wrong : exists pol x nf m nf' m' ps',
  minimal pol x /\ inb x (f_emb nf) /\ f_pol nf = pol /\ f_imm nf = 1 /\
  runs dyops (nfc pol) true 50 nf zeros near = Val (nf, m) /\
  (ev x (r_elem (m 0%nat)) < 0)%R /\
  (exists nf1 m1, calls dyops (nfc pol) true 50 nf m [KSgn 0] = Val (nf1, m1, [AInt (-1)])) /\
  steps (nf, m, fun _ => p_calls dyops (nfc pol) true 50 [KSgn 0]) (nf', m', ps') /\
  ps' 1%nat = Fin_ (Val [AInt 1]).
Proof.
  assert (C : match play sched (sq_field, near_mem, both_sgn) with
              | Some (_, _, ps) => match ps 1%nat with Fin_ (Val [AInt z]) => z =? 1 | _ => false end
              | None => false end = true) by (vm_compute; reflexivity).
  destruct (play sched (sq_field, near_mem, both_sgn)) as [[[nf' m'] ps']|] eqn:E; [|discriminate C].
  exists sq, (sqrt 2), sq_field, near_mem, nf', m', ps'.
  split; [apply sq_minimal; apply sqrt_sqrt; lra|].
  split; [apply sq_field_in|]. split; [reflexivity|]. split; [reflexivity|].
  split; [destruct near_run as (nf & H & ->); exact H|].
  split.
  { assert (V : r_elem (near_mem 0%nat) = {| e_num := [-577; 408]; e_den := 1 |}) by (vm_compute; reflexivity).
    rewrite V. unfold ev. cbn [e_num e_den]. unfold zeval. cbn. pose proof sqrt2_near. lra. }
  split.
  { assert (K : match calls dyops (nfc sq) true 50 sq_field near_mem [KSgn 0] with
                | Val (_, _, [AInt z]) => z =? -1 | _ => false end = true) by (vm_compute; reflexivity).
    destruct (calls dyops (nfc sq) true 50 sq_field near_mem [KSgn 0]) as [[[nf1 m1] [|[|z| |] [|]]]| | |]; try discriminate K.
    apply Z.eqb_eq in K. subst z. now exists nf1, m1. }
  split; [apply (play_steps sched), E|].
  destruct (ps' 1%nat) as [[[|[|z| |] [|]]| | |]| | | | | |]; try discriminate C.
  apply Z.eqb_eq in C. now subst z.
Qed.

(** Without assertions the mark does not keep a call from writing the field. *)
Definition sq_rough : renf := {| f_pol := sq; f_den := 1; f_emb := Fin (3, -1) (1, -2); f_prec := 8; f_imm := 1 |}.
Lemma unmarked : exists nf m nf' m',
  f_imm nf = 1 /\ run dyops (nfc sq) false 50 nf m (KSgn 0) = Val (nf', m') /\ f_emb nf' <> f_emb nf /\
  run dyops (nfc sq) true 50 nf m (KSgn 0) = Abort.
Proof.
  exists sq_rough, near_mem.
  assert (C : match run dyops (nfc sq) false 50 sq_rough near_mem (KSgn 0) with
              | Val (nf, _) => negb (bequal (f_emb nf) (f_emb sq_rough)) | _ => false end = true) by (vm_compute; reflexivity).
  destruct (run dyops (nfc sq) false 50 sq_rough near_mem (KSgn 0)) as [[nf' m']| | |]; try discriminate C.
  exists nf', m'. split; [reflexivity|]. split; [reflexivity|].
  split; [|vm_compute; reflexivity].
  intro E. rewrite E in C. discriminate.
Qed.

(** Two threads that share only an element they do not write: the generator. *)
Definition duo (t : nat) : list call :=
  match t with
  | O => [KMul 1 9 9; KSgn 1; KFloor 1]
  | S O => [KAdd 2 9 9; KSetZ 3 3; KCmp 2 3]
  | _ => []
  end%nat.
Definition duo_own (i : nat) : option nat := match i with 1 => Some 0 | 2 | 3 => Some 1 | _ => None end%nat.
Lemma duo_divided : forall t, divided duo_own t (duo t).
Proof.
  intros [|[|t]] k Hk; cbn in Hk;
    repeat (destruct Hk as [<- | Hk]); try contradiction; split; cbn; intros i Hi;
    repeat (destruct Hi as [<- | Hi]); try contradiction; auto.
Qed.
Fixpoint turns (k : nat) : list nat := match k with O => [] | S k' => 0%nat :: 1%nat :: turns k' end.
Definition duo_mem : mem := match runs dyops (nfc sq) true 50 sq_field zeros [KGen 9] with Val (_, m) => m | _ => zeros end.
Lemma duo_end : exists nf' m' ps', steps (sq_field, duo_mem, fun t => p_calls dyops (nfc sq) true 50 (duo t)) (nf', m', ps') /\
  ps' 0%nat = Fin_ (Val [ANone; AInt 1; AInt 2]) /\ ps' 1%nat = Fin_ (Val [ANone; ANone; AInt (-1)]).
Proof.
  set (s := (sq_field, duo_mem, fun t => p_calls dyops (nfc sq) true 50 (duo t))).
  assert (C : match play (turns 10 ++ repeat 1%nat 4) s with
              | Some (_, _, ps) =>
                  match ps 0%nat, ps 1%nat with
                  | Fin_ (Val [ANone; AInt a; AInt b]), Fin_ (Val [ANone; ANone; AInt c]) => (a =? 1) && (b =? 2) && (c =? -1)
                  | _, _ => false
                  end
              | None => false end = true) by (vm_compute; reflexivity).
  destruct (play (turns 10 ++ repeat 1%nat 4) s) as [[[nf' m'] ps']|] eqn:E; [|discriminate C].
  exists nf', m', ps'. split; [exact (play_steps _ _ _ E)|]. clear E.
  destruct (ps' 0%nat) as [[[|[| | |] [|[|a| |] [|[|b| |] [|]]]]| | |]| | | | | |]; try discriminate C.
  destruct (ps' 1%nat) as [[[|[| | |] [|[| | |] [|[|c| |] [|]]]]| | |]| | | | | |]; try discriminate C.
  apply andb_true_iff in C. destruct C as [C C3]. apply andb_true_iff in C. destruct C as [C1 C2].
  apply Z.eqb_eq in C1, C2, C3. now subst.
Qed.

Lemma sq_min : minimal sq (sqrt 2).
Proof. apply sq_minimal; apply sqrt_sqrt; lra. Qed.
Lemma sq_nf : nf_ok sq (sqrt 2) (nfc sq).
Proof. apply nfc_ok. exact sq_min. Qed.
Lemma duo_mem_ok : mem_ok sq (sqrt 2) duo_mem.
Proof.
  assert (Z : mem_ok sq (sqrt 2) zeros).
  { intros i. split; [exact (canon_zero sq (sqrt 2) sq_min)|]. unfold zeros, ev. cbn [r_elem r_emb e_num e_den]. rewrite zeval_nil. unfold Rdiv. rewrite Rmult_0_l. apply inb_zero. }
  assert (R : runs dyops (nfc sq) true 50 sq_field zeros [KGen 9] = Val (sq_field, duo_mem)) by reflexivity.
  assert (G : good sq (sqrt 2) (fun nf => f_imm nf <> 0) sq_field).
  { split; [reflexivity|]. split; [exact sq_field_in|]. split; [discriminate|discriminate]. }
  apply (runs_ok dyops (nfc sq) true sq (sqrt 2) _ dyops_ok sq_min sq_nf (marked_keeps dyops sq (sqrt 2)) _ _ _ _ _ _ G Z) in R; [apply R|].
  repeat constructor.
Qed.
Lemma duo_legal : forall t, Forall (call_ok sq) (duo t) /\ Forall (sound_call sq) (duo t).
Proof. intros [|[|t]]; split; repeat constructor. Qed.
