(** C61: copies of fields. *)
Require Import Reals List ZArith Bool Lia Lra.
From Verif Require Import PolyR RootSpec RootModel Dyadic ArbModel ArbSpec FieldProofs RefineProofs DyBall DyBallProofs ElemModel ElemSpec NfArith NfArithProofs
  ElemMore ElemExact ElemRefute ElemEdge EndsSpec DefSpec CopyProofs.
Import ListNotations.
Open Scope R_scope.

(** A copy works like the unmarked source, whatever the mark of the source. *)
Theorem C61_same_results : forall o n debug fuel nf m l, f_imm nf = 0%Z ->
  forall i, runs o n debug fuel (renf_init_set (marked i nf)) m l = runs o n debug fuel nf m l.
Proof. exact copy_like. Qed.
Print Assumptions C61_same_results.

(** The marked source itself aborts in builds with assertions. *)
Example C61_same_results_case : sure (runs dyops (nfc cube_pol) true 100 (fst cube_state) (snd cube_state) [KRefine 300]%Z) (fun _ => true) = true /\
  f_imm (fst cube_state) = 0%Z /\
  runs dyops (nfc cube_pol) true 100 (marked 1 (fst cube_state)) (snd cube_state) [KRefine 300]%Z = Abort.
Proof. vm_compute. auto. Qed.

(** False as stated: a field made at the default precision and its copy are unequal
    after a refinement of the source (which has left the root, see C18). *)
Theorem C61_equal_refuted : exists pol a x nf m nf' m', reached pol a x [] nf m /\ reached pol a x [KRefine 128]%Z nf' m' /\
  renf_equal nf' (renf_init_set nf) = false.
Proof. exact copy_unequal. Qed.
Print Assumptions C61_equal_refuted.

(** Source and copy compare equal, also after programs on both.  In full this holds
    without the hypothesis [setting] on the enclosures (see C18). *)
Theorem C61_equal_partial : forall o n debug pol x N, setting o n pol x N ->
  forall fuel1 fuel2 l1 l2 nf m1 m2 nf1 nf2 m1' m2', field_ok pol x N nf -> mem_ok pol x m1 -> mem_ok pol x m2 ->
  Forall (call_ok pol) l1 -> Forall (call_ok pol) l2 ->
  runs o n debug fuel1 nf m1 l1 = Val (nf1, m1') -> runs o n debug fuel2 (renf_init_set nf) m2 l2 = Val (nf2, m2') ->
  renf_equal nf1 nf2 = true.
Proof. exact copy_equal. Qed.
Print Assumptions C61_equal_partial.

Example C61_equal_case :
  sure (runs dyops (nfc cube_pol) true 100 (fst cube_state) (snd cube_state) [KRefine 300]%Z) (fun '(nf1, _) =>
    sure (runs dyops (nfc cube_pol) true 100 (renf_init_set (fst cube_state)) mem0 [KGen 0; KSgn 0]%Z) (fun '(nf2, _) =>
      Z.leb 300 (rel_accuracy (f_emb nf1)) && Z.ltb (rel_accuracy (f_emb nf2)) 300 && renf_equal nf1 nf2)) = true.
Proof. vm_compute. reflexivity. Qed.

(** Programs on a copy return with exact results, for fields with small enclosures,
    marked or not.  In full this holds for all enclosures (see C56). *)
Theorem C61_programs_partial : forall o n pol x, library o n pol x -> exists r0, 0 < r0 /\ forall debug nf,
  field_ok pol x (fun a => rad_le a r0) nf -> pw2 (2 - f_prec nf) <= Rabs x ^ (length pol - 2) ->
  forall m l, mem_ok pol x m -> Forall (call_ok pol) l -> Forall (sound_call pol) l -> Forall modest l -> legal pol x (values x m) l ->
  answers (fun fuel => runs o n debug fuel (renf_init_set nf) m l)
    (fun '(nf', m') => ready pol x r0 nf' /\ mem_ok pol x m' /\ effects x (values x m) l (values x m')) (word_overflow o pol (f_emb nf)).
Proof. exact copy_answers. Qed.
Print Assumptions C61_programs_partial.
