(** Properties C54 and C55: loops that end; C49.  [arb_ok], [arb_conv] and [arb_rate]
    are the contracts of FLINT's balls; [dyops] is an implementation satisfying
    them. *)
Require Import Reals List ZArith Bool Lia Lra.
From Verif Require Import PolyR RootSpec RootModel ExtraModel Dyadic DyadicProofs ArbModel ArbSpec ArbProofs RefineProofs DyBall DyBallProofs
  ElemModel ElemSpec ElemProofs NfArith NfArithProofs ElemRefute GetdModel RateSpec DyRate EndsSpec EndsProofs EndsGetd RefineEnds EndsRefute EndsField EndsMain InitDefined.
Import ListNotations.
Open Scope R_scope.

(** C54: false for large enclosures.  The enclosure of the square root of 2 with
    centre 1.41421509 and radius 2.24996948 isolates it and is accepted, but
    with ball operations meeting the contracts its refinement never ends: the
    value at the middle is not told from zero at the precision used, and the
    bisection nevertheless reports success. *)
Theorem C54_refine_ends_refuted : exists pol a x, minimal pol x /\ inb x a /\ (forall y, inb y a -> zeval pol y = 0 -> y = x) /\
  forall debug fuel, (8 <= fuel)%nat -> check_unique dyops fuel pol a 64 = Val true /\ renf_init dyops debug fuel pol 1 a 64 = Fuel.
Proof. exact stuck_init. Qed.
Print Assumptions C54_refine_ends_refuted.

(** It holds for enclosures of at most a certain radius depending on the field:
    the refinement ends for every precision and yields an enclosure of the same
    root that is as sharp as asked for, unless one of the enclosures met on the
    way is so sharp that twice its accuracy in bits overflows a word. *)
Theorem C54_refine_ends_partial : forall o pol x, arb_ok o -> arb_rate o -> minimal pol x -> (3 <= length pol)%nat ->
  exists r0, 0 < r0 /\ forall debug nf prec, f_pol nf = pol -> inb x (f_emb nf) -> rad_le (f_emb nf) r0 -> (2 <= f_prec nf)%Z -> f_imm nf = 0%Z ->
  exists fuel0 r, (forall fuel, (fuel0 <= fuel)%nat -> refine o debug fuel nf prec = r) /\
    ((exists nf', r = Val nf' /\ inb x (f_emb nf') /\ rad_le (f_emb nf') r0 /\ (prec <= rel_accuracy (f_emb nf'))%Z) \/
     (r = Undef /\ word_overflow o pol (f_emb nf))).
Proof. exact refine_total. Qed.
Print Assumptions C54_refine_ends_partial.

(** The hypotheses can be met, for every radius. *)
Example C54_case : arb_ok dyops /\ arb_conv dyops /\ arb_rate dyops /\ exists z, minimal sq_pol z /\ (3 <= length sq_pol)%nat /\
  forall r0, 0 < r0 -> exists nf, f_pol nf = sq_pol /\ inb z (f_emb nf) /\ rad_le (f_emb nf) r0 /\ (2 <= f_prec nf)%Z /\ f_imm nf = 0%Z.
Proof.
  split; [exact dyops_ok|]. split; [exact dyops_conv|]. split; [exact dyops_rate|]. destruct sq_root as (z & Hz & E). exists z. split; [apply sq_minimal, E|].
  split; [cbn; lia|]. intros r0 H0. destruct (small_ball_exists z r0 H0) as (m & r & I & R).
  exists {| f_pol := sq_pol; f_den := 1; f_emb := Fin m r; f_prec := 64; f_imm := 0 |}%Z. cbn [f_pol f_emb f_prec f_imm]. repeat split; try assumption; lia.
Qed.

(** With [dyops] the enclosure 1.4142136 with radius 2^-20 is refined to 300 bits in a few steps. *)
Example C54_run : match refine dyops true 10 {| f_pol := sq_pol; f_den := 1; f_emb := Fin (1482910, -20) (1, -20); f_prec := 64; f_imm := 0 |}%Z 300 with
  Val nf => Z.leb 300 (rel_accuracy (f_emb nf)) | _ => false end = true.
Proof. vm_compute. reflexivity. Qed.

(** C49: false for balls centred at 0 ([C49_no_overflow_refuted]).  For polynomials whose
    constant coefficient is not 0, with any ball arithmetic whatsoever, creating a field is
    undefined only if twice the accuracy of an enclosure met on the way overflows a word or
    that enclosure has no point; otherwise it aborts only for a rejected ball. *)
Theorem C49_defined_partial : forall o debug fuel pol den a prec, hd 0%Z pol <> 0%Z -> (2 <= prec)%Z ->
  (renf_init o debug fuel pol den a prec = Undef -> overflow_or_empty o pol a) /\
  (renf_init o debug fuel pol den a prec = Abort -> check_unique o fuel pol a prec = Val false \/ overflow_or_empty o pol a).
Proof. exact init_defined. Qed.
Print Assumptions C49_defined_partial.

(** The ball of centre 1.4142136 and radius 2^-20 makes the field of the square root of 2; the same
    ball moved by one makes none. *)
Example C49_defined_case : hd 0%Z sq_pol <> 0%Z /\ (exists nf, renf_init dyops true 20 sq_pol 1 (Fin (1482910, -20) (1, -20))%Z 64 = Val nf) /\
  renf_init dyops true 20 sq_pol 1 (Fin (2531486, -20) (1, -20))%Z 64 = Abort.
Proof. split; [discriminate|]. split; [eexists|]; vm_compute; reflexivity. Qed.

(** C18, C21 and C23-C31: in every field the enclosures of at most a certain radius
    meet the hypothesis [setting] of their theorems, also when the polynomial has
    other real roots. *)
Theorem C18_small_partial : forall o n pol x, arb_ok o -> arb_rate o -> minimal pol x -> (3 <= length pol)%nat -> nf_ok pol x n ->
  exists r0, 0 < r0 /\ setting o n pol x (fun a => rad_le a r0).
Proof. exact small_setting. Qed.
Print Assumptions C18_small_partial.

(** C55: false as stated.  A field of degree two is made at the default precision of 64
    bits from a ball that isolates the root; the sign of a positive element, for which the
    field has to be refined once more, is never found. *)
Theorem C55_ends_refuted : exists pol a x l nf m, reached pol a x l nf m /\ 0 < ev x (r_elem (m 0%nat)) /\
  forall debug fuel, refine dyops debug fuel nf 128 = Fuel /\ sgn dyops debug fuel nf (m 0%nat) = Fuel.
Proof. exact sgn_endless. Qed.
Print Assumptions C55_ends_refuted.

(** Every sequence of calls on elements ends if the enclosure of the field is small enough, or
    more generally if the refinement of the field ends. *)
Theorem C55_history_partial : forall o n pol x, arb_ok o -> arb_conv o -> arb_rate o -> minimal pol x -> (3 <= length pol)%nat -> nf_ok pol x n ->
  exists r0, 0 < r0 /\ forall debug nf m l, field_ok pol x (fun a => rad_le a r0) nf -> mem_ok pol x m -> Forall (call_ok pol) l -> Forall modest l ->
  ends (fun fuel => runs o n debug fuel nf m l).
Proof. exact small_histories. Qed.
Print Assumptions C55_history_partial.

Theorem C55_history_if_partial : forall o n debug pol x N, arb_conv o -> setting o n pol x N -> refines_end o debug pol x N ->
  forall l nf m, field_ok pol x N nf -> mem_ok pol x m -> Forall (call_ok pol) l -> Forall modest l -> ends (fun fuel => runs o n debug fuel nf m l).
Proof. exact histories_end. Qed.
Print Assumptions C55_history_if_partial.

Theorem C55_get_d_partial : forall o n pol x, arb_ok o -> arb_conv o -> arb_rate o -> minimal pol x -> (3 <= length pol)%nat -> nf_ok pol x n ->
  exists r0, 0 < r0 /\ forall debug nf y md, field_ok pol x (fun a => rad_le a r0) nf -> elem_ok pol x y ->
  ends (fun fuel => get_d o n debug fuel nf y md).
Proof. exact small_get_d. Qed.
Print Assumptions C55_get_d_partial.

Example C55_case : exists z, nf_ok cube_pol z (nfc cube_pol) /\ minimal cube_pol z /\
  Forall (call_ok cube_pol) [KRefine 300; KEval 2 200; KSgn 2; KFloor 3; KGetArb 2 100]%Z /\ Forall modest [KRefine 300; KEval 2 200; KSgn 2; KFloor 3; KGetArb 2 100]%Z.
Proof.
  destruct cube_root as (z & Hz & E). exists z. split; [apply nfc_ok, cube_minimal, E|]. split; [apply cube_minimal, E|].
  split; repeat constructor; cbn; lia.
Qed.
