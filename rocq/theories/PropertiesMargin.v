(** C17, C18, C21, C23-C31, C54 and C55 below an explicit radius.  [margin] relates the
    radius to the polynomial and the root only, so that it is the same for every ball
    arithmetic that rounds like FLINT, i.e., that meets [arb_fl] and [arb_fine]. *)
Require Import Reals List ZArith Bool Lia Lra.
From Verif Require Import PolyR RootSpec RootModel ExtraModel Dyadic DyadicProofs ArbModel ArbSpec ArbProofs FieldProofs RefineProofs DyBall DyBallProofs DyRate
  ElemModel ElemSpec ElemProofs GetdModel RateSpec EndsSpec EndsRefute DefSpec CreateSpec FlSpec FlProofs FineSpec FineDy MarginMain.
Import ListNotations.
Open Scope R_scope.

(** C17: a ball of at most this radius with the root not too close to its ends is
    accepted, and the field made from it is that of the root and as sharp as asked for,
    unless an exponent of the refinement exceeds a machine word.  In full this holds for
    all balls with exactly one root. *)
Theorem C17_margin_partial : forall o pol x X r0, arb_ok o -> arb_fl o -> arb_fine o -> minimal pol x -> (3 <= length pol)%nat -> margin pol x X r0 ->
  forall debug den m r mu prec, enough pol x X r0 mu prec -> mu <= x - (dyv m - dyv r) -> mu <= dyv m + dyv r - x -> dyv r <= r0 ->
  (exists f0, forall fuel, (f0 <= fuel)%nat -> check_unique o fuel pol (Fin m r) prec = Val true) /\
  answers (fun fuel => renf_init o debug fuel pol den (Fin m r) prec) (embedded pol den x prec) (word_overflow o pol (Fin m r)).
Proof. exact margin_creates. Qed.
Print Assumptions C17_margin_partial.

(** C18, C21 and C23-C31: the enclosures of at most this radius meet the hypothesis
    [setting] of their theorems, also when the polynomial has other real roots. *)
Theorem C18_margin_partial : forall o n pol x X r0, arb_ok o -> arb_fl o -> arb_fine o -> minimal pol x -> (3 <= length pol)%nat -> nf_ok pol x n ->
  margin pol x X r0 -> setting o n pol x (fun a => rad_le a r0).
Proof. exact margin_sets. Qed.
Print Assumptions C18_margin_partial.

(** C54: such enclosures are refined to every precision, with the same exception. *)
Theorem C54_margin_partial : forall o pol x X r0, arb_ok o -> arb_fl o -> arb_fine o -> minimal pol x -> (3 <= length pol)%nat -> margin pol x X r0 ->
  forall debug nf prec, f_pol nf = pol -> inb x (f_emb nf) -> rad_le (f_emb nf) r0 -> (2 <= f_prec nf)%Z -> f_imm nf = 0%Z ->
  exists fuel0 r, (forall fuel, (fuel0 <= fuel)%nat -> refine o debug fuel nf prec = r) /\
    ((exists nf', r = Val nf' /\ inb x (f_emb nf') /\ rad_le (f_emb nf') r0 /\ (prec <= rel_accuracy (f_emb nf'))%Z) \/
     (r = Undef /\ word_overflow o pol (f_emb nf))).
Proof. exact margin_refines. Qed.
Print Assumptions C54_margin_partial.

(** C55: every sequence of calls on elements of such a field ends. *)
Theorem C55_margin_partial : forall o n pol x X r0, arb_ok o -> arb_conv o -> arb_fl o -> arb_fine o -> minimal pol x -> (3 <= length pol)%nat -> nf_ok pol x n ->
  margin pol x X r0 -> forall debug nf m l, field_ok pol x (fun a => rad_le a r0) nf -> mem_ok pol x m -> Forall (call_ok pol) l -> Forall modest l ->
  ends (fun fuel => runs o n debug fuel nf m l).
Proof. exact margin_ends. Qed.
Print Assumptions C55_margin_partial.

(** Every field of degree at least two has such a radius, and every distance enough bits. *)
Theorem C18_margin_exists_partial : forall pol x, minimal pol x -> (3 <= length pol)%nat -> exists X r0, margin pol x X r0 /\
  forall mu, 0 < mu -> exists P, forall prec, (P <= prec)%Z -> enough pol x X r0 mu prec.
Proof. exact margin_exists. Qed.
Print Assumptions C18_margin_exists_partial.

(** The contracts are met by [dyops].  For the square root of 2 the radius 2^-20
    suffices, and 64 bits suffice to test balls with the root 2^-22 away from the ends. *)
Example C18_margin_case : arb_ok dyops /\ arb_conv dyops /\ arb_fl dyops /\ arb_fine dyops /\
  exists z, minimal sq_pol z /\ (3 <= length sq_pol)%nat /\ margin sq_pol z (3 / 2) (/ IZR (2 ^ 20)) /\ enough sq_pol z (3 / 2) (/ IZR (2 ^ 20)) (/ IZR (2 ^ 22)) 64.
Proof.
  split; [exact dyops_ok|]. split; [exact dyops_conv|]. split; [exact dyops_fl|]. split; [exact dyops_fine|].
  destruct sq_margin as (z & Hz & E & M & En). exists z. split; [apply sq_minimal, E|]. split; [cbn; lia|]. split; [exact M|exact En].
Qed.

(** So the field of the square root of 2 is made from the ball of centre 1.4142132 and
    radius 2^-20 at 64 bits with every ball arithmetic that rounds like FLINT. *)
Example C17_margin_case : forall o debug, arb_ok o -> arb_fl o -> arb_fine o -> exists z, z * z = 2 /\
  answers (fun fuel => renf_init o debug fuel sq_pol 1 (Fin (1482910, -20) (1, -20))%Z 64) (embedded sq_pol 1 z 64) (word_overflow o sq_pol (Fin (1482910, -20) (1, -20))%Z).
Proof. exact sq_creates. Qed.
