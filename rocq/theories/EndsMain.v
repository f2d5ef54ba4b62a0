(** Calls on fields with small enclosures end. *)
Require Import Reals List ZArith Bool Lia Lra.
From Verif Require Import RootSpec ExtraModel Dyadic ArbModel ArbSpec RefineProofs
  ElemModel ElemSpec ElemProofs GetdModel RateSpec EndsSpec EndsProofs EndsGetd RefineEnds.
Open Scope R_scope.

Lemma refine_total : forall o pol x, arb_ok o -> arb_rate o -> minimal pol x -> (3 <= length pol)%nat ->
  exists r0, 0 < r0 /\ forall debug nf prec, f_pol nf = pol -> inb x (f_emb nf) -> rad_le (f_emb nf) r0 -> (2 <= f_prec nf)%Z -> f_imm nf = 0%Z ->
  exists fuel0 r, (forall fuel, (fuel0 <= fuel)%nat -> refine o debug fuel nf prec = r) /\
    ((exists nf', r = Val nf' /\ inb x (f_emb nf') /\ rad_le (f_emb nf') r0 /\ (prec <= rel_accuracy (f_emb nf'))%Z) \/
     (r = Undef /\ word_overflow o pol (f_emb nf))).
Proof.
  intros o pol x Ho Hrt Hm Hdeg. destruct (small_balls o pol x Ho Hrt Hm Hdeg) as (r0 & R0 & Hs & H). exists r0. split; [exact R0|].
  intros debug nf prec Hpol Hx Hr Hp Hi. destruct (H debug) as [He Hd].
  destruct (He nf prec) as (f0 & r & Nf & E); [repeat split; assumption|]. exists f0, r. split; [exact E|].
  specialize (E f0 (Nat.le_refl _)). destruct (Hd f0 nf prec Hpol Hx Hr Hi) as [A B]. rewrite E in A, B.
  destruct r as [nf'| | |]; [left|right|contradiction|contradiction].
  - exists nf'. split; [reflexivity|]. destruct (refine_spec o Ho pol x _ Hs (minimal_simple pol x Hm) debug f0 nf prec nf' Hpol Hx Hr E) as (I & R & P & _).
    split; [exact I|]. split; [exact R|exact P].
  - split; [reflexivity|]. apply B. reflexivity.
Qed.

Lemma histories_end : forall o n debug pol x N, arb_conv o -> setting o n pol x N -> refines_end o debug pol x N ->
  forall l nf m, field_ok pol x N nf -> mem_ok pol x m -> Forall (call_ok pol) l -> Forall modest l -> ends (fun fuel => runs o n debug fuel nf m l).
Proof.
  intros o n debug pol x N Hc [Ho Hm Hn HN] Hr l nf m Hg Hmem Hl Hml. apply (runs_end o n debug pol x N); assumption.
Qed.

Lemma small_histories : forall o n pol x, arb_ok o -> arb_conv o -> arb_rate o -> minimal pol x -> (3 <= length pol)%nat -> nf_ok pol x n ->
  exists r0, 0 < r0 /\ forall debug nf m l, field_ok pol x (fun a => rad_le a r0) nf -> mem_ok pol x m -> Forall (call_ok pol) l -> Forall modest l ->
  ends (fun fuel => runs o n debug fuel nf m l).
Proof.
  intros o n pol x Ho Hc Hrt Hm Hdeg Hn. destruct (small_balls o pol x Ho Hrt Hm Hdeg) as (r0 & R0 & Hs & H). exists r0. split; [exact R0|].
  intros debug nf m l Hg Hmem Hl Hml. apply (histories_end o n debug pol x (small r0)); try assumption; [constructor; assumption|apply H].
Qed.

Lemma small_get_d : forall o n pol x, arb_ok o -> arb_conv o -> arb_rate o -> minimal pol x -> (3 <= length pol)%nat -> nf_ok pol x n ->
  exists r0, 0 < r0 /\ forall debug nf y md, field_ok pol x (fun a => rad_le a r0) nf -> elem_ok pol x y ->
  ends (fun fuel => get_d o n debug fuel nf y md).
Proof.
  intros o n pol x Ho Hc Hrt Hm Hdeg Hn. destruct (small_balls o pol x Ho Hrt Hm Hdeg) as (r0 & R0 & Hs & H). exists r0. split; [exact R0|].
  intros debug nf y md Hg Hy. apply (get_d_ends o n debug pol x (small r0)); try assumption; apply H.
Qed.

Lemma small_setting : forall o n pol x, arb_ok o -> arb_rate o -> minimal pol x -> (3 <= length pol)%nat -> nf_ok pol x n ->
  exists r0, 0 < r0 /\ setting o n pol x (fun a => rad_le a r0).
Proof.
  intros o n pol x Ho Hrt Hm Hdeg Hn. destruct (small_balls o pol x Ho Hrt Hm Hdeg) as (r0 & R0 & Hs & _). exists r0. split; [exact R0|].
  constructor; assumption.
Qed.
