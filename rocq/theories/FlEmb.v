(** The embeddings of C50 that are rejected, for every ball arithmetic that works
    like FLINT's. *)
Require Import Reals List ZArith Bool Lia Lra.
From Verif Require Import PolyR RootSpec RootModel ExtraModel Dyadic DyadicProofs VcaProofs ArbModel ArbSpec ArbProofs EmbModel EmbProofs FlSpec FlProofs.
Import ListNotations.
Open Scope R_scope.

(** A midpoint that is zero after rounding. *)
Lemma zero_mid : forall o, arb_fl o -> forall p d prec, (2 <= prec)%Z -> msgn (h_eval p (bexact d) prec) = 0%Z -> is_finite (h_eval p (bexact d) prec) = true ->
  sgn2 (eval_arb o p (bexact d) prec) = 0%Z.
Proof.
  intros o Hf p d prec Hp M F. pose proof (eval_below o Hf p _ _ prec Hp (exact_below d)) as B.
  destruct (h_eval p (bexact d) prec) as [n s|]; [|discriminate F]. destruct (eval_arb o p (bexact d) prec) as [m r|]; [|contradiction B].
  destruct B as (E & R0 & _). cbn [msgn] in M. apply dsgn_val in E. rewrite M in E.
  unfold sgn2, contains_zero. replace (dleb (dabs m) r) with true; [reflexivity|]. symmetry. apply dleb_spec.
  replace (dyv (dabs m)) with 0; [exact R0|]. unfold dabs, dyv, dsgn in *. destruct m as [m e]. cbn [fst snd] in *.
  rewrite (proj1 (Z.sgn_null_iff m) E). cbn. ring.
Qed.

Lemma close_rejected : forall o, arb_fl o -> forall debug, set_embeddings o debug 0 900 close_pol 3 64 = Abort.
Proof.
  intros o Hf debug. unfold set_embeddings.
  replace (num_real_roots_upper_bound 0 close_pol) with (CVal 3) by (vm_compute; reflexivity).
  replace (isolate 0 900 close_pol) with (VDone [] [(0, -60); (1, -60); (1, 120)]%Z) by (vm_compute; reflexivity).
  cbv iota zeta. change (firstn (Z.to_nat 3) [(0, -60); (1, -60); (1, 120)]%Z) with [(0, -60); (1, -60); (1, 120)]%Z.
  cbn [embed_all]. unfold renf_init.
  replace (check_unique o 900 close_pol (embed_ball 64 (0, -60)%Z) 64) with (Val false); [reflexivity|]. symmetry.
  unfold check_unique, close_pol. change (64 <? 2)%Z with false.
  change (interval (embed_ball 64 (0, -60)%Z) 64) with (Some ((0, -61), (2, -61)))%Z. cbv iota zeta. fold close_pol. change (2 * 64)%Z with 128%Z.
  rewrite (zero_mid o Hf close_pol (2, -61)%Z 128 ltac:(lia) ltac:(vm_compute; reflexivity) ltac:(vm_compute; reflexivity)).
  rewrite Z.mul_0_r. reflexivity.
Qed.

Lemma embeddings_every : exists p fuel, (forall n d, (0 < d)%Z -> Z.gcd n d = 1%Z -> zeval p (IZR n / IZR d) <> 0) /\
  length p = 4%nat /\ (exists ints, isolate 0 fuel p = VDone [] ints /\ length ints = 3%nat) /\
  forall o, arb_fl o -> forall debug, set_embeddings o debug 0 fuel p 3 64 = Abort.
Proof.
  exists close_pol, 900%nat. split; [exact close_irrational|]. split; [reflexivity|].
  split; [eexists; split; vm_compute; reflexivity|]. exact close_rejected.
Qed.
