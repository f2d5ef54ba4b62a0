(** The wrong refinement of C16, seen through an operator with a number on the left. *)
Require Import Reals List ZArith Bool Lia Lra.
From Verif Require Import PolyR RootSpec RootModel ExtraModel VcaProofs Dyadic DyadicProofs ArbModel ArbSpec ArbProofs
  FieldProofs RefineProofs ArbRefute DyBall DyBallProofs ElemModel ElemSpec ElemProofs ElemLoops ElemHist NfArith NfArithProofs ElemMore ElemRefute
  CxxModel CxxSpec CxxProofs CxxSound CxxRefute CxxOpModel CxxOpSpec.
Import ListNotations.
Open Scope R_scope.

Definition kprog : list xcall := [XRefine 1 128; XGen 0 1]%Z.
Lemma left_refuted : exists pol x w l w' w'' b s, fresh pol x w /\ Forall xcall_ok l /\ scal_ok s /\
  xruns dyops nfc true 100 false w l = Val w' /\ rel_left dyops nfc true 100 RGt w' s 0 = Val (Ret (w'', b)) /\
  ~ (b = true <-> scal_val s > value x w' 0).
Proof.
  destruct jroot as (x & Hx & Zx). pose proof jbad_eq as Jb.
  destruct (renf_init dyops true 100 jpol 1 jball 64) as [nf| | |] eqn:In; cbn [bind] in Jb; try discriminate Jb.
  pose (w := {| w_fields := fun f => if Nat.eqb f 1 then nf else one_nf; w_objs := fun _ => zero_in 0 |}).
  pose (w1 := set_field w 1 jbad). pose (xs := fun f : nat => if Nat.eqb f 1 then x else 1).
  assert (R1 : xruns dyops nfc true 100 false w kprog = xruns dyops nfc true 100 false w1 (tl kprog)).
  { unfold kprog. cbn [tl]. cbn [xruns xrun]. change (w_fields w 1%nat) with nf. rewrite Jb. reflexivity. }
  pose (s := SMpq (20 * jG + 7) 20).
  pose (look := fun r => match r with
    | Val v => match rel_left dyops nfc true 100 RGt v s 0 with
      | Val (Ret (_, b)) => Some (fld v 0, num_of v 0, b) | _ => None end
    | _ => None end).
  assert (L : look (xruns dyops nfc true 100 false w1 (tl kprog)) = Some (1%nat, jg, true)) by calc.
  rewrite <- R1 in L. destruct (xruns dyops nfc true 100 false w kprog) as [w'| | |] eqn:Run; try discriminate L. unfold look in L.
  destruct (rel_left dyops nfc true 100 RGt w' s 0) as [[[w'' b]|]| | |] eqn:Rl; try discriminate L.
  injection L as F0 N0 ->.
  exists jpols, xs, w, kprog, w', w'', true, s. split; [|split; [|split; [|split; [exact Run|split; [exact Rl|]]]]].
  - split; [|reflexivity]. intros f. unfold jpols, xs, w. cbn [w_fields]. destruct (Nat.eqb f 1).
    + split; [apply jminimal; exact Zx|]. exists jball. split; [apply jin; pose proof jtiny; lra|].
      split; [apply junique; [lra|exact Zx]|exact In].
    + split; [exact one_minimal|]. eexists. split; [exact one_in|]. split; [intros z _; apply one_root|exact one_init].
  - unfold kprog. repeat constructor.
  - split; [lia|]. vm_compute. reflexivity.
  - unfold value. rewrite F0, N0. cbn [xs Nat.eqb s scal_val]. rewrite jg_val, plus_IZR, mult_IZR. intros [H _]. specialize (H eq_refl). lra.
Qed.
