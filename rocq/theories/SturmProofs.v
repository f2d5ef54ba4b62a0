(** The polynomials of num_real_roots_0_1_sturm.c are a Sturm sequence. *)
Require Import Reals List ZArith Bool Lia Lra.
From Verif Require Import PolyR RootModel RootSpec ExtraModel ExtraProofs SquarefreeProofs PremProofs SturmSpec Sturm.
Import ListNotations.
Open Scope R_scope.

Lemma eval_hd : forall p, zeval p 0 = IZR (hd 0%Z p).
Proof. intros [|a p]; [reflexivity|]. rewrite zeval_cons. cbn [hd]. ring. Qed.

Lemma eval_at_one : forall p, zeval p 1 = IZR (at_one p).
Proof. induction p as [|a p IH]; [reflexivity|]. rewrite zeval_cons, IH. unfold at_one. cbn [fold_right]. rewrite plus_IZR. ring. Qed.

Lemma zeval_opp : forall p x, zeval (map Z.opp p) x = - zeval p x.
Proof. intros p x. induction p as [|a p IH]; cbn [map]; [unfold zeval; cbn; ring|]. rewrite !zeval_cons, IH, opp_IZR. ring. Qed.

Lemma last_opp : forall p, last p 0%Z <> 0%Z -> last (map Z.opp p) 0%Z <> 0%Z.
Proof.
  induction p as [|a [|b p] IH]; intros H; [exact H|cbn in *; lia|].
  change (last (map Z.opp (b :: p)) 0%Z <> 0%Z). apply IH. exact H.
Qed.

(** The remainder made primitive is a positive multiple of the negative remainder. *)
Lemma next_entry : forall prem, prem_ok prem -> forall p0 p1, last p1 0%Z <> 0%Z -> (length p1 <= length p0)%nat ->
  forall r d, prem p0 p1 = (r, d) ->
  let r1 := if (d mod 2 =? 0)%Z || (Z.sgn (last p1 0%Z) =? 1)%Z then map Z.opp r else r in
  let r2 := if (content r1 =? 1)%Z then r1 else div_content (content r1) r1 in
  (length r2 < length p1)%nat /\ (r2 = [] \/ last r2 0%Z <> 0%Z) /\
  exists u w q, 0 < u /\ 0 < w /\ forall x, u * zeval p0 x = peval q x * zeval p1 x - w * zeval r2 x.
Proof.
  intros prem HP p0 p1 L1 Ln r d E. specialize (HP p0 p1 L1 Ln). rewrite E in HP. destruct HP as (Hd & Lr & Nr & q & Hq).
  intros r1 r2. set (b := last p1 0%Z) in *.
  assert (H1 : length r1 = length r /\ (r1 = [] \/ last r1 0%Z <> 0%Z) /\
    exists u q, 0 < u /\ forall x, u * zeval p0 x = peval q x * zeval p1 x - zeval r1 x).
  { unfold r1. destruct ((d mod 2 =? 0)%Z || (Z.sgn b =? 1)%Z) eqn:C.
    - split; [apply map_length|]. split; [destruct Nr as [->|Nr]; [left; reflexivity|right; apply last_opp, Nr]|].
      exists (IZR (b ^ d)), q. split; [|intros x; rewrite Hq, zeval_opp; ring]. apply IZR_lt.
      apply orb_true_iff in C. destruct C as [C|C]; apply Z.eqb_eq in C.
      + apply Z.mod_divide in C; [|lia]. destruct C as (k & ->). rewrite Z.mul_comm, Z.pow_mul_r by lia. apply Z.pow_pos_nonneg; [|lia]. nia.
      + apply Z.pow_pos_nonneg; [|exact Hd]. destruct b; cbn in C; lia.
    - split; [reflexivity|]. split; [exact Nr|]. exists (- IZR (b ^ d)), (pscal (-1) q). split; [|intros x; rewrite peval_pscal; specialize (Hq x); lra].
      apply orb_false_iff in C. destruct C as [C1 C2]. apply Z.eqb_neq in C1, C2. assert (Hb : (b < 0)%Z) by (destruct b; cbn in C2; lia).
      rewrite <- opp_IZR. apply IZR_lt. assert (M : (d mod 2 = 1)%Z) by (pose proof (Z.mod_pos_bound d 2 ltac:(lia)); lia).
      assert (Dd : (d = 2 * (d / 2) + 1)%Z) by (rewrite (Z.div_mod d 2) at 1 by lia; lia).
      assert (Hk : (0 <= d / 2)%Z) by (apply Z.div_pos; lia).
      rewrite Dd, Z.pow_add_r, Z.pow_1_r, Z.pow_mul_r by lia. assert (0 < (b ^ 2) ^ (d / 2))%Z by (apply Z.pow_pos_nonneg; nia). nia. }
  destruct H1 as (Lr1 & Nr1 & u & q1 & Hu & Hq1).
  unfold r2. destruct (Z.eqb_spec (content r1) 1) as [C|C].
  - split; [lia|]. split; [exact Nr1|]. exists u, 1, q1. split; [exact Hu|]. split; [lra|]. intros x. rewrite Hq1. ring.
  - split; [unfold div_content; rewrite map_length; lia|]. destruct Nr1 as [N|N].
    { rewrite N in *. split; [left; reflexivity|]. exists u, 1, q1. split; [exact Hu|]. split; [lra|]. intros x. rewrite Hq1. unfold div_content. cbn [map]. ring. }
    set (c := content r1) in *. assert (Hc : (0 < c)%Z).
    { pose proof (content_nonneg r1). assert (c <> 0)%Z; [|unfold c in *; lia]. intros W. apply N.
      destruct r1 as [|y r']; [reflexivity|]. apply (content_zero (y :: r')); [exact W|].
      clear. revert y. induction r' as [|z r' IH]; intros y; [left; reflexivity|]. right. apply IH. }
    assert (Ev : forall x, zeval r1 x = IZR c * zeval (div_content c r1) x).
    { intros x. assert (D : forall a, In a r1 -> (c | a)%Z) by (intros a; apply content_divides). clearbody c. clear - D Hc.
      unfold div_content. induction r1 as [|a r1 IH]; cbn [map]; [unfold zeval; cbn; ring|].
      rewrite !zeval_cons, IH by (intros y Hy; apply D; right; exact Hy).
      destruct (D a (or_introl eq_refl)) as (k & ->). rewrite Z.div_mul, mult_IZR by lia. ring. }
    split.
    + right. intros W. apply N. assert (D : forall a, In a r1 -> (c | a)%Z) by (intros a; apply content_divides). clearbody c. clear - W D Hc.
      unfold div_content in W. induction r1 as [|a [|y r1] IH]; [reflexivity| |].
      * cbn [map last] in *. destruct (D a (or_introl eq_refl)) as (k & ->). rewrite Z.div_mul in W by lia. subst k. reflexivity.
      * change (last (y :: r1) 0%Z = 0%Z). apply IH; [exact W|]. intros z Hz. apply D. right. exact Hz.
    + exists u, (IZR c), q1. split; [exact Hu|]. split; [apply IZR_lt, Hc|]. intros x. rewrite Hq1, Ev. reflexivity.
Qed.

Lemma remainders_chain : forall a b l, remainders a b l -> (forall x, unit_cc x -> zeval a x = 0 -> zeval b x <> 0) -> chain (a :: b :: l).
Proof.
  intros a b l H. induction H as [a b u q Hu Hq|a b c u w q l Hu Hw Nc Lc Hq HR IH]; intros N.
  - split; [|exact I]. intros x Hx W. apply (N x Hx); [|exact W]. specialize (Hq x). rewrite W in Hq. nra.
  - assert (Za : forall x, unit_cc x -> zeval b x = 0 -> zeval a x <> 0) by (intros x Hx B A; exact (N x Hx A B)).
    split.
    + apply IH. intros x Hx B C. apply (Za x Hx B). specialize (Hq x). rewrite B, C in Hq. nra.
    + intros x Hx B. specialize (Hq x). specialize (Za x Hx B). rewrite B in Hq.
      assert (Q : u * (zeval a x * zeval c x) = - w * (zeval c x * zeval c x)) by (transitivity ((u * zeval a x) * zeval c x); [ring|rewrite Hq; ring]).
      assert (C : zeval c x <> 0) by (intros C; rewrite C in Hq; nra).
      assert (0 < zeval c x * zeval c x) by (destruct (Rdichotomy _ _ C); nra). nra.
Qed.
