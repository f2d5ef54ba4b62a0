(** A pseudo-division that meets the contract [prem_ok] used for the Sturm count. *)
Require Import Reals List ZArith Lia Lra Bool.
From Verif Require Import PolyR RootModel RootSpec VcaTerm VcaProofs ExtraModel ExtraProofs SquarefreeProofs.
Import ListNotations.
Open Scope R_scope.

(** Leading coefficient first; subtract a times the divisor from b times the dividend. *)
Fixpoint sub_head (b a : Z) (ar br : list Z) {struct br} : list Z :=
  match br with
  | [] => map (Z.mul b) ar
  | y :: br' => match ar with [] => [] | x :: ar' => (b * x - a * y)%Z :: sub_head b a ar' br' end
  end.
Fixpoint prem_go (n : nat) (b : Z) (br A : list Z) : list Z * Z :=
  match n with
  | O => (A, 0%Z)
  | S n' => match A with
            | [] => ([], 0%Z)
            | a :: ar => let '(r, d) := prem_go n' b br (sub_head b a ar br) in (r, d + 1)%Z
            end
  end.
Definition prem0 (A B : list Z) : list Z * Z :=
  match rev B with
  | [] => ([], 0%Z)
  | b :: br => let '(r, d) := prem_go (S (length A) - length B) b br (rev A) in (normal (rev r), d)
  end.

Lemma sub_head_length : forall br ar b a, (length br <= length ar)%nat -> length (sub_head b a ar br) = length ar.
Proof.
  induction br as [|y br IH]; intros ar b a H; cbn [sub_head]; [apply map_length|].
  destruct ar as [|x ar]; [simpl in H; lia|]. simpl. rewrite IH by (simpl in H; lia). reflexivity.
Qed.

Lemma zeval_app1 : forall p a x, zeval (p ++ [a]) x = zeval p x + x ^ length p * IZR a.
Proof. intros. unfold zeval. rewrite map_app, peval_app, map_length. simpl. ring. Qed.

Lemma sub_head_eval : forall br ar b a x, (length br <= length ar)%nat ->
  zeval (rev (sub_head b a ar br)) x = IZR b * zeval (rev ar) x - IZR a * x ^ (length ar - length br) * zeval (rev br) x.
Proof.
  induction br as [|y br IH]; intros ar b a x H; cbn [sub_head].
  - simpl (rev []). unfold zeval at 3. simpl (peval _ _). rewrite Rmult_0_r, Rminus_0_r.
    rewrite <- map_rev. generalize (rev ar). induction l as [|c l IHl]; [unfold zeval; simpl; ring|].
    cbn [map]. rewrite !zeval_cons, IHl, mult_IZR. ring.
  - destruct ar as [|z ar]; [simpl in H; lia|]. cbn [rev length] in *.
    rewrite !zeval_app1, !rev_length, sub_head_length, IH by lia. rewrite minus_IZR, !mult_IZR.
    simpl (S (length ar) - S (length br))%nat.
    replace (x ^ length ar) with (x ^ (length ar - length br) * x ^ length br); [ring|].
    rewrite <- pow_add. f_equal. lia.
Qed.

Lemma prem_go_spec : forall n b br A, (length A = n + length br)%nat ->
  let '(r, d) := prem_go n b br A in
  length r = length br /\ (0 <= d)%Z /\
  exists q : list R, forall x, IZR (b ^ d) * zeval (rev A) x = peval q x * zeval (rev (b :: br)) x + zeval (rev r) x.
Proof.
  induction n as [|n IH]; intros b br A HA; cbn [prem_go].
  - split; [simpl in HA; lia|]. split; [lia|]. exists []. intros x. rewrite Z.pow_0_r. simpl. ring.
  - destruct A as [|a ar]; [simpl in HA; lia|].
    assert (Hl : (length br <= length ar)%nat) by (simpl in HA; lia).
    specialize (IH b br (sub_head b a ar br)). rewrite sub_head_length in IH by exact Hl.
    destruct (prem_go n b br (sub_head b a ar br)) as [r d].
    destruct IH as (Hr & Hd & q & Hq); [simpl in HA; lia|].
    split; [exact Hr|]. split; [lia|].
    destruct (linprod_list (repeat 0 (length ar - length br))) as [L HL].
    exists (padd q (pscal (IZR (a * b ^ d)) L)). intros x.
    rewrite peval_padd, peval_pscal, HL, linprod_repeat, Rminus_0_r.
    rewrite Rmult_plus_distr_r, Rplus_assoc, (Rplus_comm _ (zeval (rev r) x)), <- Rplus_assoc.
    assert (Hq' : peval q x * zeval (rev (b :: br)) x + zeval (rev r) x = IZR (b ^ d) * zeval (rev (sub_head b a ar br)) x)
      by (symmetry; apply Hq).
    rewrite Hq', sub_head_eval by exact Hl. cbn [rev]. rewrite !zeval_app1, !rev_length.
    rewrite Z.pow_add_r, Z.pow_1_r, !mult_IZR by lia.
    replace (x ^ length ar) with (x ^ (length ar - length br) * x ^ length br); [ring|].
    rewrite <- pow_add. f_equal. lia.
Qed.

Lemma normal_length : forall p, (length (normal p) <= length p)%nat.
Proof.
  induction p as [|a q IH]; [simpl; lia|]. cbn [normal]. destruct (normal q) as [|b r]; [destruct (a =? 0)%Z|]; simpl in *; lia.
Qed.
Lemma normal_last : forall p, normal p = [] \/ last (normal p) 0%Z <> 0%Z.
Proof.
  induction p as [|a q IH]; [left; reflexivity|]. cbn [normal]. destruct (normal q) as [|b r] eqn:E.
  - destruct (Z.eqb_spec a 0) as [H|H]; [left; reflexivity|right; exact H].
  - right. destruct IH as [IH|IH]; [discriminate|exact IH].
Qed.

Lemma prem0_ok : prem_ok prem0.
Proof.
  intros A B HB HL. unfold prem0.
  destruct (rev B) as [|b br] eqn:E.
  { apply (f_equal (@rev Z)) in E. rewrite rev_involutive in E. subst B. simpl in HB. congruence. }
  assert (EB : B = rev (b :: br)) by (rewrite <- E, rev_involutive; reflexivity).
  assert (Elen : length B = S (length br)) by (rewrite EB, rev_length; reflexivity).
  assert (Elast : last B 0%Z = b) by (rewrite EB; cbn [rev]; apply last_last).
  pose proof (prem_go_spec (S (length A) - length B) b br (rev A)) as H.
  destruct (prem_go (S (length A) - length B) b br (rev A)) as [r d].
  destruct H as (Hr & Hd & q & Hq); [rewrite rev_length; lia|].
  split; [exact Hd|]. split.
  { pose proof (normal_length (rev r)). rewrite rev_length in H. lia. }
  split; [apply normal_last|].
  exists q. intros x. rewrite normal_eval, Elast. rewrite rev_involutive, <- EB in Hq. apply Hq.
Qed.
