(** Proofs about CfracModel.v. *)
Require Import Reals List ZArith Bool Lia.
From Verif Require Import PolyR RootSpec RootModel ExtraModel Dyadic ArbModel ArbSpec ElemModel ElemSpec ElemProofs ElemMore ArrModel CfracModel.
Import ListNotations.
Open Scope Z_scope.

Section Cfrac.
Variable o : arbops.
Variable n : nfops.
Variable debug : bool.

Lemma loop_length : forall fuel k nf y nf' cs w, cfrac_loop o n debug fuel nf y k = Val (nf', cs, w) -> (length cs <= k)%nat.
Proof.
  induction k as [|k IH]; intros nf y nf' cs w E; cbn in E; [injection E as _ <- _; cbn; lia|].
  destruct (floor o debug fuel nf y) as [[[nf1 eb] c]| | |]; cbn in E; try discriminate.
  match type of E with (if ?b then _ else _) = _ => destruct b end; [injection E as _ <- _; cbn; lia|].
  match type of E with bind ?v _ = _ => destruct v as [[[nf2 cs2] r2]| | |] eqn:E2 end; cbn in E; try discriminate.
  injection E as _ <- _. apply IH in E2. cbn. lia.
Qed.

Lemma rd_wr_same : forall (c : list Z) i z, (i < length c)%nat -> wr c i z = Val (firstn i c ++ z :: skipn (S i) c) /\
  rd (firstn i c ++ z :: skipn (S i) c) i = Val z /\ length (firstn i c ++ z :: skipn (S i) c) = length c.
Proof.
  intros c i z H. unfold wr, rd. split; [|split].
  - apply Nat.ltb_lt in H. rewrite H. reflexivity.
  - rewrite nth_error_app2; rewrite firstn_length_le by lia; [|lia]. rewrite Nat.sub_diag. reflexivity.
  - rewrite app_length, firstn_length_le by lia. cbn [length]. rewrite skipn_length. lia.
Qed.

Lemma put_next : forall (c : list Z) i z cs, (i < length c)%nat ->
  firstn (S i) (firstn i c ++ z :: skipn (S i) c) ++ cs ++ skipn (S i + length cs) (firstn i c ++ z :: skipn (S i) c) =
  firstn i c ++ (z :: cs) ++ skipn (i + length (z :: cs)) c.
Proof.
  intros c i z cs H. assert (L : length (firstn i c) = i) by (apply firstn_length_le; lia).
  rewrite firstn_app, L, (firstn_all2 (firstn i c)) by lia. replace (S i - i)%nat with 1%nat by lia. cbn [firstn].
  rewrite skipn_app, L, (skipn_all2 (firstn i c)) by lia. replace (S i + length cs - i)%nat with (S (length cs)) by lia.
  cbn [skipn app length]. rewrite <- app_assoc. cbn [app]. do 3 f_equal.
  clear. revert c cs. induction i as [|i IH]; intros [|a c] cs; cbn; rewrite ?skipn_nil; try reflexivity. apply (IH c cs).
Qed.

Lemma from_list : forall fuel k i nf y c, (i + k <= length c)%nat ->
  cfrac_from o n debug fuel k i nf y c =
  bind (cfrac_loop o n debug fuel nf y k) (fun '(nf, cs, w) =>
    Val (nf, firstn i c ++ cs ++ skipn (i + length cs) c, Z.of_nat (i + length cs), w)).
Proof.
  induction k as [|k IH]; intros i nf y c H.
  - cbn. rewrite Nat.add_0_r, firstn_skipn. reflexivity.
  - cbn [cfrac_from cfrac_loop]. destruct (floor o debug fuel nf y) as [[[nf1 eb] z]| | |]; try reflexivity. cbn [bind].
    destruct (rd_wr_same c i z ltac:(lia)) as (W & R & L). rewrite W. cbn [bind]. rewrite R. cbn [bind].
    cbv zeta. match goal with |- (if ?b then _ else _) = _ => destruct b end.
    + cbn [bind length]. do 2 f_equal. f_equal; [|lia]. rewrite Nat.add_1_r. cbn [app]. reflexivity.
    + rewrite IH by lia.
      match goal with |- bind ?v _ = _ => destruct v as [[[nf2 cs] w]| | |] end; try reflexivity. cbn [bind].
      rewrite put_next by lia. cbn [length]. rewrite Nat.add_succ_r. reflexivity.
Qed.

Lemma array_list : forall fuel nf y num c, 0 <= num -> num <= Z.of_nat (length c) ->
  cfrac_arr o n debug fuel nf y num c =
  bind (cfrac o n debug fuel nf y (Z.to_nat num)) (fun '(nf, cs, w) => Val (nf, cs ++ skipn (length cs) c, Z.of_nat (length cs), w)).
Proof.
  intros fuel nf y num c H0 H. unfold cfrac_arr, cfrac. destruct (is_zero (r_elem y)); [reflexivity|].
  apply Z.ltb_ge in H0. rewrite H0. apply Z.ltb_ge in H0. rewrite from_list by lia. reflexivity.
Qed.

Lemma cfrac_length : forall fuel k nf y nf' cs w, cfrac o n debug fuel nf y k = Val (nf', cs, w) -> (length cs <= k)%nat.
Proof.
  intros fuel k nf y nf' cs w E. unfold cfrac in E. destruct (is_zero _); [injection E as _ <- _; cbn; lia|]. exact (loop_length _ _ _ _ _ _ _ E).
Qed.

Lemma array_inside : forall fuel nf y num c, 0 <= num -> num <= Z.of_nat (length c) ->
  match cfrac_arr o n debug fuel nf y num c with
  | Val (_, c', r, _) => exists cs, 0 <= r <= num /\ Z.of_nat (length cs) = r /\ c' = cs ++ skipn (length cs) c /\ length c' = length c /\
      exists nf' w, cfrac o n debug fuel nf y (Z.to_nat num) = Val (nf', cs, w)
  | Undef => cfrac o n debug fuel nf y (Z.to_nat num) = Undef
  | Abort => cfrac o n debug fuel nf y (Z.to_nat num) = Abort
  | Fuel => cfrac o n debug fuel nf y (Z.to_nat num) = Fuel
  end.
Proof.
  intros fuel nf y num c H0 H. rewrite array_list by assumption.
  destruct (cfrac o n debug fuel nf y (Z.to_nat num)) as [[[nf' cs] w]| | |] eqn:E; cbn; try reflexivity.
  pose proof (cfrac_length _ _ _ _ _ _ _ E). exists cs. split; [lia|]. split; [reflexivity|]. split; [reflexivity|].
  split; [rewrite app_length, skipn_length; lia|]. exists nf', w. reflexivity.
Qed.

Lemma array_negative : forall fuel nf y num c, num < 0 ->
  cfrac_arr o n debug fuel nf y num c = Val (nf, c, if is_zero (r_elem y) then 0 else num, y).
Proof.
  intros fuel nf y num c H. unfold cfrac_arr. destruct (is_zero _); [reflexivity|]. apply Z.ltb_lt in H. rewrite H. reflexivity.
Qed.

(** Too short an array. *)
Lemma from_short : forall fuel k i nf y c nf' cs w, cfrac_loop o n debug fuel nf y k = Val (nf', cs, w) ->
  (i <= length c < i + length cs)%nat -> cfrac_from o n debug fuel k i nf y c = Undef.
Proof.
  induction k as [|k IH]; intros i nf y c nf' cs w E H; cbn [cfrac_from cfrac_loop] in *; [injection E as _ <- _; cbn in H; lia|].
  destruct (floor o debug fuel nf y) as [[[nf1 eb] z]| | |]; try discriminate. cbn [bind] in *.
  destruct (Nat.ltb_spec i (length c)) as [Hi|Hi].
  - destruct (rd_wr_same c i z Hi) as (W & R & L). rewrite W. cbn [bind]. rewrite R. cbn [bind]. cbv zeta in *.
    match goal with |- (if ?b then _ else _) = _ => destruct b end; [injection E as _ <- _; cbn in H; lia|].
    match type of E with bind ?v _ = _ => destruct v as [[[nf2 cs2] r2]| | |] eqn:E2 end; try discriminate. cbn in E. injection E as _ <- _.
    apply (IH _ _ _ _ _ _ _ E2). rewrite L. cbn in H. lia.
  - unfold wr. apply Nat.ltb_ge in Hi. rewrite Hi. reflexivity.
Qed.

Lemma array_short : forall fuel nf y num c nf' cs w, 0 <= num -> cfrac o n debug fuel nf y (Z.to_nat num) = Val (nf', cs, w) ->
  (length c < length cs)%nat -> cfrac_arr o n debug fuel nf y num c = Undef.
Proof.
  intros fuel nf y num c nf' cs w H0 E H. unfold cfrac_arr, cfrac in *. destruct (is_zero _); [injection E as _ <- _; cbn in H; lia|].
  apply Z.ltb_ge in H0. rewrite H0. apply (from_short _ _ _ _ _ _ _ _ _ E). lia.
Qed.
End Cfrac.

Lemma array_values : forall o n debug pol x N, setting o n pol x N ->
  forall fuel nf y num c nf' c' r w, field_ok pol x N nf -> elem_ok pol x y -> 0 <= num -> num <= Z.of_nat (length c) ->
  cfrac_arr o n debug fuel nf y num c = Val (nf', c', r, w) ->
  0 <= r <= num /\ cf (ev x (r_elem y)) (firstn (Z.to_nat r) c') (ev x (r_elem w)) /\
  skipn (Z.to_nat r) c' = skipn (Z.to_nat r) c /\ length c' = length c /\ (r = num \/ ev x (r_elem w) = 0%R).
Proof.
  intros o n debug pol x N S fuel nf y num c nf' c' r w G Gy H0 H E. rewrite array_list in E by assumption.
  destruct (cfrac o n debug fuel nf y (Z.to_nat num)) as [[[nf1 cs] w1]| | |] eqn:E1; cbn in E; try discriminate. injection E as <- <- <- <-.
  pose proof (cfrac_length _ _ _ _ _ _ _ _ _ _ E1) as L. destruct (cfrac_right o n debug pol x N S _ _ _ _ _ _ _ G Gy E1) as (C & _ & D).
  rewrite Nat2Z.id. rewrite firstn_app, Nat.sub_diag, firstn_all, skipn_app, Nat.sub_diag, skipn_all. cbn [firstn skipn app]. rewrite app_nil_r.
  split; [lia|]. split; [exact C|]. split; [reflexivity|]. split; [rewrite app_length, skipn_length; lia|].
  destruct D as [D|[_ D]]; [left; lia|right; exact D].
Qed.
