(** Loops with indices, words and places, see PropertiesLoop.v. *)
Require Import List ZArith Bool Arith Lia.
From Verif Require Import RootModel ExtraModel ExtraProofs PremProofs SturmProofs Dyadic ArbModel ArrModel ArrProofs IdxModel IdxBound LoopModel.
Import ListNotations.
Open Scope Z_scope.

(** * Sign changes *)
Lemma slong_count : forall z, 0 <= z <= 2 ^ 60 -> slong z = Val z.
Proof. intros z H. apply slong_ok. change (2 ^ 60) with 1152921504606846976 in H. change (2 ^ 63) with 9223372036854775808. lia. Qed.

Lemma changes_ok : forall l u r s n, 0 <= n -> n + Z.of_nat (length l) <= 2 ^ 60 ->
  changes_idx false (length l) (length u) (u ++ l ++ r) s n = Val (sign_changes s n l).
Proof.
  induction l as [|a l IH]; intros u r s n N L; [reflexivity|]. cbn [length changes_idx app sign_changes]. rewrite rd_mid. cbn [bind andb].
  assert (E : forall s n, 0 <= n -> n + Z.of_nat (length l) <= 2 ^ 60 -> changes_idx false (length l) (S (length u)) (u ++ a :: l ++ r) s n = Val (sign_changes s n l)).
  { intros s' n' N' L'. specialize (IH (u ++ [a]) r s' n' N' L'). rewrite app_length, Nat.add_1_r, <- app_assoc in IH. exact IH. }
  cbn [length] in L. destruct (a =? 0); [apply E; lia|]. destruct (Z.sgn a =? s); [apply E; lia|]. rewrite slong_count by lia. cbn [bind]. apply E; lia.
Qed.
Lemma changes_alt_ok : forall l u r s n, 0 <= n -> n + Z.of_nat (length l) <= 2 ^ 60 ->
  changes_idx true (length l) (length u) (u ++ l ++ r) s n = Val (sign_changes_alt (Nat.odd (length u)) s n l).
Proof.
  induction l as [|a l IH]; intros u r s n N L; [reflexivity|]. cbn [length changes_idx app sign_changes_alt]. rewrite rd_mid. cbn [bind andb].
  assert (E : forall s n, 0 <= n -> n + Z.of_nat (length l) <= 2 ^ 60 ->
    changes_idx true (length l) (S (length u)) (u ++ a :: l ++ r) s n = Val (sign_changes_alt (negb (Nat.odd (length u))) s n l)).
  { intros s' n' N' L'. specialize (IH (u ++ [a]) r s' n' N' L'). rewrite app_length, Nat.add_1_r, <- app_assoc, Nat.odd_succ, <- Nat.negb_odd in IH. exact IH. }
  cbn [length] in L. destruct (a =? 0); [apply E; lia|].
  destruct (Nat.odd (length u)); (match goal with |- context[?x =? s] => destruct (x =? s) end; [apply E; lia|]; rewrite slong_count by lia; cbn [bind]; apply E; lia).
Qed.

Lemma firstn_all_app : forall A (p r : list A), firstn (length p) (p ++ r) = p.
Proof. intros A p r. rewrite firstn_app, Nat.sub_diag, firstn_all. apply app_nil_r. Qed.

Lemma has_idx_ok : forall num p r, Z.of_nat (length p) <= 2 ^ 60 -> has_idx num (p ++ r) (length p) = Val (has_real_root num p).
Proof.
  intros num p r L. unfold has_idx, has_real_root. destruct (Nat.eqb_spec (length p) 1); [reflexivity|]. destruct (Nat.even (length p)) eqn:Ev; [reflexivity|].
  destruct p as [|a q]; [discriminate|].
  change (rd ((a :: q) ++ r) 0) with (Val a). cbn [bind hd]. destruct (a =? 0); [reflexivity|]. cbn [orb].
  replace (rd ((a :: q) ++ r) (length (a :: q) - 1)) with (Val (last (a :: q) 0)).
  2:{ rewrite rd_nth by (cbn [length]; lia). f_equal. clear. assert (G : forall p : list Z, last p 0 = nth (length p - 1) p 0).
      { induction p as [|x p IH]; [reflexivity|]. destruct p as [|y p]; [reflexivity|]. change (last (x :: y :: p) 0) with (last (y :: p) 0). rewrite IH. cbn [length]. rewrite !Nat.sub_1_r. reflexivity. }
      apply G. }
  cbn [bind]. destruct (Z.sgn a * Z.sgn (last (a :: q) 0) <? 0); [reflexivity|].
  replace (length (a :: q) - 1)%nat with (length q) by (cbn [length]; lia). cbn [length] in L.
  pose proof (changes_ok q [a] r (Z.sgn a) 0 ltac:(lia) ltac:(lia)) as C1. cbn [length app] in C1. cbn [app]. rewrite C1. cbn [bind tl].
  destruct (_ mod 2 =? 1); [reflexivity|].
  pose proof (changes_alt_ok q [a] r (Z.sgn a) 0 ltac:(lia) ltac:(lia)) as C2. cbn [length app] in C2. change (Nat.odd 1) with true in C2. rewrite C2. cbn [bind].
  destruct (_ mod 2 =? 1); [reflexivity|].
  change (a :: q ++ r) with ((a :: q) ++ r). rewrite firstn_all_app. reflexivity.
Qed.

(** * The sequence of Sturm *)
Lemma int_ok : forall z, Z.abs z < 2 ^ 31 -> int z = Val z.
Proof. intros z H. unfold int. destruct (Z.leb_spec (- 2 ^ 31) z); [|lia]. destruct (Z.ltb_spec z (2 ^ 31)); [reflexivity|lia]. Qed.

Lemma divexact_ok : forall c v u, c <> 0 -> Forall (fun a => (c | a)) v -> times (length v) (length u) (divexact c) (u ++ v) = Val (u ++ div_content c v).
Proof.
  intros c v. induction v as [|a v IH]; intros u C F; [reflexivity|]. inversion_clear F as [|? ? D F']. cbn [length times div_content map]. unfold divexact at 1.
  rewrite rd_mid. cbn [bind]. destruct (Z.eqb_spec c 0) as [X|_]; [contradiction|]. apply Z.mod_divide in D; [|exact C]. rewrite D. cbn [Z.eqb negb orb].
  rewrite wr_mid. cbn [bind]. specialize (IH (u ++ [a / c]) C F'). rewrite app_length, Nat.add_1_r, <- !app_assoc in IH. exact IH.
Qed.
Lemma content_zero : forall v, content v = 0 -> v <> [] -> last v 0 = 0.
Proof.
  induction v as [|a v IH]; intros C N; [congruence|]. cbn in C. apply Z.gcd_eq_0 in C. destruct C as [-> C]. destruct v as [|b v]; [reflexivity|].
  change (last (0 :: b :: v) 0) with (last (b :: v) 0). apply IH; [exact C|discriminate].
Qed.
Lemma last_rd : forall p, p <> [] -> rd p (length p - 1) = Val (last p 0).
Proof.
  intros p N. destruct (exists_last N) as [q [x ->]]. rewrite last_last, app_length. cbn [length]. replace (length q + 1 - 1)%nat with (length q) by lia. apply rd_mid.
Qed.

Lemma sturm_step : forall prem, prem_ok prem -> forall fuel p0 p1 s0a s0b t t', (p1 = [] \/ last p1 0 <> 0) -> (length p1 <= length p0)%nat ->
  Z.abs t + Z.of_nat (length p1) < 2 ^ 31 -> sturm_loop prem fuel p0 p1 s0a s0b t = SDone t' -> sturm_idx_loop prem fuel p0 p1 s0a s0b t = Val t'.
Proof.
  intros prem HP. induction fuel as [|fuel IH]; intros p0 p1 s0a s0b t t' L1 Ln B E; [discriminate|]. cbn [sturm_loop sturm_idx_loop] in *.
  destruct p1 as [|y p1']; [injection E as <-; reflexivity|]. destruct L1 as [L1|L1]; [discriminate|]. set (p1 := y :: p1') in *.
  change (rd p1 0) with (Val y). cbn [bind]. cbv zeta in E. change (hd 0 p1) with y in E.
  assert (BL : 1 <= Z.of_nat (length p1)) by (unfold p1; cbn [length]; lia).
  destruct (prem p0 p1) as [r d] eqn:EP. pose proof (next_entry prem HP p0 p1 L1 Ln r d EP) as X. cbv zeta in X.
  pose proof (HP p0 p1 L1 Ln) as HR. rewrite EP in HR. destruct HR as [_ [_ [NR _]]].
  set (r1 := if (d mod 2 =? 0) || (Z.sgn (last p1 0) =? 1) then map Z.opp r else r) in *.
  set (r2 := if content r1 =? 1 then r1 else div_content (content r1) r1) in *. destruct X as [Lr [Nr _]].
  assert (R1 : forall f : bool -> out Z, bind (if d mod 2 =? 0 then Val true else bind (rd p1 (length p1 - 1)) (fun b => Val (Z.sgn b =? 1))) f = f ((d mod 2 =? 0) || (Z.sgn (last p1 0) =? 1))).
  { intros f. destruct (d mod 2 =? 0); [reflexivity|]. rewrite last_rd by discriminate. reflexivity. }
  assert (R2 : (if content r1 =? 1 then Val r1 else times (length r1) 0 (divexact (content r1)) r1) = Val r2).
  { unfold r2. destruct (content r1 =? 1); [reflexivity|]. destruct r1 as [|z r1'] eqn:ER; [reflexivity|]. rewrite <- ER in *.
    apply (divexact_ok (content r1) r1 []); [|apply Forall_forall; apply content_divides].
    intros C. pose proof (content_zero r1 C ltac:(rewrite ER; discriminate)) as LZ. rewrite ER in LZ. rewrite <- ER in LZ.
    assert (LR : r = [] \/ last r1 0 <> 0).
    { destruct NR as [->|NR]; [left; reflexivity|right]. revert NR LZ. clear. unfold r1. destruct (_ || _); [|auto]. intros NR LZ _. apply NR.
      clear - LZ. induction r as [|a r IH]; [reflexivity|]. destruct r as [|b r]; [cbn in *; lia|]. apply IH. exact LZ. }
    destruct LR as [->|LR]; [|contradiction]. unfold r1 in ER. destruct (_ || _); discriminate. }
  destruct (s0a =? 0); [|destruct (negb (Z.sgn y =? s0a))];
    rewrite ?int_ok by lia; cbn [bind];
    (destruct (s0b =? 0); [|destruct (negb (Z.sgn (at_one p1) =? s0b))]; rewrite ?int_ok by lia; cbn [bind]; rewrite R1; fold r1; rewrite R2; cbn [bind];
     (apply IH; [exact Nr|lia|lia|exact E])).
Qed.

Lemma sturm_idx_ok : forall prem, prem_ok prem -> forall fuel p t, Z.of_nat (length p) < 2 ^ 31 ->
  num_real_roots_0_1_sturm prem fuel p = SDone t -> sturm_idx prem fuel p = Val t.
Proof.
  intros prem HP fuel p t L E. unfold num_real_roots_0_1_sturm in E. unfold sturm_idx. destruct p as [|a q]; [discriminate|].
  change (rd (a :: q) 0) with (Val a). cbn [bind]. cbn [hd] in E.
  assert (Ld : (length (normal (zderiv (a :: q))) <= length q)%nat).
  { pose proof (normal_length (zderiv (a :: q))) as N. unfold zderiv in *. cbn [tl] in *.
    assert (G : forall n q, length (zderiv_go n q) = length q) by (intros k v; revert k; induction v as [|y v IH]; intros k; [reflexivity|]; cbn [zderiv_go length]; rewrite IH; reflexivity).
    rewrite G in N. exact N. }
  cbn [length] in L. apply sturm_step; [exact HP|apply normal_last|cbn [length]; lia|lia|exact E].
Qed.

Lemma sturm_fuel : forall prem, prem_ok prem -> forall fuel p0 p1 s0a s0b t, (p1 = [] \/ last p1 0 <> 0) -> (length p1 <= length p0)%nat -> (length p1 < fuel)%nat ->
  exists t', sturm_loop prem fuel p0 p1 s0a s0b t = SDone t'.
Proof.
  intros prem HP. induction fuel as [|fuel IH]; intros p0 p1 s0a s0b t L1 Ln F; [lia|]. cbn [sturm_loop].
  destruct p1 as [|y p1']; [exists t; reflexivity|]. destruct L1 as [L1|L1]; [discriminate|]. set (p1 := y :: p1') in *. cbv zeta.
  destruct (prem p0 p1) as [r d] eqn:EP. pose proof (next_entry prem HP p0 p1 L1 Ln r d EP) as X. cbv zeta in X. destruct X as [Lr [Nr _]].
  destruct (s0a =? 0); [|destruct (negb (Z.sgn (hd 0 p1) =? s0a))]; (destruct (s0b =? 0); [|destruct (negb (Z.sgn (at_one p1) =? s0b))]; (apply IH; [exact Nr|lia|lia])).
Qed.
(** Every polynomial of length below 2^31 gets an answer. *)
Lemma sturm_idx_all : forall prem, prem_ok prem -> forall fuel p, p <> [] -> Z.of_nat (length p) < 2 ^ 31 -> (length p < fuel)%nat ->
  exists t, num_real_roots_0_1_sturm prem fuel p = SDone t /\ sturm_idx prem fuel p = Val t.
Proof.
  intros prem HP fuel p N L F.
  assert (H : exists t, num_real_roots_0_1_sturm prem fuel p = SDone t).
  { unfold num_real_roots_0_1_sturm. destruct p as [|a q]; [congruence|].
    assert (Ld : (length (normal (zderiv (a :: q))) <= length q)%nat).
    { pose proof (normal_length (zderiv (a :: q))) as M. unfold zderiv in *. cbn [tl] in *.
      assert (G : forall n q, length (zderiv_go n q) = length q) by (intros k v; revert k; induction v as [|y v IH]; intros k; [reflexivity|]; cbn [zderiv_go length]; rewrite IH; reflexivity).
      rewrite G in M. exact M. }
    cbn [length] in F. apply sturm_fuel; [exact HP|apply normal_last|cbn [length]; lia|lia]. }
  destruct H as [t E]. exists t. split; [exact E|]. apply sturm_idx_ok; assumption.
Qed.

(** * Evaluation *)
Section Put.
Context {A : Type}.
Definition put (m : list A) (i : nat) (v : A) : list A := firstn i m ++ v :: skipn (S i) m.
Lemma wr_put : forall m i v, (i < length m)%nat -> wr m i v = Val (put m i v).
Proof. intros m i v H. unfold wr. destruct (Nat.ltb_spec i (length m)); [reflexivity|lia]. Qed.
Lemma put_length : forall m i v, (i < length m)%nat -> length (put m i v) = length m.
Proof. intros m i v H. unfold put. rewrite app_length, firstn_length. cbn [length]. rewrite skipn_length. lia. Qed.
Lemma put_same : forall m i v, (i < length m)%nat -> rd (put m i v) i = Val v.
Proof.
  intros m i v H. unfold put. assert (L : length (firstn i m) = i) by (rewrite firstn_length; lia). rewrite <- L at 3. apply rd_mid.
Qed.
Lemma put_other : forall m i j v, (i < length m)%nat -> j <> i -> rd (put m i v) j = rd m j.
Proof.
  intros m i j v H N. unfold rd, put. assert (L : length (firstn i m) = i) by (rewrite firstn_length; lia).
  rewrite <- (firstn_skipn i m) at 3. destruct (Nat.lt_ge_cases j i) as [J|J].
  - rewrite !nth_error_app1 by lia. reflexivity.
  - rewrite !nth_error_app2 by lia. rewrite L. destruct (j - i)%nat as [|k] eqn:E; [lia|]. cbn [nth_error].
    assert (S1 : forall (l : list A) n, skipn (S n) l = tl (skipn n l)).
    { induction l as [|x l IH]; intros [|n]; try reflexivity. cbn [skipn]. apply (IH n). }
    rewrite S1. destruct (skipn i m); [destruct k; reflexivity|reflexivity].
Qed.
Lemma put_put : forall m i v w, (i < length m)%nat -> put (put m i v) i w = put m i w.
Proof.
  intros m i v w H. unfold put at 1. assert (L : length (firstn i m) = i) by (rewrite firstn_length; lia). unfold put.
  rewrite firstn_app, L, Nat.sub_diag, firstn_firstn, Nat.min_id. cbn [firstn]. rewrite app_nil_r. f_equal. f_equal.
  rewrite skipn_app, L. replace (S i - i)%nat with 1%nat by lia. rewrite skipn_all2 by lia. reflexivity.
Qed.
Lemma put_app : forall m i v r, (i < length m)%nat -> put (m ++ r) i v = put m i v ++ r.
Proof.
  intros m i v r H. unfold put. rewrite firstn_app, skipn_app. replace (i - length m)%nat with 0%nat by lia. replace (S i - length m)%nat with 0%nat by lia.
  cbn [firstn skipn]. rewrite app_nil_r, <- app_assoc. reflexivity.
Qed.
Lemma put_end : forall m x v, put (m ++ [x]) (length m) v = m ++ [v].
Proof. intros m x v. unfold put. rewrite firstn_all_app. f_equal. f_equal. rewrite skipn_all2; [reflexivity|]. rewrite app_length. cbn. lia. Qed.
End Put.

Lemma eval_loop_ok : forall o ri ai prec m a, (ri < length m)%nat -> ai <> ri -> rd m ai = Val a -> forall u v r,
  eval_loop o (length u) (u ++ v ++ r) ri ai prec (put m ri (eval_arb o v a prec)) = Val (put m ri (eval_arb o (u ++ v) a prec)).
Proof.
  intros o ri ai prec m a R N Ea u. induction u as [|c u IH] using rev_ind; intros v r; [reflexivity|].
  rewrite app_length, Nat.add_1_r. cbn [eval_loop]. rewrite put_same, put_other, Ea by assumption. cbn [bind].
  rewrite wr_put by (rewrite put_length; assumption). cbn [bind]. rewrite put_same by (rewrite put_length; assumption). cbn [bind].
  rewrite <- !app_assoc. cbn [app]. rewrite rd_mid. cbn [bind]. rewrite wr_put by (rewrite !put_length; rewrite ?put_length; assumption). cbn [bind].
  rewrite !put_put by (rewrite ?put_length; assumption). exact (IH (c :: v) r).
Qed.
Lemma eval_raw_ok : forall o ri ai prec m a p r, (ri < length m)%nat -> ai <> ri -> rd m ai = Val a ->
  eval_raw o (p ++ r) (length p) ri ai prec m = Val (put m ri (eval_arb o p a prec)).
Proof.
  intros o ri ai prec m a p r R N Ea. unfold eval_raw. rewrite wr_put by exact R. cbn [bind].
  pose proof (eval_loop_ok o ri ai prec m a R N Ea p [] r) as E. cbn [app eval_arb] in E. rewrite app_nil_r in E. exact E.
Qed.
Lemma eval_idx_ok : forall o ri ai prec m a p r, (ri < length m)%nat -> rd m ai = Val a ->
  eval_idx o (p ++ r) (length p) ri ai prec m = wr m ri (eval_arb o p a prec).
Proof.
  intros o ri ai prec m a p r R Ea. rewrite wr_put by exact R. unfold eval_idx. destruct (Nat.eqb_spec ai ri) as [->|N]; [|apply eval_raw_ok; assumption].
  rewrite (eval_raw_ok o (length m) ri prec (m ++ [bzero]) a p r).
  - cbn [bind]. rewrite put_end. unfold swp. set (e := eval_arb o p a prec). rewrite (rd_mid m e []). cbn [bind].
    assert (E2 : rd (m ++ [e]) ri = Val a) by (unfold rd in *; rewrite nth_error_app1 by exact R; exact Ea). rewrite E2. cbn [bind].
    rewrite wr_put by (rewrite app_length; cbn; lia). cbn [bind]. rewrite put_end. rewrite wr_put by (rewrite app_length; cbn; lia). cbn [bind].
    rewrite put_app by exact R. f_equal. rewrite <- (put_length m ri e R) at 1. apply firstn_all_app.
  - rewrite app_length. cbn. lia.
  - lia.
  - unfold rd in *. rewrite nth_error_app1 by exact R. exact Ea.
Qed.

(** * The condition number *)
Lemma cond_loop_ok : forall a prec u v r, v <> [] -> cond_loop (length u) (u ++ v ++ r) a prec (cond_sum v a prec) = Val (cond_sum (u ++ v) a prec).
Proof.
  intros a prec u. induction u as [|c u IH] using rev_ind; intros v r N; [reflexivity|].
  rewrite app_length, Nat.add_1_r. cbn [cond_loop]. rewrite <- !app_assoc. cbn [app]. rewrite rd_mid. cbn [bind].
  rewrite <- (IH (c :: v) r) by discriminate. cbn [cond_sum app]. destruct v; [congruence|reflexivity].
Qed.
Lemma cond_idx_ok : forall p r x prec, p <> [] -> cond_idx (p ++ r) (length p) x prec =
  Val (let e := cond_2exp p x prec in if (word_min <=? e) && (e <=? word_max) then Some e else None).
Proof.
  intros p r x prec N. destruct (exists_last N) as [q [c ->]]. rewrite app_length, Nat.add_1_r. cbn [cond_idx]. rewrite <- app_assoc. cbn [app]. rewrite rd_mid. cbn [bind].
  unfold cond_2exp. destruct (abs_ubound x prec) as [a|]; [|reflexivity].
  pose proof (cond_loop_ok a prec q [c] r ltac:(discriminate)) as C. cbn [cond_sum app] in C. rewrite C. reflexivity.
Qed.
