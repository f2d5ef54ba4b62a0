(** The root bound on words, see PropertiesIdx.v. *)
Require Import List ZArith Bool Arith Lia.
From Verif Require Import RootModel ArbModel ArrModel ArrProofs IdxModel IdxSpec.
Import ListNotations.
Open Scope Z_scope.

Definition emin (b : option Z) : Z := match b with None => word_min | Some m => m end.
Definition emax (b : option Z) : Z := match b with None => word_max | Some m => m end.
Definition mid (b : option Z) : Prop := forall m, b = Some m -> Z.abs m <= 2 ^ 62.

Lemma slong_ok : forall z, - 2 ^ 63 <= z < 2 ^ 63 -> slong z = Val z.
Proof.
  intros z H. unfold slong, word_min, word_max. replace (- 2 ^ 63 <=? z) with true by (symmetry; apply Z.leb_le; lia).
  replace (z <=? 2 ^ 63 - 1) with true by (symmetry; apply Z.leb_le; lia). reflexivity.
Qed.

Lemma skipn_cons : forall (l : list Z) j, (j < length l)%nat -> skipn j l = nth j l 0 :: skipn (S j) l.
Proof. induction l as [|a l IH]; intros [|j] H; cbn in H; try lia; [reflexivity|]. cbn [skipn nth]. rewrite IH by lia. reflexivity. Qed.
Lemma rd_nth : forall (l r : list Z) j, (j < length l)%nat -> rd (l ++ r) j = Val (nth j l 0).
Proof. intros l r j H. unfold rd. rewrite nth_error_app1 by exact H. rewrite (nth_error_nth' l 0 H). reflexivity. Qed.
Lemma rd_nth' : forall (l : list Z) j, (j < length l)%nat -> rd l j = Val (nth j l 0).
Proof. intros l j H. pose proof (rd_nth l [] j H) as E. rewrite app_nil_r in E. exact E. Qed.
Lemma wr_incr : forall cs j, (j < length cs)%nat -> wr cs j (nth j cs 0 + 1) = Val (incr j cs).
Proof.
  intros cs j H. unfold wr. destruct (Nat.ltb_spec j (length cs)); [|lia]. f_equal.
  revert j H H0. induction cs as [|c cs IH]; intros [|j] H H0; cbn in H; try lia; [reflexivity|]. cbn [firstn app nth incr]. f_equal.
  apply IH; lia.
Qed.
Lemma incr_len : forall cs j, length (incr j cs) = length cs.
Proof. induction cs as [|c cs IH]; intros [|j]; try reflexivity. cbn. rewrite IH. reflexivity. Qed.
Lemma incr_all : forall K cs j, Forall (fun c => 1 <= c <= K) cs -> Forall (fun c => 1 <= c <= K + 1) (incr j cs).
Proof.
  intros K cs. induction cs as [|c cs IH]; intros j H; [destruct j; constructor|]. inversion_clear H as [|? ? H1 H2].
  destruct j; cbn [incr]; constructor; try lia.
  - eapply Forall_impl; [|exact H2]. cbn. lia.
  - apply IH, H2.
Qed.

Lemma quot_small : forall x d, 1 <= d -> Z.abs (Z.quot x d) <= Z.abs x.
Proof.
  intros x d H. rewrite <- Z.quot_abs by lia. rewrite Z.quot_div_nonneg by lia. apply Z.div_le_upper_bound; [lia|]. nia.
Qed.

Section Bound.
Variables (flog0 : Z) (p r : list Z).
Hypothesis Hh : handy flog0 p.

Lemma clog_small : forall i, 0 <= clog2 (nth i p 0) <= 2 ^ 60.
Proof.
  intros i. unfold clog2. split; [apply Z.log2_up_nonneg|]. destruct Hh as [_ [_ H]]. rewrite Forall_forall in H.
  destruct (nth_in_or_default i p 0) as [N|N]; [apply H; exact N|rewrite N; cbn; lia].
Qed.
Lemma flog_small : forall i, Z.abs (flog2 flog0 (nth i p 0)) <= 2 ^ 60.
Proof.
  intros i. unfold flog2. destruct (nth i p 0 =? 0); [apply Hh|]. pose proof (Z.log2_nonneg (Z.abs (nth i p 0))). pose proof (Z.le_log2_log2_up (Z.abs (nth i p 0))).
  pose proof (clog_small i) as C. unfold clog2 in C. lia.
Qed.

Definition val_at (cs : list Z) (i j : nat) : Z :=
  Z.quot (nth j cs 0 + clog2 (nth i p 0) - flog2 flog0 (nth j p 0) + (Z.of_nat j - Z.of_nat i) - 1) (Z.of_nat j - Z.of_nat i).

Lemma bound_at_ok : forall cs i j, length cs = length p -> Forall (fun c => 1 <= c <= 2 ^ 60 + 1) cs -> (i < j < length p)%nat ->
  bound_at flog0 (p ++ r) cs i j = Val (val_at cs i j) /\ Z.abs (val_at cs i j) <= 2 ^ 62.
Proof.
  intros cs i j L F H. pose proof (clog_small i) as C. pose proof (flog_small j) as G. destruct Hh as [LP _].
  assert (B : 1 <= nth j cs 0 <= 2 ^ 60 + 1) by (rewrite Forall_forall in F; apply F, nth_In; lia).
  set (x := nth j cs 0 + clog2 (nth i p 0) - flog2 flog0 (nth j p 0) + (Z.of_nat j - Z.of_nat i) - 1).
  assert (X : Z.abs x <= 2 ^ 62).
  { unfold x. change (2 ^ 62) with 4611686018427387904. change (2 ^ 60) with 1152921504606846976 in *. lia. }
  pose proof (quot_small x (Z.of_nat j - Z.of_nat i) ltac:(lia)) as Q. fold (val_at cs i j) in Q. change (Z.quot x (Z.of_nat j - Z.of_nat i)) with (val_at cs i j) in Q.
  split; [|lia]. unfold bound_at. rewrite (rd_nth' cs j) by lia. cbn [bind]. rewrite (rd_nth p r i) by lia. cbn [bind].
  change (2 ^ 62) with 4611686018427387904 in *. change (2 ^ 60) with 1152921504606846976 in *.
  assert (W : 2 ^ 63 = 9223372036854775808) by reflexivity.
  rewrite slong_ok by (rewrite W; lia). cbn [bind]. rewrite (rd_nth p r j) by lia. cbn [bind]. rewrite slong_ok by (rewrite W; lia). cbn [bind].
  rewrite slong_ok by (rewrite W; lia). cbn [bind]. rewrite slong_ok by (rewrite W; lia). cbn [bind]. rewrite slong_ok by (rewrite W; lia). cbn [bind].
  rewrite slong_ok by (rewrite W; lia). cbn [bind]. destruct (Z.eqb_spec (Z.of_nat j - Z.of_nat i) 0); [lia|].
  match goal with |- slong (Z.quot ?y _) = _ => replace y with x by (unfold x; lia) end. change (Z.quot x (Z.of_nat j - Z.of_nat i)) with (val_at cs i j). apply slong_ok. rewrite W. lia.
Qed.

Lemma inner_ok : forall cs i b0, length cs = length p -> Forall (fun c => 1 <= c <= 2 ^ 60 + 1) cs -> mid b0 ->
  forall n j bmin jl jm, (j + n = length p)%nat -> (i < j)%nat -> mid bmin -> (bmin <> None -> jm = Z.of_nat jl /\ (jl < length p)%nat) ->
  exists bm jl' jm', lm_inner flog0 (nth i p 0) b0 (Z.of_nat j - Z.of_nat i) j (skipn j p) (skipn j cs) bmin jl = (bm, jl') /\
    bound_inner flog0 n j i (p ++ r) cs (emin b0) (emax bmin) jm = Val (emax bm, jm') /\ mid bm /\
    (bm <> None -> jm' = Z.of_nat jl' /\ (jl' < length p)%nat) /\ (bmin <> None \/ (0 < n)%nat -> bm <> None).
Proof.
  intros cs i b0 L F M0 n. induction n as [|n IH]; intros j bmin jl jm J I M R.
  - exists bmin, jl, jm. rewrite !skipn_all2 by lia. split; [reflexivity|]. split; [reflexivity|]. split; [exact M|]. split; [exact R|]. intros [H|H]; [exact H|lia].
  - cbn [bound_inner]. destruct (bound_at_ok cs i j L F ltac:(lia)) as [-> B]. cbn [bind].
    rewrite (skipn_cons p j), (skipn_cons cs j) by lia. cbn [lm_inner].
    change (Z.quot (nth j cs 0 + clog2 (nth i p 0) - flog2 flog0 (nth j p 0) + (Z.of_nat j - Z.of_nat i) - 1) (Z.of_nat j - Z.of_nat i)) with (val_at cs i j).
    set (b := val_at cs i j) in *.
    assert (W : 2 ^ 63 = 9223372036854775808) by reflexivity. assert (W' : 2 ^ 62 = 4611686018427387904) by reflexivity. rewrite W' in B.
    assert (E1 : (b <? emax bmin) = lt_bmin b bmin).
    { destruct bmin as [m|]; [reflexivity|]. apply Z.ltb_lt. change (b < 9223372036854775807). lia. }
    assert (E2 : (b <? emin b0) = lt_b0 b b0).
    { destruct b0 as [m|]; [reflexivity|]. apply Z.ltb_ge. change (-9223372036854775808 <= b). lia. }
    rewrite E1, E2. replace (Z.of_nat j - Z.of_nat i + 1) with (Z.of_nat (S j) - Z.of_nat i) by lia.
    assert (MB : mid (Some b)) by (intros m E; injection E as <-; rewrite W'; lia).
    destruct (lt_bmin b bmin) eqn:LB.
    + destruct (lt_b0 b b0).
      * exists (Some b), j, (Z.of_nat j). split; [reflexivity|]. split; [reflexivity|]. split; [exact MB|]. split; [intros _; split; [reflexivity|lia]|]. intros _; discriminate.
      * destruct (IH (S j) (Some b) j (Z.of_nat j) ltac:(lia) ltac:(lia) MB) as [bm [jl' [jm' [A1 [A2 [A3 [A4 A5]]]]]]]; [intros _; split; [reflexivity|lia]|].
        exists bm, jl', jm'. split; [exact A1|]. split; [exact A2|]. split; [exact A3|]. split; [exact A4|]. intros _. apply A5. left. discriminate.
    + destruct (IH (S j) bmin jl jm ltac:(lia) ltac:(lia) M R) as [bm [jl' [jm' [A1 [A2 [A3 [A4 A5]]]]]]].
      exists bm, jl', jm'. split; [exact A1|]. split; [exact A2|]. split; [exact A3|]. split; [exact A4|]. intros _. apply A5. left. intros ->. discriminate.
Qed.

Lemma outer_ok : forall s n cs b0 jl jm K, (n < length p)%nat -> length cs = length p -> Forall (fun c => 1 <= c <= K) cs -> K + Z.of_nat n <= 2 ^ 60 + 1 -> mid b0 ->
  bound_outer flog0 n (length p) (p ++ r) s cs (emin b0) jm = Val (emin (lm_outer flog0 n p s cs b0 jl)) /\ mid (lm_outer flog0 n p s cs b0 jl).
Proof.
  intros s n. induction n as [|n IH]; intros cs b0 jl jm K N L F HK M; [split; [reflexivity|exact M]|].
  cbn [bound_outer lm_outer]. rewrite (rd_nth p r n) by lia. cbn [bind]. destruct ((Z.sgn (nth n p 0) =? 0) || (Z.sgn (nth n p 0) =? s)).
  { apply (IH cs b0 jl jm K); [lia|exact L|exact F|lia|exact M]. }
  assert (F' : Forall (fun c => 1 <= c <= 2 ^ 60 + 1) cs) by (eapply Forall_impl; [|exact F]; cbn; lia).
  destruct (inner_ok cs n b0 L F' M (length p - S n) (S n) None jl jm ltac:(lia) ltac:(lia)) as [bm [jl' [jm' [A1 [A2 [A3 [A4 A5]]]]]]]; [intros m E; discriminate|intros H; congruence|].
  replace (Z.of_nat (S n) - Z.of_nat n) with 1 in A1 by lia. rewrite A1. change (emax None) with word_max in A2. rewrite A2. cbn [bind].
  assert (B : bm <> None) by (apply A5; right; lia). destruct (A4 B) as [-> J]. destruct (Z.ltb_spec (Z.of_nat jl') 0); [lia|].
  rewrite Nat2Z.id. rewrite (rd_nth' cs jl') by lia. cbn [bind].
  assert (C : 1 <= nth jl' cs 0 <= K) by (rewrite Forall_forall in F; apply F, nth_In; lia).
  rewrite slong_ok by (change (2 ^ 60) with 1152921504606846976 in HK; change (2 ^ 63) with 9223372036854775808; lia). cbn [bind].
  rewrite wr_incr by lia. cbn [bind]. destruct bm as [b|]; [|congruence].
  assert (E : Z.max (emin b0) b = emin (max_b0 b0 (Some b)) /\ mid (max_b0 b0 (Some b))).
  { specialize (A3 b eq_refl). destruct b0 as [m|]; cbn [emin max_b0].
    - split; [reflexivity|]. intros x X. injection X as <-. specialize (M m eq_refl). lia.
    - split; [|intros x X; injection X as <-; exact A3]. apply Z.max_r. unfold word_min. change (2 ^ 62) with 4611686018427387904 in A3. change (2 ^ 63) with 9223372036854775808. lia. }
  destruct E as [E EM]. cbn [emax]. rewrite E. apply (IH (incr jl' cs) _ jl' (Z.of_nat jl') (K + 1)); [lia|rewrite incr_len; exact L|apply incr_all; exact F|lia|exact EM].
Qed.

Lemma bound_idx_ok : p <> [] -> bound_idx flog0 (p ++ r) (length p) = Val (emin (root_bound flog0 p)) /\ mid (root_bound flog0 p).
Proof.
  intros NE. unfold bound_idx, root_bound. destruct (length p) as [|deg] eqn:LP; [destruct p; [congruence|discriminate]|].
  rewrite (rd_nth p r deg) by lia. cbn [bind]. change (S deg - 1)%nat with (deg - 0)%nat. rewrite Nat.sub_0_r.
  assert (EL : last p 0 = nth deg p 0).
  { clear - LP. revert deg LP. induction p as [|a q IH]; intros deg E; [discriminate|]. injection E as <-. destruct q as [|b q]; [reflexivity|].
    change (last (a :: b :: q) 0) with (last (b :: q) 0). rewrite (IH _ eq_refl). reflexivity. }
  rewrite EL. assert (ER : map (fun _ : Z => 1) p = repeat 1 (S deg)).
  { rewrite <- LP. clear. induction p as [|a q IH]; [reflexivity|]. cbn. rewrite IH. reflexivity. }
  rewrite ER. change word_min with (emin None). rewrite <- LP. apply (outer_ok _ deg (repeat 1 (length p)) None 0%nat (-1) 1).
  - lia.
  - apply repeat_length.
  - apply Forall_forall. intros c C. apply repeat_spec in C. lia.
  - destruct Hh as [H _]. lia.
  - intros m E; discriminate.
Qed.
End Bound.
