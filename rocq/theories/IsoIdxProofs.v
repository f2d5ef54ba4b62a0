(** The isolation of real roots on words, see PropertiesIsoIdx.v. *)
Require Import List ZArith Bool Arith Lia.
From Verif Require Import RootSpec RootModel VcaProofs CountAll IsoWithin ArbModel ArrModel ArrSpec ArrProofs IdxModel IdxSpec IdxProofs IdxBound IdxUpper IsoIdxModel.
Import ListNotations.
Open Scope Z_scope.

Lemma bind_inv : forall A B (x : out A) (f : A -> out B) y, bind x f = Val y -> exists a, x = Val a /\ f a = Val y.
Proof. intros A B [a| | |] f y H; try discriminate. exists a. split; [reflexivity|exact H]. Qed.

Lemma rd_inv : forall (l : list Z) i v, rd l i = Val v -> v = nth i l 0.
Proof. intros l i v. unfold rd. destruct (nth_error l i) eqn:E; [|discriminate]. intros H; injection H as <-. symmetry. apply nth_error_nth. exact E. Qed.
Lemma wr_nth : forall (l l' : list Z) i v, wr l i v = Val l' -> nth i l' 0 = v /\ forall j, j <> i -> nth j l' 0 = nth j l 0.
Proof.
  intros l l' i v. unfold wr. destruct (Nat.ltb_spec i (length l)) as [L|L]; [|discriminate]. intros H; injection H as <-.
  assert (LF : length (firstn i l) = i) by (rewrite firstn_length; lia). split.
  - rewrite app_nth2 by lia. rewrite LF, Nat.sub_diag. reflexivity.
  - intros j N. rewrite <- (firstn_skipn i l) at 3. rewrite (skipn_cons l i L). destruct (Nat.lt_ge_cases j i) as [J|J].
    + rewrite !app_nth1 by lia. reflexivity.
    + rewrite !app_nth2 by lia. rewrite LF. destruct (j - i)%nat eqn:E; [lia|reflexivity].
Qed.

Lemma times_agree : forall S (P : nat -> S -> Prop) (f g : nat -> S -> out S) n i s s',
  (forall j s s', (i <= j < i + n)%nat -> P j s -> f j s = Val s' -> g j s = Val s' /\ P (Datatypes.S j) s') ->
  P i s -> times n i f s = Val s' -> times n i g s = Val s'.
Proof.
  intros S P f g n. induction n as [|n IH]; intros i s s' H Hp E; [exact E|]. cbn [times] in *.
  destruct (bind_inv _ _ _ _ _ E) as [t [E1 E2]]. destruct (H i s t ltac:(lia) Hp E1) as [-> H2]. cbn [bind].
  apply IH; [|exact H2|exact E2]. intros j a b J. apply H. lia.
Qed.

(** * The loop *)

(** The exponents from index [m] on are small. *)
Definition small_from (m : nat) (s : arrs) : Prop :=
  forall c ks, a_c s = Some c -> a_k s = Some ks -> forall j, (m <= j < a_nint s)%nat -> Z.abs (nth j ks 0) <= 2 ^ 60.

Lemma strip_agree : forall c k p s q s', 0 <= k -> q <> [] -> strip_arr c k p s = Val (q, s') ->
  strip_idx c k p s = Val (q, s') /\ a_c s' = a_c s /\ a_k s' = a_k s /\ a_nint s' = a_nint s.
Proof.
  intros c k p. induction p as [|a p IH]; intros s q s' K N E; cbn [strip_arr] in E.
  { injection E as <- <-. congruence. }
  cbn [strip_idx]. destruct (a =? 0).
  - destruct (bind_inv _ _ _ _ _ E) as [t [E1 E2]]. destruct (Z.ltb_spec k 0); [lia|]. rewrite E1. cbn [bind].
    destruct (IH _ _ _ K N E2) as [-> [C1 [C2 C3]]]. split; [reflexivity|]. rewrite C1, C2, C3. cbn [set_nex a_c a_k a_nint].
    unfold on_ex in E1. destruct (a_ex s); [|injection E1 as <-; auto]. destruct (bind_inv _ _ _ _ _ E1) as [w [_ E3]]. injection E3 as <-. auto.
  - injection E as <- <-. auto.
Qed.

Lemma slong_small : forall z, Z.abs z <= 2 ^ 62 + 2 ^ 60 -> slong z = Val z.
Proof. intros z H. apply slong_ok. change (2 ^ 62 + 2 ^ 60) with 5764607523034234880 in H. change (2 ^ 63) with 9223372036854775808. lia. Qed.
Lemma slong_60 : forall z, Z.abs z <= 2 ^ 60 -> slong z = Val z.
Proof. intros z H. apply slong_small. change (2 ^ 62 + 2 ^ 60) with 5764607523034234880. change (2 ^ 60) with 1152921504606846976 in H. lia. Qed.

Lemma got_agree : forall m c k s s', 0 <= k <= 2 ^ 60 -> small_from m s -> got_arr c k s = Val s' -> got_idx c k s = Val s' /\ small_from m s'.
Proof.
  intros m c k s s' K M E. unfold got_arr, got_idx in *. destruct (bind_inv _ _ _ _ _ E) as [t [E1 E2]]. injection E2 as <-.
  unfold on_ints in *. destruct (a_c s) as [cs|] eqn:EC; [destruct (a_k s) as [ks|] eqn:EK|].
  - destruct (bind_inv _ _ _ _ _ E1) as [[cs' ks'] [E3 E4]]. injection E4 as <-. destruct (bind_inv _ _ _ _ _ E3) as [w [W1 E5]].
    destruct (bind_inv _ _ _ _ _ E5) as [w' [W2 E6]]. injection E6 as -> ->.
    rewrite W1. cbn [bind]. rewrite slong_60 by lia. cbn [bind]. rewrite W2. cbn [bind]. split; [reflexivity|].
    intros a b A B j J. cbn in A, B, J. injection A as <-. injection B as <-. destruct (wr_nth _ _ _ _ W2) as [N1 N2].
    destruct (Nat.eq_dec j (a_nint s)) as [->|D]; [rewrite N1; lia|]. rewrite (N2 j D). apply (M cs ks EC EK). lia.
  - injection E1 as <-. cbn [bind]. split; [reflexivity|]. intros a b A B. cbn in A, B. congruence.
  - injection E1 as <-. cbn [bind]. split; [reflexivity|]. intros a b A B. cbn in A, B. congruence.
Qed.

Lemma vca_agree : forall m fuel c k p s s', 0 <= c < 2 ^ k -> 0 <= k -> k + Z.of_nat fuel <= 2 ^ 60 -> small_from m s ->
  vca_arr fuel c k p s = Val s' -> vca_idx fuel c k p s = Val s' /\ small_from m s'.
Proof.
  intros m fuel. induction fuel as [|f IH]; intros c k p s s' C K F M E; [discriminate|]. cbn [vca_arr vca_idx] in *.
  destruct (bind_inv _ _ _ _ _ E) as [[q t] [E1 E2]]. clear E.
  assert (NE : q <> []) by (intros ->; discriminate).
  destruct (strip_agree c k p s q t K NE E1) as [-> [C1 [C2 C3]]]. cbn [bind].
  assert (M' : small_from m t) by (intros a b A B j J; rewrite C1 in A; rewrite C2 in B; rewrite C3 in J; apply (M a b A B j J)).
  clear M C1 C2 C3 E1.
  pose proof (desc_idx_ok q [] 2) as D. rewrite app_nil_r in D. rewrite D. clear D.
  assert (NX : forall u, small_from m u ->
    (if k =? Z.of_nat (val2 (c + 1)) then Val u
     else if Z.of_nat (val2 (c + 1)) =? 0 then vca_arr f (c + 1) k (tshift 1 q) u
     else vca_arr f ((c + 1) / 2 ^ Z.of_nat (val2 (c + 1))) (k - Z.of_nat (val2 (c + 1))) (scale2 (Z.of_nat (val2 (c + 1))) (tshift 1 q)) u) = Val s' ->
    bind (slong (Z.of_nat (val2 (c + 1)))) (fun i =>
        if k =? i then Val u
        else if i =? 0 then vca_idx f (c + 1) k (tshift 1 q) u
          else if k <? i then Abort else bind (slong (k - i)) (fun k => vca_idx f ((c + 1) / 2 ^ i) k (scale2 i (tshift 1 q)) u)) = Val s' /\ small_from m s').
  { intros u U EU. destruct (val2_pow_le (c + 1) k K ltac:(lia)) as [V1 V2]. set (i := Z.of_nat (val2 (c + 1))) in *.
    rewrite slong_60 by (unfold i; lia). cbn [bind]. destruct (Z.eqb_spec k i) as [KI|KI]; [injection EU as <-; split; [reflexivity|exact U]|].
    assert (L : c + 1 < 2 ^ k) by (destruct (Z.eq_dec (c + 1) (2 ^ k)) as [X|X]; [apply V2 in X; congruence|lia]).
    destruct (Z.eqb_spec i 0) as [I0|I0]; [apply IH; [lia|exact K|lia|exact U|exact EU]|].
    destruct (Z.ltb_spec k i); [lia|]. assert (0 <= i) by (unfold i; lia). rewrite slong_60 by lia. cbn [bind].
    apply IH; [|lia|lia|exact U|exact EU]. split; [apply Z.div_pos; [lia|apply Z.pow_pos_nonneg; lia]|].
    apply Z.div_lt_upper_bound; [apply Z.pow_pos_nonneg; lia|]. rewrite <- Z.pow_add_r by lia. replace (i + (k - i)) with k by lia. exact L. }
  cbv zeta in E2 |- *.
  destruct (descartes01 q 2) as [v| |]; [|cbn [dopt bind]|discriminate].
  - cbn [dopt bind]. destruct v as [|[|[|v]]]; [|  | |discriminate].
    + apply NX; [exact M'|exact E2].
    + destruct (bind_inv _ _ _ _ _ E2) as [u [G1 G2]]. destruct (got_agree m c k t u ltac:(lia) M' G1) as [-> U]. cbn [bind]. apply NX; [exact U|exact G2].
    + rewrite slong_60 by lia. cbn [bind]. apply IH; [rewrite Z.pow_add_r, Z.pow_1_r by lia; lia|lia|lia|exact M'|exact E2].
  - rewrite slong_60 by lia. cbn [bind]. apply IH; [rewrite Z.pow_add_r, Z.pow_1_r by lia; lia|lia|lia|exact M'|exact E2].
Qed.

(** * The loops behind it *)
Lemma shift_agree : forall k d, Z.abs k <= 2 ^ 62 -> shift_idx k d = Val (dy_shift k d).
Proof.
  intros k d K. unfold shift_idx, dy_shift. destruct (k <? 0); [|reflexivity].
  rewrite slong_small by (change (2 ^ 62 + 2 ^ 60) with 5764607523034234880; change (2 ^ 62) with 4611686018427387904 in K; lia). cbn [bind]. f_equal. f_equal. lia.
Qed.
Lemma updo_agree : forall (f : dyadic -> dyadic) g i l, (forall d, g d = Val (f d)) -> updo g i l = upd f i l.
Proof. intros f g i l H. unfold updo, upd. destruct (rd l i); [|reflexivity|reflexivity|reflexivity]. cbn [bind]. rewrite H. reflexivity. Qed.
Lemma addk_agree : forall k i ks ks', Z.abs k <= 2 ^ 62 -> Z.abs (nth i ks 0) <= 2 ^ 60 -> upd (fun e => e + k) i ks = Val ks' ->
  addk k i ks = Val ks' /\ forall j, j <> i -> nth j ks' 0 = nth j ks 0.
Proof.
  intros k i ks ks' K N E. unfold upd in E. destruct (bind_inv _ _ _ _ _ E) as [v [R W]]. pose proof (rd_inv _ _ _ R) as V. unfold addk. rewrite R. cbn [bind].
  rewrite slong_small by (rewrite V; lia). cbn [bind]. split; [exact W|]. apply (wr_nth _ _ _ _ W).
Qed.

Lemma neg_agree : forall k s s', Z.abs k <= 2 ^ 62 -> small_from 0 s -> neg_arr k s = Val s' -> neg_idx k s = Val s'.
Proof.
  intros k s s' K M E. unfold neg_arr in E. destruct (bind_inv _ _ _ _ _ E) as [t [E1 E2]]. clear E. unfold neg_idx.
  assert (G : forall w, on_ints (fun ck =>
    bind (times (a_nint s) 0 (fun i '(cs, ks) => bind (upd (fun c => - (c + 1)) i cs) (fun cs => bind (upd (fun e => e + k) i ks) (fun ks => Val (cs, ks)))) ck)
      (times (a_nint s / 2) 0 (fun i '(cs, ks) => bind (swp i (a_nint s - i - 1) cs) (fun cs => bind (swp i (a_nint s - i - 1) ks) (fun ks => Val (cs, ks)))))) s = Val w ->
    on_ints (fun ck =>
    bind (times (a_nint s) 0 (fun i '(cs, ks) => bind (upd (fun c => - (c + 1)) i cs) (fun cs => bind (addk k i ks) (fun ks => Val (cs, ks)))) ck)
      (times (a_nint s / 2) 0 (fun i '(cs, ks) => bind (swp i (a_nint s - i - 1) cs) (fun cs => bind (swp i (a_nint s - i - 1) ks) (fun ks => Val (cs, ks)))))) s = Val w).
  { intros w. unfold on_ints. destruct (a_c s) as [cs|] eqn:EC; [|auto]. destruct (a_k s) as [ks|] eqn:EK; [|auto]. intros H.
    destruct (bind_inv _ _ _ _ _ H) as [[c2 k2] [H1 H2]]. clear H. destruct (bind_inv _ _ _ _ _ H1) as [[c1 k1] [H3 H4]]. clear H1.
    assert (T : times (a_nint s) 0 (fun i '(cs, ks) => bind (upd (fun c => - (c + 1)) i cs) (fun cs => bind (addk k i ks) (fun ks => Val (cs, ks)))) (cs, ks) = Val (c1, k1)).
    { refine (times_agree _ (fun j (ck : list Z * list Z) => forall i, (j <= i < a_nint s)%nat -> Z.abs (nth i (snd ck) 0) <= 2 ^ 60) _ _ _ _ _ _ _ _ H3).
      - intros j [ca ka] sb J P H. destruct (bind_inv _ _ _ _ _ H) as [cb [U1 H5]]. destruct (bind_inv _ _ _ _ _ H5) as [kb [U2 H6]]. injection H6 as <-.
        destruct (addk_agree k j ka kb K (P j ltac:(lia)) U2) as [A1 A2]. rewrite U1. cbn [bind]. rewrite A1. cbn [bind]. split; [reflexivity|].
        intros i I. cbn [snd]. rewrite A2 by lia. apply P. lia.
      - intros i I. apply (M cs ks EC EK). lia. }
    rewrite T. cbn [bind]. rewrite H4. cbn [bind]. exact H2. }
  rewrite (G t E1). cbn [bind]. clear G E1. unfold on_ex in *. destruct (a_ex t) as [l|]; [|exact E2].
  destruct (bind_inv _ _ _ _ _ E2) as [l2 [H1 H2]]. clear E2. destruct (bind_inv _ _ _ _ _ H1) as [l1 [H3 H4]]. clear H1.
  assert (T : times (a_nex t) 0 (fun i => updo (fun d => shift_idx k (dy_opp d)) i) l = Val l1).
  { refine (times_agree _ (fun _ _ => True) _ _ _ _ _ _ _ I H3). intros j a b _ _ H. split; [|exact I].
    rewrite (updo_agree (fun d => dy_shift k (dy_opp d))); [exact H|]. intros d. apply shift_agree. exact K. }
  rewrite T. cbn [bind]. rewrite H4. cbn [bind]. exact H2.
Qed.

Lemma pos_agree : forall k ni ne s s', Z.abs k <= 2 ^ 62 -> small_from ni s -> pos_arr k ni ne s = Val s' -> pos_idx k ni ne s = Val s'.
Proof.
  intros k ni ne s s' K M E. unfold pos_arr in E. destruct (bind_inv _ _ _ _ _ E) as [t [E1 E2]]. clear E. unfold pos_idx.
  assert (G : on_ints (times (a_nint s - ni) ni (fun i '(cs, ks) => bind (addk k i ks) (fun ks => Val (cs, ks)))) s = Val t).
  { unfold on_ints in *. destruct (a_c s) as [cs|] eqn:EC; [|exact E1]. destruct (a_k s) as [ks|] eqn:EK; [|exact E1].
    destruct (bind_inv _ _ _ _ _ E1) as [[c2 k2] [H3 H2]].
    assert (T : times (a_nint s - ni) ni (fun i '(cs, ks) => bind (addk k i ks) (fun ks => Val (cs, ks))) (cs, ks) = Val (c2, k2)).
    { refine (times_agree _ (fun j (ck : list Z * list Z) => forall i, (j <= i < a_nint s)%nat -> Z.abs (nth i (snd ck) 0) <= 2 ^ 60) _ _ _ _ _ _ _ _ H3).
      - intros j [ca ka] sb J P H. destruct (bind_inv _ _ _ _ _ H) as [kb [U2 H6]]. injection H6 as <-.
        destruct (addk_agree k j ka kb K (P j ltac:(lia)) U2) as [A1 A2]. rewrite A1. cbn [bind]. split; [reflexivity|].
        intros i I. cbn [snd]. rewrite A2 by lia. apply P. lia.
      - intros i I. apply (M cs ks EC EK). lia. }
    rewrite T. cbn [bind]. exact H2. }
  rewrite G. cbn [bind]. clear G E1. unfold on_ex in *. destruct (a_ex t) as [l|]; [|exact E2].
  destruct (bind_inv _ _ _ _ _ E2) as [l2 [H3 H2]]. clear E2.
  assert (T : times (a_nex t - ne) ne (fun i => updo (shift_idx k) i) l = Val l2).
  { refine (times_agree _ (fun _ _ => True) _ _ _ _ _ _ _ I H3). intros j a b _ _ H. split; [|exact I].
    rewrite (updo_agree (dy_shift k)); [exact H|]. intros d. apply shift_agree. exact K. }
  rewrite T. cbn [bind]. exact H2.
Qed.

(** * The whole *)
Lemma zeros_keep : forall nz s t, zeros_arr nz s = Val t -> a_nint t = a_nint s.
Proof.
  intros nz s t E. unfold zeros_arr in E. destruct (bind_inv _ _ _ _ _ E) as [u [E1 E2]]. injection E2 as <-. unfold on_ex in E1.
  destruct (a_ex s); [|injection E1 as <-; reflexivity]. destruct (bind_inv _ _ _ _ _ E1) as [v [_ E2]]. injection E2 as <-. reflexivity.
Qed.
Lemma not_mark : forall k, Z.abs k <= 2 ^ 62 -> (k =? word_min) = false.
Proof. intros k K. apply Z.eqb_neq. change word_min with (-9223372036854775808). change (2 ^ 62) with 4611686018427387904 in K. lia. Qed.

Lemma isolate_words : forall flog0 fuel p s s', handy flog0 p -> Z.of_nat fuel <= 2 ^ 60 -> isolate_arr flog0 fuel p s = Val s' -> isolate_idx flog0 fuel p s = Val s'.
Proof.
  intros flog0 fuel p s s' Hh F E. unfold isolate_arr in E. unfold isolate_idx. destruct (forallb (Z.eqb 0) p) eqn:FZ; [discriminate|].
  pose proof (handy_skip flog0 p (fst (low_zeros p)) Hh) as H2. rewrite low_skip in H2.
  assert (NE : snd (low_zeros p) <> []).
  { clear - FZ. induction p as [|a q IH]; [discriminate|]. cbn [low_zeros]; cbn [forallb] in FZ; rewrite Z.eqb_sym in FZ. destruct (a =? 0); [|discriminate]. destruct (low_zeros q). apply IH, FZ. }
  destruct (low_zeros p) as [nz q]. cbn [fst snd] in *. pose proof (neg_odd_ok q []) as NO. cbn [length app Nat.add] in NO. rewrite NO. cbn [bind].
  assert (NE' : flip q <> []) by (intros X; apply NE; apply length_zero_iff_nil; rewrite <- flip_len, X; reflexivity).
  destruct (bound_idx_ok flog0 (flip q) [] (handy_flip _ _ H2) NE') as [B1 M1]. destruct (bound_idx_ok flog0 q [] H2 NE) as [B2 M2].
  rewrite app_nil_r in B1, B2. rewrite B1. cbn [bind]. set (s0 := set_nint 0 (set_nex 0 s)) in *.
  destruct (bind_inv _ _ _ _ _ E) as [s1 [E1 E2]]. clear E. destruct (bind_inv _ _ _ _ _ E2) as [s2 [E3 E4]]. clear E2.
  assert (G : (if emin (root_bound flog0 (flip q)) =? word_min then Val s0
    else bind (vca_idx fuel 0 0 (scale2 (emin (root_bound flog0 (flip q))) (flip q)) s0) (neg_idx (emin (root_bound flog0 (flip q))))) = Val s1).
  { destruct (root_bound flog0 (flip q)) as [k|]; cbn [emin]; [|rewrite Z.eqb_refl; exact E1]. specialize (M1 k eq_refl). rewrite (not_mark k M1).
    destruct (bind_inv _ _ _ _ _ E1) as [t [V N]].
    assert (M0 : small_from 0 s0) by (intros c ks _ _ j J; cbn in J; lia).
    destruct (vca_agree 0 fuel 0 0 _ s0 t ltac:(change (2 ^ 0) with 1; lia) ltac:(lia) ltac:(lia) M0 V) as [V' M0']. rewrite V'. cbn [bind]. apply neg_agree; assumption. }
  rewrite G. cbn [bind]. rewrite E3. cbn [bind]. rewrite B2. cbn [bind].
  destruct (root_bound flog0 q) as [k|]; cbn [emin]; [|rewrite Z.eqb_refl; exact E4]. specialize (M2 k eq_refl). rewrite (not_mark k M2).
  destruct (bind_inv _ _ _ _ _ E4) as [t [V N]]. pose proof (zeros_keep _ _ _ E3) as ZK.
  assert (M0 : small_from (a_nint s1) s2) by (intros c ks _ _ j J; lia).
  destruct (vca_agree (a_nint s1) fuel 0 0 _ s2 t ltac:(change (2 ^ 0) with 1; lia) ltac:(lia) ltac:(lia) M0 V) as [V' M0']. rewrite V'. cbn [bind]. apply pos_agree; assumption.
Qed.

Lemma isolate_words_all : forall flog0 p n, handy flog0 p -> nonzero p -> simple_roots p reals -> upper_idx flog0 p = Val (Z.of_nat n) ->
  exists f0, forall fuel s, (f0 <= fuel)%nat -> Z.of_nat fuel <= 2 ^ 60 -> room n (a_ex s) -> (a_c s <> None -> a_k s <> None -> room n (a_c s) /\ room n (a_k s)) ->
  exists ex ints s', isolate_idx flog0 fuel p s = Val s' /\ filled ex ints s s' /\ isolates p (in_bounds flog0 p) ex ints.
Proof.
  intros flog0 p n Hh Hp Hs U. destruct (upper_idx_ok flog0 p Hh Hp) as [m [U1 U2]]. rewrite U in U2. injection U2 as U2. apply Nat2Z.inj in U2. subst m.
  destruct (arrays_isolate flog0 p n Hp Hs U1) as [f0 H]. exists f0. intros fuel s F F2 R1 R2. destruct (H fuel s F R1 R2) as [ex [ints [s' [E [Fi I]]]]].
  exists ex, ints, s'. split; [|split; [exact Fi|exact I]]. apply isolate_words; assumption.
Qed.

(** The function for [0, 1). *)
Lemma vca_words : forall fuel p s s', Z.of_nat fuel <= 2 ^ 60 -> vca_arr fuel 0 0 p s = Val s' -> vca_idx fuel 0 0 p s = Val s'.
Proof.
  intros fuel p s s' F E. apply (vca_agree (a_nint s) fuel 0 0 p s s'); [change (2 ^ 0) with 1; lia|lia|lia| |exact E]. intros c ks _ _ j J. lia.
Qed.

Lemma isolate_words_zero : forall flog0 fuel p s, Forall (fun a => a = 0) p -> isolate_idx flog0 fuel p s = Abort.
Proof.
  intros flog0 fuel p s H. unfold isolate_idx. replace (forallb (Z.eqb 0) p) with true; [reflexivity|]. symmetry. apply forallb_forall.
  intros a A. rewrite Forall_forall in H. rewrite (H a A). reflexivity.
Qed.
