(** The arrays of the isolation of real roots, see PropertiesArr.v. *)
Require Import List ZArith Bool Arith Lia.
From Verif Require Import RootSpec RootModel ArbModel VcaProofs CountAll IsoWithin CountWithin ArrModel ArrSpec.
Import ListNotations.
Open Scope Z_scope.

Section Lists.
Context {A : Type}.
Implicit Types (l u v r : list A) (f : A -> A).

Lemma rd_mid : forall u x r, rd (u ++ x :: r) (length u) = Val x.
Proof. intros u x r. unfold rd. rewrite nth_error_app2, Nat.sub_diag by lia. reflexivity. Qed.
Lemma wr_mid : forall u x y r, wr (u ++ x :: r) (length u) y = Val (u ++ y :: r).
Proof.
  intros u x y r. unfold wr. rewrite app_length. cbn [length]. destruct (Nat.ltb_spec (length u) (length u + S (length r))); [|lia].
  rewrite firstn_app, Nat.sub_diag, firstn_all. cbn [firstn]. rewrite app_nil_r.
  rewrite skipn_app, skipn_all2 by lia. replace (S (length u) - length u)%nat with 1%nat by lia. reflexivity.
Qed.
Lemma upd_mid : forall f u x r, upd f (length u) (u ++ x :: r) = Val (u ++ f x :: r).
Proof. intros f u x r. unfold upd. rewrite rd_mid. apply wr_mid. Qed.

Lemma upd_times : forall f v u r, times (length v) (length u) (fun i => upd f i) (u ++ v ++ r) = Val (u ++ map f v ++ r).
Proof.
  intros f v. induction v as [|x v IH]; intros u r; [reflexivity|]. cbn [length times]. cbn [app map]. rewrite upd_mid. cbn [bind].
  specialize (IH (u ++ [f x]) r). rewrite app_length in IH. cbn [length] in IH. rewrite Nat.add_1_r in IH.
  rewrite <- !app_assoc in IH. exact IH.
Qed.

Lemma wr_times : forall (z : A) v u r, times (length v) (length u) (fun i l => wr l i z) (u ++ v ++ r) = Val (u ++ repeat z (length v) ++ r).
Proof.
  intros z v. induction v as [|x v IH]; intros u r; [reflexivity|]. cbn [length times repeat]. cbn [app]. rewrite wr_mid. cbn [bind].
  specialize (IH (u ++ [z]) r). rewrite app_length in IH. cbn [length] in IH. rewrite Nat.add_1_r in IH.
  rewrite <- !app_assoc in IH. exact IH.
Qed.

(** Reversal by swaps. *)
Lemma swp_mid : forall u x v y r, swp (length u) (length u + S (length v)) (u ++ x :: v ++ y :: r) = Val (u ++ y :: v ++ x :: r).
Proof.
  intros u x v y r. unfold swp. rewrite rd_mid. cbn [bind].
  assert (E : forall z, u ++ z :: v ++ y :: r = (u ++ z :: v) ++ y :: r) by (intros; rewrite <- app_assoc; reflexivity).
  assert (L : forall z, length (u ++ z :: v) = (length u + S (length v))%nat) by (intros; rewrite app_length; reflexivity).
  rewrite (E x) at 1. rewrite <- (L x) at 1. rewrite rd_mid. cbn [bind]. rewrite wr_mid. cbn [bind]. rewrite E, <- (L y), wr_mid, <- app_assoc. reflexivity.
Qed.

Lemma ends : forall v, (2 <= length v)%nat -> exists x w y, v = x :: w ++ [y].
Proof.
  intros [|x v] H; cbn in H; [lia|]. destruct (exists_last (l := v)) as [w [y ->]]; [destruct v; [cbn in H; lia|discriminate]|]. eauto.
Qed.

Lemma swp_times_go : forall n v u w r, length v = n -> length w = length u ->
  times (n / 2) (length u) (fun i => swp i (length u + n + length w - i - 1)) (u ++ v ++ w ++ r) = Val (u ++ rev v ++ w ++ r).
Proof.
  induction n as [n IH] using lt_wf_ind. intros v u w r Hv Hw.
  destruct (le_lt_dec 2 n) as [G|G].
  - destruct (ends v ltac:(lia)) as [x [m [y ->]]]. cbn [length] in Hv. rewrite app_length in Hv. cbn [length] in Hv.
    assert (D : (n / 2 = S ((n - 2) / 2))%nat).
    { replace n with (n - 2 + 1 * 2)%nat at 1 by lia. rewrite Nat.div_add by lia. lia. }
    rewrite D. cbn [times].
    replace (u ++ (x :: m ++ [y]) ++ w ++ r) with (u ++ x :: m ++ y :: w ++ r) by (cbn [app]; rewrite <- app_assoc; reflexivity).
    replace (length u + n + length w - length u - 1)%nat with (length u + S (length m))%nat by lia.
    rewrite swp_mid. cbn [bind].
    specialize (IH (n - 2)%nat ltac:(lia) m (u ++ [y]) (x :: w) r ltac:(lia) ltac:(rewrite app_length; cbn [length]; lia)).
    rewrite app_length in IH. cbn [length] in IH. rewrite Nat.add_1_r in IH. rewrite <- app_assoc in IH. cbn [app] in IH.
    cbn [rev]. rewrite rev_app_distr. cbn [rev app]. rewrite <- !app_assoc in *. cbn [app] in *. 
    replace (S (length u) + (n - 2) + S (length w))%nat with (length u + n + length w)%nat in IH by lia. exact IH.
  - destruct v as [|x [|y v]]; cbn [length] in Hv; try lia; subst n; reflexivity.
Qed.
Lemma swp_times : forall v r, times (length v / 2) 0 (fun i => swp i (length v - i - 1)) (v ++ r) = Val (rev v ++ r).
Proof.
  intros v r. pose proof (swp_times_go (length v) v [] [] r eq_refl eq_refl) as H. cbn [length app] in H.
  rewrite Nat.add_0_l, Nat.add_0_r in H. exact H.
Qed.

(** Filling. *)
Lemma skipn_skipn : forall a b l, skipn a (skipn b l) = skipn (a + b) l.
Proof.
  intros a b. revert a. induction b as [|b IH]; intros a l; [rewrite Nat.add_0_r; reflexivity|].
  rewrite Nat.add_succ_r. destruct l as [|x l]; [rewrite !skipn_nil; reflexivity|]. cbn [skipn]. apply IH.
Qed.
Lemma fill_length : forall v l, (length v <= length l)%nat -> length (fill v l) = length l.
Proof. intros v l H. unfold fill. rewrite app_length, skipn_length. lia. Qed.
Lemma wr_fill : forall v l x, (length v < length l)%nat -> wr (fill v l) (length v) x = Val (fill (v ++ [x]) l).
Proof.
  intros v l x H. unfold fill. destruct (skipn (length v) l) as [|y r] eqn:E.
  { assert (length (skipn (length v) l) = 0)%nat by (rewrite E; reflexivity). rewrite skipn_length in H0. lia. }
  rewrite wr_mid. f_equal. rewrite <- app_assoc. cbn [app]. f_equal. f_equal. rewrite app_length. cbn [length].
  replace r with (skipn 1 (skipn (length v) l)) by (rewrite E; reflexivity). rewrite skipn_skipn. f_equal. lia.
Qed.
Lemma fill_split : forall v w l, (length (v ++ w) <= length l)%nat -> exists m r, length m = length w /\ fill v l = v ++ m ++ r /\ forall w', length w' = length w -> fill (v ++ w') l = v ++ w' ++ r.
Proof.
  intros v w l H. rewrite app_length in H. exists (firstn (length w) (skipn (length v) l)), (skipn (length w) (skipn (length v) l)).
  split; [|split].
  - rewrite firstn_length, skipn_length. lia.
  - unfold fill. rewrite firstn_skipn. reflexivity.
  - intros w' Hw. unfold fill. rewrite <- app_assoc, app_length, Hw, skipn_skipn. rewrite (Nat.add_comm (length w)). reflexivity.
Qed.
End Lists.

Lemma times_pair : forall {S T : Type} n i (f : nat -> S -> out S) (g : nat -> T -> out T) s t s' t',
  times n i f s = Val s' -> times n i g t = Val t' ->
  times n i (fun i '(s, t) => bind (f i s) (fun s => bind (g i t) (fun t => Val (s, t)))) (s, t) = Val (s', t').
Proof.
  intros S T n. induction n as [|n IH]; intros i f g s t s' t' E F; cbn [times] in *.
  - injection E as ->. injection F as ->. reflexivity.
  - destruct (f i s) as [s1| | |]; try discriminate. destruct (g i t) as [t1| | |]; try discriminate. cbn [bind] in *. apply IH; assumption.
Qed.
Lemma times_right : forall {S T : Type} n i (g : nat -> T -> out T) (s : S) t t',
  times n i g t = Val t' -> times n i (fun i '(s, t) => bind (g i t) (fun t => Val (s, t))) (s, t) = Val (s, t').
Proof.
  intros S T n. induction n as [|n IH]; intros i g s t t' F; cbn [times] in *; [injection F as ->; reflexivity|].
  destruct (g i t) as [t1| | |]; try discriminate. cbn [bind] in *. apply IH. exact F.
Qed.

(** * The states *)
Section States.
Variables (ex0 : option (list dyadic)) (c0 k0 : option (list Z)).

Definition both : bool := match c0, k0 with Some _, Some _ => true | _, _ => false end.
(** The first entries are [e] and [w]. *)
Definition st (e w : list dyadic) : arrs :=
  {| a_ex := fill_opt e ex0; a_c := if both then fill_opt (map fst w) c0 else c0; a_k := if both then fill_opt (map snd w) k0 else k0;
     a_nex := length e; a_nint := length w |}.
Definition fits (e w : list dyadic) : Prop := room (length e) ex0 /\ (both = true -> room (length w) c0 /\ room (length w) k0).

Lemma push_ex : forall e w d, fits (e ++ [d]) w -> 
  bind (on_ex (fun l => wr l (a_nex (st e w)) d) (st e w)) (fun s => Val (set_nex (S (a_nex s)) s)) = Val (st (e ++ [d]) w).
Proof.
  intros e w d [H _]. unfold on_ex, st, fill_opt. cbn [a_ex a_nex]. destruct ex0 as [l|]; cbn [option_map].
  - cbn [room] in H. rewrite app_length in H. cbn [length] in H. rewrite wr_fill by lia. cbn [bind a_nex set_nex]. unfold set_nex. cbn.
    rewrite app_length. cbn [length]. rewrite Nat.add_1_r. reflexivity.
  - cbn [bind]. unfold set_nex. cbn. rewrite app_length. cbn [length]. rewrite Nat.add_1_r. reflexivity.
Qed.

Lemma push_int : forall e w c k, fits e (w ++ [(c, - k)]) -> got_arr c k (st e w) = Val (st e (w ++ [(c, - k)])).
Proof.
  intros e w c k [_ H]. unfold got_arr, on_ints, st, both, fits in *. cbn [a_c a_k a_nint]. destruct c0 as [cs|], k0 as [ks|]; cbn [fill_opt option_map].
  - destruct (H eq_refl) as [H1 H2]. cbn [room] in H1, H2. rewrite app_length in H1, H2. cbn [length] in H1, H2.
    rewrite <- (map_length fst w) at 1. rewrite wr_fill by (rewrite map_length; lia). cbn [bind].
    rewrite <- (map_length snd w) at 1. rewrite wr_fill by (rewrite map_length; lia). cbn [bind]. unfold set_nint. cbn.
    rewrite !map_app, app_length. cbn [length map fst snd]. rewrite Nat.add_1_r. reflexivity.
  - cbn [bind]. unfold set_nint. cbn. rewrite app_length. cbn [length]. rewrite Nat.add_1_r. reflexivity.
  - cbn [bind]. unfold set_nint. cbn. rewrite app_length. cbn [length]. rewrite Nat.add_1_r. reflexivity.
  - cbn [bind]. unfold set_nint. cbn. rewrite app_length. cbn [length]. rewrite Nat.add_1_r. reflexivity.
Qed.

Lemma fits_less : forall e w e' w', fits (e ++ e') (w ++ w') -> fits e w.
Proof.
  intros e w e' w' [H1 H2]. split.
  - destruct ex0; cbn [room] in *; [|exact I]. rewrite app_length in H1. lia.
  - intros B. specialize (H2 B). destruct c0, k0; cbn [room] in *; rewrite ?app_length in H2; try discriminate; lia.
Qed.

Lemma strip_ext : forall p c k ex p' ex', vca_strip c k p ex = (p', ex') -> exists a, ex' = ex ++ a.
Proof.
  induction p as [|a p IH]; intros c k ex p' ex' E; cbn [vca_strip] in E.
  - injection E as _ <-. exists []. rewrite app_nil_r. reflexivity.
  - destruct (a =? 0).
    + destruct (IH _ _ _ _ _ E) as [b ->]. exists ((c, - k) :: b). rewrite <- app_assoc. reflexivity.
    + injection E as _ <-. exists []. rewrite app_nil_r. reflexivity.
Qed.

Lemma strip_arr_ok : forall p c k e0 ex w p' ex', vca_strip c k p ex = (p', ex') -> fits (e0 ++ ex') w ->
  strip_arr c k p (st (e0 ++ ex) w) = Val (p', st (e0 ++ ex') w).
Proof.
  induction p as [|a p IH]; intros c k e0 ex w p' ex' E H; cbn [vca_strip strip_arr] in *.
  - injection E as <- <-. reflexivity.
  - destruct (a =? 0) eqn:Z.
    + destruct (strip_ext _ _ _ _ _ _ E) as [b Hb].
      pose proof (push_ex (e0 ++ ex) w (c, - k)) as P. rewrite <- app_assoc in P.
      specialize (P ltac:(subst ex'; rewrite app_assoc in H; apply (fits_less _ w b []); rewrite app_nil_r; exact H)).
      destruct (on_ex _ _) as [s| | |]; cbn [bind] in *; try discriminate. apply (f_equal (fun o => match o with Val x => x | _ => s end)) in P. cbv beta iota in P. rewrite P. apply IH; assumption.
    + injection E as <- <-. reflexivity.
Qed.

Lemma vca_ext : forall f c k p ex ints exF intF, vca_loop f c k p ex ints = VDone exF intF -> exists a b, exF = ex ++ a /\ intF = ints ++ b.
Proof.
  induction f as [|f IH]; intros c k p ex ints exF intF E; cbn [vca_loop] in E; [discriminate|].
  destruct (vca_strip c k p ex) as [p1 ex1] eqn:S. destruct (strip_ext _ _ _ _ _ _ S) as [a0 ->].
  assert (N : forall i1 c k p, (vca_loop f c k p (ex ++ a0) (ints ++ i1) = VDone exF intF -> exists a b, exF = ex ++ a /\ intF = ints ++ b)).
  { intros i1 c' k' p' F. destruct (IH _ _ _ _ _ _ _ F) as [a [b [-> ->]]]. exists (a0 ++ a), (i1 ++ b). rewrite !app_assoc. auto. }
  assert (M : forall i1, (if k =? Z.of_nat (val2 (c + 1)) then VDone (ex ++ a0) (ints ++ i1)
     else if Z.of_nat (val2 (c + 1)) =? 0 then vca_loop f (c + 1) k (tshift 1 p1) (ex ++ a0) (ints ++ i1)
     else vca_loop f ((c + 1) / 2 ^ Z.of_nat (val2 (c + 1))) (k - Z.of_nat (val2 (c + 1))) (scale2 (Z.of_nat (val2 (c + 1))) (tshift 1 p1)) (ex ++ a0) (ints ++ i1)) = VDone exF intF ->
     exists a b, exF = ex ++ a /\ intF = ints ++ b).
  { intros i1 F. destruct (k =? _); [injection F as <- <-; eauto|]. destruct (_ =? 0); eapply N; exact F. }
  destruct (descartes01 p1 2) as [[|[|[|n]]]| |]; try discriminate.
  - apply (M []). rewrite app_nil_r. exact E.
  - exact (M _ E).
  - apply (N [] (2 * c) (k + 1) (scale2 (-1) p1)). rewrite app_nil_r. exact E.
  - apply (N [] (2 * c) (k + 1) (scale2 (-1) p1)). rewrite app_nil_r. exact E.
Qed.

Lemma vca_arr_ok : forall f c k p e0 w0 ex ints exF intF, vca_loop f c k p ex ints = VDone exF intF -> fits (e0 ++ exF) (w0 ++ intF) ->
  vca_arr f c k p (st (e0 ++ ex) (w0 ++ ints)) = Val (st (e0 ++ exF) (w0 ++ intF)).
Proof.
  induction f as [|f IH]; intros c k p e0 w0 ex ints exF intF E H; [discriminate|].
  pose proof (vca_ext _ _ _ _ _ _ _ _ E) as [a [b [Ha Hb]]]. cbn [vca_loop vca_arr] in *.
  destruct (vca_strip c k p ex) as [p1 ex1] eqn:S.
  assert (X : exists a1, exF = ex1 ++ a1).
  { destruct (descartes01 p1 2) as [[|[|[|n]]]| |]; try discriminate; try (apply vca_ext in E; destruct E as [a1 [b1 [-> _]]]; eauto; fail).
    - destruct (k =? _); [injection E as <- _; exists []; rewrite app_nil_r; reflexivity|]. destruct (_ =? 0); apply vca_ext in E; destruct E as [a1 [b1 [-> _]]]; eauto.
    - destruct (k =? _); [injection E as <- _; exists []; rewrite app_nil_r; reflexivity|]. destruct (_ =? 0); apply vca_ext in E; destruct E as [a1 [b1 [-> _]]]; eauto. }
  destruct X as [a1 Xa].
  rewrite (strip_arr_ok _ _ _ e0 ex (w0 ++ ints) p1 ex1 S).
  2:{ apply (fits_less _ _ a1 b). rewrite <- !app_assoc, <- Xa, <- Hb. exact H. }
  cbn [bind]. destruct (descartes01 p1 2) as [[|[|[|n]]]| |]; try discriminate.
  - destruct (k =? _); [injection E as <- <-; reflexivity|]. destruct (_ =? 0); apply IH; assumption.
  - assert (G : got_arr c k (st (e0 ++ ex1) (w0 ++ ints)) = Val (st (e0 ++ ex1) (w0 ++ ints ++ [(c, - k)]))).
    { rewrite (app_assoc w0). apply push_int.
      assert (Y : exists b1, intF = (ints ++ [(c, - k)]) ++ b1).
      { destruct (k =? _); [injection E as _ <-; exists []; rewrite app_nil_r; reflexivity|]. destruct (_ =? 0); apply vca_ext in E; destruct E as [? [b1 [_ ->]]]; eauto. }
      destruct Y as [b1 Y]. apply (fits_less _ _ a1 b1). rewrite <- !app_assoc in *. rewrite <- Xa. rewrite <- Y. exact H. }
    rewrite G. cbn [bind]. destruct (k =? _); [injection E as <- <-; reflexivity|]. destruct (_ =? 0); apply IH; assumption.
  - apply IH; assumption.
  - apply IH; assumption.
Qed.

(** * Both halves *)
Definition turned (k : Z) (d : dyadic) : dyadic := dy_shift k (int_opp d).
Lemma neg_arr_ok : forall k e w, fits e w -> neg_arr k (st e w) = Val (st (rev (map (fun d => dy_shift k (dy_opp d)) e)) (rev (map (fun d => dy_shift k (int_opp d)) w))).
Proof.
  intros k e w [H1 H2]. unfold neg_arr.
  assert (I : on_ints (fun ck =>
    bind (times (a_nint (st e w)) 0 (fun i '(cs, ks) => bind (upd (fun c => - (c + 1)) i cs) (fun cs => bind (upd (fun e => e + k) i ks) (fun ks => Val (cs, ks)))) ck)
      (times (a_nint (st e w) / 2) 0 (fun i '(cs, ks) => bind (swp i (a_nint (st e w) - i - 1) cs) (fun cs => bind (swp i (a_nint (st e w) - i - 1) ks) (fun ks => Val (cs, ks)))))) (st e w)
    = Val (st e (rev (map (fun d => dy_shift k (int_opp d)) w)))).
  { unfold on_ints, st, both in *. cbn [a_c a_k a_nint]. destruct c0 as [cs|], k0 as [ks|]; cbn [fill_opt option_map];
      try (rewrite rev_length, map_length; reflexivity).
    destruct (H2 eq_refl) as [K1 K2]. cbn [room] in K1, K2. unfold fill. rewrite !map_length, !rev_length, !map_length.
    set (rc := skipn (length w) cs). set (rk := skipn (length w) ks).
    pose proof (upd_times (fun c => - (c + 1)) (map fst w) [] rc) as U1. pose proof (upd_times (fun e => e + k) (map snd w) [] rk) as U2.
    cbn [app length] in U1, U2. rewrite map_length in U1, U2.
    rewrite (times_pair _ _ _ _ _ _ _ _ U1 U2). cbn [bind].
    pose proof (swp_times (map (fun c => - (c + 1)) (map fst w)) rc) as V1. pose proof (swp_times (map (fun e => e + k) (map snd w)) rk) as V2.
    rewrite !map_length in V1, V2. rewrite (times_pair _ _ _ _ _ _ _ _ V1 V2). cbn [bind].
    f_equal. f_equal; f_equal; f_equal; rewrite map_rev, !map_map; reflexivity. }
  rewrite I. cbn [bind]. unfold on_ex, st. cbn [a_ex a_nex]. destruct ex0 as [l|]; cbn [fill_opt option_map].
  - cbn [room] in H1. unfold fill. rewrite !rev_length, !map_length.
    pose proof (upd_times (fun d => dy_shift k (dy_opp d)) e [] (skipn (length e) l)) as U. cbn [app length] in U. rewrite U. cbn [bind].
    pose proof (swp_times (map (fun d => dy_shift k (dy_opp d)) e) (skipn (length e) l)) as V. rewrite map_length in V. rewrite V. cbn [bind].
    cbn. reflexivity.
  - cbn. rewrite !rev_length, !map_length. reflexivity.
Qed.

Lemma zeros_arr_ok : forall nz e w, fits (e ++ repeat (0, 0) nz) w -> zeros_arr nz (st e w) = Val (st (e ++ repeat (0, 0) nz) w).
Proof.
  intros nz e w [H _]. unfold zeros_arr, on_ex, st. cbn [a_ex a_nex]. destruct ex0 as [l|]; cbn [fill_opt option_map].
  - cbn [room] in H. destruct (fill_split e (repeat (0, 0) nz) l H) as [m [r [L [F G]]]]. rewrite repeat_length in L. rewrite F.
    pose proof (wr_times ((0, 0) : dyadic) m e r) as W. rewrite L in W. rewrite W. cbn [bind]. unfold set_nex. cbn.
    rewrite G by reflexivity. rewrite app_length, repeat_length. reflexivity.
  - cbn [bind]. unfold set_nex. cbn. rewrite app_length, repeat_length. reflexivity.
Qed.

Lemma pos_arr_ok : forall k e0 w0 e w, fits (e0 ++ e) (w0 ++ w) ->
  pos_arr k (length w0) (length e0) (st (e0 ++ e) (w0 ++ w)) = Val (st (e0 ++ map (dy_shift k) e) (w0 ++ map (dy_shift k) w)).
Proof.
  intros k e0 w0 e w [H1 H2]. unfold pos_arr.
  assert (I : on_ints (times (a_nint (st (e0 ++ e) (w0 ++ w)) - length w0) (length w0) (fun i '(cs, ks) => bind (upd (fun e => e + k) i ks) (fun ks => Val (cs, ks)))) (st (e0 ++ e) (w0 ++ w))
    = Val (st (e0 ++ e) (w0 ++ map (dy_shift k) w))).
  { unfold on_ints, st, both in *. cbn [a_c a_k a_nint]. destruct c0 as [cs|], k0 as [ks|]; cbn [fill_opt option_map];
      try (rewrite !app_length, map_length; reflexivity).
    unfold fill. rewrite !map_app, !map_map, !app_length, !map_length. replace (length w0 + length w - length w0)%nat with (length w) by lia.
    rewrite <- !app_assoc. set (rc := skipn _ cs). set (rk := skipn _ ks).
    pose proof (upd_times (fun e => e + k) (map snd w) (map snd w0) rk) as U. rewrite !map_length, map_map in U.
    rewrite (times_right _ _ _ _ _ _ U). cbn [bind]. reflexivity. }
  rewrite I. cbn [bind]. unfold on_ex, st. cbn [a_ex a_nex]. destruct ex0 as [l|]; cbn [fill_opt option_map].
  - unfold fill. rewrite !app_length, !map_length. replace (length e0 + length e - length e0)%nat with (length e) by lia. rewrite <- !app_assoc.
    rewrite upd_times. cbn [bind]. cbn. reflexivity.
  - cbn. rewrite !app_length, !map_length. reflexivity.
Qed.
End States.

Lemma isolate_arrays : forall flog0 fuel pol ex ints, isolate flog0 fuel pol = VDone ex ints ->
  forall s, room (length ex) (a_ex s) -> (both (a_c s) (a_k s) = true -> room (length ints) (a_c s) /\ room (length ints) (a_k s)) ->
  isolate_arr flog0 fuel pol s = Val (st (a_ex s) (a_c s) (a_k s) ex ints).
Proof.
  intros flog0 fuel pol ex ints E s R1 R2. set (ex0 := a_ex s) in *. set (c0 := a_c s) in *. set (k0 := a_k s) in *.
  assert (F : fits ex0 c0 k0 ex ints) by (split; assumption). unfold isolate in E. unfold isolate_arr.
  assert (Z0 : set_nint 0 (set_nex 0 s) = st ex0 c0 k0 [] []).
  { unfold set_nint, set_nex, st, fill_opt, fill. cbn. fold ex0 c0 k0. f_equal.
    - destruct ex0; reflexivity.
    - destruct (both c0 k0); destruct c0; reflexivity.
    - destruct (both c0 k0); destruct k0; reflexivity. }
  rewrite Z0. destruct (forallb (Z.eqb 0) pol); [discriminate|]. destruct (low_zeros pol) as [nz p].
  assert (N : forall nex nints, (match root_bound flog0 (flip p) with None => VDone [] [] | Some k =>
      match vca fuel (scale2 k (flip p)) [] [] with
      | VDone ex ints => VDone (rev (map (fun d => dy_shift k (dy_opp d)) ex)) (rev (map (fun d => dy_shift k (int_opp d)) ints))
      | r => r end end) = VDone nex nints -> fits ex0 c0 k0 nex nints ->
    (match root_bound flog0 (flip p) with None => Val (st ex0 c0 k0 [] [])
      | Some k => bind (vca_arr fuel 0 0 (scale2 k (flip p)) (st ex0 c0 k0 [] [])) (neg_arr k) end) = Val (st ex0 c0 k0 nex nints)).
  { intros nex nints G Hf. destruct (root_bound flog0 (flip p)) as [k|]; [|injection G as <- <-; reflexivity].
    destruct (vca fuel (scale2 k (flip p)) [] []) as [e w| | |] eqn:V; try discriminate. injection G as <- <-.
    assert (Hf' : fits ex0 c0 k0 e w). { unfold fits in *. rewrite !rev_length, !map_length in Hf. exact Hf. }
    pose proof (vca_arr_ok ex0 c0 k0 fuel 0 0 _ [] [] [] [] e w V Hf') as A. cbn [app] in A. rewrite A. cbn [bind]. apply neg_arr_ok, Hf'. }
  destruct (match root_bound flog0 (flip p) with None => VDone [] [] | Some k => _ end) as [nex nints| | |] eqn:G; try discriminate.
  specialize (N nex nints eq_refl).
  assert (P : exists pe pw, ex = nex ++ repeat (0, 0) nz ++ pe /\ ints = nints ++ pw).
  { destruct (root_bound flog0 p) as [k|]; [|injection E as <- <-; exists [], []; rewrite !app_nil_r; auto].
    destruct (vca fuel (scale2 k p) [] []) as [e w| | |]; try discriminate. injection E as <- <-. eauto. }
  destruct P as [pe [pw [P1 P2]]].
  rewrite N by (subst; eapply fits_less; exact F). cbn [bind].
  assert (F2 : fits ex0 c0 k0 (nex ++ repeat (0, 0) nz) nints) by (subst; rewrite app_assoc in F; eapply fits_less; exact F).
  rewrite zeros_arr_ok by exact F2. cbn [bind a_nint a_nex st].
  destruct (root_bound flog0 p) as [k|].
  - destruct (vca fuel (scale2 k p) [] []) as [e w| | |] eqn:V; try discriminate. injection E as <- <-.
    assert (F3 : fits ex0 c0 k0 ((nex ++ repeat (0, 0) nz) ++ e) (nints ++ w)).
    { unfold fits in *. rewrite !app_length, !map_length in F. rewrite !app_length. rewrite <- !Nat.add_assoc. rewrite <- ?Nat.add_assoc in F. exact F. }
    pose proof (vca_arr_ok ex0 c0 k0 fuel 0 0 _ (nex ++ repeat (0, 0) nz) nints [] [] e w V F3) as A. rewrite !app_nil_r in A. rewrite A. cbn [bind].
    replace (length nex + nz)%nat with (length (nex ++ repeat ((0, 0) : dyadic) nz)) by (rewrite app_length, repeat_length; reflexivity).
    rewrite pos_arr_ok by exact F3. rewrite <- app_assoc. reflexivity.
  - injection E as <- <-. reflexivity.
Qed.

(** * What is stated *)
Lemma both_spec : forall c0 k0, both c0 k0 = true <-> c0 <> None /\ k0 <> None.
Proof. intros [c|] [k|]; cbn; split; try discriminate; intuition congruence. Qed.

Lemma st_filled : forall s ex ints, filled ex ints s (st (a_ex s) (a_c s) (a_k s) ex ints).
Proof.
  intros s ex ints. unfold filled, st. cbn. split; [reflexivity|]. split; [reflexivity|]. split; [reflexivity|]. split.
  - intros C K. rewrite (proj2 (both_spec _ _) (conj C K)). auto.
  - intros H. destruct (both (a_c s) (a_k s)) eqn:B; [|auto]. apply both_spec in B. intuition.
Qed.

Lemma arrays_filled : forall flog0 fuel pol ex ints, isolate flog0 fuel pol = VDone ex ints -> forall s,
  room (length ex) (a_ex s) -> (a_c s <> None -> a_k s <> None -> room (length ints) (a_c s) /\ room (length ints) (a_k s)) ->
  exists s', isolate_arr flog0 fuel pol s = Val s' /\ filled ex ints s s'.
Proof.
  intros flog0 fuel pol ex ints E s H1 H2. eexists. split; [|apply st_filled].
  apply isolate_arrays; [exact E|exact H1|]. intros B. apply both_spec in B. apply H2; apply B.
Qed.

Lemma arrays_append : forall fuel p ex ints, vca fuel p [] [] = VDone ex ints -> forall s0 e w s,
  filled e w s0 s -> room (length (e ++ ex)) (a_ex s0) ->
  (a_c s0 <> None -> a_k s0 <> None -> room (length (w ++ ints)) (a_c s0) /\ room (length (w ++ ints)) (a_k s0)) ->
  exists s', vca_arr fuel 0 0 p s = Val s' /\ filled (e ++ ex) (w ++ ints) s0 s'.
Proof.
  intros fuel p ex ints E s0 e w s F H1 H2.
  assert (S : s = st (a_ex s0) (a_c s0) (a_k s0) e w).
  { destruct s as [x c k ne ni]. destruct F as [F1 [F2 [F3 [F4 F5]]]]. cbn in *. subst ne ni x. unfold st. destruct (both (a_c s0) (a_k s0)) eqn:B.
    - apply both_spec in B. destruct (F4 (proj1 B) (proj2 B)) as [-> ->]. reflexivity.
    - assert (N : a_c s0 = None \/ a_k s0 = None) by (destruct (a_c s0), (a_k s0); auto; discriminate B).
      destruct (F5 N) as [-> ->]. reflexivity. }
  subst s. eexists. split; [|apply st_filled].
  pose proof (vca_arr_ok (a_ex s0) (a_c s0) (a_k s0) fuel 0 0 p e w [] [] ex ints E) as A. rewrite !app_nil_r in A. apply A.
  split; [exact H1|]. intros B. apply both_spec in B. apply H2; apply B.
Qed.

Lemma arrays_zero : forall flog0 fuel pol s, Forall (fun a => a = 0) pol -> isolate_arr flog0 fuel pol s = Abort.
Proof.
  intros flog0 fuel pol s H. unfold isolate_arr. replace (forallb (Z.eqb 0) pol) with true; [reflexivity|].
  symmetry. apply forallb_forall. intros a Ha. rewrite Forall_forall in H. rewrite (H a Ha). reflexivity.
Qed.

Lemma room_le : forall A (l : option (list A)) m n, (m <= n)%nat -> room n l -> room m l.
Proof. intros A [l|] m n H; cbn [room]; [lia|auto]. Qed.

Lemma arrays_isolate : forall flog0 p n, nonzero p -> simple_roots p reals -> num_real_roots_upper_bound flog0 p = CVal n ->
  exists f0, forall fuel s, (f0 <= fuel)%nat -> room n (a_ex s) -> (a_c s <> None -> a_k s <> None -> room n (a_c s) /\ room n (a_k s)) ->
  exists ex ints s', isolate_arr flog0 fuel p s = Val s' /\ filled ex ints s s' /\ isolates p (in_bounds flog0 p) ex ints.
Proof.
  intros flog0 p n Hp Hs Hn. destruct (isolate_terminates flog0 p Hp Hs) as [f0 H]. exists f0. intros fuel s Hf R1 R2.
  destruct (H fuel Hf) as [ex [ints E]]. exists ex, ints.
  destruct (slots_sufficient flog0 fuel p ex ints Hp E) as [n' [N L]]. rewrite Hn in N. injection N as <-.
  destruct (arrays_filled flog0 fuel p ex ints E s) as [s' [A F]].
  - apply (room_le _ _ _ n); [lia|exact R1].
  - intros C K. destruct (R2 C K). split; apply (room_le _ _ _ n); auto; lia.
  - exists s'. split; [exact A|]. split; [exact F|]. pose proof (isolate_within flog0 fuel p Hp) as W. rewrite E in W. exact W.
Qed.

Lemma arrays_null : forall flog0 p, nonzero p -> simple_roots p reals -> exists f0, forall fuel e i, (f0 <= fuel)%nat ->
  exists s' l, isolate_arr flog0 fuel p {| a_ex := None; a_c := None; a_k := None; a_nex := e; a_nint := i |} = Val s' /\
  root_list p (in_bounds flog0 p) l /\ (a_nex s' + a_nint s')%nat = length l.
Proof.
  intros flog0 p Hp Hs. destruct (isolate_terminates flog0 p Hp Hs) as [f0 H]. exists f0. intros fuel e i Hf.
  destruct (H fuel Hf) as [ex [ints E]].
  destruct (arrays_filled flog0 fuel p ex ints E {| a_ex := None; a_c := None; a_k := None; a_nex := e; a_nint := i |}) as [s' [A [F1 [F2 _]]]]; [exact I|intros C; contradiction|].
  exists s'. assert (C : num_real_roots_vca flog0 fuel p = Some (length ex + length ints)%nat) by (unfold num_real_roots_vca; rewrite E; reflexivity).
  destruct (count_vca_within flog0 fuel p _ Hp Hs C) as [l [L1 L2]]. exists l. split; [exact A|]. split; [exact L1|]. rewrite F1, F2. exact L2.
Qed.
