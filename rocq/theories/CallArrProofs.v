(** The callers of the isolation of real roots, see PropertiesCallArr.v. *)
Require Import Reals List ZArith Znumtheory Bool Arith Lia Lra.
From Verif Require Import PolyR RootSpec RootModel Dyadic ArbModel ArbSpec ElemSpec DescartesProofs VcaProofs IsoProofs CountAll IsoWithin EmbModel ToolsModel ToolsSpec ToolsIrred
  ToolsRand ElemProofs CreateMain ArrModel ArrSpec ArrProofs CallArrModel.
Import ListNotations.
Open Scope Z_scope.

(** There are fewer intervals than coefficients. *)
Lemma ints_lt_length : forall flog0 fuel p ex ints, nonzero p -> isolate flog0 fuel p = VDone ex ints -> (length ints < length p)%nat.
Proof.
  intros flog0 fuel p ex ints Hp E. pose proof (isolate_within flog0 fuel p Hp) as HI. rewrite E in HI.
  destruct (ints_roots p ints (iso_int_root _ _ _ _ HI)) as [rs Hrs].
  rewrite (forall2_len _ _ _ _ _ Hrs), <- (map_length IZR p).
  apply (roots_lt_length _ (map IZR p)); [reflexivity|apply zeval_nonzero_pzero; exact Hp| |].
  - apply (ints_roots_nodup p ints rs (iso_int_sorted _ _ _ _ HI) Hrs).
  - intros x Hx. destruct (forall2_in_r _ _ _ _ _ Hrs _ Hx) as (e & _ & _ & H). exact H.
Qed.

Section Call.
Variables (flog0 : Z) (junk : nat -> Z) (je ji : nat).

Lemma fresh_filled : forall fuel p ex ints n, isolate flog0 fuel p = VDone ex ints -> (length ints <= n)%nat ->
  exists s, isolate_arr flog0 fuel p (fresh junk je ji n) = Val s /\ a_nex s = length ex /\ a_nint s = length ints /\
    forall i d, nth_error ints i = Some d -> rd_int s i = Val d.
Proof.
  intros fuel p ex ints n E L. destruct (arrays_filled flog0 fuel p ex ints E (fresh junk je ji n)) as [s [A [F1 [F2 [_ [F4 _]]]]]].
  - exact I.
  - intros _ _. cbn. rewrite map_length, seq_length, repeat_length. split; exact L.
  - exists s. split; [exact A|]. split; [exact F1|]. split; [exact F2|]. intros i d Hi.
    destruct F4 as [C K]; [discriminate|discriminate|]. unfold rd_int. rewrite C, K. cbn [fresh a_c a_k fill_opt option_map]. unfold rd, fill.
    assert (B : (i < length ints)%nat) by (apply nth_error_Some; rewrite Hi; discriminate).
    rewrite !nth_error_app1 by (rewrite map_length; exact B). rewrite !nth_error_map, Hi. cbn [option_map bind]. destruct d; reflexivity.
Qed.

Section Loop.
Variables (o : arbops) (debug : bool) (fuel : nat) (p : list Z) (prec : Z) (s : arrs).
Let step := fun i slots => bind (rd_int s i) (fun d => bind (renf_init o debug fuel p 1 (embed_ball prec d) prec) (fun nf => wr slots i (Some nf))).

Lemma embed_loop : forall l u r, (forall j d, nth_error l j = Some d -> rd_int s (length u + j) = Val d) -> (length l <= length r)%nat ->
  times (length l) (length u) step (u ++ r) = bind (embed_all o debug fuel p prec l) (fun fs => Val (u ++ fill (map Some fs) r)).
Proof.
  induction l as [|d l IH]; intros u r H L; [reflexivity|]. destruct r as [|x r]; [cbn in L; lia|].
  cbn [length times embed_all]. unfold step at 1. rewrite <- (Nat.add_0_r (length u)) at 1. rewrite (H 0%nat d eq_refl). cbn [bind].
  destruct (renf_init o debug fuel p 1 (embed_ball prec d) prec) as [nf| | |]; [|reflexivity|reflexivity|reflexivity]. cbn [bind]. rewrite wr_mid. cbn [bind].
  specialize (IH (u ++ [Some nf]) r). rewrite app_length, Nat.add_1_r, <- app_assoc in IH. cbn [app] in IH. rewrite IH.
  - destruct (embed_all o debug fuel p prec l) as [fs| | |]; [|reflexivity|reflexivity|reflexivity]. cbn [bind]. unfold fill. cbn [map length skipn app]. rewrite <- app_assoc. reflexivity.
  - intros j e Hj. replace (S (length u) + j)%nat with (length u + S j)%nat by lia. apply H. exact Hj.
  - cbn in L. lia.
Qed.

Lemma embed_loop_short : forall l u r fs, (forall j d, nth_error l j = Some d -> rd_int s (length u + j) = Val d) -> (length r < length l)%nat ->
  embed_all o debug fuel p prec l = Val fs -> times (length l) (length u) step (u ++ r) = Undef.
Proof.
  induction l as [|d l IH]; intros u r fs H L E; [cbn in L; lia|].
  cbn [length times]. unfold step at 1. rewrite <- (Nat.add_0_r (length u)) at 1. rewrite (H 0%nat d eq_refl). cbn [bind]. cbn [embed_all] in E.
  destruct (renf_init o debug fuel p 1 (embed_ball prec d) prec) as [nf| | |]; try discriminate. cbn [bind] in E |- *.
  destruct (embed_all o debug fuel p prec l) as [fs'| | |] eqn:El; try discriminate.
  destruct r as [|x r].
  - rewrite app_nil_r. unfold wr. rewrite Nat.ltb_irrefl. reflexivity.
  - rewrite wr_mid. cbn [bind]. specialize (IH (u ++ [Some nf]) r fs'). rewrite app_length, Nat.add_1_r, <- app_assoc in IH. cbn [app] in IH. apply IH; [|cbn in L; lia|reflexivity].
    intros j e Hj. replace (S (length u) + j)%nat with (length u + S j)%nat by lia. apply H. exact Hj.
Qed.
End Loop.

Lemma embed_all_length : forall o debug fuel p prec l fs, embed_all o debug fuel p prec l = Val fs -> length fs = length l.
Proof.
  intros o debug fuel p prec. induction l as [|d l IH]; intros fs E; cbn in E; [injection E as <-; reflexivity|].
  destruct (renf_init _ _ _ _ _ _ _); try discriminate. cbn [bind] in E. destruct (embed_all _ _ _ _ _ l) as [fs'| | |]; try discriminate.
  injection E as <-. cbn. rewrite (IH fs' eq_refl). reflexivity.
Qed.

Lemma nth_firstn : forall A (l : list A) n i d, nth_error (firstn n l) i = Some d -> nth_error l i = Some d.
Proof.
  intros A l. induction l as [|a l IH]; intros [|n] [|i] d H; try discriminate; [exact H|]. cbn in *. apply (IH n). exact H.
Qed.

Lemma call_embeddings : forall o debug fuel p ex ints lim prec slots, nonzero p -> isolate flog0 fuel p = VDone ex ints ->
  (Nat.min (Z.to_nat lim) (length ints) <= length slots)%nat ->
  set_embeddings_arr o debug flog0 junk je ji fuel p lim prec slots =
  bind (set_embeddings o debug flog0 fuel p lim prec) (fun '(fs, n) => Val (fill (map Some fs) slots, n)).
Proof.
  intros o debug fuel p ex ints lim prec slots Hp E L. unfold set_embeddings_arr, set_embeddings.
  destruct (slots_sufficient flog0 fuel p ex ints Hp E) as [n [-> N]].
  destruct (fresh_filled fuel p ex ints n E ltac:(lia)) as [s [-> [F1 [F2 F3]]]]. cbn [bind]. rewrite E, F1, F2.
  destruct ex as [|e ex]; [|reflexivity]. cbn [length Nat.eqb negb].
  replace (Z.to_nat (Z.min lim (Z.of_nat (length ints)))) with (length (firstn (Z.to_nat lim) ints)) by (rewrite firstn_length; lia).
  pose proof (embed_loop o debug fuel p prec s (firstn (Z.to_nat lim) ints) [] slots) as EL. cbn [length app] in EL. rewrite EL.
  - destruct (embed_all o debug fuel p prec (firstn (Z.to_nat lim) ints)); reflexivity.
  - intros j d Hj. apply F3. apply (nth_firstn _ _ _ _ _ Hj).
  - rewrite firstn_length. exact L.
Qed.

Lemma call_short : forall o debug fuel p lim prec slots fs n, nonzero p -> set_embeddings o debug flog0 fuel p lim prec = Val (fs, n) ->
  (length slots < length fs)%nat -> set_embeddings_arr o debug flog0 junk je ji fuel p lim prec slots = Undef.
Proof.
  intros o debug fuel p lim prec slots fs n Hp V L. unfold set_embeddings in V.
  destruct (isolate flog0 fuel p) as [ex ints| | |] eqn:E; try (destruct (num_real_roots_upper_bound flog0 p); discriminate).
  destruct (slots_sufficient flog0 fuel p ex ints Hp E) as [m [N M]]. unfold set_embeddings_arr. rewrite N in V |- *.
  destruct (fresh_filled fuel p ex ints m E ltac:(lia)) as [s [-> [F1 [F2 F3]]]]. cbn [bind]. rewrite F1, F2.
  destruct ex as [|e ex]; [|discriminate]. cbn [length Nat.eqb negb].
  destruct (embed_all o debug fuel p prec (firstn (Z.to_nat lim) ints)) as [fs'| | |] eqn:A; try discriminate. injection V as -> _.
  replace (Z.to_nat (Z.min lim (Z.of_nat (length ints)))) with (length (firstn (Z.to_nat lim) ints)) by (rewrite firstn_length; lia).
  pose proof (embed_loop_short o debug fuel p prec s (firstn (Z.to_nat lim) ints) [] slots fs) as EL. cbn [length app] in EL. rewrite EL; [reflexivity| | |exact A].
  - intros j d Hj. apply F3. apply (nth_firstn _ _ _ _ _ Hj).
  - rewrite <- (embed_all_length _ _ _ _ _ _ _ A). exact L.
Qed.

Lemma call_random_done : forall o debug has fuel ds pick len prec p ex ints, rand_pol has ds = Val p -> nonzero p -> isolate flog0 fuel p = VDone ex ints ->
  randtest_arr o debug flog0 junk je ji has fuel ds pick len prec = randtest o debug flog0 has fuel ds pick len prec.
Proof.
  intros o debug has fuel ds pick len prec p ex ints R Hp E. unfold randtest_arr, randtest. destruct (len <=? 1); [reflexivity|]. rewrite R. cbn [bind].
  destruct (fresh_filled fuel p ex ints (length p) E) as [s [-> [F1 [F2 F3]]]].
  { pose proof (ints_lt_length flog0 fuel p ex ints Hp E). lia. }
  cbn [bind]. rewrite E, F2. destruct ints as [|d ints].
  - cbn [length Nat.eqb]. destruct (pick mod 0)%nat; reflexivity.
  - replace (Nat.eqb (length (d :: ints)) 0) with false by reflexivity.
    destruct (nth_error (d :: ints) (pick mod length (d :: ints))) as [e|] eqn:N.
    + rewrite (F3 _ _ N). reflexivity.
    + exfalso. apply nth_error_None in N. pose proof (Nat.mod_upper_bound pick (length (d :: ints)) ltac:(discriminate)). lia.
Qed.

Lemma call_random : forall has ds p, Forall draw_ok ds -> rand_pol has ds = Val p -> exists f0, forall o debug fuel pick len prec, (f0 <= fuel)%nat ->
  randtest_arr o debug flog0 junk je ji has fuel ds pick len prec = randtest o debug flog0 has fuel ds pick len prec.
Proof.
  intros has ds p Hok R. destruct (rand_pol_in has ds p R) as (d & Hd & ->). rewrite Forall_forall in Hok.
  destruct (Hok d Hd) as (Pc & Hi & Hl).
  destruct (lift_irreducible (dr_prime d) (dr_pol d) (dr_take d) Pc Hi Hl) as (A & B & C & D). fold (drawn d) in A, B, C, D.
  assert (Hp : nonzero (drawn d)).
  { intros F. pose proof (prime_ge_2 _ Pc). assert (last (drawn d) 0 = 0); [|lia]. rewrite ToolsIrred.last_nth. rewrite Forall_forall in F. apply F, nth_In. destruct (drawn d); [cbn in B; lia|cbn; lia]. }
  destruct (isolate_terminates flog0 (drawn d) Hp) as [f0 H].
  { intros y _ Z. apply (minimal_simple (drawn d) y). apply D. exact Z. }
  exists f0. intros o debug fuel pick len prec Hf. destruct (H fuel Hf) as [ex [ints E]].
  apply (call_random_done o debug has fuel ds pick len prec (drawn d) ex ints R Hp E).
Qed.

Lemma call_count : forall fuel p n, num_real_roots_vca flog0 fuel p = Some n -> num_real_roots_vca_arr flog0 fuel p = Val n.
Proof.
  intros fuel p n E. unfold num_real_roots_vca in E. destruct (isolate flog0 fuel p) as [ex ints| | |] eqn:I0; try discriminate. injection E as <-.
  destruct (arrays_filled flog0 fuel p ex ints I0 {| a_ex := None; a_c := None; a_k := None; a_nex := 0; a_nint := 0 |}) as [s' [A [F1 [F2 _]]]]; [exact I|intros C; contradiction|].
  unfold num_real_roots_vca_arr. rewrite A. cbn [bind]. rewrite F1, F2. reflexivity.
Qed.
End Call.

Lemma call_zero : forall flog0 junk je ji o debug fuel p lim prec slots, Forall (fun a => a = 0) p ->
  set_embeddings_arr o debug flog0 junk je ji fuel p lim prec slots = Abort /\ num_real_roots_vca_arr flog0 fuel p = Abort.
Proof.
  intros flog0 junk je ji o debug fuel p lim prec slots H. split.
  - unfold set_embeddings_arr, num_real_roots_upper_bound. replace (forallb (Z.eqb 0) p) with true; [reflexivity|]. symmetry. apply forallb_forall.
    intros a A. rewrite Forall_forall in H. rewrite (H a A). reflexivity.
  - unfold num_real_roots_vca_arr. rewrite arrays_zero by exact H. reflexivity.
Qed.
