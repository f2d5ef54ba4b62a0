(** Archives of elements loaded where fields exist already (C47). *)
Require Import List ZArith Bool Lia Ascii.
From Verif Require Import PolyR Dyadic ArbModel ArbSpec ElemModel ElemSpec GetdModel StrModel StrSpec CxxModel MakeModel MakeSpec ArchiveProofs.
Import ListNotations.

Lemma str_eqb_refl : forall s, str_eqb s s = true.
Proof. induction s as [|a s IH]; [reflexivity|]. cbn [str_eqb]. rewrite Ascii.eqb_refl. exact IH. Qed.

(** The fields that are taken for the same: one name and equal in the sense of renf_equal. *)
Definition alike (f g : str * renf) : Prop := fst f = fst g /\ renf_equal (snd f) (snd g) = true.
Lemma same_key_iff : forall f g, same_key f g = true <-> alike f g.
Proof.
  intros f g. unfold same_key, alike. rewrite andb_true_iff. split; intros [A B].
  - split; [apply str_eqb_eq, B|exact A].
  - rewrite A. split; [exact B|apply str_eqb_refl].
Qed.

Lemma find_field_some : forall f l i, find_field f l = Some i -> exists g, nth_error l i = Some g /\ alike f g.
Proof.
  intros f. induction l as [|g l IH]; intros i H; [discriminate|]. cbn [find_field] in H.
  destruct (same_key f g) eqn:E; [injection H as <-; exists g; split; [reflexivity|apply same_key_iff, E]|].
  destruct (find_field f l) as [j|]; [|discriminate]. injection H as <-. exact (IH j eq_refl).
Qed.
Lemma find_field_front : forall f l l' g, In g l -> alike f g -> exists i, find_field f (l ++ l') = Some i /\ (i < length l)%nat.
Proof.
  intros f. induction l as [|h l IH]; intros l' g Hg Ha; [destruct Hg|]. cbn [app find_field length].
  destruct (same_key f h) eqn:E; [exists O; split; [reflexivity|lia]|].
  destruct Hg as [->|Hg]; [apply same_key_iff in Ha; congruence|].
  destruct (IH l' g Hg Ha) as (i & -> & L). exists (S i). split; [reflexivity|lia].
Qed.
Lemma find_field_missing : forall f l g, find_field f l = None -> In g l -> ~ alike f g.
Proof.
  intros f l g H Hg Ha. destruct (find_field_front f l [] g Hg Ha) as (i & E & _). rewrite app_nil_r in E. congruence.
Qed.
Lemma alike_pol : forall f g, alike f g -> f_pol (snd f) = f_pol (snd g).
Proof.
  intros f g [_ H]. unfold renf_equal in H. apply andb_true_iff in H. destruct H as [H _]. apply andb_true_iff in H. destruct H as [H _].
  revert H. generalize (f_pol (snd f)) (f_pol (snd g)). induction l as [|a l IH]; intros [|b q] H; cbn [zlist_eqb] in H; try discriminate; [reflexivity|].
  apply andb_true_iff in H. destruct H as [E H]. apply Z.eqb_eq in E. rewrite E, (IH q H). reflexivity.
Qed.

Section Into.
Variables (o : arbops) (debug : bool) (zd : Z -> out (option (Z * Z))) (read : str -> Z -> option ball) (fuel : nat).
Variables (show : ball -> Z -> str) (print_poly print_el : str -> elem -> str).
Variable ops : list Z -> nfops.
Variable back : nat -> str * renf.
Variable n : nat.
Variable pool : list (str * renf).

(** Position [k] of the pool, grown by [ext], suits the field at [a]: what is there
    is taken for the field made again or is this field, and it was there before
    exactly when such a field was. *)
Definition suits (ext : list (str * renf)) (a k : nat) : Prop :=
  (exists g, nth_error (pool ++ ext) k = Some g /\ (g = back a \/ alike (back a) g)) /\
  ((exists g, In g pool /\ alike (back a) g) <-> (k < length pool)%nat).
Lemma suits_grow : forall ext ext' a k, suits ext a k -> suits (ext ++ ext') a k.
Proof.
  intros ext ext' a k [(g & E & H) I]. split; [|exact I]. exists g. split; [|exact H].
  rewrite app_assoc, nth_error_app1; [exact E|]. apply nth_error_Some. rewrite E. discriminate.
Qed.

Lemma load_into : forall l known ext ids loc0,
  Forall (savable o debug zd read fuel show print_poly print_el ops back n) l ->
  (forall i a, nth_error known i = Some a -> id_at (S i) ids = Some (loc0 a) /\ suits ext a (loc0 a)) ->
  exists loc more ids', (forall a, In a known -> loc a = loc0 a) /\
    load_all o debug zd read fuel ops n (length l) {| ld_pool := pool ++ ext; ld_ids := ids |} (save_all show print_poly print_el known l) =
      Val (Ret (map (fun x => (loc (pl_addr (fst x)), snd x)) l, {| ld_pool := pool ++ ext ++ more; ld_ids := ids' |})) /\
    Forall (fun x => suits (ext ++ more) (pl_addr (fst x)) (loc (pl_addr (fst x)))) l /\
    Forall (fun g => exists x, In x l /\ g = back (pl_addr (fst x))) more.
Proof.
  induction l as [|[p e] l IH]; intros known ext ids loc0 Hs Hk.
  - exists loc0, [], ids. cbn. rewrite app_nil_r. repeat split; constructor.
  - inversion Hs as [|? ? [(k & Rm) Nm El] Hs']; subst. cbn [fst snd] in *.
    (* reading the text of the element in a field that suits *)
    assert (Rd : forall g, (g = back (pl_addr p) \/ alike (back (pl_addr p)) g) ->
      of_string zd (ops (f_pol (snd g))) (fst g) (print_el (pl_name p) e) = Val (Some e)).
    { intros g [->|A]; [rewrite Nm; exact El|]. destruct A as [A1 A2].
      rewrite <- A1, <- (alike_pol _ _ (conj A1 A2)), Nm. exact El. }
    cbn [save_all length load_all]. unfold save_elem, save_field. cbn [fst snd].
    destruct (index_of (pl_addr p) known) as [i|] eqn:Ei.
    + pose proof (index_of_nth _ _ _ Ei) as Hn. destruct (Hk i _ Hn) as [Hid Hsu].
      destruct (IH known ext ids loc0 Hs' Hk) as (loc & more & ids' & L & E & F & M).
      assert (Lp : loc (pl_addr p) = loc0 (pl_addr p)) by (apply L; exact (nth_error_In _ _ Hn)).
      exists loc, more, ids'. split; [exact L|]. split; [|split].
      * cbn [app]. unfold load_elem, load_field. cbn [ld_ids]. rewrite Hid. unfold ebind at 2. cbn [bind ld_pool].
        destruct Hsu as [(g & Hg & Hg2) _]. rewrite Hg. specialize (Rd g Hg2). destruct g as [nm nf]. cbn [fst snd] in Rd. rewrite Rd.
        unfold ebind. cbn [bind]. rewrite E. cbn [bind map fst snd]. rewrite Lp. reflexivity.
      * constructor; [|exact F]. cbn [fst]. rewrite Lp. apply suits_grow. exact Hsu.
      * eapply Forall_impl; [|exact M]. intros g (x & Hx & ->). exists x. split; [right; exact Hx|reflexivity].
    + pose proof (index_of_none _ _ Ei) as Hnot.
      unfold construction. cbn [app]. unfold load_elem, load_field. unfold remade, construction in Rm. rewrite Rm. cbn [bind fst].
      unfold enter. cbn [ld_pool ld_ids].
      assert (Eb : (pl_name p, snd (back (pl_addr p))) = back (pl_addr p)) by (rewrite <- Nm, <- surjective_pairing; reflexivity).
      rewrite Eb.
      assert (Step : forall ext1 k1, (exists g, nth_error (pool ++ ext1) k1 = Some g /\ (g = back (pl_addr p) \/ alike (back (pl_addr p)) g)) ->
        suits ext1 (pl_addr p) k1 -> (forall a k, suits ext a k -> suits ext1 a k) ->
        exists loc more ids', (forall a, In a known -> loc a = loc0 a) /\ loc (pl_addr p) = k1 /\
          load_all o debug zd read fuel ops n (length l) {| ld_pool := pool ++ ext1; ld_ids := (S (length known), k1) :: ids |}
            (save_all show print_poly print_el (known ++ [pl_addr p]) l) =
          Val (Ret (map (fun x => (loc (pl_addr (fst x)), snd x)) l, {| ld_pool := pool ++ ext1 ++ more; ld_ids := ids' |})) /\
          Forall (fun x => suits (ext1 ++ more) (pl_addr (fst x)) (loc (pl_addr (fst x)))) l /\
          Forall (fun g => exists x, In x l /\ g = back (pl_addr (fst x))) more).
      { intros ext1 k1 Hg Hsu Hgrow.
        destruct (IH (known ++ [pl_addr p]) ext1 ((S (length known), k1) :: ids) (fun a => if Nat.eqb a (pl_addr p) then k1 else loc0 a) Hs')
          as (loc & more & ids' & L & E & F & M).
        - intros i a Hi. destruct (Nat.lt_ge_cases i (length known)) as [G|G].
          + rewrite nth_error_app1 in Hi by exact G. destruct (Hk i a Hi) as [H1 H2].
            destruct (Nat.eqb_spec a (pl_addr p)) as [->|Hne]; [exfalso; apply Hnot; exact (nth_error_In _ _ Hi)|].
            split; [|apply Hgrow; exact H2]. cbn [id_at]. destruct (Nat.eqb_spec (S (length known)) (S i)) as [Q|Q]; [lia|exact H1].
          + rewrite nth_error_app2 in Hi by exact G. destruct (i - length known)%nat as [|j] eqn:Ej; [|destruct j; discriminate].
            injection Hi as <-. rewrite Nat.eqb_refl. split; [|exact Hsu]. cbn [id_at].
            replace i with (length known) by lia. rewrite Nat.eqb_refl. reflexivity.
        - exists loc, more, ids'. split; [|split; [|split; [exact E|split; [exact F|exact M]]]].
          + intros a Ha. rewrite L by (apply in_or_app; left; exact Ha). destruct (Nat.eqb_spec a (pl_addr p)) as [->|]; [contradiction|reflexivity].
          + rewrite L by (apply in_or_app; right; left; reflexivity). rewrite Nat.eqb_refl. reflexivity. }
      destruct (find_field (back (pl_addr p)) (pool ++ ext)) as [k1|] eqn:Ef.
      * destruct (find_field_some _ _ _ Ef) as (g & Hg & Ha).
        assert (Hsu : suits ext (pl_addr p) k1).
        { split; [exists g; split; [exact Hg|right; exact Ha]|]. split.
          - intros (h & Hh & Hah). destruct (find_field_front _ pool ext h Hh Hah) as (i & E & Hi). congruence.
          - intros Hlt. rewrite nth_error_app1 in Hg by exact Hlt. exists g. split; [exact (nth_error_In _ _ Hg)|exact Ha]. }
        destruct (Step ext k1 (proj1 Hsu) Hsu (fun a k H => H)) as (loc & more & ids' & L & Lp & E & F & M).
        exists loc, more, ids'. split; [exact L|]. split; [|split].
        -- unfold ebind at 2. cbn [bind ld_pool]. rewrite Hg. pose proof (Rd g (or_intror Ha)) as R. destruct g as [nm nf]. cbn [fst snd] in R. rewrite R.
           unfold ebind. cbn [bind]. rewrite E. cbn [bind map fst snd]. rewrite Lp. reflexivity.
        -- constructor; [|exact F]. cbn [fst]. rewrite Lp. apply suits_grow. exact Hsu.
        -- eapply Forall_impl; [|exact M]. intros h (x & Hx & ->). exists x. split; [right; exact Hx|reflexivity].
      * assert (Hg : nth_error (pool ++ ext ++ [back (pl_addr p)]) (length (pool ++ ext)) = Some (back (pl_addr p))).
        { rewrite app_assoc, nth_error_app2, Nat.sub_diag by lia. reflexivity. }
        assert (Hsu : suits (ext ++ [back (pl_addr p)]) (pl_addr p) (length (pool ++ ext))).
        { split; [exists (back (pl_addr p)); split; [exact Hg|left; reflexivity]|]. split.
          - intros (h & Hh & Hah). destruct (find_field_front _ pool ext h Hh Hah) as (i & E & Hi). congruence.
          - rewrite app_length. intros Hlt. lia. }
        destruct (Step _ _ (proj1 Hsu) Hsu (fun a k H => suits_grow _ _ _ _ H)) as (loc & more & ids' & L & Lp & E & F & M).
        exists loc, (back (pl_addr p) :: more), ids'. rewrite <- app_assoc in E, F. cbn [app] in E, F. split; [exact L|]. split; [|split].
        -- unfold ebind at 2. cbn [bind ld_pool]. rewrite <- app_assoc, Hg. pose proof (Rd _ (or_introl eq_refl)) as R.
           destruct (back (pl_addr p)) as [nm nf] eqn:Ebk. cbn [fst snd] in R. rewrite R.
           unfold ebind. cbn [bind]. rewrite E. cbn [bind map fst snd]. rewrite Lp. reflexivity.
        -- constructor; [|exact F]. cbn [fst]. rewrite Lp. change (back (pl_addr p) :: more) with ([back (pl_addr p)] ++ more).
           rewrite app_assoc. apply suits_grow. exact Hsu.
        -- constructor; [exists (p, e); split; [left; reflexivity|reflexivity]|].
           eapply Forall_impl; [|exact M]. intros h (x & Hx & ->). exists x. split; [right; exact Hx|reflexivity].
Qed.

Theorem archive_into : arb_ok o -> zero_den_ok zd -> print_ok print_poly -> print_ok print_el ->
  forall l, Forall (sound o debug zd read fuel show print_poly ops back n) l ->
  exists loc more ids,
    load_all o debug zd read fuel ops n (length l) {| ld_pool := pool; ld_ids := [] |} (save_all show print_poly print_el [] l) =
      Val (Ret (map (fun x => (loc (pl_addr (fst x)), snd x)) l, {| ld_pool := pool ++ more; ld_ids := ids |})) /\
    (forall p e, In (p, e) l ->
      (exists g, nth_error (pool ++ more) (loc (pl_addr p)) = Some g /\ (g = back (pl_addr p) \/ alike (back (pl_addr p)) g)) /\
      ((exists g, In g pool /\ alike (back (pl_addr p)) g) <-> (loc (pl_addr p) < length pool)%nat)) /\
    (forall g, In g more -> exists p e, In (p, e) l /\ g = back (pl_addr p)).
Proof.
  intros Ho Hzd Hpp Hpe l Hs.
  assert (Hs' : Forall (savable o debug zd read fuel show print_poly print_el ops back n) l)
    by (eapply Forall_impl; [|exact Hs]; apply sound_savable; assumption).
  destruct (load_into l [] [] [] (fun _ => O) Hs') as (loc & more & ids & _ & E & F & M).
  { intros i a Hi. destruct i; discriminate. }
  exists loc, more, ids. rewrite app_nil_r in E. split; [exact E|]. split.
  - intros p e Hi. exact (proj1 (Forall_forall _ _) F (p, e) Hi).
  - intros g Hg. destruct (proj1 (Forall_forall _ _) M g Hg) as ([p e] & Hx & ->). exists p, e. split; [exact Hx|reflexivity].
Qed.
End Into.
