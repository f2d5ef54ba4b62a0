(** Fields made from strings. *)
Require Import Reals List ZArith Bool Lia Lra Ascii.
From Verif Require Import PolyR RootSpec RootModel VcaProofs VcaTerm Dyadic DyadicProofs ArbModel ArbSpec ArbProofs FieldProofs DyBall DyBallProofs
  RefineProofs ElemModel ElemSpec RateSpec DyRate EndsSpec EndsProofs RefineEnds DefSpec ToolsSpec StrModel StrSpec StrProofs CxxModel
  MakeModel MakeSpec MakeText MakeProofs CreateSpec CreateProofs CreateMain.
Import ListNotations.
Open Scope char_scope.
Open Scope R_scope.

Lemma make_answers : forall o zd read, arb_ok o -> arb_rate o -> read_ok read -> read_sharp read ->
  forall pol x, irreducible pol -> last pol 0%Z <> 0%Z -> (3 <= length pol)%nat -> zeval pol x = 0 ->
  exists w, 0 < w /\ forall minpoly gen emb p q, set_str zd gen minpoly = Val (Some p) -> e_num p = pol ->
  ball_text emb = Some q -> Rabs (x - dec10 (fst q)) < dec10 (snd q) -> dec10 (snd q) <= w ->
  exists P, forall debug n prec, (P <= prec)%Z -> (2 <= n)%nat ->
  DefSpec.answers (fun fuel => make_str o debug zd read fuel n minpoly gen emb prec)
    (fun res => snd res = O /\ exists nf, fst res = Ret nf /\ embedded pol (e_den p) x prec nf)
    (exists b, read emb prec = Some b /\ word_overflow o pol b).
Proof.
  intros o zd read Ho Hrt Hrd Hsh pol x Hi Hl Hdeg Zx.
  destruct (narrow_exists o pol Ho Hrt Hi Hl Hdeg x Zx) as (r0 & R0 & Hn).
  exists (r0 / 4). split; [lra|]. intros minpoly gen emb p q Es Ep Eb Hx Hq.
  set (c := dec10 (fst q)) in *. set (rho := dec10 (snd q)) in *.
  pose proof (Rabs_pos (x - c)) as Hp0.
  set (mu := (rho - Rabs (x - c)) / 2). assert (Hmu : 0 < mu) by (unfold mu; lra).
  destruct (Hn mu Hmu) as (P1 & H1).
  destruct (Hsh emb q (r0 / 4) Eb ltac:(lra)) as (P2 & H2).
  exists (Z.max 2 (Z.max P1 P2)). intros debug n prec HP Hn2.
  destruct (H2 prec ltac:(lia)) as (m & r & Er & Hm & Hr). fold c in Hm. fold rho in Hr.
  destruct (Hrd emb q prec ltac:(lia) Eb) as (b & Eb' & Hin). rewrite Er in Eb'. injection Eb' as <-.
  assert (I1 : inb (c - rho) (Fin m r)).
  { apply Hin. unfold in_text. fold c rho. replace (c - rho - c) with (- rho) by ring. rewrite Rabs_Ropp, Rabs_pos_eq; lra. }
  assert (I2 : inb (c + rho) (Fin m r)).
  { apply Hin. unfold in_text. fold c rho. replace (c + rho - c) with rho by ring. rewrite Rabs_pos_eq; lra. }
  apply inb_bounds in I1. apply inb_bounds in I2.
  assert (Hxc : - Rabs (x - c) <= x - c <= Rabs (x - c)) by (unfold Rabs; destruct (Rcase_abs (x - c)); lra).
  destruct (H1 debug (e_den p) m r prec ltac:(lia)) as [(f1 & Hc) (f2 & res & Hf & Hres)]; [unfold mu; lra|unfold mu; lra|lra|].
  exists (Nat.max f1 f2), (bind res (fun nf => Val (Ret nf, O))). split.
  - intros f Hm'. rewrite make_cases by exact Hn2. rewrite Es. cbn [bind]. destruct (Z.ltb_spec prec 2); [lia|].
    rewrite Er, Ep, Hc by lia. cbn [bind]. rewrite Hf by lia. reflexivity.
  - destruct res as [nf| | |]; cbn [bind]; try contradiction.
    + split; [reflexivity|]. exists nf. split; [reflexivity|exact Hres].
    + exists (Fin m r). split; [exact Er|exact Hres].
Qed.

(** The reader of MakeText.v meets the contract. *)
Lemma unsigned10_nonneg : forall s q, unsigned10 s = Some q -> (0 <= fst q)%Z.
Proof.
  intros s q E. unfold unsigned10 in E. destruct (span_digits s) as [u r] eqn:E1. apply span_split in E1. destruct E1 as [_ Du].
  assert (H : forall v r', Forall (fun c => digitb c = true) v ->
    match u ++ v with
    | [] => None
    | ds => match r' with
            | [] => Some (numval ds, (- Z.of_nat (length v))%Z)
            | c :: r' => if Ascii.eqb c "e" || Ascii.eqb c "E" then
                match exponent10 r' with Some k => Some (numval ds, (k - Z.of_nat (length v))%Z) | None => None end
              else None
            end
    end = Some q -> (0 <= fst q)%Z).
  { intros v r' Dv. assert (Duv : Forall (fun c => digitb c = true) (u ++ v)) by (apply Forall_app; split; assumption).
    apply numval_nonneg in Duv. destruct (u ++ v) as [|d ds]; [discriminate|]. intros E'. destruct r' as [|h t]; [injection E' as <-; exact Duv|].
    destruct (Ascii.eqb h "e" || Ascii.eqb h "E"); [|discriminate]. destruct (exponent10 t); [|discriminate].
    injection E' as <-. exact Duv. }
  destruct r as [|h t]; [apply (H [] [] (Forall_nil _) E)|]. destruct (Ascii.eqb h "."); [|apply (H [] (h :: t) (Forall_nil _) E)].
  destruct (span_digits t) as [v r'] eqn:E2. apply span_split in E2. destruct E2 as [_ Dv]. apply (H v r' Dv E).
Qed.
Lemma ball_text_nonneg : forall s q, ball_text s = Some q -> 0 <= dec10 (snd q).
Proof.
  assert (H : forall s q, plain_ball s = Some q -> 0 <= dec10 (snd q)).
  { intros s q E. assert (Hz : (0 <= fst (snd q))%Z).
    { unfold plain_ball in E. destruct (cut_pm s) as [u [v|]].
      - destruct (signed10 u) as [c|]; [|discriminate]. destruct (unsigned10 v) as [r|] eqn:Er; [|discriminate]. injection E as <-.
        apply (unsigned10_nonneg v r Er).
      - destruct (signed10 u) as [c|]; [|discriminate]. injection E as <-. cbn. lia. }
    unfold dec10. apply Rmult_le_pos; [apply IZR_le; exact Hz|]. left. apply ten_pos. }
  intros s q E. unfold ball_text in E. destruct s as [|c s']; [discriminate|]. destruct (Ascii.eqb c "["); [|apply (H _ _ E)].
  destruct (rev s') as [|d t]; [discriminate|]. destruct (Ascii.eqb d "]"); [apply (H _ _ E)|discriminate].
Qed.

Lemma set_q_small : forall n d e, d <> 0%Z -> 0 < e -> exists P, forall prec, (P <= prec)%Z ->
  exists m r, o_set_q dyops n d prec = Fin m r /\ dyv r <= e /\ Rabs (IZR n / IZR d - dyv m) <= dyv r.
Proof.
  intros n d e Hd He. assert (Hd' : 1 <= Rabs (IZR d)) by (rewrite <- abs_IZR; apply IZR_le; lia).
  set (M := 1 + Rabs (IZR n) + Rabs (IZR d)). pose proof (Rabs_pos (IZR n)).
  destruct (y_div_rate M ltac:(unfold M; lra)) as (C & HC & H0).
  destruct (pw2_neg_small (e / C)) as (P & HP); [apply Rdiv_lt_0_compat; lra|].
  exists (Z.max 2 P). intros prec Hp. specialize (HP prec ltac:(lia)).
  assert (Hr : rad_le (y_div (bint n) (bint d) prec) (C * (0 + Rabs (IZR n) * 0 + pw2 (- prec)))).
  { apply (H0 (bint n) (bint d) (IZR n) (IZR d)); [lia|apply inb_int|apply inb_int|unfold M; lra| | | |lra|].
    - split; [|unfold M; lra]. apply Rle_trans with 1; [|exact Hd']. apply (Rmult_le_reg_r M); [unfold M; lra|].
      unfold Rdiv. rewrite Rmult_1_l, Rinv_l by (unfold M; lra). unfold M; lra.
    - unfold bint, bexact, rad_le. rewrite dyv_dz. simpl. lra.
    - unfold bint, bexact, rad_le. rewrite dyv_dz. simpl. lra.
    - left. apply Rdiv_lt_0_compat; unfold M; lra. }
  pose proof (ok_set_q _ dyops_ok n d prec ltac:(lia) Hd) as Hin. cbn [o_set_q dyops] in *.
  destruct (y_div (bint n) (bint d) prec) as [m r|]; [|contradiction]. exists m, r. split; [reflexivity|]. cbn [rad_le] in Hr. cbn [inb] in Hin.
  assert (Hce : C * pw2 (- prec) <= C * (e / C)) by (apply Rmult_le_compat_l; lra). replace (C * (e / C)) with e in Hce by (field; lra).
  split; [lra|exact Hin].
Qed.

Lemma dec_read_sharp : read_sharp dec_read.
Proof.
  intros s [c r] e Eb He. pose proof (ball_text_nonneg s _ Eb) as Hrho. unfold dec_read. rewrite Eb. cbn [fst snd] in *.
  destruct (frac10_ok c) as [D1 V1]. destruct (frac10_ok r) as [D2 V2].
  destruct (frac10 c) as [n d]. destruct (frac10 r) as [m k]. cbn [fst snd] in *. rewrite <- V1, <- V2 in *.
  set (x := IZR n / IZR d) in *. set (rho := IZR m / IZR k) in *. set (M := Rabs x + 1 + e). pose proof (Rabs_pos x) as Px.
  destruct (set_q_small n d (e / 8) D1 ltac:(lra)) as (P1 & H1). destruct (set_q_small m k (e / 8) D2 ltac:(lra)) as (P2 & H2).
  destruct (pw2_neg_small (e / (8 * M))) as (P3 & H3); [apply Rdiv_lt_0_compat; unfold M; lra|].
  exists (Z.max 2 (Z.max P1 (Z.max P2 P3))). intros prec Hp.
  destruct (H1 (prec + 64)%Z ltac:(lia)) as (mc & rc & -> & A1 & A2). destruct (H2 (prec + 64)%Z ltac:(lia)) as (mr & rr & -> & B1 & B2).
  fold x in A2. fold rho in B2. specialize (H3 prec ltac:(lia)). pose proof (pw2_pos (- prec)) as Pp.
  eexists; eexists. split; [unfold bround; reflexivity|].
  assert (Mc : Rabs (dyv mc) <= M) by (pose proof (Rabs_triang_inv (dyv mc) x); rewrite Rabs_minus_sym in A2; unfold M; lra).
  assert (Me : Rabs (dyv mc) * (2 * pw2 (- prec)) <= e / 4).
  { apply Rle_trans with (M * (2 * (e / (8 * M)))); [apply Rmult_le_compat; try lra; apply Rabs_pos|]. right. field. unfold M; lra. }
  split.
  - destruct (dround_spec RDown prec mc ltac:(lia)) as (_ & E & _).
    replace (1 - prec)%Z with (1 + - prec)%Z in E by lia. rewrite pw2_add, pw2_1 in E.
    replace (dyv (dround RDown prec mc) - x) with (- (x - dyv mc) - (dyv mc - dyv (dround RDown prec mc))) by ring.
    eapply Rle_trans; [apply Rabs_triang|]. rewrite !Rabs_Ropp. lra.
  - pose proof (Rabs_pos (x - dyv mc)). assert (B3 : rho - dyv mr <= dyv rr) by (eapply Rle_trans; [apply Rle_abs|exact B2]).
    assert (B4 : dyv mr - rho <= dyv rr) by (eapply Rle_trans; [apply Rle_abs|rewrite Rabs_minus_sym; exact B2]).
    pose proof (bround_rad98 prec mc (dadd rc (dadd mr rr)) ltac:(lia) ltac:(rewrite !dyv_add; lra)) as Hb.
    unfold bround, rad_le in Hb. rewrite !dyv_add in Hb. lra.
Qed.
