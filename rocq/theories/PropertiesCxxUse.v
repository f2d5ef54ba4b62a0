(** Property C84: programs with the C++ classes return, with the right answers.
    [xsteps] runs calls one after the other and collects their answers; [xhistory] says
    what every call should do with the fields and the exact values of the objects. *)
Require Import Reals List ZArith Bool Lia Lra.
From Verif Require Import PolyR RootSpec RootModel Dyadic DyadicProofs ArbModel ArbSpec ArbProofs DyBall DyBallProofs DyRate
  ElemModel ElemSpec ElemHist NfArith NfArithProofs EndsSpec EndsRefute DefSpec FlSpec FlProofs FineSpec FineDy MarginMain
  CxxModel CxxSpec CxxProofs CxxRefute CxxUseSpec CxxUse CxxTotal.
Import ListNotations.
Open Scope R_scope.

(** Fields of degree one may have any right enclosure, those of higher degree one below
    the explicit radius [margin].  Every legal program returns, every answer, exception
    and stored value is the one announced, and the fields are ready for more.  The
    exception is an enclosure with more bits than half a word can count. *)
Theorem C84_programs : forall o ops pol x X r0, arb_ok o -> arb_conv o -> arb_fl o -> arb_fine o ->
  (forall f, minimal (pol f) (x f)) -> (forall f, nf_ok (pol f) (x f) (ops (pol f))) ->
  (forall f, (3 <= length (pol f))%nat -> margin (pol f) (x f) (X f) (r0 f)) ->
  forall debug strict w l, world_ready pol x r0 w -> xlegal strict pol x (state_of x w) l ->
  answers (fun fuel => xsteps o ops debug fuel strict w l)
    (fun '(w', r) => world_ready pol x r0 w' /\ xhistory strict x (state_of x w) l (state_of x w') r)
    (exists f, (3 <= length (pol f))%nat /\ word_overflow o (pol f) (f_emb (w_fields w f))).
Proof. exact cxx_programs. Qed.
Print Assumptions C84_programs.

(** The objects left are those of the model of C39 to C48. *)
Theorem C84_objects : forall o ops debug fuel strict l w w' r, xsteps o ops debug fuel strict w l = Val (w', r) ->
  xruns o ops debug fuel strict w l = Val w'.
Proof. exact xsteps_run. Qed.
Print Assumptions C84_objects.

(** The rational field, and the square root of 2, to 20 bits, in all others. *)
Definition upol (f : nat) : list Z := if Nat.eqb f 0 then one_pol else sq_pol.
Definition ux (z : R) (f : nat) : R := if Nat.eqb f 0 then 1 else z.
Definition uworld : world :=
  {| w_fields := fun f => if Nat.eqb f 0 then one_nf
       else {| f_pol := sq_pol; f_den := 1; f_emb := Fin (1482910, -20) (1, -20); f_prec := 64; f_imm := 0 |};
     w_objs := fun _ => zero_in 0 |}%Z.
Definition uprogram : list xcall :=
  [XGen 0 1; XBinInt Add 0 Int 1; XMakeMpq 1 0 3 7; XFloordiv 0 1; XRel RLt 1 0; XBin Mul 1 0; XGen 2 2; XBin Add 2 0; XRel REq 2 0;
   XSgn 1; XRefine 1 200; XMakeInt 3 0 Long 5; XBin Div 3 0; XRelMpq RGe 3 2 1; XRelInt RNe 0 UShort 2]%Z.

Example C84_case : exists z, z * z = 2 /\ 0 < z /\ arb_ok dyops /\ arb_conv dyops /\ arb_fl dyops /\ arb_fine dyops /\
  (forall f, minimal (upol f) (ux z f)) /\ (forall f, nf_ok (upol f) (ux z f) (nfc (upol f))) /\
  (forall f, (3 <= length (upol f))%nat -> margin (upol f) (ux z f) (3 / 2) (/ IZR (2 ^ 20))) /\
  world_ready upol (ux z) (fun _ => / IZR (2 ^ 20)) uworld /\ xlegal false upol (ux z) (state_of (ux z) uworld) uprogram /\
  exists w, xsteps dyops nfc true 100 false uworld uprogram = Val (w,
    [XNone; XNone; XNone; XInt 5; XBool true; XNone; XNone; XThrow; XThrow; XInt 1; XNone; XNone; XNone; XBool true; XBool true]%Z).
Proof.
  destruct sq_margin as (z & Hz & E & M & _). exists z. split; [exact E|]. split; [exact Hz|].
  assert (Z0 : 1.41421356 <= z <= 1.41421357) by nra.
  assert (Mi : forall f, minimal (upol f) (ux z f)).
  { intros f. unfold upol, ux. destruct (Nat.eqb f 0); [exact one_minimal|apply EndsRefute.sq_minimal, E]. }
  split; [exact dyops_ok|]. split; [exact dyops_conv|]. split; [exact dyops_fl|]. split; [exact dyops_fine|]. split; [exact Mi|].
  split; [intros f; apply nfc_ok, Mi|].
  split; [intros [|f] L; [cbn in L; lia|exact M]|].
  assert (V : dyv (1482910, -20)%Z = 1482910 / 1048576 /\ dyv (1, -20)%Z = / 1048576) by (unfold dyv, pw2; simpl; split; lra). destruct V as [V1 V2].
  split; [|split; [|eexists; vm_compute; reflexivity]].
  - constructor.
    + intros [|f] L; [|discriminate L]. split; [reflexivity|]. split; [exact one_in|cbn; lia].
    + intros [|f] L; [cbn in L; lia|]. cbn [uworld w_fields upol ux Nat.eqb]. split; [|split; [reflexivity|]].
      * split; [reflexivity|]. split; [|split; [|cbn; lia]]; cbn [f_emb].
        { apply inb_bounds. rewrite V1, V2. lra. }
        { unfold rad_le. rewrite V2. change (2 ^ 20)%Z with 1048576%Z. lra. }
      * apply Rle_trans with 1; [change 1 with (pw2 0); apply pw2_le; cbn; lia|]. rewrite Rabs_pos_eq by lra. cbn. lra.
    + intros i. cbn. split; [apply (canon_zero _ _ (Mi 0%nat))|]. cbn. unfold ev. cbn. apply inb_bounds. unfold dyv. cbn. lra.
  - unfold uprogram. generalize (state_of (ux z) uworld). intros s.
    apply xl_cons; [exact I|cbn; lia|]. intros s1 a1 (_ & A1 & _). cbn in A1.
    apply xl_cons; [cbn; lia|exact I|]. intros s2 a2 (_ & A2 & _). rewrite A1 in A2. cbn [fst snd real_op] in A2.
    apply xl_cons; [cbn; lia|exact I|]. intros s3 a3 (_ & B3 & A3). specialize (A3 0%nat ltac:(lia)). rewrite A2 in A3.
    apply xl_cons; [exact I| |].
    { cbn [xallowed]. unfold compatible. rewrite A3, B3. cbn [fst snd]. split; [right; right; exists 3%Z, 7%Z; split; [lia|reflexivity]|].
      split; [lra|]. right. cbn. lia. }
    intros s4 a4 H4. assert (A4 : s4 0%nat = s3 0%nat) by (destruct H4 as [(_ & _ & H & _)|(_ & H & _)]; apply H). clear H4.
    apply xl_cons; [exact I|exact I|]. intros s5 a5 H5.
    assert (A5 : s5 0%nat = s4 0%nat) by (destruct H5 as [(_ & H & _)|(_ & H & _)]; apply H). clear H5.
    apply xl_cons; [exact I|exact I|]. intros s6 a6 H6.
    assert (A6 : s6 0%nat = s5 0%nat) by (destruct H6 as [(_ & H & _)|(_ & _ & _ & f & _ & _ & H)]; apply H; lia). clear H6.
    apply xl_cons; [exact I|cbn; lia|]. intros s7 a7 (_ & _ & A7). specialize (A7 0%nat ltac:(lia)).
    apply xl_cons; [exact I|exact I|]. intros s8 a8 H8.
    assert (A8 : s8 0%nat = s7 0%nat) by (destruct H8 as [(_ & H & _)|(_ & _ & _ & f & _ & _ & H)]; apply H; lia). clear H8.
    apply xl_cons; [exact I|exact I|]. intros s9 a9 H9.
    assert (A9 : s9 0%nat = s8 0%nat) by (destruct H9 as [(_ & H & _)|(_ & H & _)]; apply H). clear H9.
    apply xl_cons; [exact I|exact I|]. intros s10 a10 (A10 & _). specialize (A10 0%nat).
    apply xl_cons; [exact I|cbn; lia|]. intros s11 a11 (_ & A11). specialize (A11 0%nat).
    apply xl_cons; [cbn; lia|exact I|]. intros s12 a12 (_ & _ & A12). specialize (A12 0%nat ltac:(lia)).
    apply xl_cons; [exact I| |].
    { cbn [xallowed]. rewrite A12, A11, A10, A9, A8, A7, A6, A5, A4, A3. cbn [snd]. unfold ux. cbn [Nat.eqb]. lra. }
    intros s13 a13 _. apply xl_cons; [split; [lia|reflexivity]|exact I|].
    intros s14 a14 _. apply xl_cons; [cbn; lia|exact I|]. intros s15 a15 _. constructor.
Qed.
