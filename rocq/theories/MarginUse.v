(** Programs on a field made from a sharp enough ball, with their answers. *)
Require Import Reals List ZArith Bool Lia Lra.
From Verif Require Import PolyR RootSpec RootModel ExtraModel Dyadic DyadicProofs ArbModel ArbSpec ArbProofs RefineProofs
  ElemModel ElemSpec ElemProofs ElemLoops ElemHist ElemMore GetdModel GetdSpec RateSpec EndsSpec EndsProofs RefineEnds EndsMain DefSpec DefProofs DefMain
  ToolsProofs CreateSpec CreateProofs CreateMain FlSpec FineSpec Margin MarginMake ConcModel ConcSpec ConcRight.
Import ListNotations.
Open Scope R_scope.

(** * Calls return what they announce if the calls alone return *)
Section Calls.
Variables (o : arbops) (n : nfops) (debug : bool).

Lemma run_answer : forall fuel nf m k p, run o n debug fuel nf m k = Val p -> exists a, answer o n debug fuel nf m k = Val a.
Proof.
  intros fuel nf m k p E. destruct k; cbn [answer]; try (eexists; reflexivity); cbn [run] in E.
  - destruct (sgn o debug fuel nf (m a)) as [[[? ?] ?]| | |]; try discriminate E. eexists; reflexivity.
  - destruct (cmp o n debug fuel nf (m a) (m b)) as [[[[? ?] ?] ?]| | |]; try discriminate E. eexists; reflexivity.
  - destruct (cmp_q o n debug fuel nf (m a) qn qd) as [[[? ?] ?]| | |]; try discriminate E. eexists; reflexivity.
  - destruct (floor o debug fuel nf (m a)) as [[[? ?] ?]| | |]; try discriminate E. eexists; reflexivity.
  - destruct (ceil o debug fuel nf (m a)) as [[[? ?] ?]| | |]; try discriminate E. eexists; reflexivity.
  - destruct (fdiv o n debug (Nat.eqb b c) fuel nf (m b) (m c)) as [[[[? ?] ?] ?]| | |]; try discriminate E. eexists; reflexivity.
  - destruct (get_arb o debug fuel nf (m a) prec) as [[[? ?] ?]| | |]; try discriminate E. eexists; reflexivity.
  - destruct (cfrac o n debug fuel nf (m a) k) as [[[? ?] ?]| | |]; try discriminate E. eexists; reflexivity.
Qed.

Lemma calls_runs : forall fuel l nf m,
  match runs o n debug fuel nf m l with
  | Val (nf', m') => exists r, calls o n debug fuel nf m l = Val (nf', m', r)
  | Undef => calls o n debug fuel nf m l = Undef
  | Abort => calls o n debug fuel nf m l = Abort
  | Fuel => calls o n debug fuel nf m l = Fuel
  end.
Proof.
  intros fuel. induction l as [|k l IH]; intros nf m; cbn [runs calls]; [exists []; reflexivity|].
  destruct (run o n debug fuel nf m k) as [[nf1 m1]| | |] eqn:E; cbn [bind]; try reflexivity.
  destruct (run_answer fuel nf m k _ E) as (a & Ea). rewrite Ea. cbn [bind]. specialize (IH nf1 m1).
  destruct (runs o n debug fuel nf1 m1 l) as [[nf2 m2]| | |]; try (rewrite IH; reflexivity).
  destruct IH as (r & ->). exists (a :: r). reflexivity.
Qed.
End Calls.

Section Ends.
Variables (o : arbops) (n : nfops) (debug : bool) (pol : list Z) (x : R) (N : ball -> Prop).
Hypothesis Ho : arb_ok o.
Hypothesis Hc : arb_conv o.
Hypothesis Hm : minimal pol x.
Hypothesis Hn : nf_ok pol x n.
Hypothesis HN : safe_balls o pol x N.
Hypothesis Hr : refines_end o debug pol x N.
Let HJ : keeps o debug pol x (on_ball N) := safe_keeps o debug pol x N Ho Hm HN.
Notation good := (good pol x (on_ball N)).
Notation goodr := (goodr pol x).

Lemma answer_ends : forall nf m k, good nf -> (forall i, goodr (m i)) -> call_ok pol k -> modest k -> ends (fun f => answer o n debug f nf m k).
Proof.
  intros nf m k Hg Hmem Hk Hmod. destruct k; cbn [answer call_ok modest] in *; try (apply ends_val; discriminate);
    (match goal with |- ends (fun f => bind (@?F f) ?G) => apply (ends_bind_val _ _ F G) end;
      [|intros v; repeat match goal with v : (_ * _)%type |- _ => destruct v end; discriminate]).
  - apply (sgn_ends o debug pol x N); auto.
  - apply (cmp_ends o n debug pol x N); auto.
  - apply (cmp_q_ends o n debug pol x N); auto.
  - apply (floor_ends o debug pol x N); auto.
  - apply (ceil_ends o debug pol x N); auto.
  - apply (fdiv_ends o n debug pol x N); auto.
    intros H. apply Nat.eqb_eq in H. subst. reflexivity.
  - apply (get_arb_ends o debug pol x N); auto.
  - apply (cfrac_ends o n debug pol x N); auto.
Qed.

Lemma calls_end : forall l nf m, good nf -> (forall i, goodr (m i)) -> Forall (call_ok pol) l -> Forall modest l ->
  ends (fun f => calls o n debug f nf m l).
Proof.
  induction l as [|k l IH]; intros nf m Hg Hmem Hl Hml; cbn [calls]; [apply ends_val; discriminate|].
  inversion_clear Hl. inversion_clear Hml.
  match goal with |- ends (fun f => bind (@?F f) (@?G f)) => apply (ends_bind _ _ F (fun v f => G f v)) end; [apply (run_ends o n debug pol x N); assumption|].
  intros f1 [nf1 m1] E. destruct (run_ok o n debug pol x (on_ball N) Ho Hm Hn HJ f1 nf m k nf1 m1 Hg Hmem H E) as (G1 & _ & Gm1 & _).
  match goal with |- ends (fun f => bind (@?F f) (@?G f)) => apply (ends_bind _ _ F (fun v f => G f v)) end; [apply answer_ends; assumption|].
  intros f2 a _.
  match goal with |- ends (fun f => bind (@?F f) ?G) => apply (ends_bind_val _ _ F G) end; [apply IH; assumption|].
  intros [[? ?] ?]. discriminate.
Qed.
End Ends.

(** * Below the radius *)
Section Use.
Variables (o : arbops) (n : nfops) (pol : list Z) (x X r0 : R).
Hypothesis L : library o n pol x.
Hypothesis Hf : arb_fl o.
Hypothesis Hg : arb_fine o.
Hypothesis Hmg : margin pol x X r0.
Let Ho : arb_ok o := lb_ok _ _ _ _ L.
Let Hc : arb_conv o := lb_conv _ _ _ _ L.
Let Hm : minimal pol x := lb_min _ _ _ _ L.
Let Hdeg : (3 <= length pol)%nat := lb_deg _ _ _ _ L.
Let Hn : nf_ok pol x n := lb_nf _ _ _ _ L.
Let Safe := margin_safe o pol x X r0 Ho Hf Hg Hm Hdeg Hmg.

Lemma margin_calls : forall debug nf, ready pol x r0 nf ->
  forall m l, mem_ok pol x m -> Forall (call_ok pol) l -> Forall (sound_call pol) l -> Forall modest l -> legal pol x (values x m) l ->
  answers (fun fuel => calls o n debug fuel nf m l)
    (fun '(nf', m', r) => ready pol x r0 nf' /\ mem_ok pol x m' /\ history x (values x m) l (values x m') r) (word_overflow o pol (f_emb nf)).
Proof.
  intros debug nf Hr m l Hmem Hl Hsl Hml Hleg. destruct Safe as (Hs & He & Hd).
  pose proof (history_total o n pol x r0 debug nf L Hs (He debug) (Hd debug) Hr m l Hmem Hl Hsl Hml Hleg) as T.
  assert (End : ends (fun fuel => calls o n debug fuel nf m l)).
  { apply (calls_end o n debug pol x (fun a => rad_le a r0)); try assumption; [apply He|apply Hr]. }
  destruct T as (f1 & r1 & E1 & R1). destruct End as (f2 & r2 & N2 & E2). exists (Nat.max f1 f2), r2.
  split; [intros f Hm0; apply E2; lia|]. set (f := Nat.max f1 f2).
  pose proof (calls_runs o n debug f l nf m) as C. rewrite (E1 f ltac:(lia)) in C. rewrite (E2 f ltac:(lia)) in C.
  destruct r1 as [[nf' m']| | |]; try contradiction.
  - destruct C as (r & ->). destruct R1 as (A & B & _). split; [exact A|]. split; [exact B|].
    apply (calls_right o n debug pol x (on_ball (fun a => rad_le a r0)) Ho Hm Hn (safe_keeps o debug pol x _ Ho Hm Hs) f l nf m nf' m' r);
      try assumption; [apply Hr|]. apply E2. lia.
  - rewrite C. exact R1.
Qed.

Lemma made_ready : forall den prec nf, pw2 (2 - prec) <= Rabs x ^ (length pol - 2) -> CreateProofs.made pol x r0 den prec nf -> ready pol x r0 nf.
Proof. intros den prec nf Ht (A & B & C & D & E). split; [exact A|]. split; [exact D|]. rewrite C. exact Ht. Qed.

Lemma init_sharpened : forall debug den a prec fuel nf, inb x a -> rad_le a r0 -> renf_init o debug fuel pol den a prec = Val nf ->
  sharpened o pol a (f_emb nf).
Proof.
  intros debug den a prec fuel nf Hx Hr E. unfold renf_init in E. destruct (check_unique o fuel pol a prec) as [b| | |]; try discriminate E.
  cbn [bind] in E. destruct b; [|discriminate E]. assert (Nat.eqb (length pol) 2 = false) as W by (apply Nat.eqb_neq; lia). rewrite W in E.
  destruct (refine_spec o Ho pol x _ (met_safe o pol x (fun b => rad_le b r0) a (proj1 Safe)) (minimal_simple pol x Hm) debug fuel
    {| f_pol := pol; f_den := den; f_emb := a; f_prec := prec; f_imm := 0 |} prec nf
    eq_refl Hx (conj Hr (sharp_start o pol a)) E) as (_ & (_ & S) & _). exact S.
Qed.

Lemma margin_program : forall debug den m r mu prec, enough pol x X r0 mu prec -> mu <= x - (dyv m - dyv r) -> mu <= dyv m + dyv r - x -> dyv r <= r0 ->
  pw2 (2 - prec) <= Rabs x ^ (length pol - 2) ->
  forall el l, mem_ok pol x el -> Forall (call_ok pol) l -> Forall (sound_call pol) l -> Forall modest l -> legal pol x (values x el) l ->
  answers (fun fuel => bind (renf_init o debug fuel pol den (Fin m r) prec) (fun nf => calls o n debug fuel nf el l))
    (fun '(nf', el', r) => (f_pol nf' = pol /\ inb x (f_emb nf') /\ forall y, inb y (f_emb nf') -> zeval pol y = 0 -> y = x) /\
       mem_ok pol x el' /\ history x (values x el) l (values x el') r) (word_overflow o pol (Fin m r)).
Proof.
  intros debug den m r mu prec En H1 H2 Hr Ht el l Hmem Hl Hsl Hml Hleg.
  destruct (margin_init o pol x X r0 Ho Hf Hg Hm Hdeg Hmg debug den m r mu prec En H1 H2 Hr) as [_ (f0 & r1 & E1 & R1)].
  destruct r1 as [nf| | |]; try contradiction.
  - assert (Hx : inb x (Fin m r)) by (apply inb_bounds; destruct En; lra).
    assert (Sh : sharpened o pol (Fin m r) (f_emb nf)) by (apply (init_sharpened debug den _ prec f0 nf Hx Hr); apply E1; lia).
    destruct (margin_calls debug nf (made_ready den prec nf Ht R1) el l Hmem Hl Hsl Hml Hleg) as (f1 & r2 & E2 & R2).
    exists (Nat.max f0 f1), r2. split; [intros f Hf0; rewrite E1 by lia; cbn [bind]; apply E2; lia|].
    destruct r2 as [[[nf' el'] ans]| | |]; try assumption.
    + destruct R2 as (((A & B & C & _) & _) & D & F). split; [|split; assumption]. split; [exact A|]. split; [exact B|].
      intros y Hy Zy. apply (margin_apart pol x X r0 Hm Hdeg Hmg); [|exact Zy]. destruct (f_emb nf') as [m' r'|]; [|contradiction]. cbn in C.
      apply inb_bounds in Hy. apply inb_bounds in B. apply Rabs_le. lra.
    + apply (overflow_from o pol _ (f_emb nf)); assumption.
  - exists f0, Undef. split; [intros f Hf0; rewrite E1 by exact Hf0; reflexivity|exact R1].
Qed.

Lemma calls_sharpen : forall debug fuel a l nf m nf' m' r, field_ok pol x (fun b => rad_le b r0 /\ sharpened o pol a b) nf -> mem_ok pol x m ->
  Forall (call_ok pol) l -> calls o n debug fuel nf m l = Val (nf', m', r) -> sharpened o pol a (f_emb nf').
Proof.
  intros debug fuel a. pose proof (met_safe o pol x (fun b => rad_le b r0) a (proj1 Safe)) as Hs.
  induction l as [|k l IH]; intros nf m nf' m' r G Gm Hl E; cbn [calls] in E; [injection E as <- <- <-; apply G|].
  inversion_clear Hl. destruct (run o n debug fuel nf m k) as [[nf1 m1]| | |] eqn:Er; try discriminate E. cbn [bind] in E.
  destruct (answer o n debug fuel nf m k) as [a1| | |]; try discriminate E. cbn [bind] in E.
  destruct (calls o n debug fuel nf1 m1 l) as [[[nf2 m2] r2]| | |] eqn:Ec; try discriminate E. cbn [bind] in E. injection E as <- <- <-.
  destruct (run_ok o n debug pol x _ Ho Hm Hn (safe_keeps o debug pol x _ Ho Hm Hs) fuel nf m k nf1 m1 G Gm H Er) as (G1 & _ & Gm1 & _).
  apply (IH nf1 m1 _ _ _ G1 Gm1 H0 Ec).
Qed.

Lemma margin_double : forall debug den m r mu prec, enough pol x X r0 mu prec -> mu <= x - (dyv m - dyv r) -> mu <= dyv m + dyv r - x -> dyv r <= r0 ->
  pw2 (2 - prec) <= Rabs x ^ (length pol - 2) ->
  forall el l, mem_ok pol x el -> Forall (call_ok pol) l -> Forall (sound_call pol) l -> Forall modest l -> legal pol x (values x el) l ->
  forall i md, answers (fun fuel => bind (renf_init o debug fuel pol den (Fin m r) prec) (fun nf =>
      bind (calls o n debug fuel nf el l) (fun '(nf', el', _) => get_d o n debug fuel nf' (el' i) md)))
    (fun '(_, _, d) => exists v r, history x (values x el) l v r /\ (in_range md (v i) -> is_round md (v i) d) /\
       (~ fraction (v i) -> MAX < v i -> d = DInf false) /\ (~ fraction (v i) -> v i < - MAX -> d = DInf true)) (word_overflow o pol (Fin m r)).
Proof.
  intros debug den m r mu prec En H1 H2 Hr Ht el l Hmem Hl Hsl Hml Hleg i md.
  destruct (margin_init o pol x X r0 Ho Hf Hg Hm Hdeg Hmg debug den m r mu prec En H1 H2 Hr) as [_ (f0 & r1 & E1 & R1)].
  destruct r1 as [nf| | |]; try contradiction.
  - assert (Hx : inb x (Fin m r)) by (apply inb_bounds; destruct En; lra).
    assert (Sh : sharpened o pol (Fin m r) (f_emb nf)) by (apply (init_sharpened debug den _ prec f0 nf Hx Hr); apply E1; lia).
    destruct (margin_calls debug nf (made_ready den prec nf Ht R1) el l Hmem Hl Hsl Hml Hleg) as (f1 & r2 & E2 & R2).
    destruct r2 as [[[nf' el'] ans]| | |]; try contradiction.
    + destruct R2 as (A & B & C). destruct Safe as (Hs & He & Hd).
      destruct (get_d_total o n pol x r0 debug nf' L Hs (He debug) (Hd debug) A (el' i) md (B i)) as (f2 & r3 & E3 & R3).
      exists (Nat.max f0 (Nat.max f1 f2)), r3. split.
      { intros f Hf0. rewrite E1 by lia. cbn [bind]. rewrite E2 by lia. cbn [bind]. apply E3. lia. }
      destruct r3 as [[[nf'' y] d]| | |]; try assumption.
      * exists (values x el'), ans. split; [exact C|exact R3].
      * apply (overflow_from o pol _ (f_emb nf')); [|exact R3]. destruct R1 as ((G1 & G2 & G3 & G4) & _).
        apply (calls_sharpen debug f1 _ l nf el nf' el' ans); try assumption; [|apply E2; lia].
        split; [exact G1|]. split; [exact G2|]. split; [split; assumption|exact G4].
    + exists (Nat.max f0 f1), Undef. split; [intros f Hf0; rewrite E1 by lia; cbn [bind]; rewrite E2 by lia; reflexivity|].
      apply (overflow_from o pol _ (f_emb nf)); assumption.
  - exists f0, Undef. split; [intros f Hf0; rewrite E1 by exact Hf0; reflexivity|exact R1].
Qed.
End Use.
