(** Proofs about the conversions of pyeantic: texts of polynomials. *)
Require Import Reals List ZArith Bool Lia Lra Ascii.
From Verif Require Import PolyR RootSpec Dyadic ArbModel ElemModel ElemSpec ElemProofs StrModel StrSpec StrProofs StrMore CxxModel MakeText PyModel PySpec.
Import ListNotations.
Open Scope R_scope.

Lemma q_text_coef : forall n d, (0 <= n)%Z -> (0 < d)%Z -> coef (q_text (n, d)) n d.
Proof.
  intros n d N D. unfold q_text, sdec. cbn [fst snd]. destruct (Z.ltb_spec n 0); [lia|].
  destruct (dec_ok n N) as [C1 C2]. destruct (dec_ok d) as [D1 D2]; [lia|]. destruct (Z.eqb_spec d 1) as [->|].
  - rewrite app_nil_r. pose proof (co_int _ C1) as K. rewrite C2 in K. exact K.
  - pose proof (co_frac _ _ C1 D1) as K. rewrite C2, D2 in K. apply K. lia.
Qed.

(** The sign of a number in front of its absolute value. *)
Lemma q_text_sign : forall q, (0 < snd q)%Z -> exists sg g a, q_text q = sg ++ q_text (a, snd q) /\ sign_run sg g /\
  (0 <= a)%Z /\ (g * a = fst q)%Z.
Proof.
  intros [n d] D. cbn [fst snd] in *. destruct (Z.ltb_spec n 0) as [H|H].
  - exists ["-"%char], (-1)%Z, (- n)%Z. repeat split; try lia.
    + unfold q_text, sdec. cbn [fst snd]. destruct (Z.ltb_spec n 0); [|lia]. destruct (Z.ltb_spec (- n) 0); [lia|]. reflexivity.
    + apply (si_minus [] 1). constructor.
  - exists [], 1%Z, n. repeat split; try lia. constructor.
Qed.

Lemma more_terms_ok : forall var l, name var -> Forall (fun q => (0 < snd q)%Z) l -> forall i, (1 <= i)%Z -> (i + Z.of_nat (length l) <= long_max)%Z ->
  exists ts, (forall y, terms_val y ts = y ^ Z.to_nat i * rational_poly l y) /\
    match ts with [] => more_terms var i l = [] | _ => exists r, more_terms var i l = cblank :: r /\ sum false var r ts /\ starts_with_sign r end.
Proof.
  intros var l N F. induction F as [|[n d] l D F IH]; intros i Hi Hl.
  - exists []. split; [intros y; cbn; ring|reflexivity].
  - cbn [length] in Hl. rewrite Nat2Z.inj_succ in Hl. destruct (IH (i + 1)%Z ltac:(lia) ltac:(lia)) as (ts & V & S0). clear IH.
    cbn [snd] in D. assert (Dn : IZR d <> 0) by (apply not_0_IZR; lia).
    assert (Pw : forall y, y ^ Z.to_nat (i + 1) = y * y ^ Z.to_nat i) by (intros y; replace (Z.to_nat (i + 1)) with (S (Z.to_nat i)) by lia; reflexivity).
    cbn [more_terms fst]. destruct (Z.eqb_spec n 0) as [->|Hn].
    + exists ts. split; [|exact S0]. intros y. rewrite V, Pw. cbn [rational_poly fst snd]. unfold Rdiv. rewrite Rmult_0_l. ring.
    + destruct (q_text_sign (n, d) D) as (sg & g & a & E & G & A & P). cbn [fst snd] in *. exists ((g * a, d, i)%Z :: ts). split.
      { intros y. change (terms_val y ((g * a, d, i)%Z :: ts)) with (term_val y (g * a, d, i)%Z + terms_val y ts). rewrite V, Pw, P. cbn [term_val rational_poly fst snd]. field. exact Dn. }
      eexists. split; [cbn [app]; reflexivity|].
      assert (B : body false var (q_text (a, d) ++ [cblank; "*"%char; cblank] ++ var ++ "^"%char :: dec i) a d i).
      { apply (bo_star false var (q_text (a, d)) a d [cblank] [cblank] (var ++ "^"%char :: dec i) i (q_text_coef a d A D)); try (repeat constructor).
        destruct (dec_ok i) as [I1 I2]; [lia|]. pose proof (po_caret var [] [] (dec i)) as Q. rewrite I2 in Q. apply Q; try constructor; try apply I1; unfold long_max in *; lia. }
      assert (R : sign_run ("+"%char :: cblank :: sg) g) by (constructor; constructor; exact G).
      split; [|left; reflexivity]. rewrite E, <- !app_assoc.
      destruct ts as [|t ts'].
      * rewrite S0, app_nil_r.
        pose proof (su_one false var _ g _ a d i [] R B ltac:(constructor)) as S1. rewrite app_nil_r in S1.
        cbn [app] in *. exact S1.
      * destruct S0 as (r & Er & Sr & Hr). rewrite Er.
        pose proof (su_more false var _ g _ a d i [cblank] r (t :: ts') R B ltac:(repeat constructor) Hr Sr) as S1.
        cbn [app] in *. rewrite <- !app_assoc in S1. cbn [app] in S1. rewrite <- !app_assoc in S1. rewrite <- (app_assoc var). exact S1.
Qed.

Lemma poly_string_form : forall var l, name var -> l <> [] -> Forall (fun q => (0 < snd q)%Z) l -> (Z.of_nat (length l) <= long_max)%Z ->
  exists s ts, poly_string l var = Ret s /\ form false var s ts /\ forall y, terms_val y ts = rational_poly l y.
Proof.
  intros var [|[n d] l] N H F L; [congruence|]. inversion F as [|? ? D F']; subst. cbn [length snd] in *. rewrite Nat2Z.inj_succ in L.
  destruct (more_terms_ok var l N F' 1 ltac:(lia) ltac:(lia)) as (ts & V & S0).
  destruct (q_text_sign (n, d) D) as (sg & g & a & E & G & A & P). cbn [fst snd] in *.
  exists (q_text (n, d) ++ more_terms var 1 l), ((g * a, d, 0)%Z :: ts). split; [reflexivity|].
  assert (B : body false var (q_text (a, d)) a d 0) by (constructor; apply q_text_coef; assumption).
  split.
  - constructor. rewrite E, <- app_assoc. destruct ts as [|t ts'].
    + rewrite S0. apply su_one; [assumption..|constructor].
    + destruct S0 as (r & Er & Sr & Hr). rewrite Er.
      apply (su_more false var sg g _ a d 0 [cblank] r (t :: ts') G B ltac:(repeat constructor) Hr Sr).
  - intros y. change (terms_val y ((g * a, d, 0)%Z :: ts)) with (term_val y (g * a, d, 0)%Z + terms_val y ts). rewrite V, P.
    assert (Dn : IZR d <> 0) by (apply not_0_IZR; lia). unfold term_val. change (Z.to_nat 0) with 0%nat. change (Z.to_nat 1) with 1%nat. cbn [pow rational_poly fst snd]. field. exact Dn.
Qed.

Lemma poly_string_read : forall zd var l, name var -> l <> [] -> Forall (fun q => (0 < snd q)%Z) l -> (Z.of_nat (length l) <= long_max)%Z ->
  exists s p, poly_string l var = Ret s /\ set_str zd var s = Val (Some p) /\ is_poly p (rational_poly l).
Proof.
  intros zd var l N H F L. destruct (poly_string_form var l N H F L) as (s & ts & E & Fm & V). destruct (set_str_value zd false var s ts N Fm) as (p & Ep & Q).
  exists s, p. split; [exact E|]. split; [exact Ep|]. apply (is_poly_ext p (fun y => terms_val y ts)); [exact V|exact Q].
Qed.

Lemma poly_string_elem : forall pol x n zd var l e, minimal pol x -> nf_ok pol x n -> name var -> l <> [] -> Forall (fun q => (0 < snd q)%Z) l ->
  (Z.of_nat (length l) <= long_max)%Z -> canon pol e -> ev x e = rational_poly l x ->
  exists s, poly_string l var = Ret s /\ of_string zd n var s = Val (Some e).
Proof.
  intros pol x n zd var l e Hm Hn N H F L C V. destruct (poly_string_form var l N H F L) as (s & ts & E & Fm & W).
  exists s. split; [exact E|]. apply (of_string_back pol x n Hm Hn zd var N false s ts e Fm C). rewrite W. symmetry. exact V.
Qed.

Lemma poly_string_raises : forall l var, poly_string l var = Throw <-> l = [].
Proof. intros [|q l] var; split; intros H; [reflexivity|reflexivity|discriminate|discriminate]. Qed.
