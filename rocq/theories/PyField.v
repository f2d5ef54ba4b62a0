(** Fields converted to SageMath: printed polynomials, regular expressions, roots. *)
Require Import Reals List ZArith Znumtheory Bool Lia Lra Ascii.
From Verif Require Import PolyR RootSpec VcaProofs PremProofs Dyadic ArbModel ArbSpec ArbProofs ElemModel ElemSpec ElemProofs StrModel StrSpec StrProofs StrMore CxxModel
  MakeModel MakeSpec MakeText ArchiveProofs PyModel PySpec PyProofs.
Import ListNotations.
Open Scope R_scope.

(** ** The printed polynomial is of the documented form *)
Lemma coef_at_ok : forall e c, (0 < e_den e)%Z -> (0 < snd (coef_at e c))%Z /\ IZR (fst (coef_at e c)) / IZR (snd (coef_at e c)) = IZR c / IZR (e_den e) /\
  Z.sgn (fst (coef_at e c)) = Z.sgn c.
Proof.
  intros e c D. unfold coef_at. cbn [fst snd]. set (d := e_den e) in *. pose proof (Z.gcd_nonneg c d) as G0. destruct (Z.gcd_divide_l c d) as (u & U). destruct (Z.gcd_divide_r c d) as (v & V).
  set (g := Z.gcd c d) in *. assert (G : (0 < g)%Z) by (destruct (Z.eq_dec g 0); [nia|lia]).
  assert (E1 : (c / g = u)%Z) by (rewrite U; apply Z.div_mul; lia). assert (E2 : (d / g = v)%Z) by (rewrite V; apply Z.div_mul; lia). rewrite E1, E2.
  assert (W : (0 < v)%Z) by nia. split; [exact W|]. split.
  - rewrite U, V, !mult_IZR. apply IZR_lt in W. apply IZR_lt in G. field. split; lra.
  - rewrite U, Z.sgn_mul, (Z.sgn_pos g) by lia. lia.
Qed.

Lemma power_text_ok : forall var i, (1 <= i)%nat -> (Z.of_nat i <= long_max)%Z -> power var (power_text var i) (Z.of_nat i).
Proof.
  intros var i H L. unfold power_text. destruct (Nat.eqb_spec i 1) as [->|]; [constructor|].
  destruct (dec_ok (Z.of_nat i)) as [D1 D2]; [lia|]. pose proof (po_caret var [] [] (dec (Z.of_nat i))) as P. rewrite D2 in P. apply P; try constructor; try apply D1. exact L.
Qed.

Lemma lead_term : forall var q i, (0 < snd q)%Z -> fst q <> 0%Z -> (1 <= i)%nat -> (Z.of_nat i <= long_max)%Z ->
  exists sg g s a, lead_text q ++ power_text var i = sg ++ s /\ sign_run sg g /\ body false var s a (snd q) (Z.of_nat i) /\ (g * a = fst q)%Z /\ ((0 < fst q)%Z -> sg = [] /\ a = fst q).
Proof.
  intros var [n d] i D N I L. cbn [fst snd] in *. pose proof (power_text_ok var i I L) as P. unfold lead_text. cbn [fst snd].
  destruct (Z.eqb_spec d 1) as [->|Hd]; cbn [andb].
  - destruct (Z.eqb_spec n 1) as [->|H1]; [exists [], 1%Z, (power_text var i), 1%Z; repeat split; [constructor|constructor; exact P]|].
    destruct (Z.eqb_spec n (-1)) as [->|H2]; [exists ["-"%char], (-1)%Z, (power_text var i), 1%Z; repeat split; [apply (si_minus [] 1); constructor|constructor; exact P|lia..]|].
    destruct (q_text_sign (n, 1)%Z D) as (sg & g & a & E & G & A & Q). cbn [fst snd] in *. exists sg, g, (q_text (a, 1)%Z ++ "*"%char :: power_text var i), a.
    split; [rewrite E, <- !app_assoc; reflexivity|]. split; [exact G|]. split; [|split; [exact Q|]].
    + apply (bo_star false var _ a 1 [] [] (power_text var i) (Z.of_nat i) (q_text_coef a 1 A D)); [constructor|constructor|exact P].
    + intros Hp. destruct (sign_run_unit _ _ G); subst g; [|nia].
      assert (a = n) by lia. subst a. split; [|reflexivity]. apply (f_equal (@length _)) in E. rewrite app_length in E. destruct sg; [reflexivity|cbn in E; lia].
  - destruct (q_text_sign (n, d)%Z D) as (sg & g & a & E & G & A & Q). cbn [fst snd] in *. exists sg, g, (q_text (a, d)%Z ++ "*"%char :: power_text var i), a.
    split; [rewrite E, <- !app_assoc; reflexivity|]. split; [exact G|]. split; [|split; [exact Q|]].
    + apply (bo_star false var _ a d [] [] (power_text var i) (Z.of_nat i) (q_text_coef a d A D)); [constructor|constructor|exact P].
    + intros Hp. destruct (sign_run_unit _ _ G); subst g; [|nia].
      assert (a = n) by lia. subst a. split; [|reflexivity]. apply (f_equal (@length _)) in E. rewrite app_length in E. destruct sg; [reflexivity|cbn in E; lia].
Qed.

Lemma zeval_rev_cons : forall c l y, zeval (rev (c :: l)) y = zeval (rev l) y + IZR c * y ^ length l.
Proof. intros c l y. cbn [rev]. rewrite zeval_app1, rev_length. ring. Qed.

Lemma low_terms_ok : forall var e l, name var -> (0 < e_den e)%Z -> (Z.of_nat (length l) <= long_max)%Z ->
  exists ts, (forall y, terms_val y ts = zeval (rev l) y / IZR (e_den e)) /\
    match ts with [] => low_terms e var l = [] | _ => exists r, low_terms e var l = cblank :: r /\ sum false var r ts /\ starts_with_sign r end.
Proof.
  intros var e l N D. assert (Dn : IZR (e_den e) <> 0) by (apply not_0_IZR; lia).
  induction l as [|c l IH]; intros L; [exists []; split; [intros y; rewrite zeval_nil; cbn; field; exact Dn|reflexivity]|].
  cbn [length] in L. rewrite Nat2Z.inj_succ in L. destruct IH as (ts & V & S0); [lia|]. cbn [low_terms]. destruct (Z.eqb_spec c 0) as [->|C].
  - exists ts. split; [|exact S0]. intros y. rewrite V, zeval_rev_cons. f_equal. ring.
  - destruct (coef_at_ok e (Z.abs c) D) as (Q1 & Q2 & Q3). set (q := coef_at e (Z.abs c)) in *. assert (Qp : (0 < fst q)%Z) by (rewrite (Z.sgn_pos (Z.abs c)) in Q3 by lia; apply Z.sgn_pos_iff; exact Q3).
    assert (B : body false var (if Nat.eqb (length l) 0 then q_text q else lead_text q ++ power_text var (length l)) (fst q) (snd q) (Z.of_nat (length l))).
    { destruct (Nat.eqb_spec (length l) 0) as [E|E].
      - rewrite E. constructor. destruct q as [qn qd]. apply q_text_coef; cbn [fst snd] in *; lia.
      - destruct (lead_term var q (length l) Q1 ltac:(lia) ltac:(lia) ltac:(lia)) as (sg & g & s & a & E1 & G & Bd & _ & F). destruct (F Qp) as [Esg Ea]. rewrite E1, Esg. cbn [app]. rewrite <- Ea. exact Bd. }
    set (b := if Nat.eqb (length l) 0 then q_text q else lead_text q ++ power_text var (length l)) in *.
    set (s := if (c <? 0)%Z then (-1)%Z else 1%Z).
    assert (G : exists sc, (if (c <? 0)%Z then [cblank; "-"%char; cblank] else [cblank; "+"%char; cblank]) = cblank :: sc ++ [cblank] /\ sign_run (sc ++ [cblank]) s /\ starts_with_sign (sc ++ [cblank])).
    { unfold s. destruct (c <? 0)%Z; [exists ["-"%char]|exists ["+"%char]]; (split; [reflexivity|]); cbn [app].
      - split; [apply (si_minus _ 1); repeat constructor|right; reflexivity].
      - split; [repeat constructor|left; reflexivity]. }
    destruct G as (sc & Es & G & St). rewrite Es.
    assert (Val0 : forall y, terms_val y (((s * fst q)%Z, snd q, Z.of_nat (length l)) :: ts) = zeval (rev (c :: l)) y / IZR (e_den e)).
    { intros y. change (terms_val y (((s * fst q)%Z, snd q, Z.of_nat (length l)) :: ts)) with (term_val y ((s * fst q)%Z, snd q, Z.of_nat (length l)) + terms_val y ts).
      rewrite V, zeval_rev_cons. cbn [term_val]. rewrite Nat2Z.id, mult_IZR. unfold Rdiv at 1. rewrite (Rmult_assoc (IZR s)). change (IZR (fst q) * / IZR (snd q)) with (IZR (fst q) / IZR (snd q)). rewrite Q2.
      replace (IZR (Z.abs c)) with (IZR s * IZR c) by (rewrite <- mult_IZR; f_equal; unfold s; destruct (Z.ltb_spec c 0); lia).
      assert (S2 : IZR s * IZR s = 1) by (rewrite <- mult_IZR; unfold s; destruct (c <? 0)%Z; reflexivity).
      replace (IZR s * (IZR s * IZR c / IZR (e_den e))) with (IZR s * IZR s * IZR c / IZR (e_den e)) by (unfold Rdiv; ring). rewrite S2. field. exact Dn. }
    exists (((s * fst q)%Z, snd q, Z.of_nat (length l)) :: ts). split; [exact Val0|]. eexists. split; [cbn [app]; reflexivity|].
    split; [|destruct sc; [cbn in St; destruct St; discriminate|exact St]]. destruct ts as [|t ts'].
    + rewrite S0, app_nil_r. pose proof (su_one false var _ s b (fst q) (snd q) (Z.of_nat (length l)) [] G B ltac:(constructor)) as S1. rewrite app_nil_r in S1. exact S1.
    + destruct S0 as (r & Er & Sr & Hr). rewrite Er. rewrite <- app_assoc.
      exact (su_more false var _ s b (fst q) (snd q) (Z.of_nat (length l)) [cblank] r (t :: ts') G B ltac:(repeat constructor) Hr Sr).
Qed.

Lemma pretty_form : forall var e, name var -> lowest_terms e -> (Z.of_nat (length (e_num e)) <= long_max)%Z ->
  exists ts, form false var (pretty var e) ts /\ forall y, terms_val y ts = ev y e.
Proof.
  intros var e N [D La _] L. assert (Dn : IZR (e_den e) <> 0) by (apply not_0_IZR; lia).
  unfold pretty. assert (V : forall y, ev y e = zeval (rev (rev (e_num e))) y / IZR (e_den e)) by (intros y; rewrite rev_involutive; reflexivity).
  assert (Lr : (Z.of_nat (length (rev (e_num e))) <= long_max)%Z) by (rewrite rev_length; exact L).
  assert (Hd : match rev (e_num e) with [] => True | c :: _ => c <> 0%Z end).
  { destruct (rev (e_num e)) as [|c l] eqn:E; [exact I|]. apply (f_equal (@rev Z)) in E. rewrite rev_involutive in E. rewrite E in La. cbn [rev] in La. rewrite last_last in La. exact La. }
  clear La L. set (r := rev (e_num e)) in *. clearbody r. destruct r as [|c [|a [|a2 l]]].
  - exists [(1 * 0, 1, 0)%Z]. split.
    + constructor. apply (su_one false var [] 1 ["0"%char] 0 1 0 []); [constructor| |constructor]. constructor. apply (co_int ["0"%char]). split; [discriminate|repeat constructor].
    + intros y. rewrite V. cbn. field. exact Dn.
  - destruct (coef_at_ok e c D) as (Q1 & Q2 & _). set (q := coef_at e c) in *. destruct (q_text_sign q Q1) as (sg & g & b & E & G & A & P).
    exists [((g * b)%Z, snd q, 0%Z)]. split.
    + constructor. rewrite E. pose proof (su_one false var sg g (q_text (b, snd q)) b (snd q) 0 [] G (bo_const false var _ _ _ (q_text_coef b (snd q) A Q1)) ltac:(constructor)) as S1. rewrite app_nil_r in S1. exact S1.
    + intros y. rewrite V, zeval_rev_cons. cbn [terms_val fold_right term_val length rev]. rewrite P, Q2, zeval_nil. change (Z.to_nat 0) with 0%nat. cbn [pow]. field. exact Dn.
  - destruct (coef_at_ok e c D) as (Q1 & Q2 & Q3). set (q := coef_at e c) in *. assert (Qn : fst q <> 0%Z) by (intros Z0; rewrite Z0 in Q3; destruct c; cbn in Q3; congruence).
    destruct (lead_term var q 1 Q1 Qn ltac:(lia) ltac:(vm_compute; discriminate)) as (sg & g & s & b & E & G & B & P & _). change (power_text var 1) with var in E. change (Z.of_nat 1) with 1%Z in B.
    assert (V2 : forall y, ev y e = term_val y ((g * b)%Z, snd q, 1%Z) + IZR a / IZR (e_den e)).
    { intros y. rewrite V, !zeval_rev_cons. cbn [term_val length rev]. rewrite P, Q2, zeval_nil. change (Z.to_nat 1) with 1%nat. cbn [pow]. field. exact Dn. }
    rewrite app_assoc, E. destruct (Z.eqb_spec a 0) as [->|Ha].
    + exists [((g * b)%Z, snd q, 1%Z)]. split.
      * constructor. rewrite <- app_assoc. apply su_one; [assumption..|constructor].
      * intros y. rewrite V2. cbn [terms_val fold_right]. field. exact Dn.
    + destruct (coef_at_ok e a D) as (A1 & A2 & A3). set (qa := coef_at e a) in *. destruct (q_text_sign qa A1) as (sa & ga & ba & Ea & Ga & Aa & Pa).
      exists [((g * b)%Z, snd q, 1%Z); ((ga * ba)%Z, snd qa, 0%Z)]. split.
      * constructor. rewrite <- app_assoc. apply (su_more false var sg g s b (snd q) 1 [] _ _ G B ltac:(constructor)).
        { destruct (Z.ltb_spec a 0) as [Hs|Hs]; [|left; reflexivity]. cbn [app]. unfold q_text, sdec. assert (Na : (fst qa < 0)%Z) by (apply Z.sgn_neg_iff; rewrite A3; apply Z.sgn_neg; exact Hs).
          destruct (Z.ltb_spec (fst qa) 0); [|lia]. right. reflexivity. }
        rewrite Ea. assert (Ga' : sign_run ((if (a <? 0)%Z then [] else ["+"%char]) ++ sa) ga) by (destruct (a <? 0)%Z; [exact Ga|constructor; exact Ga]).
        pose proof (su_one false var _ ga (q_text (ba, snd qa)) ba (snd qa) 0 [] Ga' (bo_const false var _ _ _ (q_text_coef ba (snd qa) Aa A1)) ltac:(constructor)) as S1. rewrite app_nil_r, <- app_assoc in S1. exact S1.
      * intros y. rewrite V2. cbn [terms_val fold_right]. rewrite Rplus_0_r. f_equal. unfold term_val. rewrite Pa, A2. change (Z.to_nat 0) with 0%nat. cbn [pow]. ring.
  - set (l' := a :: a2 :: l) in *. assert (L1 : (Z.of_nat (length l') <= long_max)%Z) by (unfold l' in *; cbn [length] in *; lia).
    destruct (coef_at_ok e c D) as (Q1 & Q2 & Q3). set (q := coef_at e c) in *. assert (Qn : fst q <> 0%Z) by (intros Z0; rewrite Z0 in Q3; destruct c; cbn in Q3; congruence).
    destruct (lead_term var q (length l') Q1 Qn ltac:(unfold l'; cbn [length]; lia) L1) as (sg & g & s & b & E & G & B & P & _).
    destruct (low_terms_ok var e l' N D L1) as (ts & W & S0). exists (((g * b)%Z, snd q, Z.of_nat (length l')) :: ts). split.
    + constructor. rewrite app_assoc, E, <- app_assoc. destruct ts as [|t ts'].
      * rewrite S0. apply su_one; [assumption..|constructor].
      * destruct S0 as (r & Er & Sr & Hr). rewrite Er. exact (su_more false var sg g s b (snd q) _ [cblank] r (t :: ts') G B ltac:(repeat constructor) Hr Sr).
    + intros y. rewrite V, zeval_rev_cons. change (terms_val y (((g * b)%Z, snd q, Z.of_nat (length l')) :: ts)) with (term_val y ((g * b)%Z, snd q, Z.of_nat (length l')) + terms_val y ts).
      rewrite W. unfold term_val. rewrite P, Q2, Nat2Z.id. field. exact Dn.
Qed.

(** ** The regular expressions *)
Lemma prefix_self : forall p s, prefix p (p ++ s) = Some s.
Proof. exact prefix_app. Qed.

Lemma upto_app : forall stop u s, ~ In stop u -> upto stop (u ++ stop :: s) = (u, stop :: s).
Proof.
  intros stop u s. induction u as [|c u IH]; intros H; cbn [app upto].
  - rewrite Ascii.eqb_refl. reflexivity.
  - destruct (Ascii.eqb_spec c stop) as [->|]; [exfalso; apply H; left; reflexivity|]. rewrite IH by (intros B; apply H; right; exact B). reflexivity.
Qed.

Lemma match_field_ok : forall p e, p <> [] -> ~ In ","%char p -> e <> [] -> ~ In ")"%char e ->
  match_field (number_field ++ p ++ [","%char; cblank] ++ e ++ [")"%char]) = Some (p, e).
Proof.
  intros p e Hp Np He Ne. unfold match_field. rewrite prefix_self. cbn [app]. rewrite upto_app by exact Np.
  destruct p as [|p0 p]; [congruence|]. cbn [Ascii.eqb Bool.eqb andb]. unfold cblank at 1 2. cbn [Ascii.eqb Bool.eqb]. rewrite upto_app by exact Ne. destruct e as [|e0 e]; [congruence|]. reflexivity.
Qed.

Lemma upto_spec : forall stop s u v, upto stop s = (u, v) -> s = u ++ v /\ ~ In stop u /\ (v = [] \/ exists v', v = stop :: v').
Proof.
  intros stop. induction s as [|c s IH]; intros u v E; cbn [upto] in E.
  - injection E as <- <-. split; [reflexivity|]. split; [intros []|left; reflexivity].
  - destruct (Ascii.eqb_spec c stop) as [->|N].
    + injection E as <- <-. split; [reflexivity|]. split; [intros []|right; exists s; reflexivity].
    + destruct (upto stop s) as [u' v'] eqn:E'. injection E as <- <-. destruct (IH _ _ eq_refl) as (-> & A & B).
      split; [reflexivity|]. split; [|exact B]. intros [C|C]; [exact (N C)|exact (A C)].
Qed.

Lemma prefix_spec : forall p s r, prefix p s = Some r -> s = p ++ r.
Proof.
  induction p as [|a p IH]; intros s r E; cbn [prefix] in E; [injection E as <-; reflexivity|].
  destruct s as [|b s]; [discriminate|]. destruct (Ascii.eqb_spec a b) as [->|]; [|discriminate]. cbn [app]. f_equal. apply IH, E.
Qed.

Lemma match_field_iff : forall s p e, match_field s = Some (p, e) <->
  s = number_field ++ p ++ [","%char; cblank] ++ e ++ [")"%char] /\ p <> [] /\ ~ In ","%char p /\ e <> [] /\ ~ In ")"%char e.
Proof.
  intros s p e. split; [|intros (-> & A & B & C & D); apply match_field_ok; assumption].
  unfold match_field. intros M. destruct (prefix number_field s) as [s1|] eqn:E1; [|discriminate]. apply prefix_spec in E1.
  destruct (upto "," s1) as [u s2] eqn:E2. apply upto_spec in E2. destruct E2 as (-> & Nu & Hs). destruct u as [|u0 u]; [discriminate|].
  destruct s2 as [|c [|b s3]]; try discriminate. destruct Hs as [Hs|(s2' & Hs)]; [discriminate|]. injection Hs as -> _.
  rewrite Ascii.eqb_refl in M. cbn [andb] in M. destruct (Ascii.eqb_spec b cblank) as [->|]; [|discriminate].
  destruct (upto ")" s3) as [v s4] eqn:E3. apply upto_spec in E3. destruct E3 as (-> & Nv & Hs). destruct v as [|v0 v]; [discriminate|].
  destruct s4 as [|d [|]]; try discriminate. destruct Hs as [Hs|(s4' & Hs)]; [discriminate|]. injection Hs as -> _.
  injection M as <- <-. rewrite E1. split; [reflexivity|]. split; [discriminate|]. split; [exact Nu|]. split; [discriminate|exact Nv].
Qed.

Lemma word_group : forall c, wordb c = true -> group_char c = true.
Proof. intros c H. destruct (word_tame c H) as (_ & B & _ & _ & _ & S & C). unfold group_char. rewrite B, S, C. reflexivity. Qed.

(** A name is followed by a character that ends it, and the rest gives no match. *)
Lemma name_at_stop : forall v d r, v <> [] -> Forall (fun c => wordb c = true) v -> after_char d = true -> name_at (d :: r) = None -> name_at (v ++ d :: r) = Some v.
Proof.
  induction v as [|c v IH]; intros d r H F A Nn; [congruence|]. inversion F as [|? ? W F']; subst. destruct v as [|c' v].
  - cbn [app]. cbn [name_at] in *. rewrite (word_group c W). rewrite Nn, A. reflexivity.
  - specialize (IH d r ltac:(discriminate) F' A Nn). cbn [app] in *. change (name_at (c :: c' :: v ++ d :: r)) with
      (if group_char c then match name_at (c' :: v ++ d :: r) with Some u => Some (c :: u) | None => if after_char c' then Some [c] else None end else None).
    rewrite (word_group c W), IH. reflexivity.
Qed.
Lemma name_at_none : forall s, Forall (fun c => after_char c = false) (tl s) -> name_at s = None.
Proof.
  induction s as [|c s IH]; intros F; [reflexivity|]. cbn [tl] in F. destruct s as [|d s]; [reflexivity|]. inversion F as [|? ? A F']; subst.
  change (name_at (c :: d :: s)) with (if group_char c then match name_at (d :: s) with Some u => Some (c :: u) | None => if after_char d then Some [c] else None end else None).
  rewrite IH by exact F'. rewrite A. destruct (group_char c); reflexivity.
Qed.
Lemma name_at_closed : forall d r, group_char d = false -> name_at (d :: r) = None.
Proof. intros d [|c r] H; [reflexivity|]. cbn [name_at]. rewrite H. reflexivity. Qed.

Lemma match_lead_name : forall v r u, name v -> name_at (v ++ r) = Some u -> match_lead (v ++ r) = Some u.
Proof.
  intros v r u N H. destruct (name_word v N) as (_ & c & t & -> & Dg & W). cbn [app] in *. cbn [match_lead]. rewrite Dg. unfold after_digits.
  destruct (word_tame c W) as (_ & _ & _ & _ & _ & S & _). rewrite S. exact H.
Qed.
Lemma match_lead_digits : forall ds s u, Forall (fun c => digitb c = true) ds -> match_lead s = Some u -> match_lead (ds ++ s) = Some u.
Proof. induction 1 as [|c ds D F IH]; intros H; [exact H|]. cbn [app match_lead]. rewrite D, IH by exact H. reflexivity. Qed.

Lemma digit_after : forall c, digitb c = true \/ c = "/"%char -> after_char c = false.
Proof.
  intros c [H| ->]; [|reflexivity]. destruct (word_tame c (digit_word c H)) as (_ & B & P & M & _ & _ & C). unfold after_char. rewrite B, P, M, C. reflexivity.
Qed.
Lemma q_text_chars : forall n d, (0 <= n)%Z -> (0 < d)%Z -> Forall (fun c => digitb c = true \/ c = "/"%char) (q_text (n, d)).
Proof.
  intros n d N D. unfold q_text, sdec. cbn [fst snd]. destruct (Z.ltb_spec n 0); [lia|]. destruct (dec_ok n N) as [[_ C1] _]. destruct (dec_ok d) as [[_ D1] _]; [lia|].
  apply Forall_app. split; [eapply Forall_impl; [|exact C1]; auto|]. destruct (d =? 1)%Z; [constructor|]. constructor; [right; reflexivity|]. eapply Forall_impl; [|exact D1]; auto.
Qed.

(** Positive integers as leading coefficient. *)
Lemma lead_positive : forall c v r u, (0 < c)%Z -> name v -> name_at (v ++ r) = Some u -> match_lead (lead_text (c, 1)%Z ++ v ++ r) = Some u.
Proof.
  intros c v r u C N H. unfold lead_text. cbn [fst snd Z.eqb Pos.eqb andb]. destruct (Z.eqb_spec c 1); [exact (match_lead_name v r u N H)|].
  destruct (Z.eqb_spec c (-1)); [lia|]. unfold q_text, sdec. cbn [fst snd Z.eqb Pos.eqb]. rewrite app_nil_r. destruct (Z.ltb_spec c 0); [lia|].
  destruct (dec_ok c) as [[_ D] _]; [lia|]. rewrite <- app_assoc. apply match_lead_digits; [exact D|]. cbn [app match_lead]. cbn [after_digits Ascii.eqb Bool.eqb]. 
  change (digitb "*") with false. cbn. rewrite H. reflexivity.
Qed.

Lemma pretty_name : forall var e, name var -> (0 < e_den e)%Z -> (2 <= length (e_num e))%nat -> (0 < last (e_num e) 0)%Z -> (e_den e | last (e_num e) 0)%Z ->
  (length (e_num e) = 2%nat -> hd 0%Z (e_num e) <> 0%Z) -> match_lead (pretty var e) = Some var.
Proof.
  intros var e N D L P Dv Z2. destruct (name_word var N) as (W & c0 & v0 & Ev & _).
  assert (Vn : var <> []) by (rewrite Ev; discriminate).
  assert (E : exists c l, rev (e_num e) = c :: l /\ c = last (e_num e) 0%Z /\ (1 <= length l)%nat /\ (length l = 1%nat -> exists a, l = [a] /\ a <> 0%Z)).
  { destruct (rev (e_num e)) as [|c l] eqn:E; [apply (f_equal (@length Z)) in E; rewrite rev_length in E; cbn in E; lia|].
    apply (f_equal (@rev Z)) in E as E2. rewrite rev_involutive in E2. cbn [rev] in E2. exists c, l. split; [reflexivity|]. split; [rewrite E2, last_last; reflexivity|].
    assert (Ln : length (e_num e) = S (length l)) by (rewrite E2, app_length, rev_length; cbn; lia). split; [lia|].
    intros L1. destruct l as [|a [|? ?]]; cbn in L1, Ln; try lia. exists a. split; [reflexivity|]. specialize (Z2 ltac:(lia)). rewrite E2 in Z2. exact Z2. }
  destruct E as (c & l & E & Ec & L1 & H1). rewrite <- Ec in P, Dv.
  assert (Q : coef_at e c = (c / e_den e, 1)%Z /\ (0 < c / e_den e)%Z).
  { unfold coef_at. destruct Dv as (k & Hk). assert (G : Z.gcd c (e_den e) = e_den e) by (rewrite Hk; rewrite Z.gcd_comm; apply Z.gcd_unique; [lia|apply Z.divide_refl|exists k; reflexivity|auto]).
    rewrite G. split; [rewrite Z.div_same by lia; reflexivity|]. rewrite Hk, Z.div_mul by lia. nia. }
  destruct Q as [Q Qp]. unfold pretty. rewrite E. destruct l as [|a [|a2 l]]; [cbn in L1; lia| |].
  - destruct (H1 eq_refl) as (a' & [= <-] & Ha). rewrite Q. destruct (Z.eqb_spec a 0); [congruence|]. apply lead_positive; [exact Qp|exact N|].
    destruct (coef_at_ok e a D) as (A1 & _ & A3). destruct (coef_at e a) as [m d]. cbn [fst snd] in *. destruct (Z.ltb_spec a 0) as [Hs|Hs].
    + cbn [app]. assert (Nn : (m < 0)%Z) by (apply Z.sgn_neg_iff; rewrite A3; apply Z.sgn_neg; exact Hs).
      assert (Eq : q_text (m, d) = "-"%char :: q_text (- m, d)%Z) by (unfold q_text, sdec; cbn [fst snd]; destruct (Z.ltb_spec m 0); [|lia]; destruct (Z.ltb_spec (- m) 0); [lia|]; reflexivity).
      rewrite Eq. apply name_at_stop; [exact Vn|exact W|reflexivity|]. apply name_at_none. cbn [tl]. eapply Forall_impl; [exact digit_after|]. apply q_text_chars; lia.
    + cbn [app]. apply name_at_stop; [exact Vn|exact W|reflexivity|]. apply name_at_none. cbn [tl]. eapply Forall_impl; [exact digit_after|]. apply q_text_chars; [|exact A1].
      apply Z.sgn_nonneg. rewrite A3. apply Z.sgn_nonneg. exact Hs.
  - rewrite Q. unfold power_text. cbn [length Nat.eqb]. rewrite <- app_assoc. apply lead_positive; [exact Qp|exact N|].
    cbn [app]. apply name_at_stop; [exact Vn|exact W|reflexivity|]. apply name_at_closed. reflexivity.
Qed.

(** ** The root *)
Section Normalize.
Variable print_ball : ball -> Z -> str.
Variable read_ball : str -> Z -> option ball.
Variable poly_ring : str -> str -> exc elem.
Variable roots : elem -> list R.
Variable enclose : R -> Z -> ball.
Hypothesis H : sage_ok print_ball read_ball poly_ring enclose.

Lemma pick_right : forall aa s q x, In x aa -> ball_text s = Some q -> in_text x q -> forall precs, Forall (fun p => (2 <= p)%Z) precs ->
  forall a, pick read_ball enclose aa s precs = Ret a -> a = x.
Proof.
  intros aa s q x Hx T I. induction 1 as [|p precs P F IH]; intros a E; [discriminate|]. cbn [pick] in E.
  destruct (sg_read _ _ _ _ H s q p P T) as (b & Eb & Hb). rewrite Eb in E.
  assert (J : In x (filter (fun a => boverlaps (enclose a p) b) aa)).
  { apply filter_In. split; [exact Hx|]. apply (boverlaps_common _ _ x); [apply (sg_enclose _ _ _ _ H); exact P|apply Hb, I]. }
  destruct (filter _ aa) as [|a1 [|a2 l]]; [apply IH; exact E| |apply IH; exact E]. injection E as <-. destruct J as [J|[]]. exact J.
Qed.

Lemma pick_found : forall aa s q x, NoDup aa -> In x aa -> ball_text s = Some q -> in_text x q ->
  (forall b y, read_ball s 256%Z = Some b -> In y aa -> y <> x -> boverlaps (enclose y 256%Z) b = false) ->
  exists a, pick read_ball enclose aa s [53; 64; 128; 256]%Z = Ret a.
Proof.
  intros aa s q x ND Hx T I Ap.
  assert (L : exists a, pick read_ball enclose aa s [256]%Z = Ret a).
  { cbn [pick]. destruct (sg_read _ _ _ _ H s q 256%Z ltac:(lia) T) as (b & Eb & Hb). rewrite Eb.
    assert (J : filter (fun a => boverlaps (enclose a 256%Z) b) aa = [x]).
    { assert (Ov : boverlaps (enclose x 256%Z) b = true) by (apply (boverlaps_common _ _ x); [apply (sg_enclose _ _ _ _ H); lia|apply Hb, I]).
      assert (Ap' : forall y, In y aa -> y <> x -> boverlaps (enclose y 256%Z) b = false) by (intros y; apply Ap; exact Eb).
      assert (K0 : forall l, ~ In x l -> (forall y, In y l -> y <> x -> boverlaps (enclose y 256%Z) b = false) -> filter (fun a => boverlaps (enclose a 256%Z) b) l = []).
      { induction l as [|z l IHl]; intros Nx Al; [reflexivity|]. cbn [filter]. rewrite Al; [|left; reflexivity|intros ->; apply Nx; left; reflexivity]. apply IHl; [intros B; apply Nx; right; exact B|intros y Hy; apply Al; right; exact Hy]. }
      clear Eb Ap T. induction ND as [|z l Nz ND IHl]; [destruct Hx|]. cbn [filter]. destruct Hx as [->|Hx].
      - rewrite Ov, K0; [reflexivity|exact Nz|intros y Hy; apply Ap'; right; exact Hy].
      - rewrite Ap' by (try (left; reflexivity); intros ->; contradiction). apply IHl; [exact Hx|intros y Hy; apply Ap'; right; exact Hy]. }
    rewrite J. exists x. reflexivity. }
  assert (St : forall p ps, (2 <= p)%Z -> (exists a, pick read_ball enclose aa s ps = Ret a) -> exists a, pick read_ball enclose aa s (p :: ps) = Ret a).
  { intros p ps P (a & E). cbn [pick]. destruct (sg_read _ _ _ _ H s q p P T) as (b & Eb & _). rewrite Eb. destruct (filter _ aa) as [|a1 [|a2 l]]; eexists; try exact E. reflexivity. }
  apply St; [lia|]. apply St; [lia|]. apply St; [lia|]. exact L.
Qed.

Lemma normalize_ok : forall var nf x, sage_name var -> lowest_terms (pol_of nf) -> (2 <= length (f_pol nf))%nat -> (Z.of_nat (length (f_pol nf)) <= long_max)%Z ->
  (0 < last (f_pol nf) 0)%Z -> (f_den nf | last (f_pol nf) 0)%Z -> (length (f_pol nf) = 2%nat -> hd 0%Z (f_pol nf) <> 0%Z) ->
  is_finite (f_emb nf) = true -> inb x (f_emb nf) -> zeval (f_pol nf) x = 0 -> roots_ok (pol_of nf) (roots (pol_of nf)) ->
  (forall p v a, normalize print_ball read_ball poly_ring roots enclose var nf = Ret (p, v, a) -> p = pol_of nf /\ v = var /\ a = x) /\
  (told_apart print_ball read_ball enclose nf x -> normalize print_ball read_ball poly_ring roots enclose var nf = Ret (pol_of nf, var, x)).
Proof.
  intros var nf x SN Lt L2 Lm Lp Ld Lz Fi I Zx Ro. pose proof (proj1 SN) as N.
  destruct (pretty_form var (pol_of nf) N Lt Lm) as (ts & Fm & V).
  assert (Nc : ~ In ","%char (pretty var (pol_of nf))).
  { intros B. pose proof (form_chars _ _ _ _ N Fm) as F. rewrite Forall_forall in F. specialize (F _ B). discriminate. }
  assert (Pn : pretty var (pol_of nf) <> []) by (apply (form_false_nonempty var N _ ts Fm)).
  destruct (sg_plain _ _ _ _ H (f_emb nf) 64%Z Fi) as [P1 P2].
  destruct (sg_show _ _ _ _ H (f_emb nf) 64%Z ltac:(lia) Fi (ex_intro _ x I)) as (q & T & In0 & _). specialize (In0 x I).
  unfold normalize, field_text. fold (pol_of nf). rewrite match_field_ok by assumption.
  rewrite (pretty_name var (pol_of nf) N (lt_den _ Lt) L2 Lp Ld Lz).
  destruct (sg_ring _ _ _ _ H var _ ts SN Fm) as (p & Ep & [Lp' Vp]). rewrite Ep.
  assert (Pp : p = pol_of nf) by (apply lowest_unique; [exact Lp'|exact Lt|intros y; rewrite Vp; apply V]).
  rewrite <- Pp in Ro. destruct Ro as [ND Rt].
  assert (Ex : forall y, ev y p = 0 <-> zeval (f_pol nf) y = 0).
  { intros y. rewrite Pp. unfold ev, pol_of. cbn [e_num e_den]. pose proof (lt_den _ Lt) as D. cbn in D. apply IZR_lt in D. split; intros E; [|rewrite E; unfold Rdiv; ring].
    unfold Rdiv in E. apply Rmult_integral in E. destruct E as [E|E]; [exact E|]. exfalso. pose proof (Rinv_0_lt_compat _ D). lra. }
  assert (Hx : In x (roots p)) by (apply Rt, Ex, Zx).
  assert (R1 : forall a, pick read_ball enclose (roots p) (print_ball (f_emb nf) 64) [53; 64; 128; 256]%Z = Ret a -> a = x).
  { apply (pick_right (roots p) _ q x Hx T In0). repeat constructor; lia. }
  split.
  - intros p' v a E. destruct (pick _ _ _ _ _) as [a'|] eqn:Ea; [|discriminate]. injection E as <- <- <-. split; [exact Pp|]. split; [reflexivity|]. apply R1. reflexivity.
  - intros Ta. destruct (pick_found (roots p) (print_ball (f_emb nf) 64) q x ND Hx T In0) as (a & Ea).
    + intros b y Eb Hy Ny. apply (Ta b y Eb); [|exact Ny]. apply Ex, Rt, Hy.
    + rewrite Ea, Pp, (R1 a Ea). reflexivity.
Qed.
End Normalize.

(** A text of the ball that SageMath does not read is an exception. *)
Lemma normalize_unread : forall print_ball read_ball poly_ring roots enclose var nf, name var -> lowest_terms (pol_of nf) -> (Z.of_nat (length (f_pol nf)) <= long_max)%Z ->
  print_ball (f_emb nf) 64%Z <> [] -> ~ In ")"%char (print_ball (f_emb nf) 64%Z) -> read_ball (print_ball (f_emb nf) 64%Z) 53%Z = None ->
  normalize print_ball read_ball poly_ring roots enclose var nf = Throw.
Proof.
  intros print_ball read_ball poly_ring roots enclose var nf N Lt Lm P1 P2 E. destruct (pretty_form var (pol_of nf) N Lt Lm) as (ts & Fm & _).
  unfold normalize, field_text. fold (pol_of nf). rewrite match_field_ok; try assumption.
  - destruct (match_lead _) as [v|]; [|reflexivity]. destruct (poly_ring v _) as [p|]; [|reflexivity]. cbn [pick]. rewrite E. reflexivity.
  - apply (form_false_nonempty var N _ ts Fm).
  - intros B. pose proof (form_chars _ _ _ _ N Fm) as F. rewrite Forall_forall in F. specialize (F _ B). discriminate.
Qed.
