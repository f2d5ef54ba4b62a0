(** Values of parsed polynomials; printing, then reading. *)
Require Import Reals Lra Lia List ZArith Bool Ascii.
From Verif Require Import PolyR RootModel ExtraModel ArbModel ElemModel ElemSpec ElemProofs NfArith NfArithProofs
  StrModel StrSpec StrProofs.
Import ListNotations.
Open Scope R_scope.

(** ** Values *)
Lemma lowest_poly num den : den <> 0%Z -> is_poly (lowest num den) (fun y => zeval num y / IZR den).
Proof.
  intros D. split.
  - destruct (lowest_ok (repeat 0%Z (S (length num))) 0 num den D) as [[A B _ C] _]; [rewrite repeat_length; lia|].
    constructor; assumption.
  - intros y. apply (lowest_ok (repeat 0%Z (S (length num))) y num den D). rewrite repeat_length; lia.
Qed.

Lemma add_term_poly p f a b k : is_poly p f -> (0 < b)%Z ->
  is_poly (add_term p a b k) (fun y => f y + term_val y (a, b, k)).
Proof.
  intros [L V] B. unfold add_term. pose proof (lt_den p L) as P.
  assert (D : (e_den p * b <> 0)%Z) by nia.
  destruct (lowest_poly (comb b (- e_den p) (e_num p) (pshift (Z.to_nat k) [a])) (e_den p * b) D) as [L2 V2].
  split; [exact L2|]. intros y. rewrite V2, <- V. unfold ev, term_val.
  rewrite zeval_comb, zeval_pshift, opp_IZR, mult_IZR. cbn [zeval map peval]. unfold zeval. cbn.
  assert (IZR b <> 0) by (apply not_0_IZR; lia). assert (IZR (e_den p) <> 0) by (apply not_0_IZR; lia).
  field. auto.
Qed.

Definition pos_den (t : Z * Z * Z) : Prop := (0 < snd (fst t))%Z.

Lemma add_terms_poly ts : forall p f, Forall pos_den ts -> is_poly p f ->
  is_poly (add_terms p ts) (fun y => f y + terms_val y ts).
Proof.
  induction ts as [|[[a b] k] ts IH]; intros p f F P.
  - destruct P as [L V]. split; [exact L|]. intros y. rewrite V. cbn. ring.
  - inversion F; subst. cbn [add_terms fold_left].
    destruct (IH _ _ H2 (add_term_poly p f a b k P H1)) as [L V]. split; [exact L|].
    intros y. etransitivity; [apply V|]. change (terms_val y ((a, b, k) :: ts)) with (term_val y (a, b, k) + terms_val y ts). ring.
Qed.

Lemma coef_pos c a b : coef c a b -> (0 < b)%Z.
Proof.
  destruct 1 as [|ds es D [_ E] N]; [lia|]. pose proof (numval_nonneg es E). lia.
Qed.
Lemma body_pos loose var s a b k : body loose var s a b k -> (0 < b)%Z.
Proof. destruct 1; try lia; eapply coef_pos; eassumption. Qed.
Lemma form_pos loose var s ts : form loose var s ts -> Forall pos_den ts.
Proof.
  destruct 1 as [s ts H|]; [|constructor].
  induction H; constructor; try constructor; try assumption; unfold pos_den; cbn; eapply body_pos; eassumption.
Qed.

Lemma zero_poly : is_poly {| e_num := []; e_den := 1 |} (fun _ => 0).
Proof.
  split; [constructor; cbn; try lia|].
  - intros g G D _. apply Z.divide_1_r_nonneg in D; lia.
  - intros y. unfold ev. cbn. field.
Qed.

Lemma is_poly_ext p f g : (forall y, f y = g y) -> is_poly p f -> is_poly p g.
Proof. intros E [L V]. split; [exact L|]. intros y. rewrite V. apply E. Qed.

Theorem set_str_value zd loose var s ts : name var -> form loose var s ts ->
  exists p, set_str zd var s = Val (Some p) /\ is_poly p (fun y => terms_val y ts).
Proof.
  intros N F. exists (add_terms {| e_num := []; e_den := 1 |} ts). split.
  - apply (set_str_read zd loose var s ts N F).
  - apply (is_poly_ext _ (fun y => 0 + terms_val y ts)); [intros; ring|].
    apply add_terms_poly; [eapply form_pos; eassumption | apply zero_poly].
Qed.

Theorem set_str_accepts zd var s p : zero_den_ok zd -> set_str zd var s = Val (Some p) ->
  name var /\ exists ts, form true var s ts /\ is_poly p (fun y => terms_val y ts).
Proof.
  intros Z H. destruct (set_str_split zd var s p Z H) as [N (ts & F)]. split; [exact N|]. exists ts.
  split; [exact F|]. destruct (set_str_value zd true var s ts N F) as (p' & E & V). congruence.
Qed.

Theorem set_str_rejects zd var s : zero_den_ok zd -> (forall n, answers (zd n)) -> tame var -> tame s ->
  (forall ts, ~ (name var /\ form true var s ts)) -> set_str zd var s = Val None.
Proof.
  intros Z A Tv Ts H. destruct (set_str_answers zd var s A Tv Ts) as [[p|] E]; [|exact E].
  exfalso. destruct (set_str_accepts zd var s p Z E) as [N (ts & F & _)]. exact (H ts (conj N F)).
Qed.

(** The loose grammar only adds the empty string and terms starting with a star. *)
Lemma body_strict var s a b k : body true var s a b k -> body false var s a b k \/ exists t, s = "*"%char :: t.
Proof. destruct 1; [left; constructor; assumption .. | left; constructor; assumption | left; constructor; assumption | right; eauto]. Qed.

(** ** fmpz_poly_set_str_pretty *)
Lemma overwrite_short old new : (length old <= length new)%nat -> overwrite old new = new.
Proof.
  revert old. induction new as [|b new IH]; intros [|a old] L; cbn in *; try reflexivity; try lia.
  f_equal. apply IH. lia.
Qed.

Lemma lowest_one num : e_den (lowest num 1) = 1%Z.
Proof. cbn [lowest e_den]. rewrite Z.gcd_1_l. reflexivity. Qed.

Lemma add_terms_one ts : forall p, Forall (fun t : Z * Z * Z => snd (fst t) = 1%Z) ts -> e_den p = 1%Z ->
  e_den (add_terms p ts) = 1%Z.
Proof.
  induction ts as [|[[a b] k] ts IH]; intros p F P; [exact P|].
  inversion F; subst. cbn in H1. subst b. apply (IH (add_term p a 1 k) H2).
  unfold add_term. rewrite P. apply lowest_one.
Qed.

Theorem set_str_z_value zd loose var s ts : name var -> form loose var s ts ->
  Forall (fun t : Z * Z * Z => snd (fst t) = 1%Z) ts ->
  exists p, set_str_z zd [] var s = Val (Some p) /\ last p 1%Z <> 0%Z /\ forall y, zeval p y = terms_val y ts.
Proof.
  intros N F O. destruct (set_str_value zd loose var s ts N F) as (q & E & [[_ L _] V]).
  pose proof (set_str_read zd loose var s ts N F) as E2. rewrite E in E2. injection E2 as E2.
  pose proof (add_terms_one ts {| e_num := []; e_den := 1 |} O eq_refl) as D. rewrite <- E2 in D.
  exists (e_num q). repeat split.
  - unfold set_str_z. rewrite E. cbn [bind]. rewrite D. cbn. destruct (e_num q); reflexivity.
  - exact L.
  - intros y. rewrite <- V. unfold ev. rewrite D. field.
Qed.

(** ** Characters of the strings *)
Definition formb (c : ascii) : bool := termb c || signb c.

Lemma formb_no c : formb c = true ->
  Ascii.eqb c "~" || Ascii.eqb c zero = false /\ Ascii.eqb c ")" = false /\ Ascii.eqb c "(" = false /\
  (isspaceb c = true -> c = cblank).
Proof.
  destruct c as [[] [] [] [] [] [] [] []]; vm_compute; intros H; try discriminate H;
    repeat split; try reflexivity; intros G; discriminate G.
Qed.
Lemma blank_space : isspaceb cblank = true. Proof. reflexivity. Qed.
Lemma word_space c : wordb c = true -> isspaceb c = false.
Proof. destruct c as [[] [] [] [] [] [] [] []]; vm_compute; intros H; try discriminate H; reflexivity. Qed.
Lemma coef_space c : coefb c = true -> isspaceb c = false.
Proof. destruct c as [[] [] [] [] [] [] [] []]; vm_compute; intros H; try discriminate H; reflexivity. Qed.
Lemma term_formb c : termb c = true -> formb c = true.
Proof. unfold formb. intros ->. reflexivity. Qed.

Lemma sign_run_formb sg g : sign_run sg g -> Forall (fun c => formb c = true) sg.
Proof. induction 1; constructor; (reflexivity || assumption). Qed.
Lemma blanks_formb bl : blanks bl -> Forall (fun c => formb c = true) bl.
Proof. apply Forall_impl. intros c <-. reflexivity. Qed.

Lemma form_chars loose var s ts : name var -> form loose var s ts -> Forall (fun c => formb c = true) s.
Proof.
  intros N [s0 ts0 H|_]; [|constructor].
  assert (B : forall s a b k, body loose var s a b k -> Forall (fun c => formb c = true) s).
  { intros s1 a b k Hb. destruct (body_chars loose var s1 a b k N Hb) as [F _].
    eapply Forall_impl; [|exact F]. apply term_formb. }
  induction H; rewrite !Forall_app; repeat split; eauto using sign_run_formb, blanks_formb.
Qed.

(** ** Removing white space *)
Definition strip (s : str) : str := filter (fun c => negb (isspaceb c)) s.

Lemma strip_app a b : strip (a ++ b) = strip a ++ strip b.
Proof. apply filter_app. Qed.
Lemma strip_blanks b : blanks b -> strip b = [].
Proof. induction 1 as [|c b <- _ IH]; [reflexivity|exact IH]. Qed.
Lemma strip_id s : Forall (fun c => isspaceb c = false) s -> strip s = s.
Proof. induction 1 as [|c s E _ IH]; [reflexivity|]. cbn. rewrite E. cbn. f_equal. exact IH. Qed.
Lemma strip_digits ds : digits ds -> strip ds = ds.
Proof.
  intros [_ F]. apply strip_id. eapply Forall_impl; [|exact F]. intros c H. apply word_space, digit_word, H.
Qed.
Lemma strip_name var : name var -> strip var = var.
Proof.
  intros N. apply strip_id. destruct (name_word var N) as [F _].
  eapply Forall_impl; [|exact F]. apply word_space.
Qed.
Lemma strip_coef c a b : coef c a b -> strip c = c.
Proof.
  intros H. destruct (coef_chars c a b H) as [F _]. apply strip_id.
  eapply Forall_impl; [|exact F]. apply coef_space.
Qed.

Lemma strip_cons c s : strip (c :: s) = if isspaceb c then strip s else c :: strip s.
Proof. unfold strip. cbn [filter]. destruct (isspaceb c); reflexivity. Qed.

Lemma strip_power var s k : name var -> power var s k -> power var (strip s) k.
Proof.
  intros N [|b1 b2 ds B1 B2 D L|ds D L].
  - rewrite strip_name by exact N. constructor.
  - rewrite !strip_app, strip_cons, strip_app, (strip_blanks b1 B1), (strip_blanks b2 B2), (strip_name var N), (strip_digits ds D).
    apply (po_caret var [] [] ds); auto; constructor.
  - rewrite strip_app, (strip_name var N), (strip_digits ds D). constructor; assumption.
Qed.

Lemma strip_body loose var s a b k : name var -> body loose var s a b k -> body loose var (strip s) a b k.
Proof.
  intros N [c a0 b0 C|s0 k0 P|c a0 b0 bl s0 k0 C B P|c a0 b0 b1 b2 s0 k0 C B1 B2 P|b2 s0 k0 L B2 P].
  - rewrite (strip_coef _ _ _ C). constructor. exact C.
  - constructor. apply strip_power; assumption.
  - rewrite !strip_app, (strip_coef _ _ _ C), (strip_blanks _ B).
    apply (bo_both loose var c a0 b0 [] (strip s0) k0); auto using strip_power. constructor.
  - rewrite !strip_app, strip_cons, strip_app, (strip_coef _ _ _ C), (strip_blanks _ B1), (strip_blanks _ B2).
    apply (bo_star loose var c a0 b0 [] [] (strip s0) k0); auto using strip_power; constructor.
  - rewrite strip_cons, strip_app, (strip_blanks _ B2).
    apply (bo_only_star loose var [] (strip s0) k0); auto using strip_power. constructor.
Qed.

Lemma strip_run sg g : sign_run sg g -> sign_run (strip sg) g.
Proof. induction 1; rewrite ?strip_cons; cbn; try constructor; assumption. Qed.

Lemma strip_head r : starts_with_sign r -> starts_with_sign (strip r).
Proof. destruct r as [|c r]; [auto|]. intros [-> | ->]; [left|right]; reflexivity. Qed.

Lemma strip_form loose var s ts : name var -> form loose var s ts -> form loose var (strip s) ts.
Proof.
  intros N [s0 ts0 H|L]; [|apply fo_empty; exact L]. apply fo_sum. clear s ts.
  induction H as [sg g s a b k bl G B Bl|sg g s a b k bl r ts G B Bl St _ IH].
  - rewrite !strip_app, (strip_blanks _ Bl).
    apply (su_one loose var (strip sg) g (strip s) a b k []); auto using strip_run, strip_body. constructor.
  - rewrite !strip_app, (strip_blanks _ Bl).
    apply (su_more loose var (strip sg) g (strip s) a b k [] (strip r) ts); auto using strip_run, strip_body, strip_head.
    constructor.
Qed.

(** ** Reading up to the parenthesis *)
Lemma skip_space_strip s r : forall c, isspaceb c = false ->
  exists d s', skip_space (s ++ c :: r) = d :: s' /\ isspaceb d = false /\
    ((strip s = [] /\ d = c /\ s' = r) \/
     (exists s2, s' = s2 ++ c :: r /\ strip s = d :: strip s2 /\ (length s2 < length s)%nat /\ In d s /\
        (forall x, In x s2 -> In x s))).
Proof.
  intros c C. induction s as [|a s IH]; cbn [app skip_space].
  - rewrite C. exists c, r. auto 8.
  - destruct (isspaceb a) eqn:A.
    + destruct IH as (d & s' & E & D & [(S1 & S2 & S3)|(s2 & S1 & S2 & S3 & S4 & S5)]).
      * exists d, s'. rewrite E. split; [reflexivity|]. split; [exact D|]. left. rewrite strip_cons, A. auto.
      * exists d, s'. rewrite E. split; [reflexivity|]. split; [exact D|]. right. exists s2. rewrite strip_cons, A.
        cbn. repeat split; auto; lia.
    + exists a, (s ++ c :: r). split; [reflexivity|]. split; [exact A|]. right. exists s. rewrite strip_cons, A.
      cbn. repeat split; auto.
Qed.

(** [s] followed by a visible character and the parenthesis. *)
Lemma read_paren_strip r : forall n s c, (length s < n)%nat -> isspaceb c = false -> c <> ")"%char ->
  ~ In ")"%char s -> forall fuel, (S n < fuel)%nat ->
  read_paren fuel (s ++ c :: ")"%char :: r) = Val (Some (strip s ++ [c], ")"%char :: r)).
Proof.
  induction n as [|n IH]; intros s c L C P I fuel F; [lia|].
  destruct fuel as [|f]; [lia|].
  destruct (skip_space_strip s (")"%char :: r) c C) as (d & s' & E & D & R).
  assert (H : match skip_space (s ++ c :: ")"%char :: r) with
              | [] => Undef
              | c :: s' => bind (read_paren f s') (fun r =>
                  match r with None => Val None | Some (u, v) => Val (Some (c :: u, v)) end)
              end = Val (Some (strip s ++ [c], ")"%char :: r))).
  { rewrite E. destruct R as [(S1 & -> & ->)|(s2 & -> & S2 & S3 & S4 & S5)].
    - destruct f as [|f]; [lia|]. rewrite S1. reflexivity.
    - rewrite (IH s2 c); try assumption; try lia; [|intros J; apply I, S5, J]. rewrite S2. reflexivity. }
  destruct s as [|a s]; cbn [app read_paren].
  - destruct (Ascii.eqb_spec c ")"); [congruence|]. exact H.
  - destruct (Ascii.eqb_spec a ")") as [->|]; [exfalso; apply I; left; reflexivity|]. exact H.
Qed.

Lemma cut_tilde_app s t : Forall (fun c => formb c = true) s -> cut_tilde (s ++ "~"%char :: t) = s.
Proof.
  induction 1 as [|c s H _ IH]; [reflexivity|]. cbn [app cut_tilde].
  destruct (formb_no c H) as [-> _]. f_equal. exact IH.
Qed.
Lemma cut_tilde_id s : Forall (fun c => formb c = true) s -> cut_tilde s = s.
Proof.
  induction 1 as [|c s H _ IH]; [reflexivity|]. cbn [cut_tilde].
  destruct (formb_no c H) as [-> _]. f_equal. exact IH.
Qed.

Lemma read_word_app s r : Forall (fun c => isspaceb c = false) s ->
  match r with [] => True | c :: _ => isspaceb c = true end ->
  read_word (s ++ r) = (s, {| st_rest := r; st_eof := match r with [] => true | _ => false end |}).
Proof.
  intros F H. induction F as [|c s E _ IH]; cbn [app read_word].
  - destruct r as [|c r]; [reflexivity|]. cbn. rewrite H. reflexivity.
  - rewrite E, IH. reflexivity.
Qed.

(** ** Reading back *)
Section Back.
Variables (pol : list Z) (x : R) (n : nfops).
Hypothesis Hm : minimal pol x.
Hypothesis Hn : nf_ok pol x n.
Variable zd : Z -> out (option (Z * Z)).
Variable var : str.
Hypothesis Hv : name var.

Lemma canon_lowest e : canon pol e -> lowest_terms e.
Proof. intros [A B _ C]. constructor; assumption. Qed.

Lemma set_str_elem loose s ts e : form loose var s ts -> canon pol e -> terms_val x ts = ev x e ->
  bind (set_str zd var s) (fun r =>
    match r with None => Val None | Some p => Val (Some (n_set_poly n (e_num p) (e_den p))) end) = Val (Some e).
Proof.
  intros F C E. destruct (set_str_value zd loose var s ts Hv F) as (p & -> & [L V]). cbn [bind].
  destruct (nk_set_poly _ _ _ Hn (e_num p) (e_den p)) as [C2 E2]; [pose proof (lt_den p L); lia|].
  f_equal. f_equal. apply (canon_unique pol x Hm _ _ C2 C). rewrite E2, <- E, <- V. reflexivity.
Qed.

Theorem of_string_back loose s ts e : form loose var s ts -> canon pol e -> terms_val x ts = ev x e ->
  of_string zd n var s = Val (Some e).
Proof.
  intros F C E. unfold of_string. rewrite cut_tilde_id by (eapply form_chars; eassumption).
  eapply set_str_elem; eassumption.
Qed.

Lemma sum_blank loose s ts : sum loose var s ts -> sum loose var (s ++ [cblank]) ts.
Proof.
  induction 1 as [sg g s a b k bl G Bd Bl|sg g s a b k bl r ts G Bd Bl St S0 IH]; rewrite <- !app_assoc.
  - apply su_one; auto. apply blanks_app; [assumption|repeat constructor].
  - apply su_more; auto. destruct r as [|c r]; [|exact St].
    inversion S0; subst; exfalso.
    all: match goal with B : body _ _ ?t _ _ _ |- _ => pose proof (body_length _ _ _ _ _ _ Hv B) end.
    all: match goal with E : _ ++ _ = [] |- _ => apply (f_equal (@length ascii)) in E; rewrite !app_length in E; cbn in E; lia end.
Qed.

Theorem of_string_approx s ts e t : form false var s ts -> canon pol e -> terms_val x ts = ev x e ->
  of_string zd n var (s ++ tilde ++ t) = Val (Some e).
Proof.
  intros F C E. unfold of_string, tilde.
  change (s ++ [cblank; "~"%char; cblank] ++ t) with (s ++ [cblank] ++ "~"%char :: cblank :: t).
  rewrite app_assoc, cut_tilde_app.
  2:{ apply Forall_app. split; [eapply form_chars; eassumption|repeat constructor]. }
  inversion F as [s0 ts0 H|L]; subst; [|discriminate].
  apply (set_str_elem false _ ts); [|exact C|exact E]. apply fo_sum, sum_blank, H.
Qed.

(** *** The stream *)
Variable pr : printers.
Hypothesis Hp : print_ok (pr_alg pr).
Hypothesis Hd : approx_ok (pr_d pr).

Definition separated (e : elem) (r : str) : Prop :=
  is_integer e = true -> match r with [] => True | c :: _ => isspaceb c = true end.

Lemma form_head loose s ts : form loose var s ts -> match s with c :: _ => Ascii.eqb c "(" = false | [] => True end.
Proof.
  intros F. apply form_chars in F; [|exact Hv]. destruct F as [|c s H _]; [exact I|]. apply (formb_no c H).
Qed.

Lemma form_false_nonempty s ts : form false var s ts -> s <> [].
Proof.
  intros F. inversion F as [s0 ts0 H|L]; subst; [|discriminate]. destruct H as [sg g s a b k bl _ B _|sg g s a b k bl r ts _ B _ _ _].
  all: pose proof (body_length _ _ _ _ _ _ Hv B) as L; intros E; apply (f_equal (@length ascii)) in E;
    rewrite !app_length in E; cbn in E; lia.
Qed.

Theorem read_back e r : canon pol e -> (Z.of_nat (length pol) <= long_max)%Z -> separated e r ->
  read_elem zd n var {| st_rest := write pr var e ++ r; st_eof := false |} =
    Val (Some (e, {| st_rest := r;
                     st_eof := is_integer e && match r with [] => true | _ => false end |})).
Proof.
  intros C L Sp. pose proof (canon_lowest e C) as LT.
  destruct (Hp var e Hv LT) as (ts & F & V & B); [pose proof (can_len _ _ C); lia|].
  pose proof (form_chars false var _ ts Hv F) as Ch. specialize (V x).
  unfold read_elem, write. cbn [st_eof st_rest]. destruct (is_integer e) eqn:I.
  - unfold to_string, get_str. cbn [andb orb negb]. rewrite !app_nil_r.
    specialize (B eq_refl). specialize (Sp I).
    assert (W : Forall (fun c => isspaceb c = false) (pr_alg pr var e)).
    { rewrite Forall_forall in *. intros c Hc. destruct (isspaceb c) eqn:Sc; [|reflexivity].
      exfalso. apply B. destruct (formb_no c (Ch c Hc)) as (_ & _ & _ & K). rewrite <- (K Sc). exact Hc. }
    pose proof (form_head _ _ _ F) as Hh. pose proof (form_false_nonempty _ _ F) as Ne.
    pose proof (read_word_app _ r W Sp) as Rw. pose proof (of_string_back false _ ts e F C V) as Ob.
    destruct (pr_alg pr var e) as [|c s] eqn:P; [congruence|].
    cbn [app] in Rw |- *. rewrite Hh, Rw, Ob. cbn [bind andb]. reflexivity.
  - unfold to_string, get_str. cbn [andb orb negb].
    set (s := pr_alg pr var e) in *. destruct Hd as [Dn Df].
    destruct (exists_last Dn) as (d & c & Ed). rewrite Ed in Df |- *. apply Forall_app in Df. destruct Df as [Fd Fc].
    inversion Fc as [|? ? [Sc Pc] _]; subst. clear Fc.
    change (("("%char :: ((s ++ tilde) ++ d ++ [c]) ++ [")"%char]) ++ r)
      with ("("%char :: ((((s ++ tilde) ++ d ++ [c]) ++ [")"%char]) ++ r)). 
    cbn [Ascii.eqb Bool.eqb]. rewrite <- !app_assoc. cbn [app].
    assert (E : s ++ tilde ++ d ++ c :: ")"%char :: r = (s ++ tilde ++ d) ++ c :: ")"%char :: r) by (rewrite <- !app_assoc; reflexivity).
    rewrite E, (read_paren_strip r (S (length (s ++ tilde ++ d)))); try assumption; try lia.
    + cbn [tl bind]. rewrite !strip_app, <- !app_assoc.
      change (strip tilde ++ strip d ++ [c]) with ("~"%char :: (strip d ++ [c])).
      assert (Fs : form false var (strip s) ts) by (apply strip_form; assumption).
      unfold of_string. rewrite cut_tilde_app by (eapply form_chars; eassumption).
      rewrite (set_str_elem false _ ts e Fs C V). reflexivity.
    + rewrite !in_app_iff. intros [J|[J|J]].
      * rewrite Forall_forall in Ch. destruct (formb_no _ (Ch _ J)) as (_ & G & _). discriminate G.
      * cbn in J. destruct J as [J|[J|[J|[]]]]; discriminate J.
      * rewrite Forall_forall in Fd. destruct (Fd _ J) as [_ G]. apply G. reflexivity.
    + rewrite !app_length. cbn. lia.
Qed.

(** *** The parenthesised form in the constructor *)
Theorem of_string_paren s : of_string zd n var ("("%char :: s) = Val None.
Proof.
  unfold of_string. change (cut_tilde ("("%char :: s)) with ("("%char :: cut_tilde s). generalize (cut_tilde s). clear s. intros s.
  unfold set_str. rewrite (name_varname var Hv). cbn [bind length].
  assert (J : exists u v, next_term ("("%char :: s) = ("("%char :: u, v)).
  { change (next_term ("("%char :: s)) with (let '(u, v) := jump_rest s in ("("%char :: u, v)).
    destruct (jump_rest s) as [u v]. eauto. }
  destruct J as (u & v & J).
  assert (M : monomial zd var ("("%char :: u) = Val None).
  { rewrite (monomial_tail zd var ("("%char :: u) [] 1 "("%char u); try reflexivity; try constructor.
    rewrite tail_nonnum; try reflexivity; [|left; reflexivity].
    unfold star_var. change (Ascii.eqb "(" "*") with false. cbv iota.
    destruct (name_word var Hv) as [W _]. destruct var as [|c w]; [contradiction Hv|]. cbn [prefix].
    inversion W as [|? ? H0 _]; subst. destruct (Ascii.eqb_spec c "(") as [->|]; [discriminate H0|]. reflexivity. }
  cbn [set_str_loop]. change (skip_blanks ("("%char :: s)) with ("("%char :: s). rewrite J, M. reflexivity.
Qed.
End Back.

(** ** A printer that meets the contract *)
Open Scope Z_scope.
Definition digit_char (d : Z) : ascii := ascii_of_N (Z.to_N (48 + d)).
Fixpoint decimal (fuel : nat) (z : Z) : str :=
  match fuel with
  | O => []
  | S f => (if z <? 10 then [] else decimal f (z / 10)) ++ [digit_char (z mod 10)]
  end.
Definition dec (z : Z) : str := decimal (S (Z.to_nat (Z.log2 z))) z.

Fixpoint print_terms (var : str) (den : Z) (i : Z) (p : list Z) : str :=
  match p with
  | [] => []
  | c :: p' =>
      (if c =? 0 then [] else
        (if c <? 0 then ["-"%char] else ["+"%char]) ++ dec (Z.abs c) ++
        (if den =? 1 then [] else "/"%char :: dec den) ++ 
        (if i =? 0 then [] else "*"%char :: var ++ "^"%char :: dec i)) ++ print_terms var den (i + 1) p'
  end.
Definition print_elem (var : str) (e : elem) : str :=
  match e_num e with [] => ["0"%char] | p => print_terms var (e_den e) 0 p end.

Lemma digit_char_ok d : 0 <= d < 10 -> digitb (digit_char d) = true /\ code (digit_char d) - 48 = d.
Proof.
  intros H. assert (K : d = 0 \/ d = 1 \/ d = 2 \/ d = 3 \/ d = 4 \/ d = 5 \/ d = 6 \/ d = 7 \/ d = 8 \/ d = 9) by lia.
  repeat (destruct K as [->|K]; [split; reflexivity|]). subst d. split; reflexivity.
Qed.

Lemma decimal_ok f : forall z, 0 <= z < 10 ^ Z.of_nat (S f) ->
  digits (decimal (S f) z) /\ numval (decimal (S f) z) = z.
Proof.
  induction f as [|f IH]; intros z H.
  - assert (z < 10) by (change (10 ^ Z.of_nat 1) with 10 in H; lia).
    cbn [decimal]. destruct (Z.ltb_spec z 10); [|lia]. cbn [app]. rewrite Z.mod_small by lia.
    destruct (digit_char_ok z) as [D E]; [lia|]. split.
    + split; [discriminate|repeat constructor; exact D].
    + unfold numval, num_step. cbn [fold_left]. lia.
  - destruct (digit_char_ok (z mod 10)) as [D E]; [apply Z.mod_pos_bound; lia|].
    pose proof (Z.div_mod z 10 ltac:(lia)) as DM.
    assert (R : exists q, decimal (S (S f)) z = q ++ [digit_char (z mod 10)] /\
                (q = [] /\ z / 10 = 0 \/ digits q /\ numval q = z / 10)).
    { exists (if z <? 10 then [] else decimal (S f) (z / 10)). split; [reflexivity|]. destruct (Z.ltb_spec z 10).
      - left. split; [reflexivity|]. apply Z.div_small. lia.
      - right. apply IH. rewrite Nat2Z.inj_succ, Z.pow_succ_r in H by lia. split; [apply Z.div_pos; lia|].
        apply Z.div_lt_upper_bound; lia. }
    destruct R as (q & -> & R). split.
    + split; [destruct q; discriminate|]. apply Forall_app. split; [|repeat constructor; exact D].
      destruct R as [[-> _]|[[_ R] _]]; [apply Forall_nil|exact R].
    + unfold numval. rewrite fold_left_app. cbn [fold_left]. change (num_step (numval q) (digit_char (z mod 10)) = z).
      unfold num_step. rewrite E. destruct R as [[-> R]|[_ ->]]; [change (numval []) with 0|]; lia.
Qed.

Lemma dec_ok z : 0 <= z -> digits (dec z) /\ numval (dec z) = z.
Proof.
  intros H. unfold dec. apply decimal_ok. split; [exact H|].
  destruct (Z.eq_dec z 0) as [->|N]; [cbn; lia|].
  destruct (Z.log2_spec z) as [_ L]; [lia|].
  rewrite Nat2Z.inj_succ, Z2Nat.id by apply Z.log2_nonneg.
  eapply Z.lt_le_trans; [exact L|]. apply Z.pow_le_mono_l. lia.
Qed.

Open Scope R_scope.
Lemma print_body var den i c : name var -> (0 < den)%Z -> (0 <= i <= long_max)%Z -> c <> 0%Z ->
  exists g a, sign_run (if (c <? 0)%Z then ["-"%char] else ["+"%char]) g /\ (g * a = c)%Z /\
    body false var (dec (Z.abs c) ++ (if (den =? 1)%Z then [] else "/"%char :: dec den) ++
      (if (i =? 0)%Z then [] else "*"%char :: var ++ "^"%char :: dec i)) a den i.
Proof.
  intros N D I C. destruct (dec_ok (Z.abs c)) as [C1 C2]; [lia|]. destruct (dec_ok den) as [D1 D2]; [lia|].
  destruct (dec_ok i) as [I1 I2]; [lia|].
  assert (K : coef (dec (Z.abs c) ++ (if (den =? 1)%Z then [] else "/"%char :: dec den)) (Z.abs c) den).
  { destruct (Z.eqb_spec den 1) as [->|].
    - rewrite app_nil_r. pose proof (co_int _ C1) as K. rewrite C2 in K. exact K.
    - pose proof (co_frac _ _ C1 D1) as K. rewrite C2, D2 in K. apply K. lia. }
  exists (if (c <? 0)%Z then -1 else 1)%Z, (Z.abs c). split; [|split].
  - destruct (c <? 0)%Z; [apply (si_minus [] 1)|apply (si_plus [] 1)]; constructor.
  - destruct (Z.ltb_spec c 0); lia.
  - rewrite app_assoc. destruct (Z.eqb_spec i 0) as [->|].
    + rewrite app_nil_r. constructor. exact K.
    + apply (bo_star false var _ _ _ [] [] (var ++ "^"%char :: dec i) i K); try constructor.
      pose proof (po_caret var [] [] (dec i)) as P. rewrite I2 in P. apply P; try constructor; try apply I1; unfold long_max in I; lia.
Qed.

Lemma print_terms_ok var den p : name var -> (0 < den)%Z -> forall i, (0 <= i)%Z ->
  (i + Z.of_nat (length p) <= long_max)%Z -> last p 1%Z <> 0%Z ->
  (p = [] \/ exists ts, sum false var (print_terms var den i p) ts /\
    forall y, terms_val y ts = y ^ Z.to_nat i * (zeval p y / IZR den)) /\
  starts_with_sign (print_terms var den i p).
Proof.
  intros N D. assert (Dn : IZR den <> 0) by (apply not_0_IZR; lia).
  induction p as [|c p IH]; intros i I L La; [split; [left; reflexivity|exact Logic.I]|].
  cbn [length] in L. rewrite Nat2Z.inj_succ in L.
  assert (La' : last p 1%Z <> 0%Z) by (destruct p; [discriminate|exact La]).
  destruct (IH (i + 1)%Z ltac:(lia) ltac:(lia) La') as [R St]. cbn [print_terms].
  assert (Pw : forall y, y ^ Z.to_nat (i + 1) = y * y ^ Z.to_nat i).
  { intros y. replace (Z.to_nat (i + 1)) with (S (Z.to_nat i)) by lia. reflexivity. }
  destruct (Z.eqb_spec c 0) as [->|C].
  - cbn [app]. split; [right|exact St]. destruct R as [->|(ts & F & V)]; [contradiction La; reflexivity|].
    exists ts. split; [exact F|]. intros y. rewrite V, Pw, zeval_cons. field. exact Dn.
  - destruct (print_body var den i c N D ltac:(lia) C) as (g & a & G & E & B). split.
    + right. rewrite <- app_assoc. destruct R as [->|(ts & F & V)].
      * exists [((g * a)%Z, den, i)]. split.
        { cbn [print_terms]. apply (su_one false var _ g _ a den i []); auto. constructor. }
        intros y. unfold terms_val, term_val. cbn [fold_right]. rewrite E, zeval_cons, zeval_nil. field. exact Dn.
      * exists (((g * a)%Z, den, i) :: ts). split.
        { apply (su_more false var _ g _ a den i [] _ ts); auto. constructor. }
        intros y. change (terms_val y (((g * a)%Z, den, i) :: ts)) with (term_val y ((g * a)%Z, den, i) + terms_val y ts).
        rewrite V, Pw, zeval_cons, E. unfold term_val. field. exact Dn.
    + destruct (c <? 0)%Z; [right|left]; reflexivity.
Qed.

Lemma digits_no_blank ds : digits ds -> ~ In cblank ds.
Proof.
  intros [_ F] I. rewrite Forall_forall in F. discriminate (F _ I).
Qed.

Theorem print_elem_ok : print_ok print_elem.
Proof.
  intros var e N [D L _] B. unfold print_elem. destruct (e_num e) as [|c p] eqn:En.
  - exists [((1 * 0)%Z, 1%Z, 0%Z)]. repeat split.
    + apply fo_sum. apply (su_one false var [] 1 ["0"%char] 0 1 0 []); try constructor.
      apply (co_int ["0"%char]). split; [discriminate|repeat constructor].
    + intros y. unfold ev. rewrite En. cbn. unfold zeval. cbn. field. apply not_0_IZR. lia.
    + intros _ [J|[]]. discriminate J.
  - assert (B2 : (0 + Z.of_nat (length (c :: p)) <= long_max)%Z) by lia.
    destruct (print_terms_ok var (e_den e) (c :: p) N D 0 ltac:(lia) B2) as [[|(ts & F & V)] _];
      [intros K; apply L; destruct (c :: p) eqn:Q; [discriminate|]; exact K|discriminate|].
    exists ts. split; [apply fo_sum; exact F|]. split.
    + intros y. rewrite V. unfold ev. rewrite En. cbn [Z.to_nat pow]. ring.
    + intros I. unfold is_integer, is_rational in I. rewrite En in I. destruct p; [|discriminate I].
      cbn [print_terms]. rewrite app_nil_r. destruct (c =? 0)%Z; [intros []|].
      apply andb_prop in I. destruct I as [_ I]. rewrite I. cbn [Z.eqb app]. rewrite !app_nil_r.
      rewrite in_app_iff. intros [J|J].
      * destruct (c <? 0)%Z; destruct J as [J|[]]; discriminate J.
      * revert J. apply digits_no_blank, dec_ok. lia.
Qed.

Lemma to_string_parts : forall pr var e alg d arb, d && arb = false -> to_string pr var e alg d arb =
  match (if alg then [pr_alg pr var e] else []) ++ (if d then [pr_d pr] else []) ++ (if arb then [pr_arb pr] else []) with
  | [s] => s
  | [s; t] => "("%char :: s ++ cblank :: "~"%char :: cblank :: t ++ [")"%char]
  | _ => ["("%char; ")"%char]
  end.
Proof.
  intros pr var e [] [] [] H; try discriminate H; unfold to_string, get_str, tilde; cbn [andb orb negb app]; rewrite ?app_nil_r; try reflexivity;
    rewrite <- !app_assoc; reflexivity.
Qed.
