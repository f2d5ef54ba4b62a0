(** Strings that are not read as documented; sequences of elements. *)
Require Import Reals Lra Lia List ZArith Bool Ascii String.
From Verif Require Import PolyR RootModel ExtraModel ArbModel ElemModel ElemSpec ElemProofs NfArith NfArithProofs
  ElemRefute StrModel StrSpec StrProofs StrMore.
Import ListNotations.
Open Scope R_scope.

(** Character lists from literals. *)
Definition lit (s : string) : str := list_ascii_of_string s.

Lemma name_x : name (lit "x"). Proof. split; [left; reflexivity|constructor]. Qed.

(** The first character after signs and blanks starts a coefficient or the variable. *)
Lemma form_start var s ts : name var -> form false var s ts ->
  exists sg g c t, s = sg ++ c :: t /\ sign_run sg g /\ wordb c = true.
Proof.
  intros N F. inversion F as [s0 ts0 H|L]; subst; [|discriminate].
  assert (B : forall s a b k, body false var s a b k -> exists c t, s = c :: t /\ wordb c = true).
  { intros s1 a b k [c a0 b0 C|s0 k0 P|c a0 b0 bl s0 k0 C B P|c a0 b0 b1 b2 s0 k0 C B1 B2 P|b2 s0 k0 L B2 P]; [| | | |discriminate].
    2:{ destruct (power_head var s0 k0 N P) as (c & t & E & W & _). eauto. }
    all: destruct (coef_chars _ _ _ C) as (_ & d & t & -> & D); exists d; eexists; split; [reflexivity|apply digit_word, D]. }
  destruct H as [sg g s a b k bl G Bd _|sg g s a b k bl r ts G Bd _ _ _]; destruct (B _ _ _ _ Bd) as (c & t & -> & W);
    exists sg, g, c; eexists; (split; [reflexivity|split; assumption]).
Qed.

Lemma not_form c s var ts : name var -> signb c = false -> Ascii.eqb c cblank = false -> wordb c = false -> ~ form false var (c :: s) ts.
Proof.
  intros N S B W F. destruct (form_start var _ ts N F) as (sg & g & d & t & E & G & Wd).
  destruct G as [|sg g _|sg g _|sg g _]; cbn in E; injection E as -> _; try congruence; discriminate.
Qed.

Lemma leftovers : forall zd, exists old p, set_str_z zd old (lit "x") (lit "x") = Val (Some p) /\
  set_str_z zd [] (lit "x") (lit "x") = Val (Some [0; 1]%Z) /\ p <> [0; 1]%Z.
Proof. intros zd. exists [0; 0; 0; 5]%Z, [0; 1; 0; 5]%Z. repeat split; [vm_compute; reflexivity ..|discriminate]. Qed.

Lemma malformed : forall zd, (forall ts, ~ form false (lit "x") (lit "*x") ts) /\ set_str zd (lit "x") (lit "*x") = Val (Some {| e_num := [0; 1]; e_den := 1 |}%Z) /\
  (forall ts, ~ form false (lit "x") [] ts) /\ set_str zd (lit "x") [] = Val (Some {| e_num := []; e_den := 1 |}%Z).
Proof.
  intros zd. split; [|split; [vm_compute; reflexivity|split; [|vm_compute; reflexivity]]].
  - intros ts. apply not_form; [exact name_x|reflexivity ..].
  - intros ts F. apply (form_false_nonempty (lit "x") name_x [] ts F). reflexivity.
Qed.

(** Replacing one white space character by another. *)
Definition tab : ascii := "009".
Lemma white_space : forall zd, set_str zd (lit "x") (lit "x + 1/2") = Val (Some {| e_num := [1; 2]; e_den := 2 |}%Z) /\
  set_str zd (lit "x") (lit "x" ++ [tab] ++ lit "+ 1/2") = Val None /\
  set_str zd (lit "x") (lit "x + 1 / 2") = Val None.
Proof. intros zd. vm_compute. auto. Qed.

(** U+00B2, superscript two, in UTF-8. *)
Lemma not_ascii : forall zd, set_str zd (lit "x") (lit "x" ++ ["194"; "178"]%char) = Undef.
Proof. intros zd. vm_compute. reflexivity. Qed.

(** ** Elements *)
Lemma paren_rejected : forall zd n pr var e, name var ->
  of_string zd n var (to_string pr var e true true false) = Val None.
Proof. intros zd n pr var e N. unfold to_string. cbn [andb orb negb]. apply of_string_paren. exact N. Qed.

Lemma bad_name : forall zd n var s, tame var -> ~ name var -> of_string zd n var s = Val None.
Proof.
  intros zd n var s T N. unfold of_string, set_str.
  destruct (varname_answers var T) as [[] E]; rewrite E; cbn [bind]; [|reflexivity].
  exfalso. apply N, varname_name, E.
Qed.

Lemma alg_back : forall pol x n zd pr var e, minimal pol x -> nf_ok pol x n -> name var -> print_ok (pr_alg pr) ->
  canon pol e -> (Z.of_nat (List.length pol) <= long_max)%Z ->
  of_string zd n var (to_string pr var e true false false) = Val (Some e) /\
  forall d arb, of_string zd n var (get_str pr var e true d arb) = Val (Some e).
Proof.
  intros pol x n zd pr var e M N V P C L.
  destruct (P var e V (canon_lowest pol e C)) as (ts & F & E & _); [pose proof (can_len _ _ C); lia|].
  assert (A : of_string zd n var (pr_alg pr var e) = Val (Some e)).
  { apply (of_string_back pol x n M N zd var V false _ ts); auto. }
  split.
  - unfold to_string, get_str. cbn [andb orb negb]. rewrite !app_nil_r. exact A.
  - intros d arb. unfold get_str. destruct d; [|destruct arb]; cbn [orb].
    + rewrite <- app_assoc. eapply of_string_approx; eauto.
    + rewrite <- app_assoc. eapply of_string_approx; eauto.
    + rewrite !app_nil_r. exact A.
Qed.

(** ** Streams *)
(** A white space character is not skipped: the element becomes 0 and the
    position does not move. *)
Lemma blank_is_zero : forall zd n var c r, name var -> isspaceb c = true ->
  read_elem zd n var {| st_rest := c :: r; st_eof := false |} =
    Val (Some (n_set_poly n [] 1, {| st_rest := c :: r; st_eof := false |})).
Proof.
  intros zd n var c r N S. unfold read_elem. cbn [st_eof st_rest].
  destruct (Ascii.eqb_spec c "(") as [->|]; [discriminate S|]. cbn [read_word]. rewrite S.
  unfold of_string, set_str. cbn [cut_tilde]. rewrite (name_varname var N). reflexivity.
Qed.

Lemma empty_is_zero : forall zd n var, name var ->
  read_elem zd n var {| st_rest := []; st_eof := false |} =
    Val (Some (n_set_poly n [] 1, {| st_rest := []; st_eof := true |})).
Proof.
  intros zd n var N. unfold read_elem. cbn [st_eof st_rest]. unfold of_string, set_str. cbn [cut_tilde].
  rewrite (name_varname var N). reflexivity.
Qed.

(** Elements written one after another, with white space between them. *)
Fixpoint written (pr : printers) (var : str) (l : list elem) : str :=
  match l with
  | [] => []
  | [e] => write pr var e
  | e :: l' => write pr var e ++ cblank :: written pr var l'
  end.

(** A caller that skips white space before each element. *)
Fixpoint read_skipping (zd : Z -> out (option (Z * Z))) (n : nfops) (var : str) (k : nat) (st : stream) : out (option (list elem)) :=
  match k with
  | O => Val (Some [])
  | S k' =>
      bind (read_elem zd n var {| st_rest := skip_space (st_rest st); st_eof := st_eof st |}) (fun r =>
        match r with
        | None => Val None
        | Some (e, st') =>
            bind (read_skipping zd n var k' st') (fun r =>
              match r with None => Val None | Some l => Val (Some (e :: l)) end)
        end)
  end.

Section Sequences.
Variables (pol : list Z) (x : R) (n : nfops).
Hypothesis Hm : minimal pol x.
Hypothesis Hn : nf_ok pol x n.
Variable zd : Z -> out (option (Z * Z)).
Variable var : str.
Hypothesis Hv : name var.
Variable pr : printers.
Hypothesis Hp : print_ok (pr_alg pr).
Hypothesis Hd : approx_ok (pr_d pr).
Hypothesis Hl : (Z.of_nat (List.length pol) <= long_max)%Z.

(** Blanks in front of the first character are lost, none other. *)
Lemma skip_space_idem s : skip_space (skip_space s) = skip_space s.
Proof. induction s as [|c s IH]; [reflexivity|]. cbn. destruct (isspaceb c) eqn:E; [exact IH|]. cbn. rewrite E. reflexivity. Qed.

Lemma write_head e : canon pol e -> is_integer e = false \/ ~ In cblank (pr_alg pr var e) -> forall r,
  skip_space (write pr var e ++ r) = write pr var e ++ r.
Proof.
  intros C H r. unfold write. destruct (is_integer e) eqn:I.
  - destruct H as [H|H]; [discriminate|]. unfold to_string, get_str. cbn [andb orb negb]. rewrite !app_nil_r.
    destruct (Hp var e Hv (canon_lowest pol e C)) as (ts & F & _ & _); [pose proof (can_len _ _ C); lia|].
    pose proof (form_chars _ _ _ _ Hv F) as Ch. pose proof (form_false_nonempty var Hv _ _ F) as Ne.
    destruct (pr_alg pr var e) as [|c s]; [congruence|]. cbn [app skip_space].
    destruct (isspaceb c) eqn:S; [|reflexivity]. exfalso. apply H. left.
    inversion Ch; subst. destruct (formb_no c H2) as (_ & _ & _ & K). apply K, S.
  - reflexivity.
Qed.

Lemma write_solid e r : canon pol e -> skip_space (write pr var e ++ r) = write pr var e ++ r.
Proof.
  intros C. apply write_head; [exact C|]. destruct (is_integer e) eqn:I; [right|left; reflexivity].
  destruct (Hp var e Hv (canon_lowest pol e C)) as (ts & _ & _ & B); [pose proof (can_len _ _ C); lia|]. apply B, I.
Qed.

Lemma skipping l : Forall (canon pol) l -> forall b, blanks b ->
  read_skipping zd n var (List.length l) {| st_rest := b ++ written pr var l; st_eof := false |} = Val (Some l).
Proof.
  assert (Sk : forall b s, blanks b -> skip_space (b ++ s) = skip_space s).
  { intros b s B. induction B as [|c b <- _ IH]; [reflexivity|]. exact IH. }
  induction 1 as [|e l C Hc IH]; intros b B; [reflexivity|]. cbn [List.length read_skipping st_rest st_eof].
  rewrite (Sk b _ B). destruct l as [|e2 l].
  - cbn [written]. pose proof (write_solid e [] C) as W. rewrite app_nil_r in W. rewrite W.
    pose proof (read_back pol x n Hm Hn zd var Hv pr Hp Hd e [] C Hl) as R. rewrite app_nil_r in R.
    rewrite R by (intros _; exact I). cbn [bind List.length read_skipping]. reflexivity.
  - set (rest := written pr var (e2 :: l)) in *.
    change (written pr var (e :: e2 :: l)) with (write pr var e ++ cblank :: rest).
    rewrite (write_solid e _ C). rewrite (read_back pol x n Hm Hn zd var Hv pr Hp Hd e _ C Hl) by (intros _; reflexivity).
    cbn [bind]. rewrite andb_false_r. specialize (IH [cblank] ltac:(repeat constructor)).
    change ([cblank] ++ rest) with (cblank :: rest) in IH. rewrite IH. reflexivity.
Qed.

(** Elements that are not integers, written without anything between them. *)
Lemma adjacent l : Forall (canon pol) l -> Forall (fun e => is_integer e = false) l ->
  read_elems zd n var (List.length l) {| st_rest := List.concat (map (write pr var) l); st_eof := false |} = Val (Some l).
Proof.
  induction 1 as [|e l C Hc IH]; intros F; [reflexivity|]. inversion F; subst.
  cbn [List.length read_elems map List.concat].
  rewrite (read_back pol x n Hm Hn zd var Hv pr Hp Hd e _ C Hl) by (intros K; congruence).
  cbn [bind]. rewrite H1. cbn [andb]. rewrite (IH H2). reflexivity.
Qed.
End Sequences.

(** A concrete printer; the approximation is constant, as it is not read. *)
Definition pr0 : printers := {| pr_alg := print_elem; pr_d := lit "1.2599210"; pr_arb := lit "[1.26 +/- 0.01]" |}.
Lemma pr0_ok : print_ok (pr_alg pr0) /\ approx_ok (pr_d pr0).
Proof.
  split; [exact print_elem_ok|]. split; [discriminate|]. repeat constructor; discriminate.
Qed.

(** 1 and 2, and 1 and the generator. *)
Lemma blank_refuted : forall zd,
  let e1 := {| e_num := [1]; e_den := 1 |}%Z in let e2 := {| e_num := [0; 1]; e_den := 1 |}%Z in
  canon cube_pol e1 /\ canon cube_pol e2 /\
  read_elems zd (nfc cube_pol) (lit "x") 2 {| st_rest := written pr0 (lit "x") [e1; e2]; st_eof := false |} =
    Val (Some [e1; {| e_num := []; e_den := 1 |}])%Z.
Proof.
  intros zd e1 e2. split; [|split].
  - apply canon_intro; cbn; try lia; reflexivity.
  - apply canon_intro; cbn; try lia; reflexivity.
  - vm_compute. reflexivity.
Qed.
