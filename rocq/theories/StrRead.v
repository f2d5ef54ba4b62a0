(** Reading from arbitrary streams. *)
Require Import Reals Lra Lia List ZArith Bool Ascii String.
From Verif Require Import PolyR RootModel ExtraModel ArbModel ElemModel ElemSpec ElemProofs NfArith NfArithProofs
  ElemRefute StrModel StrSpec StrProofs StrMore StrRefute.
Import ListNotations.
Open Scope R_scope.

Lemma ends_visible_tl a s : s <> [] -> ends_visible (a :: s) -> ends_visible s.
Proof. intros _ H u c E. apply (H (a :: u) c). rewrite E. reflexivity. Qed.

Lemma skip_space_visible s : ends_visible s -> s <> [] -> exists c s', skip_space s = c :: s' /\ isspaceb c = false /\ ends_visible s' /\
  (List.length s' < List.length s)%nat /\ (forall d, In d (c :: s') -> In d s).
Proof.
  induction s as [|a s IH]; intros H N; [contradiction N; reflexivity|]. cbn [skip_space]. destruct (isspaceb a) eqn:A.
  - destruct s as [|b s].
    + exfalso. specialize (H [] a eq_refl). congruence.
    + destruct (IH (ends_visible_tl a (b :: s) ltac:(discriminate) H) ltac:(discriminate)) as (c & s' & E & C & V & L & I).
      exists c, s'. repeat split; try assumption; [cbn in *; lia|]. intros d D. right. apply I, D.
  - exists a, s. repeat split; try assumption; try (cbn; lia); [|auto]. destruct s; [intros u c E; destruct u; discriminate|].
    apply (ends_visible_tl a); [discriminate|exact H].
Qed.

Lemma read_paren_answers : forall fuel s, (List.length s < fuel)%nat -> ends_visible s ->
  exists r, read_paren fuel s = Val r /\ (forall u v, r = Some (u, v) -> (exists v', v = ")"%char :: v') /\ forall c, In c u -> In c s).
Proof.
  induction fuel as [|f IH]; intros s L V; [lia|]. cbn [read_paren]. destruct s as [|a s].
  { exists None. split; [reflexivity|]. discriminate. }
  destruct (Ascii.eqb_spec a ")") as [->|Na].
  { eexists. split; [reflexivity|]. intros u v E. injection E as <- <-. split; [eexists; reflexivity|]. intros c []. }
  destruct (skip_space_visible (a :: s) V ltac:(discriminate)) as (c & s' & E & C & V' & L' & I). rewrite E.
  destruct (IH s' ltac:(cbn in *; lia) V') as (r & -> & R). cbn [bind]. destruct r as [[u v]|].
  - eexists. split; [reflexivity|]. intros u0 v0 E0. injection E0 as <- <-. destruct (R u v eq_refl) as [R1 R2].
    split; [exact R1|]. intros d [<-|D]; apply I; [left; reflexivity|right; apply R2, D].
  - eexists. split; [reflexivity|]. discriminate.
Qed.

(** No closing parenthesis: nothing is read. *)
Lemma read_paren_open : forall fuel s, (List.length s < fuel)%nat -> ends_visible s -> ~ In ")"%char s -> read_paren fuel s = Val None.
Proof.
  induction fuel as [|f IH]; intros s L V N; [lia|]. cbn [read_paren]. destruct s as [|a s]; [reflexivity|].
  destruct (Ascii.eqb_spec a ")") as [->|Na]; [exfalso; apply N; left; reflexivity|].
  destruct (skip_space_visible (a :: s) V ltac:(discriminate)) as (c & s' & E & C & V' & L' & I). rewrite E.
  rewrite (IH s' ltac:(cbn in *; lia) V'); [reflexivity|]. intros J. apply N, I. right. exact J.
Qed.

Lemma cut_tilde_in s c : In c (cut_tilde s) -> In c s.
Proof.
  induction s as [|a s IH]; [intros []|]. cbn [cut_tilde]. destruct (_ || _); [intros []|]. intros [<-|H]; [left; reflexivity|right; auto].
Qed.
Lemma tame_sub s t : tame t -> (forall c, In c s -> In c t) -> tame s.
Proof. unfold tame. rewrite !Forall_forall. auto. Qed.

Lemma of_string_answers zd n var s : (forall q, answers (zd q)) -> tame var -> tame s -> exists r, of_string zd n var s = Val r.
Proof.
  intros A Tv Ts. unfold of_string. destruct (set_str_answers zd var (cut_tilde s) A Tv) as [[p|] E].
  - apply (tame_sub _ s Ts). intros c. apply cut_tilde_in.
  - rewrite E. eexists. reflexivity.
  - rewrite E. eexists. reflexivity.
Qed.

Lemma read_word_in s : forall c, In c (fst (read_word s)) -> In c s.
Proof.
  induction s as [|a s IH]; intros c; cbn [read_word]; [intros []|]. destruct (isspaceb a); [intros []|].
  destruct (read_word s) as [u st] eqn:E. cbn [fst] in *. intros [<-|H]; [left; reflexivity|right; apply IH, H].
Qed.

Theorem read_answers zd n var failed st : (forall q, answers (zd q)) -> tame var -> tame (st_rest st) -> ends_visible (st_rest st) ->
  exists r, read_any zd n var failed st = Val r.
Proof.
  intros A Tv Ts V. unfold read_any. destruct (failed && negb (st_eof st)).
  { destruct (of_string_answers zd n var [] A Tv ltac:(constructor)) as [[e|] ->]; eexists; reflexivity. }
  unfold read_elem. destruct (st_eof st); [eexists; reflexivity|]. destruct (st_rest st) as [|c r] eqn:Er.
  { destruct (of_string_answers zd n var [] A Tv ltac:(constructor)) as [[e|] ->]; eexists; reflexivity. }
  destruct (Ascii.eqb c "(").
  - assert (V' : ends_visible r) by (destruct r; [intros [|] ? E; discriminate|apply (ends_visible_tl c); [discriminate|exact V]]).
    destruct (read_paren_answers (S (List.length r)) r ltac:(lia) V') as ([[u v]|] & -> & R); [|eexists; reflexivity]. cbn [bind].
    destruct (of_string_answers zd n var u A Tv) as [[e|] ->]; try (eexists; reflexivity).
    apply (tame_sub u (c :: r) Ts). intros d D. right. apply (proj2 (R u v eq_refl)), D.
  - pose proof (read_word_in (c :: r)) as I. destruct (read_word (c :: r)) as [u st']. cbn [fst] in I.
    destruct (of_string_answers zd n var u A Tv (tame_sub u _ Ts I)) as [[e|] ->]; eexists; reflexivity.
Qed.

Theorem read_open zd n var r : ends_visible r -> ~ In ")"%char r ->
  read_elem zd n var {| st_rest := "("%char :: r; st_eof := false |} = Val None.
Proof.
  intros V N. unfold read_elem. cbn [st_eof st_rest]. cbn [Ascii.eqb Bool.eqb].
  rewrite (read_paren_open (S (List.length r)) r ltac:(lia) V N). reflexivity.
Qed.

(** The text between parentheses is read without its white space. *)
Theorem read_closed zd n var t r : ends_visible t -> ~ In ")"%char t ->
  read_elem zd n var {| st_rest := "("%char :: t ++ ")"%char :: r; st_eof := false |} =
    bind (of_string zd n var (strip t)) (fun e => Val (option_map (fun e => (e, {| st_rest := r; st_eof := false |})) e)).
Proof.
  intros V N. unfold read_elem. cbn [st_eof st_rest]. cbn [Ascii.eqb Bool.eqb].
  assert (E : read_paren (S (List.length (t ++ ")"%char :: r))) (t ++ ")"%char :: r) = Val (Some (strip t, ")"%char :: r))).
  { destruct t as [|a t] using rev_ind; [reflexivity|]. clear IHt. pose proof (V t a eq_refl) as Va.
    rewrite <- app_assoc. cbn [app]. rewrite strip_app. change (strip [a]) with (if negb (isspaceb a) then [a] else []). rewrite Va. cbn [negb].
    apply (read_paren_strip r (S (List.length t))); try lia; try exact Va.
    - intros ->. apply N, in_or_app. right. left. reflexivity.
    - intros J. apply N, in_or_app. left. exact J.
    - rewrite app_length. cbn. lia. }
  rewrite E. cbn [bind tl]. destruct (of_string zd n var (strip t)) as [[e|]| | |]; reflexivity.
Qed.

Lemma strip_same t : Forall (fun c => isspaceb c = false) t -> ends_visible t /\ strip t = t.
Proof.
  intros F. split; [|apply strip_id, F]. intros u c ->. apply Forall_app in F. destruct F as [_ F]. inversion F; assumption.
Qed.

Theorem read_visible zd n var t r : Forall (fun c => isspaceb c = false) t -> ~ In ")"%char t ->
  read_elem zd n var {| st_rest := "("%char :: t ++ ")"%char :: r; st_eof := false |} =
    bind (of_string zd n var t) (fun e => Val (option_map (fun e => (e, {| st_rest := r; st_eof := false |})) e)).
Proof. intros F N. destruct (strip_same t F) as [V E]. rewrite (read_closed zd n var t r V N), E. reflexivity. Qed.

(** A text of the documented form has the same value with and without its blanks. *)
Theorem read_form pol x n zd var t ts r : minimal pol x -> nf_ok pol x n -> name var -> form false var t ts -> ends_visible t ->
  exists e, of_string zd n var t = Val (Some e) /\ ev x e = terms_val x ts /\
    read_elem zd n var {| st_rest := "("%char :: t ++ ")"%char :: r; st_eof := false |} =
      Val (Some (e, {| st_rest := r; st_eof := false |})).
Proof.
  intros Hm Hn N F V. pose proof (form_chars false var t ts N F) as Ch.
  destruct (set_str_value zd false var t ts N F) as (p & Ep & [Lp Vp]).
  set (e := n_set_poly n (e_num p) (e_den p)).
  destruct (nk_set_poly _ _ _ Hn (e_num p) (e_den p)) as [C E]; [pose proof (lt_den p Lp); lia|].
  assert (Ee : ev x e = terms_val x ts) by (unfold e; rewrite E, <- Vp; reflexivity).
  exists e. split; [|split; [exact Ee|]].
  - apply (of_string_back pol x n Hm Hn zd var N false t ts e F C). symmetry. exact Ee.
  - rewrite (read_closed zd n var t r V).
    + rewrite (of_string_back pol x n Hm Hn zd var N false (strip t) ts e (strip_form _ _ _ _ N F) C); [reflexivity|]. symmetry. exact Ee.
    + intros J. rewrite Forall_forall in Ch. destruct (formb_no _ (Ch _ J)) as (_ & G & _). discriminate G.
Qed.

(** * Where it goes wrong *)
Lemma blanks_joined : forall zd n, let var := lit "x" in
  of_string zd n var (lit "1 2") = Val None /\
  read_elem zd n var {| st_rest := lit "(1 2)"; st_eof := false |} = Val (Some (n_set_poly n [12]%Z 1, {| st_rest := []; st_eof := false |})).
Proof. intros zd n. split; vm_compute; reflexivity. Qed.

Lemma blank_at_end : forall zd n, let var := lit "x" in
  of_string zd n var (lit "1 ") = Val (Some (n_set_poly n [1]%Z 1)) /\
  read_elem zd n var {| st_rest := lit "(1 )"; st_eof := false |} = Val None.
Proof. intros zd n. split; vm_compute; reflexivity. Qed.

Lemma blank_unclosed : forall zd n, read_elem zd n (lit "x") {| st_rest := lit "(1 "; st_eof := false |} = Undef.
Proof. intros zd n. vm_compute. reflexivity. Qed.

Lemma failed_zero : forall zd n r, read_any zd n (lit "x") true {| st_rest := r; st_eof := false |} =
  Val (Some (n_set_poly n [] 1, {| st_rest := r; st_eof := false |})).
Proof. intros zd n r. vm_compute. reflexivity. Qed.
