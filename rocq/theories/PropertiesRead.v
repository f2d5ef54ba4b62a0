(** Property C79: reading an element in parentheses from a stream. *)
Require Import Reals List ZArith Bool Ascii String.
From Verif Require Import PolyR RootModel ArbModel ElemModel ElemSpec NfArith NfArithProofs ElemRefute StrModel StrSpec StrProofs StrRefute StrRead.
Import ListNotations.
Open Scope R_scope.

(** A text of the documented form between parentheses gives the element of the string
    constructor, the characters after the parenthesis are left.  Missing: a blank
    before the closing parenthesis. *)
Theorem C79_form_partial : forall pol x n zd var t ts r, minimal pol x -> nf_ok pol x n -> name var -> form false var t ts -> ends_visible t ->
  exists e, of_string zd n var t = Val (Some e) /\ ev x e = terms_val x ts /\
    read_elem zd n var {| st_rest := "("%char :: t ++ ")"%char :: r; st_eof := false |} =
      Val (Some (e, {| st_rest := r; st_eof := false |})).
Proof. exact read_form. Qed.
Print Assumptions C79_form_partial.

(** Any other text: the same result as the constructor, also when it throws.  Missing:
    texts with white space. *)
Theorem C79_text_partial : forall zd n var t r, Forall (fun c => isspaceb c = false) t -> ~ In ")"%char t ->
  read_elem zd n var {| st_rest := "("%char :: t ++ ")"%char :: r; st_eof := false |} =
    bind (of_string zd n var t) (fun e => Val (option_map (fun e => (e, {| st_rest := r; st_eof := false |})) e)).
Proof. exact read_visible. Qed.
Print Assumptions C79_text_partial.

(** A parenthesis that is not closed throws, and whatever the stream holds there is an
    answer.  Missing: streams that end with white space. *)
Theorem C79_open_partial : forall zd n var r, ends_visible r -> ~ In ")"%char r ->
  read_elem zd n var {| st_rest := "("%char :: r; st_eof := false |} = Val None.
Proof. exact read_open. Qed.
Print Assumptions C79_open_partial.

Theorem C79_answers_partial : forall zd n var failed st, (forall q, answers (zd q)) -> tame var -> tame (st_rest st) -> ends_visible (st_rest st) ->
  exists r, read_any zd n var failed st = Val r.
Proof. exact read_answers. Qed.
Print Assumptions C79_answers_partial.

Example C79_case : let t := lit "1 + 2 * x" in
  form false (lit "x") t [(1, 1, 0); (2, 1, 1)]%Z /\ ends_visible t /\
  read_elem (fun _ => Val None) (nfc cube_pol) (lit "x") {| st_rest := lit "(1 + 2 * x) y"; st_eof := false |} =
    Val (Some ({| e_num := [1; 2]; e_den := 1 |}%Z, {| st_rest := lit " y"; st_eof := false |})) /\
  read_elem (fun _ => Val None) (nfc cube_pol) (lit "x") {| st_rest := lit "(1"; st_eof := false |} = Val None.
Proof.
  assert (D : forall c, digitb c = true -> digits [c]) by (intros c H; split; [discriminate|repeat constructor; exact H]).
  split; [|split; [|split; vm_compute; reflexivity]].
  - apply fo_sum. apply (su_more false (lit "x") [] 1 (lit "1") 1 1 0 (lit " ") (lit "+ 2 * x") [(2, 1, 1)]%Z).
    + constructor.
    + apply bo_const, (co_int (lit "1")), D. reflexivity.
    + repeat constructor.
    + left. reflexivity.
    + apply (su_one false (lit "x") (lit "+ ") 1 (lit "2 * x") 2 1 1 []); [repeat constructor| |constructor].
      apply (bo_star false (lit "x") (lit "2") 2 1 (lit " ") (lit " ") (lit "x") 1).
      * apply (co_int (lit "2")), D. reflexivity.
      * repeat constructor.
      * repeat constructor.
      * apply po_one.
  - intros u c E. change (lit "1 + 2 * x") with (lit "1 + 2 * " ++ ["x"%char]) in E. apply app_inj_tail in E. destruct E as [_ <-]. reflexivity.
Qed.

(** C79: false as stated.  Blanks are dropped, also between digits. *)
Theorem C79_blanks_refuted : forall zd n, let var := lit "x" in
  of_string zd n var (lit "1 2") = Val None /\
  read_elem zd n var {| st_rest := lit "(1 2)"; st_eof := false |} = Val (Some (n_set_poly n [12]%Z 1, {| st_rest := []; st_eof := false |})).
Proof. exact blanks_joined. Qed.
Print Assumptions C79_blanks_refuted.

(** A parenthesis after a blank does not close. *)
Theorem C79_last_blank_refuted : forall zd n, let var := lit "x" in
  of_string zd n var (lit "1 ") = Val (Some (n_set_poly n [1]%Z 1)) /\
  read_elem zd n var {| st_rest := lit "(1 )"; st_eof := false |} = Val None.
Proof. exact blank_at_end. Qed.
Print Assumptions C79_last_blank_refuted.

(** When the stream ends with a blank, a character that was never set is used. *)
Theorem C79_end_refuted : forall zd n, read_elem zd n (lit "x") {| st_rest := lit "(1 "; st_eof := false |} = Undef.
Proof. exact blank_unclosed. Qed.
Print Assumptions C79_end_refuted.

(** A stream that has failed gives 0, again and again. *)
Theorem C79_failed_refuted : forall zd n r, read_any zd n (lit "x") true {| st_rest := r; st_eof := false |} =
  Val (Some (n_set_poly n [] 1, {| st_rest := r; st_eof := false |})).
Proof. exact failed_zero. Qed.
Print Assumptions C79_failed_refuted.
