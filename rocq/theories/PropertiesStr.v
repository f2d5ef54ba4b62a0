(** Properties C32-C34: polynomials and elements as strings.  [form false] is the
    documented grammar, [form true] the one that is accepted; [zd] is what
    FLINT's fmpq_set_str does with a zero denominator. *)
Require Import Reals List ZArith Bool Ascii String Lia.
From Verif Require Import PolyR ArbModel ElemModel ElemSpec NfArith NfArithProofs ElemRefute
  StrModel StrSpec StrProofs StrMore StrRefute.
Import ListNotations.
Open Scope R_scope.

(** What the words digit, letter and value of the grammar mean, for which bytes
    the classification is undefined, and the largest exponent. *)
Theorem C32_characters : forall c,
  (digitb c = true <-> In c (lit "0123456789")) /\
  (alphab c = true <-> In c (lit "abcdefghijklmnopqrstuvwxyzABCDEFGHIJKLMNOPQRSTUVWXYZ")) /\
  (isdigit c = Undef <-> (128 <= Z.of_N (N_of_ascii c) <= 254)%Z) /\
  (forall ds i, nth_error (lit "0123456789") i = Some c -> numval (ds ++ [c]) = (10 * numval ds + Z.of_nat i)%Z) /\
  long_max = 9223372036854775807%Z /\
  (isspaceb c = true <-> In (N_of_ascii c) [9; 10; 11; 12; 13; 32]%N).
Proof. exact characters. Qed.
Print Assumptions C32_characters.

(** C32.  Strings of the documented form are read, with blanks between the parts. *)
Theorem C32_parse : forall zd var s ts, name var -> form false var s ts ->
  exists p, set_str zd var s = Val (Some p) /\ is_poly p (fun y => terms_val y ts).
Proof. exact (fun zd => set_str_value zd false). Qed.
Print Assumptions C32_parse.

Theorem C32_parse_integer_partial : forall zd var s ts, name var -> form false var s ts ->
  Forall (fun t => snd (fst t) = 1%Z) ts ->
  exists p, set_str_z zd [] var s = Val (Some p) /\ last p 1%Z <> 0%Z /\ forall y, zeval p y = terms_val y ts.
Proof. exact (fun zd => set_str_z_value zd false). Qed.
Print Assumptions C32_parse_integer_partial.

Example C32_case : name (lit "x") /\
  form false (lit "x") (lit "-3/2 * x ^ 2 +x") [(-3, 2, 2); (1, 1, 1)]%Z.
Proof.
  split; [exact name_x|]. apply fo_sum.
  assert (D : forall c, digitb c = true -> digits [c]) by (intros c H; split; [discriminate|repeat constructor; exact H]).
  apply (su_more false (lit "x") (lit "-") (-1) (lit "3/2 * x ^ 2") 3 2 2 (lit " ") (lit "+x") [(1, 1, 1)]%Z).
  - apply (si_minus [] 1). constructor.
  - apply (bo_star false (lit "x") (lit "3/2") 3 2 (lit " ") (lit " ") (lit "x ^ 2") 2); try (repeat constructor).
    + apply (co_frac (lit "3") (lit "2")); [apply D; reflexivity|apply D; reflexivity|discriminate].
    + apply (po_caret (lit "x") (lit " ") (lit " ") (lit "2")); try (repeat constructor); [discriminate|]. vm_compute. discriminate.
  - repeat constructor.
  - left. reflexivity.
  - apply (su_one false (lit "x") (lit "+") 1 (lit "x") 1 1 1 []); [apply (si_plus [] 1); constructor| |constructor].
    apply bo_power, po_one.
Qed.

(** Exactly the loose form is accepted, and rejection is the only other answer
    for strings of ASCII characters. *)
Theorem C32_accepted_partial : forall zd var s p, zero_den_ok zd -> set_str zd var s = Val (Some p) ->
  name var /\ exists ts, form true var s ts /\ is_poly p (fun y => terms_val y ts).
Proof. exact set_str_accepts. Qed.
Print Assumptions C32_accepted_partial.

Theorem C32_rejected_partial : forall zd var s, zero_den_ok zd -> (forall n, answers (zd n)) -> tame var -> tame s ->
  (forall ts, ~ (name var /\ form true var s ts)) -> set_str zd var s = Val None.
Proof. exact set_str_rejects. Qed.
Print Assumptions C32_rejected_partial.

Example C32_rejected_case : let zd := fun _ => Val None in zero_den_ok zd /\ (forall n, answers (zd n)) /\
  tame (lit "x") /\ tame (lit "2**x") /\ set_str zd (lit "x") (lit "2**x") = Val None.
Proof.
  split; [intros n q H; discriminate H|]. split; [intros n; eexists; reflexivity|].
  repeat split; repeat constructor.
Qed.

(** False parts: the integer version keeps coefficients of its target, strings
    not of the documented form are accepted, white space other than blanks and
    blanks inside fractions are rejected, other characters are undefined
    behaviour. *)
Theorem C32_previous_refuted : forall zd, exists old p, set_str_z zd old (lit "x") (lit "x") = Val (Some p) /\
  set_str_z zd [] (lit "x") (lit "x") = Val (Some [0; 1]%Z) /\ p <> [0; 1]%Z.
Proof. exact leftovers. Qed.
Print Assumptions C32_previous_refuted.

Theorem C32_malformed_refuted : forall zd,
  (forall ts, ~ form false (lit "x") (lit "*x") ts) /\ set_str zd (lit "x") (lit "*x") = Val (Some {| e_num := [0; 1]; e_den := 1 |}%Z) /\
  (forall ts, ~ form false (lit "x") [] ts) /\ set_str zd (lit "x") [] = Val (Some {| e_num := []; e_den := 1 |}%Z).
Proof. exact malformed. Qed.
Print Assumptions C32_malformed_refuted.

Theorem C32_white_space_refuted : forall zd, set_str zd (lit "x") (lit "x + 1/2") = Val (Some {| e_num := [1; 2]; e_den := 2 |}%Z) /\
  set_str zd (lit "x") (lit "x" ++ [tab] ++ lit "+ 1/2") = Val None /\
  set_str zd (lit "x") (lit "x + 1 / 2") = Val None.
Proof. exact white_space. Qed.
Print Assumptions C32_white_space_refuted.

Theorem C32_undefined_refuted : forall zd, set_str zd (lit "x") (lit "x" ++ ["194"; "178"]%char) = Undef.
Proof. exact not_ascii. Qed.
Print Assumptions C32_undefined_refuted.

(** C33: false for the default output, which is put in parentheses that the
    constructor does not accept, and for fields with an unusual generator name. *)
Theorem C33_parentheses_refuted : forall zd n pr var e, name var ->
  of_string zd n var (to_string pr var e true true false) = Val None.
Proof. exact paren_rejected. Qed.
Print Assumptions C33_parentheses_refuted.

Theorem C33_name_refuted : forall zd n var s, tame var -> ~ name var -> of_string zd n var s = Val None.
Proof. exact bad_name. Qed.
Print Assumptions C33_name_refuted.

Example C33_name_case : tame (lit "x'") /\ ~ name (lit "x'").
Proof.
  split; [repeat constructor|]. intros [_ F]. inversion F as [|? ? H _]; subst. destruct H as [H|[H|H]]; discriminate H.
Qed.

(** Right for the algebraic part alone, with or without the approximation after
    it, in the constructor, and for the default output read by operator>>. *)
Theorem C33_constructor_partial : forall pol x n zd pr var e, minimal pol x -> nf_ok pol x n -> name var -> print_ok (pr_alg pr) ->
  canon pol e -> (Z.of_nat (List.length pol) <= long_max)%Z ->
  of_string zd n var (to_string pr var e true false false) = Val (Some e) /\
  forall d arb, of_string zd n var (get_str pr var e true d arb) = Val (Some e).
Proof. exact alg_back. Qed.
Print Assumptions C33_constructor_partial.

Theorem C33_stream_partial : forall pol x n, minimal pol x -> nf_ok pol x n -> forall zd var, name var ->
  forall pr, print_ok (pr_alg pr) -> approx_ok (pr_d pr) ->
  forall e r, canon pol e -> (Z.of_nat (List.length pol) <= long_max)%Z -> separated e r ->
  read_elem zd n var {| st_rest := write pr var e ++ r; st_eof := false |} =
    Val (Some (e, {| st_rest := r; st_eof := is_integer e && match r with [] => true | _ => false end |})).
Proof. exact read_back. Qed.
Print Assumptions C33_stream_partial.

Example C33_case : exists z, minimal cube_pol z /\ nf_ok cube_pol z (nfc cube_pol) /\ print_ok (pr_alg pr0) /\ approx_ok (pr_d pr0) /\
  let e := {| e_num := [1; 0; -3]; e_den := 2 |}%Z in
  canon cube_pol e /\ to_string pr0 (lit "x") e true true false = lit "(+1/2-3/2*x^2 ~ 1.2599210)".
Proof.
  destruct cube_root as (z & _ & E). exists z. split; [apply cube_minimal, E|]. split; [apply nfc_ok, cube_minimal, E|].
  split; [apply pr0_ok|]. split; [apply pr0_ok|]. split; [apply canon_intro; cbn; try lia; reflexivity|]. vm_compute. reflexivity.
Qed.

(** C34: false, the blank between two elements is read as the element 0. *)
Theorem C34_sequence_refuted : forall zd,
  let e1 := {| e_num := [1]; e_den := 1 |}%Z in let e2 := {| e_num := [0; 1]; e_den := 1 |}%Z in
  canon cube_pol e1 /\ canon cube_pol e2 /\
  read_elems zd (nfc cube_pol) (lit "x") 2 {| st_rest := written pr0 (lit "x") [e1; e2]; st_eof := false |} =
    Val (Some [e1; {| e_num := []; e_den := 1 |}])%Z.
Proof. exact blank_refuted. Qed.
Print Assumptions C34_sequence_refuted.

Theorem C34_blank_refuted : forall zd n var c r, name var -> isspaceb c = true ->
  read_elem zd n var {| st_rest := c :: r; st_eof := false |} =
    Val (Some (n_set_poly n [] 1, {| st_rest := c :: r; st_eof := false |})).
Proof. exact blank_is_zero. Qed.
Print Assumptions C34_blank_refuted.

Theorem C34_empty_refuted : forall zd n var, name var ->
  read_elem zd n var {| st_rest := []; st_eof := false |} =
    Val (Some (n_set_poly n [] 1, {| st_rest := []; st_eof := true |})).
Proof. exact empty_is_zero. Qed.
Print Assumptions C34_empty_refuted.

(** Right when the caller skips white space before each element, or when no
    element is an integer and nothing is between them. *)
Theorem C34_skipping_partial : forall pol x n, minimal pol x -> nf_ok pol x n -> forall zd var, name var ->
  forall pr, print_ok (pr_alg pr) -> approx_ok (pr_d pr) -> (Z.of_nat (List.length pol) <= long_max)%Z ->
  forall l, Forall (canon pol) l -> forall b, blanks b ->
  read_skipping zd n var (List.length l) {| st_rest := b ++ written pr var l; st_eof := false |} = Val (Some l).
Proof. exact skipping. Qed.
Print Assumptions C34_skipping_partial.

Theorem C34_adjacent_partial : forall pol x n, minimal pol x -> nf_ok pol x n -> forall zd var, name var ->
  forall pr, print_ok (pr_alg pr) -> approx_ok (pr_d pr) -> (Z.of_nat (List.length pol) <= long_max)%Z ->
  forall l, Forall (canon pol) l -> Forall (fun e => is_integer e = false) l ->
  read_elems zd n var (List.length l) {| st_rest := List.concat (map (write pr var) l); st_eof := false |} = Val (Some l).
Proof. exact adjacent. Qed.
Print Assumptions C34_adjacent_partial.

Example C34_case : let e1 := {| e_num := [1]; e_den := 1 |}%Z in let e2 := {| e_num := [0; 1]; e_den := 1 |}%Z in
  written pr0 (lit "x") [e1; e2] = lit "+1 (+1*x^1 ~ 1.2599210)" /\
  read_skipping (fun _ => Val None) (nfc cube_pol) (lit "x") 2 {| st_rest := written pr0 (lit "x") [e1; e2]; st_eof := false |} = Val (Some [e1; e2]).
Proof. split; vm_compute; reflexivity. Qed.

(** C53.  to_string joins what is asked for and puts it in parentheses unless it is one
    of the three.  (Both approximations: an assertion fails.) *)
Theorem C53_string : forall pr var e alg d arb, d && arb = false -> to_string pr var e alg d arb =
  match (if alg then [pr_alg pr var e] else []) ++ (if d then [pr_d pr] else []) ++ (if arb then [pr_arb pr] else []) with
  | [s] => s
  | [s; t] => lit "(" ++ s ++ lit " ~ " ++ t ++ lit ")"
  | _ => lit "()"
  end.
Proof. exact to_string_parts. Qed.
Print Assumptions C53_string.
Example C53_string_case : to_string {| pr_alg := fun v _ => v; pr_d := lit "1.41"; pr_arb := lit "[1 +/- 1]" |} (lit "x") {| e_num := [0; 1]; e_den := 1 |}%Z true true false =
  lit "(x ~ 1.41)".
Proof. reflexivity. Qed.
