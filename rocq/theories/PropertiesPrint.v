(** C74: the numbers printed for an element. *)
Require Import Reals List ZArith Bool Ascii String.
From Verif Require Import PolyR RootSpec Dyadic ArbModel ArbSpec ElemModel ElemSpec ElemProofs DyBall NfArith ElemRefute GetdModel GetdSpec StrModel StrMore BufModel BufSpec MakeSpec MakeText
  EndsSpec DefSpec PrintModel PrintSpec PrintProofs PrintTotal PrintRefute FlSpec FlProofs FlTiny PrintTiny.
Import ListNotations.
Open Scope R_scope.

(** False as stated: after a refinement that has left the root (C18) an element above
    0.3 is printed as a number below -0.3. *)
Theorem C74_print_refuted : exists pol a x l nf m nf' y' s t q, reached pol a x l nf m /\
  put dyops (nfc pol) true (print_elem [ "x"%char ]) dec_show8 dec_show 100 nf (m 0%nat) = Val (nf', y', s) /\
  s = list_ascii_of_string "(" ++ print_elem [ "x"%char ] (r_elem (m 0%nat)) ++ list_ascii_of_string " ~ " ++ t ++ list_ascii_of_string ")" /\
  signed10 t = Some q /\ dec10 q < -0.3 /\ 0.3 < ev x (r_elem (m 0%nat)).
Proof. exact print_refuted. Qed.
Print Assumptions C74_print_refuted.

(** Nor is a text always written: printing the generator 2^(-599/3) after an addition
    and a subtraction is undefined with every ball arithmetic that rounds like FLINT. *)
Theorem C74_undefined_flint_refuted : exists pol a x l, minimal pol x /\ inb x a /\ (forall z, inb z a -> zeval pol z = 0 -> z = x) /\
  forall o n, arb_ok o -> arb_fl o -> nf_ok pol x n -> forall debug fuel, exists nf m, came o n debug (S fuel) pol a l nf m /\
  forall pr show8 show, put o n debug pr show8 show (S fuel) nf (m 0%nat) = Undef /\
    forall alg, to_text o n debug pr show8 show (S fuel) nf (m 0%nat) alg true false = Undef.
Proof. exact tiny_print. Qed.
Print Assumptions C74_undefined_flint_refuted.

(** The approximation printed for the flag EANTIC_STR_D, alone or with others, when
    refinement stays at the root.  Printing does not change the element. *)
Theorem C74_double_partial : forall o n debug pol x N, setting o n pol x N ->
  forall pr show8 show, (forall e, cstr (pr e)) -> show8_ok show8 ->
  forall fuel nf y alg arb nf' y' s, field_ok pol x N nf -> elem_ok pol x y ->
  to_text o n debug pr show8 show fuel nf y alg true arb = Val (nf', y', s) ->
  field_ok pol x N nf' /\ elem_ok pol x y' /\ r_elem y' = r_elem y /\
  exists t, approximates (ev x (r_elem y)) t /\ string_form (pr (r_elem y)) t [] alg true arb s.
Proof. exact to_text_double. Qed.
Print Assumptions C74_double_partial.

(** operator<<: integers without, all others with an approximation. *)
Theorem C74_put_partial : forall o n debug pol x N, setting o n pol x N ->
  forall pr show8 show, (forall e, cstr (pr e)) -> show8_ok show8 -> (forall b k, cstr (show b k)) ->
  forall fuel nf y nf' y' s, field_ok pol x N nf -> elem_ok pol x y ->
  put o n debug pr show8 show fuel nf y = Val (nf', y', s) ->
  field_ok pol x N nf' /\ elem_ok pol x y' /\ r_elem y' = r_elem y /\
  ((exists z, ev x (r_elem y) = IZR z) /\ s = pr (r_elem y) \/
   ~ (exists z, ev x (r_elem y) = IZR z) /\ exists t, approximates (ev x (r_elem y)) t /\
     s = list_ascii_of_string "(" ++ pr (r_elem y) ++ list_ascii_of_string " ~ " ++ t ++ list_ascii_of_string ")").
Proof. exact put_text. Qed.
Print Assumptions C74_put_partial.

(** In a field whose enclosure is small, operator<< returns, or a word overflows
    (C56). *)
Theorem C74_total_partial : forall o n pol x, library o n pol x -> exists r0, 0 < r0 /\ forall debug nf, ready pol x r0 nf ->
  forall pr show8 show, (forall e, cstr (pr e)) -> show8_ok show8 -> (forall b k, cstr (show b k)) -> forall y, elem_ok pol x y ->
  answers (fun fuel => put o n debug pr show8 show fuel nf y)
    (fun '(nf', y', s) => elem_ok pol x y' /\ r_elem y' = r_elem y /\
      ((exists z, ev x (r_elem y) = IZR z) /\ s = pr (r_elem y) \/
       ~ (exists z, ev x (r_elem y) = IZR z) /\ exists t, approximates (ev x (r_elem y)) t /\
         s = list_ascii_of_string "(" ++ pr (r_elem y) ++ list_ascii_of_string " ~ " ++ t ++ list_ascii_of_string ")"))
    (word_overflow o pol (f_emb nf)).
Proof. exact put_answers. Qed.
Print Assumptions C74_total_partial.

(** The ball printed for the flag EANTIC_STR_ARB contains the element. *)
Theorem C74_ball : forall o n debug pol x pr show8 show, (forall e, cstr (pr e)) -> show_ok show -> (forall b k, cstr (show b k)) ->
  forall fuel nf y alg, elem_ok pol x y -> is_finite (r_emb y) = true ->
  exists t s, to_text o n debug pr show8 show fuel nf y alg false true = Val (nf, y, s) /\
    contains (ev x (r_elem y)) t /\ string_form (pr (r_elem y)) [] t alg false true s.
Proof. exact to_text_ball. Qed.
Print Assumptions C74_ball.
(** renf_elem_get_str_pretty prints at most as many digits of it as asked for. *)
Theorem C74_digits : forall o n debug pol x pr show8 show, (forall e, cstr (pr e)) -> show_ok show -> (forall b k, cstr (show b k)) ->
  forall fuel nf y k alg, elem_ok pol x y -> is_finite (r_emb y) = true -> (1 <= k)%Z ->
  exists t s, elem_text o n debug pr show8 show fuel nf y k alg false true = Val (nf, y, s) /\
    contains (ev x (r_elem y)) t /\ at_most k t /\ written (pr (r_elem y)) [] t alg false true s.
Proof. exact elem_text_digits. Qed.
Print Assumptions C74_digits.

(** The contracts can be met; the cube root of 2 and a third, printed in three ways. *)
Example C74_case : show8_ok dec_show8 /\ show_ok dec_show /\ (forall b k, cstr (dec_show b k)) /\ (forall e, cstr (print_elem [ "x"%char ] e)) /\
  match put dyops (nfc cube_pol) true (print_elem [ "x"%char ]) dec_show8 dec_show 100 (fst cube_state) (snd cube_state 0%nat),
        put dyops (nfc cube_pol) true (print_elem [ "x"%char ]) dec_show8 dec_show 100 (fst cube_state) (snd cube_state 1%nat),
        to_text dyops (nfc cube_pol) true (print_elem [ "x"%char ]) dec_show8 dec_show 100 (fst cube_state) (snd cube_state 0%nat) false false true with
  | Val (_, _, s), Val (_, _, t), Val (_, _, u) =>
      string_of_list_ascii s = "(+1*x^1 ~ 12599210e-7)"%string /\ string_of_list_ascii t = "(+1/3 ~ 33333333e-8)"%string /\
      exists q, ball_text u = Some q
  | _, _, _ => False
  end.
Proof.
  split; [exact dec_show8_ok|]. split; [exact dec_show_ok|]. split; [exact show_cstr|]. split; [intros e; apply print_cstr; intros [W|[]]; discriminate W|].
  vm_compute. split; [reflexivity|]. split; [reflexivity|]. eexists. reflexivity.
Qed.
