(** The conversions of pyeantic: C62 to C65. *)
Require Import Reals List ZArith Bool Lia Lra Ascii String.
From Verif Require Import PolyR RootSpec Dyadic ArbModel ArbSpec ElemModel ElemSpec ElemRefute NfArith NfArithProofs
  StrModel StrSpec StrProofs StrMore StrRefute CxxModel MakeModel MakeSpec MakeText
  PyModel PySpec PyProofs PyFloat PyField PyRefute PyElem.
Import ListNotations.
Open Scope R_scope.

(** * C62 *)

(** The text of a polynomial is read back as this polynomial. *)
Theorem C62_polynomial : forall zd var l, name var -> l <> [] -> Forall (fun q => (0 < snd q)%Z) l -> (Z.of_nat (List.length l) <= 9223372036854775807)%Z ->
  exists s p, poly_string l var = Ret s /\ set_str zd var s = Val (Some p) /\ is_poly p (rational_poly l).
Proof. exact poly_string_read. Qed.
Print Assumptions C62_polynomial.

Theorem C62_element : forall pol x n zd var l e, minimal pol x -> nf_ok pol x n -> name var -> l <> [] -> Forall (fun q => (0 < snd q)%Z) l ->
  (Z.of_nat (List.length l) <= long_max)%Z -> canon pol e -> ev x e = rational_poly l x ->
  exists s, poly_string l var = Ret s /\ of_string zd n var s = Val (Some e).
Proof. exact poly_string_elem. Qed.
Print Assumptions C62_element.

(** An exception for the empty list, and for no other. *)
Theorem C62_raises : forall l var, poly_string l var = Throw <-> l = [].
Proof. exact poly_string_raises. Qed.
Print Assumptions C62_raises.

Example C62_case : name (lit "a") /\ poly_string [(-1, 2); (0, 1); (3, 1)]%Z (lit "a") = Ret (lit "-1/2 + 3 * a^2") /\
  set_str (fun _ => Val None) (lit "a") (lit "-1/2 + 3 * a^2") = Val (Some {| e_num := [-1; 0; 6]; e_den := 2 |}%Z) /\
  of_string (fun _ => Val None) (nfc cube_pol) (lit "a") (lit "-1/2 + 3 * a^2") = Val (Some {| e_num := [-1; 0; 6]; e_den := 2 |}%Z).
Proof. split; [cbn; auto|]. split; [reflexivity|]. split; vm_compute; reflexivity. Qed.

(** * C63 *)

(** No point of the interval from (10^18 + 60) 10^-15 to (10^18 + 61) 10^-15 is in the
    ball that is written. *)
Theorem C63_interval_refuted : exists pow10 show l u p q, pow10_ok pow10 /\ show_float_ok show /\ (l < u)%Z /\
  ball_text (interval_text pow10 show l u p) = Some q /\
  forall x, IZR l * powerRZ 10 (- p) <= x <= IZR u * powerRZ 10 (- p) -> ~ in_text x q.
Proof.
  destruct interval_lost as (q & E & H). exists pow10_fl, show_dec, (10 ^ 18 + 60)%Z, (10 ^ 18 + 61)%Z, 15%Z, q.
  split; [exact pow10_fl_ok|]. split; [exact show_dec_ok|]. split; [lia|]. split; [exact E|exact H].
Qed.
Print Assumptions C63_interval_refuted.

(** Right when the interval is not too short for its distance from zero.  In full
    there is no such condition. *)
Theorem C63_interval_partial : forall pow10 show, pow10_ok pow10 -> show_float_ok show -> forall l u p x, (l <= u)%Z ->
  (Z.abs (l + u) <= 2 ^ 51 * (u - l))%Z -> IZR l * powerRZ 10 (- p) <= x <= IZR u * powerRZ 10 (- p) ->
  exists q, ball_text (interval_text pow10 show l u p) = Some q /\ in_text x q.
Proof. exact interval_encloses. Qed.
Print Assumptions C63_interval_partial.

(** The quotients are rounded to nearest, ties to even. *)
Theorem C63_doubles : forall n d m e, n <> 0%Z -> (0 < d)%Z -> fl n d = (m, e) -> rounded_even m e (IZR n / IZR d).
Proof. exact fl_even. Qed.
Print Assumptions C63_doubles.
Example C63_doubles_case : fl (2 ^ 53 + 1) 1 = (2 ^ 52, 1)%Z /\ fl (2 ^ 53 + 3) 1 = (2 ^ 52 + 2, 1)%Z /\ fl (-1) 3 = (-6004799503160661, -54)%Z.
Proof. vm_compute. repeat split. Qed.

Example C63_case : pow10_ok pow10_fl /\ show_float_ok show_dec /\ (Z.abs (141421 + 141422) <= 2 ^ 51 * (141422 - 141421))%Z /\
  IZR 141421 * powerRZ 10 (- (5)) <= sqrt 2 <= IZR 141422 * powerRZ 10 (- (5)).
Proof.
  split; [exact pow10_fl_ok|]. split; [exact show_dec_ok|]. split; [lia|]. destruct sqrt2_bounds as [B S].
  replace (powerRZ 10 (- (5))) with (/ 100000) by (simpl; field). split; apply Rnot_lt_le; intros K; nra.
Qed.

(** * C64 *)

(** Fields whose polynomial starts with a minus sign or a fraction, and the field of the
    polynomial x, are made but not converted. *)
Theorem C64_field_refuted : exists e1 e2 e3 nf1 nf2 nf3,
  made (lit "-x^2 + 2") e1 nf1 /\ made (lit "1/2*x^2 - 1") e2 nf2 /\ made (lit "x") e3 nf3 /\
  forall print_ball read_ball poly_ring roots enclose, sage_ok print_ball read_ball poly_ring enclose ->
  normalize print_ball read_ball poly_ring roots enclose (lit "x") nf1 = Throw /\
  normalize print_ball read_ball poly_ring roots enclose (lit "x") nf2 = Throw /\
  normalize print_ball read_ball poly_ring roots enclose (lit "x") nf3 = Throw.
Proof.
  exists (lit "1.4 +/- 0.1"), (lit "1.4 +/- 0.1"), (lit "0 +/- 1"), neg_nf, half_nf, zero_nf.
  split; [exact neg_made|]. split; [exact half_made|]. split; [exact zero_made|exact not_converted].
Qed.
Print Assumptions C64_field_refuted.

(** With a positive integer as leading coefficient, and not the polynomial c x, what is
    returned is the polynomial, the name and the root; and something is returned if the
    other real roots are told apart at 256 bits.  In full none of these conditions is
    needed. *)
Theorem C64_field_partial : forall print_ball read_ball poly_ring roots enclose, sage_ok print_ball read_ball poly_ring enclose ->
  forall var nf x, sage_name var -> lowest_terms (pol_of nf) -> (2 <= List.length (f_pol nf))%nat -> (Z.of_nat (List.length (f_pol nf)) <= long_max)%Z ->
  (0 < last (f_pol nf) 0)%Z -> (f_den nf | last (f_pol nf) 0)%Z -> (List.length (f_pol nf) = 2%nat -> hd 0%Z (f_pol nf) <> 0%Z) ->
  is_finite (f_emb nf) = true -> inb x (f_emb nf) -> zeval (f_pol nf) x = 0 -> roots_ok (pol_of nf) (roots (pol_of nf)) ->
  (forall p v a, normalize print_ball read_ball poly_ring roots enclose var nf = Ret (p, v, a) -> p = pol_of nf /\ v = var /\ a = x) /\
  (told_apart print_ball read_ball enclose nf x -> normalize print_ball read_ball poly_ring roots enclose var nf = Ret (pol_of nf, var, x)).
Proof. exact normalize_ok. Qed.
Print Assumptions C64_field_partial.

(** The texts that the first regular expression takes apart. *)
Theorem C64_text : forall s p e, match_field s = Some (p, e) <->
  s = lit "NumberField(" ++ p ++ lit ", " ++ e ++ lit ")" /\ p <> [] /\ ~ In ","%char p /\ e <> [] /\ ~ In ")"%char e.
Proof. exact match_field_iff. Qed.
Print Assumptions C64_text.

Example C64_text_case : match_field (lit "NumberField(x^2 - 2, [1.4142135624 +/- 4.86e-11])") = Some (lit "x^2 - 2", lit "[1.4142135624 +/- 4.86e-11]") /\
  match_field (lit "NumberField(x^2 - 2,1.41)") = None.
Proof. split; reflexivity. Qed.

(** A text of the ball that is not read is an exception. *)
Theorem C64_unread : forall print_ball read_ball poly_ring roots enclose var nf, name var -> lowest_terms (pol_of nf) -> (Z.of_nat (List.length (f_pol nf)) <= long_max)%Z ->
  print_ball (f_emb nf) 64%Z <> [] -> ~ In ")"%char (print_ball (f_emb nf) 64%Z) -> read_ball (print_ball (f_emb nf) 64%Z) 53%Z = None ->
  normalize print_ball read_ball poly_ring roots enclose var nf = Throw.
Proof. exact normalize_unread. Qed.
Print Assumptions C64_unread.

Example C64_unread_case : name (lit "x") /\ lowest_terms (pol_of sqrt2_nf) /\ dec_show (f_emb sqrt2_nf) 64%Z <> [] /\ ~ In ")"%char (dec_show (f_emb sqrt2_nf) 64%Z) /\
  normalize dec_show (fun _ _ => None) read_poly both_roots unit_ball (lit "x") sqrt2_nf = Throw.
Proof.
  split; [split; [left; reflexivity|constructor]|]. split; [constructor; [reflexivity|discriminate|]; intros g G D _; apply Z.divide_1_r_nonneg in D; [exact D|lia]|].
  destruct (sg_plain _ _ _ _ sage_met (f_emb sqrt2_nf) 64%Z eq_refl) as [A B]. split; [exact A|]. split; [exact B|vm_compute; reflexivity].
Qed.

Example C64_case : sage_ok dec_show dec_read read_poly unit_ball /\ made (lit "x^2 - 2") (lit "1.4 +/- 0.1") sqrt2_nf /\
  sage_name (lit "x") /\ lowest_terms (pol_of sqrt2_nf) /\ inb (sqrt 2) (f_emb sqrt2_nf) /\ zeval (f_pol sqrt2_nf) (sqrt 2) = 0 /\
  roots_ok (pol_of sqrt2_nf) (both_roots (pol_of sqrt2_nf)) /\ told_apart dec_show dec_read unit_ball sqrt2_nf (sqrt 2).
Proof.
  split; [exact sage_met|]. split; [exact sqrt2_made|]. split; [split; [split; [left; reflexivity|constructor]|reflexivity]|]. split.
  - constructor; [reflexivity|discriminate|]. intros g G D _. apply Z.divide_1_r_nonneg in D; [exact D|lia].
  - split; [exact sqrt2_in|]. split; [apply sqrt2_zero; auto|]. split; [exact sqrt2_roots|exact sqrt2_told].
Qed.

(** * C65 *)

(** The vector of an element: as long as the degree, fractions in lowest terms, and the
    value of the element. *)
Theorem C65_vector : forall pol x, minimal pol x -> forall e, canon pol e ->
  List.length (to_sage pol e) = (List.length pol - 1)%nat /\ Forall lowest (to_sage pol e) /\ rational_poly (to_sage pol e) x = ev x e.
Proof. intros pol x _. exact (to_sage_ok pol x). Qed.
Print Assumptions C65_vector.

(** Before version 3 of FLINT zero cannot be restored: the address of the first
    coefficient is taken when there is none. *)
Theorem C65_zero_refuted : forall pol x, minimal pol x -> forall n debug e, canon pol e -> ev x e = 0 -> pickled debug true n pol e = Undef.
Proof. intros pol x Hm n. exact (pickled_zero pol x Hm n). Qed.
Print Assumptions C65_zero_refuted.

(** Pickling gives the same element, and vectors come back.  In full zero with earlier
    versions of FLINT is included. *)
Theorem C65_pickle_partial : forall pol x, minimal pol x -> forall n, nf_ok pol x n -> forall debug old e, canon pol e -> (old = true -> ev x e <> 0) ->
  pickled debug old n pol e = Val e.
Proof. exact pickled_same. Qed.
Print Assumptions C65_pickle_partial.

Theorem C65_back_partial : forall pol x, minimal pol x -> forall n, nf_ok pol x n -> forall debug old v, Forall lowest v ->
  List.length v = (List.length pol - 1)%nat -> (old = true -> rational_poly v x <> 0) ->
  exists e, of_sage debug old n pol v = Val e /\ canon pol e /\ ev x e = rational_poly v x /\ to_sage pol e = v.
Proof. exact sage_back. Qed.
Print Assumptions C65_back_partial.

(** Vectors of the length of the degree plus one and more, but for zeros at the end,
    stop the program with assertions; nothing else does. *)
Theorem C65_length : forall debug old n pol v, (1 <= List.length pol)%nat -> of_sage debug old n pol v = Abort <->
  debug = true /\ exists i q, (List.length pol <= S i)%nat /\ nth_error v i = Some q /\ fst q <> 0%Z.
Proof. exact of_sage_abort. Qed.
Print Assumptions C65_length.

Example C65_length_case : (1 <= List.length cube_pol)%nat /\ of_sage true false (nfc cube_pol) cube_pol [(0, 1); (0, 1); (0, 1); (1, 2)]%Z = Abort /\
  of_sage true true (nfc cube_pol) cube_pol [(1, 2); (0, 1); (0, 1); (0, 1)]%Z = Val {| e_num := [1]; e_den := 2 |}%Z.
Proof. split; [cbn; lia|]. split; vm_compute; reflexivity. Qed.

(** Conversions to rational numbers and integers. *)
Theorem C65_rational : forall pol x, minimal pol x -> forall debug e, canon pol e ->
  (forall a d, to_rational debug e = Val (Ret (a, d)) <-> lowest (a, d) /\ ev x e = IZR a / IZR d) /\
  (to_rational debug e = Val Throw <-> ~ exists a d, (0 < d)%Z /\ ev x e = IZR a / IZR d).
Proof. exact to_rational_ok. Qed.
Print Assumptions C65_rational.

Theorem C65_integer : forall pol x, minimal pol x -> forall debug e, canon pol e ->
  (forall z, to_integer debug e = Val (Ret z) <-> ev x e = IZR z) /\ (to_integer debug e = Val Throw <-> ~ exists z, ev x e = IZR z).
Proof. exact to_integer_ok. Qed.
Print Assumptions C65_integer.

Example C65_case : exists z, minimal cube_pol z /\ nf_ok cube_pol z (nfc cube_pol) /\
  canon cube_pol {| e_num := [-1; 0; 6]; e_den := 2 |}%Z /\
  to_sage cube_pol {| e_num := [-1; 0; 6]; e_den := 2 |}%Z = [(-1, 2); (0, 1); (3, 1)]%Z /\ Forall lowest [(-1, 2); (0, 1); (3, 1)]%Z /\
  of_sage true false (nfc cube_pol) cube_pol [(-1, 2); (0, 1); (3, 1)]%Z = Val {| e_num := [-1; 0; 6]; e_den := 2 |}%Z /\
  of_sage true false (nfc cube_pol) cube_pol [(0, 1); (0, 1); (0, 1)]%Z = Val {| e_num := []; e_den := 1 |}%Z /\
  to_rational true {| e_num := [-1; 0; 6]; e_den := 2 |}%Z = Val Throw /\ to_rational true {| e_num := [3]; e_den := 2 |}%Z = Val (Ret (3, 2)%Z) /\
  to_integer true {| e_num := [3]; e_den := 2 |}%Z = Val Throw /\ to_integer true {| e_num := [-3]; e_den := 1 |}%Z = Val (Ret (-3)%Z).
Proof.
  destruct cube_root as (z & _ & E). exists z. split; [apply cube_minimal, E|]. split; [apply nfc_ok, cube_minimal, E|]. split.
  - constructor; cbn; try lia. intros g G _ H. assert (D : (g | -1)%Z) by (apply H; left; reflexivity). apply Z.divide_opp_r in D. cbn in D. apply Z.divide_1_r_nonneg in D; lia.
  - split; [reflexivity|]. split; [repeat constructor|]. repeat split; vm_compute; reflexivity.
Qed.
