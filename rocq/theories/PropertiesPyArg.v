(** Arguments from Python: C75. *)
Require Import Reals List ZArith Bool Lia Lra Ascii String.
From Verif Require Import PolyR RootSpec Dyadic ArbModel ArbSpec DyBall ElemModel ElemSpec NfArith NfArithProofs StrModel StrSpec StrMore
  CxxModel CxxSpec CxxRefute CxxOpModel CxxOpSpec PyModel PySpec PyArgModel PyArgSpec PyArgProofs.
Import ListNotations.
Open Scope R_scope.

(** renf_elem(K, v) and renf_elem(v) for numbers [v].  [_partial]: for Python integers
    only if they fit a long. *)
Theorem C75_element_partial : forall cy, cppyy_ok cy -> forall obj_value as_mpq as_mpz, objects_ok obj_value as_mpq as_mpz ->
  forall o ops debug fuel old zd gen_name pol x, (forall f, minimal (pol f) (x f)) -> (forall f, nf_ok (pol f) (x f) (ops (pol f))) ->
  forall w k f v q, exact_world pol w -> number obj_value v q -> int_in Long v ->
  exists w', renf_elem cy true as_mpq as_mpz o ops debug fuel old zd gen_name w k [VField f; v] = Val (Ret w') /\
    made_in pol x w w' k f (qreal q).
Proof. exact number_in_ok. Qed.
Print Assumptions C75_element_partial.
Theorem C75_rational_partial : forall cy, cppyy_ok cy -> forall obj_value as_mpq as_mpz, objects_ok obj_value as_mpq as_mpz ->
  forall o ops debug fuel old zd gen_name pol x, (forall f, minimal (pol f) (x f)) -> (forall f, nf_ok (pol f) (x f) (ops (pol f))) ->
  forall w k v q, exact_world pol w -> number obj_value v q -> int_in Long v ->
  exists w', renf_elem cy true as_mpq as_mpz o ops debug fuel old zd gen_name w k [v] = Val (Ret w') /\
    renf_elem cy true as_mpq as_mpz o ops debug fuel old zd gen_name w k [VNone; v] = Val (Ret w') /\
    made_in pol x w w' k 0 (qreal q).
Proof. exact number_ok. Qed.
Print Assumptions C75_rational_partial.

(** renf_elem(K, [c0, c1, ...]).  [_partial]: as above; if compiled with debugging, not
    for more coefficients than the degree; before FLINT 3, not for none (C66). *)
Theorem C75_coefficients_partial : forall cy, cppyy_ok cy -> forall obj_value as_mpq as_mpz, objects_ok obj_value as_mpq as_mpz ->
  forall o ops (debug : bool) fuel (old : bool) zd gen_name pol x, (forall f, minimal (pol f) (x f)) -> (forall f, nf_ok (pol f) (x f) (ops (pol f))) ->
  forall w k f l qs, exact_world pol w -> Forall2 (number obj_value) l qs -> Forall (int_in Long) l ->
  (List.length l <= List.length (pol f) - 1)%nat \/ debug = false -> (old = true -> l <> []) ->
  exists w', renf_elem cy true as_mpq as_mpz o ops debug fuel old zd gen_name w k [VField f; VSeq l] = Val (Ret w') /\
    made_in pol x w w' k f (rational_poly qs (x f)).
Proof. exact sequence_ok. Qed.
Print Assumptions C75_coefficients_partial.

(** renf_elem() and renf_elem(K). *)
Theorem C75_nothing : forall cy as_mpq as_mpz o ops debug fuel old zd gen_name pol x, (forall f, minimal (pol f) (x f)) ->
  forall w k, exact_world pol w ->
  (exists w', renf_elem cy true as_mpq as_mpz o ops debug fuel old zd gen_name w k [] = Val (Ret w') /\ made_in pol x w w' k 0 0) /\
  forall f, exists w', renf_elem cy true as_mpq as_mpz o ops debug fuel old zd gen_name w k [VField f] = Val (Ret w') /\ made_in pol x w w' k f 0.
Proof.
  intros cy as_mpq as_mpz o ops debug fuel old zd gen_name pol x H w k E. split; [|intros f].
  - exact (nothing_ok cy as_mpq as_mpz o ops debug fuel old zd gen_name pol x H w k E).
  - exact (field_ok cy as_mpq as_mpz o ops debug fuel old zd gen_name pol x H w k f E).
Qed.
Print Assumptions C75_nothing.

(** renf_elem(K, a) and renf_elem(a) for elements [a]. *)
Theorem C75_convert : forall cy as_mpq as_mpz o ops debug fuel old zd gen_name pol x, (forall f, minimal (pol f) (x f)) -> (forall f, nf_ok (pol f) (x f) (ops (pol f))) ->
  forall w k f j, exact_world pol w ->
  (fld w j = f \/ rational (value x w j) ->
     exists w', renf_elem cy true as_mpq as_mpz o ops debug fuel old zd gen_name w k [VField f; VElem j] = Val (Ret w') /\ made_in pol x w w' k f (value x w j)) /\
  (fld w j <> f -> ~ rational (value x w j) ->
     renf_elem cy true as_mpq as_mpz o ops debug fuel old zd gen_name w k [VField f; VElem j] = Val Throw).
Proof. exact element_ok. Qed.
Print Assumptions C75_convert.
Theorem C75_copy : forall cy as_mpq as_mpz o ops debug fuel old zd gen_name pol x w k j, exact_world pol w ->
  exists w', renf_elem cy true as_mpq as_mpz o ops debug fuel old zd gen_name w k [VElem j] = Val (Ret w') /\ made_in pol x w w' k (fld w j) (value x w j).
Proof. exact copy_ok. Qed.
Print Assumptions C75_copy.

(** Texts of the documented form (C32), and elements of realalg. *)
Theorem C75_text : forall cy as_mpq as_mpz o ops debug fuel old zd gen_name pol x, (forall f, minimal (pol f) (x f)) -> (forall f, nf_ok (pol f) (x f) (ops (pol f))) ->
  forall w k f s ts, exact_world pol w -> name (gen_name f) -> form false (gen_name f) s ts ->
  exists w', renf_elem cy true as_mpq as_mpz o ops debug fuel old zd gen_name w k [VField f; VStr s] = Val (Ret w') /\
    made_in pol x w w' k f (terms_val (x f) ts).
Proof. exact text_ok. Qed.
Print Assumptions C75_text.
Theorem C75_realalg : forall cy as_mpq as_mpz o ops debug fuel old zd gen_name pol x, (forall f, minimal (pol f) (x f)) -> (forall f, nf_ok (pol f) (x f) (ops (pol f))) ->
  forall w k f l, exact_world pol w -> name (gen_name f) -> l <> [] -> Forall (fun q => (0 < snd q)%Z) l -> (Z.of_nat (List.length l) <= long_max)%Z ->
  exists w', realalg_elem cy true as_mpq as_mpz o ops debug fuel old zd gen_name w k f (RAlg l) = Val (Ret w') /\
    made_in pol x w w' k f (rational_poly l (x f)).
Proof. exact realalg_ok. Qed.
Print Assumptions C75_realalg.
Theorem C75_realalg_rest : forall cy, cppyy_ok cy -> forall obj_value as_mpq as_mpz, objects_ok obj_value as_mpq as_mpz ->
  forall o ops debug fuel old zd gen_name pol x, (forall f, minimal (pol f) (x f)) -> (forall f, nf_ok (pol f) (x f) (ops (pol f))) ->
  forall w k f, exact_world pol w ->
  (forall z, in_range Long z ->
     exists w', realalg_elem cy true as_mpq as_mpz o ops debug fuel old zd gen_name w k f (RInt z) = Val (Ret w') /\ made_in pol x w w' k f (IZR z)) /\
  forall s ts, name (gen_name f) -> form false (gen_name f) s ts ->
     exists w', realalg_elem cy true as_mpq as_mpz o ops debug fuel old zd gen_name w k f (RText s) = Val (Ret w') /\ made_in pol x w w' k f (terms_val (x f) ts).
Proof. exact realalg_rest. Qed.
Print Assumptions C75_realalg_rest.

(** a + v and v + a, and so on, for elements [a] and numbers [v]: the result of C69, or
    an exception for a Python integer that does not fit an int. *)
Theorem C75_operator : forall cy, cppyy_ok cy -> forall obj_value as_mpq as_mpz, objects_ok obj_value as_mpq as_mpz ->
  forall o ops debug fuel pol x, (forall f, minimal (pol f) (x f)) -> (forall f, nf_ok (pol f) (x f) (ops (pol f))) ->
  forall strict p w k i v q, exact_world pol w -> number obj_value v q -> (p = Div -> qreal q <> 0) ->
  (exists w', binary cy true as_mpq as_mpz o ops debug fuel strict p w k i v = Val (Ret w') /\ exact_world pol w' /\
     gave x w w' k (real_op p (value x w i) (qreal q)) /\ fld w' k = fld w i) \/
  binary cy true as_mpq as_mpz o ops debug fuel strict p w k i v = Val Throw /\ exists z, v = VInt z /\ ~ in_range Int z.
Proof. exact binary_ok. Qed.
Print Assumptions C75_operator.
Theorem C75_reflected : forall cy, cppyy_ok cy -> forall obj_value as_mpq as_mpz, objects_ok obj_value as_mpq as_mpz ->
  forall o ops debug fuel pol x, (forall f, minimal (pol f) (x f)) -> (forall f, nf_ok (pol f) (x f) (ops (pol f))) ->
  forall strict p w k i v q, exact_world pol w -> k <> i -> number obj_value v q -> (p = Div -> value x w i <> 0) ->
  (exists w', rbinary cy true as_mpq as_mpz o ops debug fuel strict p w k i v = Val (Ret w') /\ exact_world pol w' /\
     gave x w w' k (real_op p (qreal q) (value x w i)) /\ (fld w' k = fld w i \/ fld w' k = 0%nat /\ rational (value x w i))) \/
  rbinary cy true as_mpq as_mpz o ops debug fuel strict p w k i v = Val Throw /\ exists z, v = VInt z /\ ~ in_range Int z.
Proof. exact rbinary_ok. Qed.
Print Assumptions C75_reflected.

(** a + b for two elements, whichever of the two methods Python calls. *)
Theorem C75_elements : forall cy as_mpq as_mpz o ops debug fuel pol x, (forall f, minimal (pol f) (x f)) -> (forall f, nf_ok (pol f) (x f) (ops (pol f))) ->
  forall p w k i j, exact_world pol w -> k <> i -> k <> j ->
  (fld w i = fld w j \/ rational (value x w i) \/ rational (value x w j) -> (p = Div -> value x w j <> 0) ->
   exists w', binary cy true as_mpq as_mpz o ops debug fuel false p w k i (VElem j) = Val (Ret w') /\
     rbinary cy true as_mpq as_mpz o ops debug fuel false p w k j (VElem i) = Val (Ret w') /\
     exact_world pol w' /\ gave x w w' k (real_op p (value x w i) (value x w j)) /\ (fld w' k = fld w i \/ fld w' k = fld w j)) /\
  (fld w i <> fld w j -> ~ rational (value x w i) -> ~ rational (value x w j) -> forall strict,
   binary cy true as_mpq as_mpz o ops debug fuel strict p w k i (VElem j) = Val Throw /\
   rbinary cy true as_mpq as_mpz o ops debug fuel strict p w k j (VElem i) = Val Throw).
Proof. exact binary_elem. Qed.
Print Assumptions C75_elements.

(** What is refused: more than two arguments, sequences with other entries than numbers
    or without a field, operands that are neither elements nor numbers. *)
Theorem C75_refused : forall cy obj_value as_mpq as_mpz, objects_ok obj_value as_mpq as_mpz ->
  forall o ops debug fuel old zd gen_name w k,
  (forall a b c l, renf_elem cy true as_mpq as_mpz o ops debug fuel old zd gen_name w k (a :: b :: c :: l) = Val Throw) /\
  (forall f l, Exists (fun v => strange obj_value v \/ exists i, v = VElem i) l ->
     renf_elem cy true as_mpq as_mpz o ops debug fuel old zd gen_name w k [VField f; VSeq l] = Val Throw) /\
  (forall v, strange obj_value v -> (forall f, v <> VField f) -> renf_elem cy true as_mpq as_mpz o ops debug fuel old zd gen_name w k [v] = Val Throw) /\
  (forall strict p i v, strange obj_value v ->
     binary cy true as_mpq as_mpz o ops debug fuel strict p w k i v = Val Throw /\
     rbinary cy true as_mpq as_mpz o ops debug fuel strict p w k i v = Val Throw).
Proof.
  intros cy obj_value as_mpq as_mpz H o ops debug fuel old zd gen_name w k. repeat apply conj.
  - intros a b c l. exact (many_refused cy as_mpq as_mpz o ops debug fuel old zd gen_name w k a b c l).
  - intros f l. exact (sequence_refused cy obj_value as_mpq as_mpz H o ops debug fuel old zd gen_name w k f l).
  - intros v. exact (alone_refused cy obj_value as_mpq as_mpz H o ops debug fuel old zd gen_name w k v).
  - intros strict p i v. exact (binary_refused cy obj_value as_mpq as_mpz H o ops debug fuel strict p w k i v).
Qed.
Print Assumptions C75_refused.

(** C75: false as stated: dividing an element by a zero ends the process, and so does,
    when compiled with debugging, a list of more coefficients than the degree.  C75_case
    meets the hypotheses. *)
Theorem C75_zero_refuted : forall cy, cppyy_ok cy -> forall obj_value as_mpq as_mpz, objects_ok obj_value as_mpq as_mpz ->
  forall o ops debug fuel strict w k i v q, number obj_value v q -> qreal q = 0 ->
  binary cy true as_mpq as_mpz o ops debug fuel strict Div w k i v = Abort.
Proof. exact binary_zero. Qed.
Print Assumptions C75_zero_refuted.
Theorem C75_coefficients_refuted : forall cy, cppyy_ok cy -> forall obj_value as_mpq as_mpz, objects_ok obj_value as_mpq as_mpz ->
  forall o ops fuel old zd gen_name pol w k f l qs, exact_world pol w -> Forall2 (number obj_value) l qs -> Forall (int_in Long) l ->
  (List.length (pol f) <= List.length l)%nat ->
  renf_elem cy true as_mpq as_mpz o ops true fuel old zd gen_name w k [VField f; VSeq l] = Abort.
Proof. intros cy H v q z H2 o ops fuel old zd g pol w k f l qs E N R L. exact (sequence_long cy H v q z H2 o ops true fuel old zd g pol w k f l qs E N R L eq_refl). Qed.
Print Assumptions C75_coefficients_refuted.

Definition case_elem (args : list pyv) : option (option elem) :=
  match renf_elem case_cppyy true case_mpq case_mpz dyops nfc true 100 false (fun _ => Abort) (fun _ => ["a"%char]) sworld 5 args with
  | Val (Ret w) => Some (Some (num_of w 5)) | Val Throw => Some None | _ => None end.

Example C75_case : cppyy_ok case_cppyy /\ objects_ok case_value case_mpq case_mpz /\
  (forall f, minimal (spol f) (sx f)) /\ (forall f, nf_ok (spol f) (sx f) (nfc (spol f))) /\ exact_world spol sworld /\
  Forall2 (number case_value) [VObj 0; VObj 1] [(7, 1); (-5, 3)]%Z /\ Forall (int_in Long) [VObj 0; VObj 1] /\ name ["a"%char] /\
  case_elem [VField 1; VSeq [VObj 0; VObj 1]] = Some (Some {| e_num := [21; -5]; e_den := 3 |}%Z) /\
  case_elem [VField 1; VStr (list_ascii_of_string "1/2*a + 3")] = Some (Some {| e_num := [6; 1]; e_den := 2 |}%Z) /\
  case_elem [VInt (-12)] = Some (Some {| e_num := [-12]; e_den := 1 |}%Z) /\
  case_elem [VField 1; VSeq [VObj 0; VStr ["1"%char]]] = Some None /\
  case_elem [VSeq [VObj 0]] = Some None.
Proof.
  split; [exact case_cppyy_ok|]. split; [exact case_objects_ok|].
  split; [exact sminimal|]. split; [intros f; apply nfc_ok, sminimal|]. split.
  { apply (fresh_exact spol sx); [intros [|[|f]]; vm_compute; reflexivity|exact sworld_fresh]. }
  split; [repeat constructor; reflexivity|]. split; [repeat constructor|]. split; [split; [left; reflexivity|constructor]|].
  repeat split; vm_compute; reflexivity.
Qed.

(** GMP refuses texts without a digit. *)
Theorem C75_gmp_digit : forall s z, gmp_z s = Some z -> exists c, In c s /\ digitb c = true.
Proof. exact gmp_z_digit. Qed.
Print Assumptions C75_gmp_digit.
(** What GMP reads, also of texts that Python never writes. *)
Example C75_gmp_case : let t := list_ascii_of_string in
  gmp_z (t " -1 2 3"%string) = Some (-123)%Z /\ gmp_z (t "0x1fA"%string) = Some 506%Z /\ gmp_z (t "0B101"%string) = Some 5%Z /\ gmp_z (t "0017"%string) = Some 15%Z /\
  gmp_z (t "0"%string) = Some 0%Z /\ gmp_z (t "18a"%string) = None /\ gmp_z (t "08"%string) = None /\ gmp_z (t "+1"%string) = None /\ gmp_z (t " "%string) = None /\ gmp_z (t "-"%string) = None /\
  gmp_q (t "-6/4"%string) = Some (-6, 4)%Z /\ gmp_q (t "7"%string) = Some (7, 1)%Z /\ gmp_q (t "7/"%string) = None.
Proof. vm_compute. repeat split; reflexivity. Qed.
