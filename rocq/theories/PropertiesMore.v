(** Counting roots (C06, C10), the patched fmpq_poly_add_fmpq (C52) and the string
    buffers (C53). *)
Require Import Reals List ZArith Lia Lra Ascii String.
From Verif Require Import PolyR RootModel RootSpec IsoAll RootFacts CountVca IsoWithin CountWithin ExtraModel ExtraProofs PremProofs SturmSpec SturmProofs SturmExact
  SturmExample ArbModel ElemModel ElemSpec StrModel StrSpec FmpqModel FmpqProofs BufModel BufSpec BufProofs.
Import ListNotations.
Open Scope R_scope.

(** * C06 *)

(** fmpz_poly_num_real_roots_vca returns the number of real roots, when the root
    bounds computed for the two sides are strict bounds and no root is multiple.
    The full statement has no condition on the bounds. *)
Theorem C06_count_partial : forall flog0 fuel p n, nonzero p -> simple_roots p reals ->
  good_bound flog0 (snd (low_zeros p)) -> good_bound flog0 (flip (snd (low_zeros p))) ->
  num_real_roots_vca flog0 fuel p = Some n -> exists l, root_list p reals l /\ n = List.length l.
Proof. exact count_vca. Qed.
Print Assumptions C06_count_partial.

(** The roots between the computed bounds are counted, for every polynomial without
    multiple roots. *)
Theorem C06_count_within_partial : forall flog0 fuel p n, nonzero p -> simple_roots p reals ->
  num_real_roots_vca flog0 fuel p = Some n -> exists l, root_list p (in_bounds flog0 p) l /\ n = List.length l.
Proof. exact count_vca_within. Qed.
Print Assumptions C06_count_within_partial.

Theorem C06_count_ends : forall flog0 p, nonzero p -> simple_roots p reals ->
  exists f0, forall fuel, (f0 <= fuel)%nat -> exists n, num_real_roots_vca flog0 fuel p = Some n.
Proof. exact count_vca_ends. Qed.
Print Assumptions C06_count_ends.

(** -x + x^3: an exact root and two intervals. *)
Example C06_count_case : nonzero [0; -1; 0; 1]%Z /\ simple_roots [0; -1; 0; 1]%Z reals /\
  good_bound 0 (snd (low_zeros [0; -1; 0; 1]%Z)) /\ good_bound 0 (flip (snd (low_zeros [0; -1; 0; 1]%Z))) /\
  isolate 0 20 [0; -1; 0; 1]%Z = VDone [(0, 0)]%Z [(-1, 1); (0, 1)]%Z /\ num_real_roots_vca 0 20 [0; -1; 0; 1]%Z = Some 3%nat.
Proof.
  split; [intros W; inversion W as [|? ? _ W1]; inversion W1; discriminate|].
  split. { intros x _ H. unfold zeval in H. cbn in H |- *. intros W. assert (E : x * x = 1 / 3) by lra.
    assert (x * (x * x) = x) by lra. rewrite E in *. assert (x = 0) by lra. subst x. lra. }
  split. { intros x Hx H. unfold zeval in H. cbn in H. change (pw2 1) with (2 ^ 1). simpl. nra. }
  split. { intros x Hx H. unfold zeval in H. cbn in H. change (pw2 1) with (2 ^ 1). simpl. nra. }
  split; reflexivity.
Qed.

(** * C10 *)

(** What the function returns: the number of roots in the closed interval and the number
    of members of the sequence after the first that vanish at 0, each counted once
    more.  The full statement is refuted by [C10_sturm_refuted]. *)
Theorem C10_exact_partial : forall prem, prem_ok prem -> forall p rl L n, simple_roots p unit_cc ->
  sturm_sequence p L -> vanishing (tl L) n -> root_list p unit_cc rl ->
  forall fuel, (List.length p < fuel)%nat -> num_real_roots_0_1_sturm prem fuel p = SDone (Z.of_nat (List.length rl + n)).
Proof. exact sturm_exact. Qed.
Print Assumptions C10_exact_partial.

(** The count is right exactly when no member after the first vanishes at 0. *)
Theorem C10_sturm_partial : forall prem, prem_ok prem -> forall p rl L, simple_roots p unit_cc ->
  zeval p 0 <> 0 -> zeval p 1 <> 0 -> sturm_sequence p L -> root_list p unit_oo rl ->
  forall fuel, (List.length p < fuel)%nat ->
  (num_real_roots_0_1_sturm prem fuel p = SDone (Z.of_nat (List.length rl)) <-> Forall (fun q => zeval q 0 <> 0) (tl L)).
Proof. exact sturm_right. Qed.
Print Assumptions C10_sturm_partial.

(** Every polynomial of positive degree has a sequence. *)
Theorem C10_sequence : forall p, last p 0%Z <> 0%Z -> (2 <= List.length p)%nat -> exists L, sturm_sequence p L.
Proof. exact sequence_exists. Qed.
Print Assumptions C10_sequence.

(** The zero polynomial ends the process. *)
Theorem C10_zero : forall prem fuel, num_real_roots_0_1_sturm prem fuel [] = SAbort.
Proof. reflexivity. Qed.
Print Assumptions C10_zero.

Example C10_sturm_case : prem_ok prem0 /\ simple_roots [1; -3; 1]%Z unit_cc /\ zeval [1; -3; 1]%Z 0 <> 0 /\ zeval [1; -3; 1]%Z 1 <> 0 /\
  (forall L, sturm_sequence [1; -3; 1]%Z L -> Forall (fun q => zeval q 0 <> 0 /\ zeval q 1 <> 0) L) /\
  num_real_roots_0_1_sturm prem0 10 [1; -3; 1]%Z = SDone 1.
Proof.
  split; [exact prem0_ok|]. split; [exact golden_simple|]. split; [exact (proj1 golden_ends)|]. split; [exact (proj2 golden_ends)|].
  split; [exact golden_sequence|reflexivity].
Qed.

(** x^2 - 2 has no root in the interval. *)
Example C10_exact_case : sturm_sequence [-2; 0; 1]%Z [[-2; 0; 1]; [0; 2]; [1]]%Z /\ vanishing [[0; 2]; [1]]%Z 1 /\
  simple_roots [-2; 0; 1]%Z unit_cc /\ root_list [-2; 0; 1]%Z unit_cc [] /\ num_real_roots_0_1_sturm prem0 10 [-2; 0; 1]%Z = SDone 1.
Proof.
  split; [exact (proj1 two_sequence)|]. split; [exact (proj2 two_sequence)|].
  split; [intros r _ H H1; unfold zeval in H; cbn in H, H1; unfold pderiv in H1; cbn in H1; nra|]. split; [|reflexivity].
  split; [constructor|]. intros x. split; [intros []|]. intros [H Z]. unfold unit_cc in H. unfold zeval in Z. cbn in Z. nra.
Qed.

(** * C52 *)

(** Adding the fraction n/d, in lowest terms, to a polynomial. *)
Theorem C52_add_fmpq : forall p n d, lowest_terms p -> (0 < d)%Z -> Z.gcd n d = 1%Z ->
  is_poly (add_fmpq p n d) (fun x => ev x p + IZR n / IZR d).
Proof. exact add_fmpq_ok. Qed.
Print Assumptions C52_add_fmpq.

(** (1 + 3x)/6 + 1/3 = (1 + x)/2 *)
Example C52_case : lowest_terms {| e_num := [1; 3]%Z; e_den := 6 |} /\ Z.gcd 1 3 = 1%Z /\
  add_fmpq {| e_num := [1; 3]%Z; e_den := 6 |} 1 3 = {| e_num := [1; 1]%Z; e_den := 2 |}.
Proof.
  split; [|split; reflexivity]. split; simpl; try lia.
  intros g Hg _ H. pose proof (H 1%Z (or_introl eq_refl)) as D. apply Z.divide_1_r in D. lia.
Qed.

(** * C53 *)

(** The text of a field is NumberField(p, e), in a block of the right size; every
    byte read was written and no byte outside is touched. *)
Theorem C53_field_text : forall p e, cstr p -> cstr e -> exists b,
  renf_get_str p e = Val b /\
  is_text b (list_ascii_of_string "NumberField(" ++ p ++ list_ascii_of_string ", " ++ e ++ list_ascii_of_string ")").
Proof. exact get_str_holds. Qed.
Print Assumptions C53_field_text.

(** The text of an element has one of the documented forms. *)
Theorem C53_element_text : forall s d b alg dbl arb, cstr s -> cstr (double_is d) -> cstr b -> exists t blk,
  written s (double_is d) b alg dbl arb t /\ elem_get_str s d b alg dbl arb = Val blk /\ is_text blk t.
Proof. exact elem_get_str_holds. Qed.
Print Assumptions C53_element_text.

(** Reading on into memory that was never written is undefined. *)
Theorem C53_unset : forall s n, cstr s -> strlen (map Some s ++ malloc n) = Undef /\ text_at (map Some s ++ malloc n) = Undef /\
  forall t, strcat (map Some s ++ malloc n) t = Undef.
Proof. exact unset_text. Qed.
Print Assumptions C53_unset.

Example C53_unset_case : cstr (list_ascii_of_string "ab") /\ text_at (map Some (list_ascii_of_string "ab") ++ malloc 2) = Undef /\
  text_at (map Some (list_ascii_of_string "ab") ++ calloc 2) = Val (list_ascii_of_string "ab").
Proof. split; [intros W; simpl in W; repeat (destruct W as [W|W]; [discriminate|]); exact W|split; reflexivity]. Qed.

Example C53_case : cstr (list_ascii_of_string "a+1") /\ cstr (double_is (Finite (list_ascii_of_string "2.41421"))) /\
  elem_get_str (list_ascii_of_string "a+1") (Finite (list_ascii_of_string "2.41421")) [] true true false =
  Val (map Some (list_ascii_of_string "a+1 ~ 2.41421" ++ [nul])).
Proof.
  split; [intros W; simpl in W; repeat (destruct W as [W|W]; [discriminate|]); exact W|].
  split; [intros W; simpl in W; repeat (destruct W as [W|W]; [discriminate|]); exact W|reflexivity].
Qed.
