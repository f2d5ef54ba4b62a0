(** Making fields from strings and archives: C47, C48 and C51. *)
Require Import Reals List ZArith Bool Lia Lra Ascii String.
From Verif Require Import PolyR RootSpec RootModel Dyadic ArbModel ArbSpec FieldProofs RefineProofs DyBall DyBallProofs FlSpec FlProofs
  ElemModel ElemSpec NfArith ElemRefute GetdModel StrModel StrSpec StrProofs StrMore StrRefute CxxModel
  MakeModel MakeSpec MakeText MakeProofs MakeRefute FlMake ArchiveProofs ArchiveInto ArchiveRefute.
Import ListNotations.
Open Scope R_scope.

Example make_contracts_met : read_ok dec_read /\ show_ok dec_show /\ print_ok print_elem.
Proof. split; [exact dec_read_ok|]. split; [exact dec_show_ok|exact print_elem_ok]. Qed.

(** * C48 *)

(** A field that is returned: the polynomial is the one written, the ball read has
    at most one root, exactly one when rounding its endpoints stays inside, and
    the enclosure isolates the root when the refinement cannot leave it.  In full
    the ball has always exactly one root, and the enclosure always isolates it. *)
Theorem C48_returns_partial : forall o debug zd read, arb_ok o -> zero_den_ok zd ->
  forall fuel n minpoly gen emb prec nf k,
  make_str o debug zd read fuel n minpoly gen emb prec = Val (Ret nf, k) ->
  name gen /\ exists ts p b, form true gen minpoly ts /\ is_poly p (fun y => terms_val y ts) /\
    (2 <= List.length (e_num p))%nat /\ read emb prec = Some b /\
    f_pol nf = e_num p /\ f_den nf = e_den p /\ f_prec nf = prec /\ f_imm nf = 0%Z /\
    (forall x y, inb x b -> inb y b -> zeval (e_num p) x = 0 -> zeval (e_num p) y = 0 -> x = y) /\
    ((exists x, inb x b) -> is_finite b = true ->
     (List.length (e_num p) = 2%nat \/ forall l r, interval b prec = Some (l, r) -> inb (dyv l) b /\ inb (dyv r) b) ->
     unique_root (e_num p) b) /\
    (forall x N, safe_balls o (e_num p) x N -> simple_root (e_num p) x -> inb x b -> N b ->
     inb x (f_emb nf) /\ (is_finite (f_emb nf) = true -> isolating (e_num p) x (f_emb nf)) /\
     (List.length (e_num p) = 2%nat \/ (prec <= rel_accuracy (f_emb nf))%Z)).
Proof. exact make_returns. Qed.
Print Assumptions C48_returns_partial.

Example C48_returns_case : arb_ok dyops /\ zero_den_ok zd0 /\
  make_str dyops true zd0 dec_read 50 2 (lit "x^3 - 2") (lit "x") (lit "1.25 +/- 0.1") 8 = Val (Ret cube_made, O) /\
  exists z b, dec_read (lit "1.25 +/- 0.1") 8 = Some b /\ inb z b /\ simple_root cube_pol z /\ safe_balls dyops cube_pol z (fun _ => True).
Proof.
  split; [exact dyops_ok|]. split; [intros m q H; discriminate H|]. split; [apply cube_make|].
  destruct cube_root as (z & Hz & E). exists z.
  destruct (dec_read_ok (lit "1.25 +/- 0.1") (125, -2, (1, -1))%Z 8%Z ltac:(lia) eq_refl) as (b & Hb & Inc).
  exists b. split; [exact Hb|]. split; [|split; [|apply cube_safe, E]].
  - apply Inc. unfold in_text. cbn [fst snd].
    destruct (frac10_ok (125, -2)%Z) as [_ E1]. destruct (frac10_ok (1, -1)%Z) as [_ E2]. rewrite <- E1, <- E2.
    replace (frac10 (125, -2)%Z) with (125, 100)%Z by (vm_compute; reflexivity).
    replace (frac10 (1, -1)%Z) with (1, 10)%Z by (vm_compute; reflexivity). cbn [fst snd].
    assert (115 / 100 <= z) by (destruct (Rle_lt_dec (115 / 100) z); [assumption|]; exfalso; assert (z * z < 115 / 100 * (115 / 100)) by nra; nra).
    assert (z <= 135 / 100) by (destruct (Rle_lt_dec z (135 / 100)); [assumption|]; exfalso; assert (135 / 100 * (135 / 100) < z * z) by nra; nra).
    unfold Rabs. destruct (Rcase_abs _); lra.
  - split; [unfold zeval, cube_pol; simpl; lra|]. simpl. nra.
Qed.

(** An exception has one of these reasons: the polynomial or the ball is not read,
    or the test for a unique root fails. *)
Theorem C48_throws_partial : forall o debug zd read fuel n minpoly gen emb prec k,
  make_str o debug zd read fuel n minpoly gen emb prec = Val (Throw, k) ->
  (set_str zd gen minpoly = Val None /\ k = O) \/
  exists p, set_str zd gen minpoly = Val (Some p) /\ (2 <= prec)%Z /\
    ((read emb prec = None /\ k = O) \/
     exists b, read emb prec = Some b /\ check_unique o fuel (e_num p) b prec = Val false /\ k = 2%nat).
Proof. exact make_throws. Qed.
Print Assumptions C48_throws_partial.

Example C48_throws_case : make_str dyops true zd0 dec_read 50 2 (lit "x^2 - 2") (lit "x") (lit "0 +/- 2") 64 = Val (Throw, 2%nat) /\
  make_str dyops true zd0 dec_read 50 2 (lit "x^2 -") (lit "x") (lit "1 +/- 1") 64 = Val (Throw, O) /\
  make_str dyops true zd0 dec_read 50 2 (lit "x^2 - 2") (lit "x") (lit "one") 64 = Val (Throw, O).
Proof. vm_compute. auto. Qed.

(** For polynomials with simple real roots only the refinement of the enclosure may
    run on; two iterations suffice.  In full the refinement ends as well. *)
Theorem C48_ends_partial : forall o debug zd read, arb_ok o -> zero_den_ok zd ->
  forall minpoly gen emb prec, (forall n, answers (zd n)) -> tame gen -> tame minpoly ->
  (forall p, set_str zd gen minpoly = Val (Some p) -> simple_roots (e_num p) reals) ->
  (forall b, read emb prec = Some b -> exists x, inb x b) ->
  exists f0, forall fuel n, (f0 <= fuel)%nat -> (2 <= n)%nat ->
    make_str o debug zd read fuel n minpoly gen emb prec = Fuel ->
    exists p b, set_str zd gen minpoly = Val (Some p) /\ read emb prec = Some b /\
      check_unique o fuel (e_num p) b prec = Val true /\
      refine o debug fuel {| f_pol := e_num p; f_den := e_den p; f_emb := b; f_prec := prec; f_imm := 0 |} prec = Fuel.
Proof. exact make_ends. Qed.
Print Assumptions C48_ends_partial.

Example C48_ends_case : (forall n, answers (zd0 n)) /\ tame (lit "x") /\ tame (lit "x^3 - 2") /\
  (forall p, set_str zd0 (lit "x") (lit "x^3 - 2") = Val (Some p) -> simple_roots (e_num p) reals) /\
  (forall b, dec_read (lit "1.25 +/- 0.1") 8 = Some b -> exists x, inb x b).
Proof.
  split; [intros n; eexists; reflexivity|]. split; [repeat constructor|]. split; [repeat constructor|]. split.
  - intros p E. vm_compute in E. injection E as <-. intros x _ H0 H1. unfold zeval in H0. simpl in H0, H1.
    assert (Q : x * x = 0) by lra. apply Rsqr_0_uniq in Q. subst x. lra.
  - intros b E. destruct (dec_read_ok (lit "1.25 +/- 0.1") (125, -2, (1, -1))%Z 8%Z ltac:(lia) eq_refl) as (b' & Hb & Inc).
    rewrite E in Hb. injection Hb as <-. exists (dec10 (125, -2)%Z). apply Inc. unfold in_text. cbn [fst snd].
    rewrite Rminus_eq_0, Rabs_R0. unfold dec10. cbn [fst snd]. pose proof (ten_pos (-1)). lra.
Qed.

(** A field is returned although the ball has no root: neither the ball as written
    nor the enclosure of the field. *)
Theorem C48_root_refuted : forall zd, exists p q nf,
  set_str zd (lit "x") near_pol = Val (Some p) /\ ball_text near_emb = Some q /\
  make_str dyops true zd dec_read 50 2 near_pol (lit "x") near_emb 64 = Val (Ret nf, O) /\ f_pol nf = e_num p /\
  (forall y, in_text y q -> zeval (e_num p) y <> 0) /\ (forall y, inb y (f_emb nf) -> zeval (f_pol nf) y <> 0).
Proof. exact make_rootless. Qed.
Print Assumptions C48_root_refuted.

(** The same with every ball arithmetic that rounds like FLINT and every reader that
    reads the midpoint 1.5 exactly and the radius 10^-20 up to one percent. *)
Theorem C48_flint_refuted : exists p q, ball_text near_emb = Some q /\ (forall y, in_text y q -> zeval (e_num p) y <> 0) /\
  forall zd, set_str zd (lit "x") near_pol = Val (Some p) /\
  forall o, arb_fl o -> forall read m r, read near_emb 64%Z = Some (Fin m r) -> dyv m = 3 / 2 ->
    1 / 100000000000000000000 <= dyv r <= 101 / 10000000000000000000000 ->
  forall debug fuel n, exists nf, make_str o debug zd read (S fuel) (S n) near_pol (lit "x") near_emb 64 = Val (Ret nf, O) /\ f_pol nf = e_num p /\
    forall y, inb y (f_emb nf) -> zeval (f_pol nf) y <> 0.
Proof. exact rootless_every. Qed.
Print Assumptions C48_flint_refuted.
Example C48_flint_case : arb_fl dyops /\ exists m r, dec_read near_emb 64 = Some (Fin m r) /\ dyv m = 3 / 2 /\
  1 / 100000000000000000000 <= dyv r <= 101 / 10000000000000000000000.
Proof.
  split; [exact dyops_fl|]. exists (13835058055282163712, -63)%Z, (792281626, -96)%Z. split; [vm_compute; reflexivity|].
  unfold dyv. cbn [fst snd]. change (-63)%Z with (- (63))%Z. change (-96)%Z with (- (96))%Z. rewrite !MakeRefute.pw2_neg by lia.
  change (2 ^ 63)%Z with 9223372036854775808%Z. change (2 ^ 96)%Z with 79228162514264337593543950336%Z. lra.
Qed.

(** With a callback that goes on answering nothing is returned or thrown when there
    is no root: the precision overflows. *)
Theorem C48_callback_refuted : forall o, arb_ok o -> forall debug zd read fuel cb,
  (forall p, (2 <= p)%Z -> exists b, read (cb p) p = Some b) ->
  forall n, (57 <= n)%nat -> make_loop o debug zd read fuel n no_root (lit "x") (fun p => Ret (cb p)) 64 = Undef.
Proof. exact make_callback_overflow. Qed.
Print Assumptions C48_callback_refuted.

Example C48_callback_case : forall p, (2 <= p)%Z -> exists b, dec_read (lit "0 +/- 1") p = Some b.
Proof. intros p Hp. destruct (dec_read_ok (lit "0 +/- 1") (0, 0, (1, 0))%Z p Hp eq_refl) as (b & E & _). exists b. exact E. Qed.

(** * C51 *)
Theorem C51_temporaries_refuted : forall o, arb_ok o -> forall debug zd read fuel, read_ok read ->
  make_str o debug zd read fuel 2 no_root (lit "x") (lit "0 +/- 1") 64 = Val (Throw, 2%nat).
Proof. exact make_leaks. Qed.
Print Assumptions C51_temporaries_refuted.

(** All other ways out release both.  In full every way out does. *)
Theorem C51_temporaries_partial : forall o debug zd read fuel n minpoly gen emb prec r k,
  make_str o debug zd read fuel n minpoly gen emb prec = Val (r, k) ->
  (forall nf, r = Ret nf -> k = O) /\ (set_str zd gen minpoly = Val None -> k = O) /\ (read emb prec = None -> k = O).
Proof. exact make_clears. Qed.
Print Assumptions C51_temporaries_partial.

Example C51_temporaries_case : make_str dyops true zd0 dec_read 50 2 (lit "x^3 - 2") (lit "x") (lit "1.25 +/- 0.1") 8 = Val (Ret cube_made, O).
Proof. apply cube_make. Qed.

(** * C47 *)

(** The elements come back in their order, and share fields as they did, if equal
    addresses mean the same field, the texts of each field make a field, and
    the fields made are not identified by the registry.  In full these three
    conditions are not needed. *)
Theorem C47_archive_partial : forall o debug zd read fuel show pp pe ops back n,
  arb_ok o -> zero_den_ok zd -> print_ok pp -> print_ok pe ->
  forall l, Forall (sound o debug zd read fuel show pp ops back n) l -> apart back l ->
  exists pos ld, load_all o debug zd read fuel ops n (List.length l) {| ld_pool := []; ld_ids := [] |} (save_all show pp pe [] l) =
    Val (Ret (combine pos (map snd l), ld)) /\ List.length pos = List.length l /\
  (forall i j p e p' e', nth_error l i = Some (p, e) -> nth_error l j = Some (p', e') ->
    (nth_error pos i = nth_error pos j <-> pl_addr p = pl_addr p')) /\
  (forall i p e k, nth_error l i = Some (p, e) -> nth_error pos i = Some k -> nth_error (ld_pool ld) k = Some (back (pl_addr p))).
Proof. exact archive_sound. Qed.
Print Assumptions C47_archive_partial.

Example C47_archive_case : Forall (sound dyops true zd0 dec_read 50 dec_show print_elem nfc mixed_back 2) mixed /\ apart mixed_back mixed.
Proof. exact mixed_sound. Qed.

(** Loading in a process that has fields already: the elements come back, those of
    one address in one field, and an element is put into a field that was there
    exactly when there was one with its name and an equal value.  The fields
    that are added are those made from the texts. *)
Theorem C47_into_partial : forall o debug zd read fuel show pp pe ops back n pool,
  arb_ok o -> zero_den_ok zd -> print_ok pp -> print_ok pe ->
  forall l, Forall (sound o debug zd read fuel show pp ops back n) l ->
  exists loc more ids,
    load_all o debug zd read fuel ops n (List.length l) {| ld_pool := pool; ld_ids := [] |} (save_all show pp pe [] l) =
      Val (Ret (map (fun x => (loc (pl_addr (fst x)), snd x)) l, {| ld_pool := pool ++ more; ld_ids := ids |})) /\
    (forall p e, In (p, e) l ->
      (exists g, nth_error (pool ++ more) (loc (pl_addr p)) = Some g /\ (g = back (pl_addr p) \/ alike (back (pl_addr p)) g)) /\
      ((exists g, In g pool /\ alike (back (pl_addr p)) g) <-> (loc (pl_addr p) < List.length pool)%nat)) /\
    (forall g, In g more -> exists p e, In (p, e) l /\ g = back (pl_addr p)).
Proof. exact archive_into. Qed.
Print Assumptions C47_into_partial.

(** The fields x and y are loaded where y exists. *)
Example C47_into_case : exists ids,
  load_all dyops true zd0 dec_read 50 nfc 2 3 {| ld_pool := [(lit "z", back2); (lit "y", cube_made)]; ld_ids := [] |}
    (save_all dec_show print_elem print_elem [] mixed) =
  Val (Ret ([(2, gen_elem); (1, half_square); (2, half_square)]%nat,
    {| ld_pool := [(lit "z", back2); (lit "y", cube_made); (lit "x", back2)]; ld_ids := ids |})) /\
  alike (mixed_back 8) (lit "y", cube_made).
Proof. eexists. split; [vm_compute; reflexivity|]. split; vm_compute; reflexivity. Qed.

(** A field made from its own texts has the same polynomial, precision and root. *)
Theorem C47_field_partial : forall o debug zd read fuel show pp,
  arb_ok o -> zero_den_ok zd -> read_ok read -> show_ok show -> print_ok pp ->
  forall p x N mid rad, name (pl_name p) -> lowest_terms (pol_of (pl_nf p)) ->
  (Z.of_nat (List.length (f_pol (pl_nf p))) <= long_max)%Z ->
  inb x (f_emb (pl_nf p)) -> f_emb (pl_nf p) = Fin mid rad -> fst mid <> 0%Z ->
  (2 <= f_prec (pl_nf p))%Z ->
  simple_root (f_pol (pl_nf p)) x -> safe_balls o (f_pol (pl_nf p)) x N -> (forall b, inb x b -> N b) ->
  forall n nf k, remade o debug zd read fuel show pp n p = Val (Ret nf, k) ->
  same_field (pl_nf p) nf /\ inb x (f_emb nf) /\ (is_finite (f_emb nf) = true -> isolating (f_pol nf) x (f_emb nf)).
Proof. exact field_back. Qed.
Print Assumptions C47_field_partial.

Example C47_field_case : exists z, let p := place2 7 in name (pl_name p) /\ lowest_terms (pol_of (pl_nf p)) /\
  inb z (f_emb (pl_nf p)) /\ (exists mid rad, f_emb (pl_nf p) = Fin mid rad /\ fst mid <> 0%Z) /\ (2 <= f_prec (pl_nf p))%Z /\
  simple_root (f_pol (pl_nf p)) z /\ safe_balls dyops (f_pol (pl_nf p)) z (fun _ => True) /\
  remade dyops true zd0 dec_read 50 dec_show print_elem 2 p = Val (Ret back2, O).
Proof. exact field_back_case. Qed.

(** The digits asked for: the bits of the midpoint of the enclosure without its
    trailing zeros, whatever its sign. *)
Theorem C47_bits : forall u k e r, Z.odd u = true -> (0 <= k)%Z ->
  (2 ^ (mid_bits (Fin (u * 2 ^ k, e)%Z r) - 1) <= Z.abs u < 2 ^ mid_bits (Fin (u * 2 ^ k, e)%Z r))%Z.
Proof. exact mid_bits_spec. Qed.
Print Assumptions C47_bits.

Example C47_bits_case : Z.odd (-5) = true /\ mid_bits (Fin (-5 * 2 ^ 4, 3)%Z (1, -7)%Z) = 3%Z /\ mid_bits (Fin (0, 0)%Z (1, 0)%Z) = 0%Z.
Proof. repeat split; reflexivity. Qed.

(** A field made at the address of a field that is gone: its element is loaded as an
    element of the old field. *)
Theorem C47_stale_refuted : exists p q ld, pl_addr p = pl_addr q /\ f_pol (pl_nf p) = cube_pol /\ f_pol (pl_nf q) = [-3; 0; 0; 1]%Z /\
  load_fresh [(p, gen_elem); (q, gen_elem)] = Val (Ret ([(O, gen_elem); (O, gen_elem)], ld)) /\
  exists nf, nth_error (ld_pool ld) 0 = Some (pl_name q, nf) /\ f_pol nf = cube_pol.
Proof. exact archive_stale. Qed.
Print Assumptions C47_stale_refuted.

(** A field that no reader and printer within their documentation make again: too
    few digits of the enclosure are written. *)
Theorem C47_digits_refuted : (forall a d, d <> 0%Z -> zeval far_pol (IZR a / IZR d) <> 0) /\
  (forall zd, make_str dyops true zd dec_read 50 2 far_text (lit "x") (lit "0.125 +/- 0.000000000000000000001") 64 = Val (Ret (pl_nf far_place), O)) /\
  forall o, arb_ok o -> forall debug zd, zero_den_ok zd -> forall read, read_ok read -> forall show, show_ok show ->
  forall pp, print_ok pp -> forall fuel n nf k, remade o debug zd read fuel show pp n far_place <> Val (Ret nf, k).
Proof. exact (conj far_irrational (conj far_made far_not_back)). Qed.
Print Assumptions C47_digits_refuted.

Example C47_digits_case : remade dyops true zd0 dec_read 50 dec_show print_elem 2 far_place = Val (Throw, 2%nat).
Proof. exact far_throws. Qed.
