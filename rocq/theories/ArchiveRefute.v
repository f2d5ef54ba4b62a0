(** Archives: what goes wrong (C47). *)
Require Import Reals List ZArith Bool Lia Lra Ascii String.
From Verif Require Import PolyR RootSpec RootModel VcaProofs Dyadic DyadicProofs ArbModel ArbSpec ArbProofs FieldProofs RefineProofs
  DyBall DyBallProofs ElemModel ElemSpec ElemProofs NfArith NfArithProofs ElemRefute GetdModel StrModel StrSpec StrProofs StrMore StrRefute
  CxxModel MakeModel MakeSpec MakeText MakeProofs MakeRefute ArchiveProofs.
Import ListNotations.
Open Scope R_scope.

Definition zd0 : Z -> out (option (Z * Z)) := fun _ => Val None.
Definition gen_elem : elem := {| e_num := [0; 1]; e_den := 1 |}%Z.
Definition load_fresh (l : list (place * elem)) :=
  load_all dyops true zd0 dec_read 50 nfc 2 (List.length l) {| ld_pool := []; ld_ids := [] |} (save_all dec_show print_elem print_elem [] l).

(** ** An address used twice *)
Definition cube3_nf : renf :=
  {| f_pol := [-3; 0; 0; 1]; f_den := 1; f_emb := Fin (189037, -17) (1, -10); f_prec := 8; f_imm := 0 |}%Z.
Definition place2 (a : nat) : place := {| pl_addr := a; pl_name := lit "x"; pl_nf := cube_made |}.
Definition place3 (a : nat) : place := {| pl_addr := a; pl_name := lit "x"; pl_nf := cube3_nf |}.
Definition back2 : renf :=
  {| f_pol := cube_pol; f_den := 1; f_emb := Fin (42276053, -25) (998810606, -46); f_prec := 8; f_imm := 0 |}%Z.
Definition back3 : renf :=
  {| f_pol := [-3; 0; 0; 1]; f_den := 1; f_emb := Fin (48394392, -25) (673337328, -44); f_prec := 8; f_imm := 0 |}%Z.

(** The second field is made at the address of the first one, which is gone by
    then: its generator is loaded as the generator of the first field. *)
Lemma archive_stale : exists p q ld, pl_addr p = pl_addr q /\ f_pol (pl_nf p) = cube_pol /\ f_pol (pl_nf q) = [-3; 0; 0; 1]%Z /\
  load_fresh [(p, gen_elem); (q, gen_elem)] = Val (Ret ([(O, gen_elem); (O, gen_elem)], ld)) /\
  exists nf, nth_error (ld_pool ld) 0 = Some (pl_name q, nf) /\ f_pol nf = cube_pol.
Proof.
  exists (place2 7), (place3 7), {| ld_pool := [(lit "x", back2)]; ld_ids := [(1, 0)]%nat |}.
  split; [reflexivity|]. split; [reflexivity|]. split; [reflexivity|]. split; [vm_compute; reflexivity|].
  exists back2. split; reflexivity.
Qed.

(** ** A field that is not made from its own texts *)
Definition far_pol : list Z := [-49499999999999999999999; 1176000000000000000000000; -9240000000000000000000000; 24000000000000000000000000]%Z.
Definition far_text : str := lit "24000000000000000000000000*x^3 - 9240000000000000000000000*x^2 + 1176000000000000000000000*x - 49499999999999999999999".
Definition far_nf : renf :=
  {| f_pol := far_pol; f_den := 1; f_emb := Fin (9223372036854775808, -66) (633825301, -99); f_prec := 64; f_imm := 0 |}%Z.
Definition far_place : place := {| pl_addr := O; pl_name := lit "x"; pl_nf := far_nf |}.

Lemma far_made : forall zd, make_str dyops true zd dec_read 50 2 far_text (lit "x") (lit "0.125 +/- 0.000000000000000000001") 64 = Val (Ret far_nf, O).
Proof. intros. vm_compute. reflexivity. Qed.

Lemma far_eval : forall y, zeval far_pol y = 300000000000000000000 * ((100 * y - 11) * (100 * y - 15) * (8 * y - 1)) + 1.
Proof. intros y. unfold zeval, far_pol. cbn [map peval]. ring. Qed.

(** The polynomial has no rational root, so it is irreducible. *)
Lemma far_irrational : forall a d, d <> 0%Z -> zeval far_pol (IZR a / IZR d) <> 0.
Proof.
  intros a0 d0 Hd0 E0.
  assert (K : exists a d, d <> 0%Z /\ Z.gcd a d = 1%Z /\ zeval far_pol (IZR a / IZR d) = 0).
  { set (g := Z.gcd a0 d0). assert (Hg : g <> 0%Z) by (intros G; apply Z.gcd_eq_0_r in G; contradiction).
    destruct (Z.gcd_divide_l a0 d0) as [a Ea]. destruct (Z.gcd_divide_r a0 d0) as [d Ed]. fold g in Ea, Ed.
    exists a, d. assert (Hd : d <> 0%Z) by (intros ->; apply Hd0; rewrite Ed; reflexivity). split; [exact Hd|]. split.
    - assert (G : Z.gcd (a * g) (d * g) = g) by (rewrite <- Ea, <- Ed; reflexivity).
      assert (Hg0 : (0 <= g)%Z) by apply Z.gcd_nonneg. rewrite Z.gcd_mul_mono_r_nonneg in G by exact Hg0. nia.
    - rewrite <- E0. f_equal. rewrite Ea, Ed, !mult_IZR. field. split; apply not_0_IZR; assumption. }
  destruct K as (a & d & Hd & Hg & E). rewrite far_eval in E.
  assert (E2 : (300000000000000000000 * ((100 * a - 11 * d) * (100 * a - 15 * d) * (8 * a - d)) + d * d * d = 0)%Z).
  { apply eq_IZR. rewrite plus_IZR, !mult_IZR, !minus_IZR, !mult_IZR. pose proof (not_0_IZR _ Hd) as Hd'.
    replace (300000000000000000000 * ((100 * IZR a - 11 * IZR d) * (100 * IZR a - 15 * IZR d) * (8 * IZR a - IZR d)) + IZR d * IZR d * IZR d)
      with (IZR d * IZR d * IZR d * (300000000000000000000 * ((100 * (IZR a / IZR d) - 11) * (100 * (IZR a / IZR d) - 15) * (8 * (IZR a / IZR d) - 1)) + 1))
      by (field; exact Hd'). rewrite E. ring. }
  assert (C3 : forall z, (3 | z * z * z)%Z -> (3 | z)%Z).
  { intros z H. apply Znumtheory.prime_mult in H; [|exact Znumtheory.prime_3]. destruct H as [H|H]; [|exact H].
    apply Znumtheory.prime_mult in H; [|exact Znumtheory.prime_3]. destruct H; assumption. }
  assert (D3 : (3 | d)%Z).
  { apply C3. exists (- (100000000000000000000 * ((100 * a - 11 * d) * (100 * a - 15 * d) * (8 * a - d))))%Z. lia. }
  destruct D3 as [e Ee]. subst d.
  assert (A3 : (3 | a)%Z).
  { apply C3. apply (Z.gauss 3 8000000000000000000000000 (a * a * a)); [|reflexivity].
    exists (- (100000000000000000000 * (- 30800 * a * a * e + 3920 * 3 * a * e * e - 165 * 9 * e * e * e) + 3 * e * e * e))%Z. nia. }
  assert (G : (3 | Z.gcd a (e * 3))%Z) by (apply Z.gcd_greatest; [exact A3|exists e; reflexivity]).
  rewrite Hg in G. apply Z.divide_1_r_nonneg in G; lia.
Qed.

Lemma far_root (l r : R) : l < r -> zeval far_pol l * zeval far_pol r < 0 -> exists x, l < x < r /\ zeval far_pol x = 0.
Proof. intros H E. apply (peval_ivt (map IZR far_pol)); assumption. Qed.

(** Decimal numbers with one digit. *)
Lemma one_digit : forall d k, (Z.abs d < 10)%Z -> IZR d * powerRZ 10 k <= 1 / 10 \/ 2 / 10 <= IZR d * powerRZ 10 k.
Proof.
  intros d k Hd. destruct (Z.le_gt_cases d 0) as [H|H].
  { left. apply IZR_le in H. pose proof (ten_pos k). nra. }
  pose proof (IZR_le 1 d ltac:(lia)) as H1. pose proof (IZR_le d 9 ltac:(lia)) as H9.
  destruct (Z.lt_trichotomy k (-1)) as [K|[->|K]].
  - left. assert (P : powerRZ 10 k <= 1 / 100).
    { replace k with (-2 + (k + 2))%Z by lia. rewrite ten_add.
      assert (Q : powerRZ 10 (k + 2) <= 1).
      { pose proof (ten_inv (k + 2)) as I. rewrite <- (ten_pow (- (k + 2))) in I by lia.
        assert (1 <= 10 ^ (- (k + 2)))%Z by (pose proof (Z.pow_pos_nonneg 10 (- (k + 2))); lia).
        apply IZR_le in H0. pose proof (ten_pos (k + 2)). nra. }
      change (powerRZ 10 (-2)) with (/ 10 ^ 2). lra. }
    pose proof (ten_pos k). nra.
  - change (powerRZ 10 (-1)) with (/ 10 ^ 1).
    destruct (Z.eq_dec d 1) as [->|N]; [left; lra|right]. pose proof (IZR_le 2 d ltac:(lia)). lra.
  - right. rewrite <- ten_pow by lia. assert (1 <= 10 ^ k)%Z by (pose proof (Z.pow_pos_nonneg 10 k); lia).
    apply IZR_le in H0. nra.
Qed.

(** Whatever printer and reader within the documentation: the printed ball
    contains two roots, and the field is not made. *)
Lemma far_not_back : forall o, arb_ok o -> forall debug zd, zero_den_ok zd -> forall read, read_ok read -> forall show, show_ok show ->
  forall pp, print_ok pp -> forall fuel n nf k, remade o debug zd read fuel show pp n far_place <> Val (Ret nf, k).
Proof.
  intros o Ho debug zd Hzd read Hrd show Hsh pp Hpp fuel n nf k E.
  unfold remade, construction in E. cbn [far_place pl_name pl_nf] in E.
  assert (Hlow : lowest_terms (pol_of far_nf)).
  { constructor; cbn [pol_of far_nf e_num e_den f_pol f_den].
    - lia.
    - cbn. discriminate.
    - intros g G D _. apply Z.divide_1_r_nonneg in D; lia. }
  pose proof (poly_back zd pp Hpp far_place name_x Hlow ltac:(vm_compute; discriminate)) as Es.
  cbn [far_place pl_name pl_nf] in Es.
  destruct (make_returns o debug zd read Ho Hzd fuel n _ _ _ _ nf k E)
    as (_ & ts & q & b & Hf & Hq & _ & Hb & _ & _ & _ & _ & Huni & _ & _).
  assert (Eq : e_num q = far_pol).
  { destruct (set_str_value zd true _ _ ts name_x Hf) as (q2 & Es2 & L2 & W2). rewrite Es in Es2. injection Es2 as <-.
    destruct Hq as [Lq Wq]. rewrite (lowest_unique q (pol_of far_nf) Lq Hlow); [reflexivity|]. intros y. rewrite Wq, <- W2. reflexivity. }
  rewrite Eq in Huni.
  (* the three roots *)
  destruct (far_root (1 / 10) (12 / 100)) as (u & Hu & Zu); [lra|rewrite !far_eval; lra|].
  destruct (far_root (13 / 100) (2 / 10)) as (v & Hv & Zv); [lra|rewrite !far_eval; lra|].
  destruct (far_root (1 / 8 - 1 / 1000000000000000000000) (1 / 8 + 1 / 1000000000000000000000)) as (w & Hw & Zw); [lra|rewrite !far_eval; lra|].
  assert (Hwb : inb w (f_emb far_nf)).
  { cbn [far_nf f_emb]. unfold inb, dyv. cbn [fst snd].
    change (-66)%Z with (- (66))%Z. change (-99)%Z with (- (99))%Z. rewrite !pw2_neg by lia.
    change (2 ^ 66)%Z with 73786976294838206464%Z. change (2 ^ 99)%Z with 633825300114114700748351602688%Z.
    unfold Rabs. destruct (Rcase_abs _); lra. }
  destruct (Hsh (f_emb far_nf) (mid_bits (f_emb far_nf)) ltac:(vm_compute; discriminate) eq_refl (ex_intro _ w Hwb))
    as (t & Et & Enc & d & j & Ed & Hd).
  assert (Hd1 : (Z.abs d < 10)%Z) by (replace (10 ^ mid_bits (f_emb far_nf))%Z with 10%Z in Hd by (vm_compute; reflexivity); exact Hd).
  destruct (Hrd _ t 64%Z ltac:(lia) Et) as (b' & Eb & Inc). cbn [far_nf f_prec] in Hb. rewrite Eb in Hb. injection Hb as ->.
  pose proof (Enc w Hwb) as Tw. pose proof (Inc w Tw) as Bw.
  unfold in_text in Tw. rewrite Ed in Tw.
  destruct (one_digit d j Hd1) as [Hc|Hc].
  - assert (Bu : inb u b).
    { apply Inc. unfold in_text. rewrite Ed. revert Tw. unfold Rabs. repeat destruct (Rcase_abs _); lra. }
    pose proof (Huni u w Bu Bw Zu Zw). lra.
  - assert (Bv : inb v b).
    { apply Inc. unfold in_text. rewrite Ed. revert Tw. unfold Rabs. repeat destruct (Rcase_abs _); lra. }
    pose proof (Huni v w Bv Bw Zv Zw). lra.
Qed.

Lemma far_throws : remade dyops true zd0 dec_read 50 dec_show print_elem 2 far_place = Val (Throw, 2%nat).
Proof. vm_compute. reflexivity. Qed.

(** ** An archive that is loaded back *)
Definition half_square : elem := {| e_num := [1; 0; 3]; e_den := 2 |}%Z.
Definition placey (a : nat) : place := {| pl_addr := a; pl_name := lit "y"; pl_nf := cube_made |}.
Definition mixed : list (place * elem) := [(place2 7, gen_elem); (placey 8, half_square); (place2 7, half_square)].
Definition mixed_back (a : nat) : str * renf := (if Nat.eqb a 7 then lit "x" else lit "y", back2).
Lemma mixed_sound : Forall (sound dyops true zd0 dec_read 50 dec_show print_elem nfc mixed_back 2) mixed /\ apart mixed_back mixed.
Proof.
  destruct cube_root as (z & _ & Ez).
  assert (Hops : minimal cube_pol z /\ nf_ok cube_pol z (nfc cube_pol)) by (split; [apply cube_minimal, Ez|apply nfc_ok, cube_minimal, Ez]).
  assert (Hlow : lowest_terms (pol_of cube_made)).
  { constructor; cbn [pol_of cube_made e_num e_den f_pol f_den]; [lia|cbn; discriminate|].
    intros g G D _. apply Z.divide_1_r_nonneg in D; lia. }
  assert (Cg : canon cube_pol gen_elem).
  { constructor; cbn; try lia. intros g G D _. apply Z.divide_1_r_nonneg in D; lia. }
  assert (Ch : canon cube_pol half_square).
  { constructor; cbn; try lia. intros g G D H. pose proof (H 1%Z (or_introl eq_refl)) as D1. apply Z.divide_1_r_nonneg in D1; lia. }
  assert (Ny : name (lit "y")) by (split; [left; reflexivity|constructor]).
  split.
  - repeat (apply Forall_cons; [constructor; cbn [fst snd place2 placey pl_name pl_nf pl_addr cube_made f_pol]; try assumption; try exact name_x;
      [vm_compute; discriminate|exists z; exact Hops|exists O; vm_compute; reflexivity|reflexivity]|]). apply Forall_nil.
  - intros x y Hx Hy. unfold mixed in *. cbn [In] in *.
    decompose [or False] Hx; decompose [or False] Hy; subst; cbn [fst place2 placey pl_addr]; intros N; try congruence; first [right; vm_compute; reflexivity | left; vm_compute; discriminate].
Qed.

Lemma field_back_case : exists z, let p := place2 7 in name (pl_name p) /\ lowest_terms (pol_of (pl_nf p)) /\
  inb z (f_emb (pl_nf p)) /\ (exists mid rad, f_emb (pl_nf p) = Fin mid rad /\ fst mid <> 0%Z) /\ (2 <= f_prec (pl_nf p))%Z /\
  simple_root (f_pol (pl_nf p)) z /\ safe_balls dyops (f_pol (pl_nf p)) z (fun _ => True) /\
  remade dyops true zd0 dec_read 50 dec_show print_elem 2 p = Val (Ret back2, O).
Proof.
  destruct (peval_ivt (map IZR cube_pol) (1258 / 1000) (1261 / 1000)) as (z & Hz & E); [lra|simpl; lra|].
  exists z. cbn [place2 pl_name pl_nf]. split; [exact name_x|].
  assert (E' : z * z * z = 2) by (simpl in E; lra). split; [|split; [|split; [|split; [|split; [|split]]]]].
  - constructor; cbn [pol_of cube_made e_num e_den f_pol f_den]; [lia|cbn; discriminate|].
    intros g G D _. apply Z.divide_1_r_nonneg in D; lia.
  - cbn [cube_made f_emb]. unfold inb, dyv. cbn [fst snd].
    change (-17)%Z with (- (17))%Z. change (-38)%Z with (- (38))%Z. rewrite !pw2_neg by lia.
    change (2 ^ 17)%Z with 131072%Z. change (2 ^ 38)%Z with 274877906944%Z. unfold Rabs. destruct (Rcase_abs _); lra.
  - exists (fst (match f_emb cube_made with Fin m r => (m, r) | Top => ((0, 0)%Z, (0, 0)%Z) end)), (snd (match f_emb cube_made with Fin m r => (m, r) | Top => ((0, 0)%Z, (0, 0)%Z) end)). split; [reflexivity|vm_compute; discriminate].
  - cbn. lia.
  - split; [exact E|]. simpl. nra.
  - apply cube_safe, E'.
  - vm_compute. reflexivity.
Qed.
