(** Programs on which the C++ interface goes wrong, and an example program. *)
Require Import Reals List ZArith Bool Lia Lra Psatz.
From Verif Require Import PolyR RootSpec RootModel ExtraModel VcaProofs Dyadic DyadicProofs ArbModel ArbSpec ArbProofs
  FieldProofs RefineProofs ArbRefute DyBall DyBallProofs ElemModel ElemSpec ElemProofs ElemLoops ElemHist NfArith NfArithProofs ElemMore ElemRefute
  CxxModel CxxSpec CxxProofs CxxSound.
Import ListNotations.
Open Scope R_scope.

(** A world in which each field has just been made from a ball with exactly one
    root, and all objects are the zero of the rational field. *)
Definition fresh (pol : nat -> list Z) (x : nat -> R) (w : world) : Prop :=
  (forall f, minimal (pol f) (x f) /\ exists a, inb (x f) a /\ (forall z, inb z a -> zeval (pol f) z = 0 -> z = x f) /\
     renf_init dyops true 100 (pol f) 1 a 64 = Val (w_fields w f)) /\
  forall i, w_objs w i = zero_in 0.

Lemma fresh_exact : forall pol x w, (forall f, f_pol (w_fields w f) = pol f) -> fresh pol x w -> exact_world pol w.
Proof.
  intros pol x w P [F O]. constructor; [exact P|].
  intros i. unfold num_of, val, fld. rewrite O. cbn. apply (canon_zero (pol 0%nat) (x 0%nat)). apply F.
Qed.

(** The rational field: a - 1 in the ball 1 +/- 1. *)
Definition one_pol : list Z := [-1; 1]%Z.
Definition one_nf : renf := {| f_pol := one_pol; f_den := 1; f_emb := Fin (1, 0) (1, 0); f_prec := 64; f_imm := 0 |}%Z.
Lemma one_minimal : minimal one_pol 1.
Proof.
  constructor; [unfold zeval; simpl; lra|cbn; lia|cbn; lia|]. intros p L E. destruct p as [|a [|? ?]]; [constructor| |cbn in L; lia].
  rewrite zeval_cons, zeval_nil in E. constructor; [|constructor]. apply eq_IZR. lra.
Qed.
Lemma one_root : forall z, zeval one_pol z = 0 -> z = 1.
Proof. intros z H. unfold zeval, one_pol in H. simpl in H. lra. Qed.
Lemma one_in : inb 1 (Fin (1, 0) (1, 0))%Z.
Proof. apply inb_bounds. rewrite !dyv_int. lra. Qed.
Lemma one_init : renf_init dyops true 100 one_pol 1 (Fin (1, 0) (1, 0))%Z 64 = Val one_nf.
Proof. vm_compute. reflexivity. Qed.

(** * Order (C40) *)
Definition jpols (f : nat) : list Z := if Nat.eqb f 1 then jpol else one_pol.
Definition jprog : list xcall := [XRefine 1 128; XGen 0 1; XMakeMpq 1 1 (20 * jG + 7) 20]%Z.

Definition jq : elem := {| e_num := [20 * jG + 7]; e_den := 20 |}%Z.
Lemma jq_val : forall x, ev x jq = IZR jG + 7 / 20.
Proof. intros x. unfold ev, jq. cbn [e_num e_den]. rewrite zeval_cons, zeval_nil, plus_IZR, mult_IZR. field. Qed.

Lemma order_refuted : exists pol x w l w' w'' b, fresh pol x w /\ Forall xcall_ok l /\
  xruns dyops nfc true 100 false w l = Val w' /\ rel_objs dyops nfc true 100 RLt w' 0 1 = Val (Ret (w'', b)) /\
  ~ (b = true <-> value x w' 0 < value x w' 1).
Proof.
  destruct jroot as (x & Hx & Zx). pose proof jbad_eq as Jb.
  destruct (renf_init dyops true 100 jpol 1 jball 64) as [nf| | |] eqn:In; cbn [bind] in Jb; try discriminate Jb.
  pose (w := {| w_fields := fun f => if Nat.eqb f 1 then nf else one_nf; w_objs := fun _ => zero_in 0 |}).
  pose (w1 := set_field w 1 jbad). pose (xs := fun f : nat => if Nat.eqb f 1 then x else 1).
  assert (R1 : xruns dyops nfc true 100 false w jprog = xruns dyops nfc true 100 false w1 (tl jprog)).
  { unfold jprog. cbn [tl]. cbn [xruns xrun]. change (w_fields w 1%nat) with nf. rewrite Jb. reflexivity. }
  pose (look := fun r => match r with
    | Val v => match rel_objs dyops nfc true 100 RLt v 0 1 with
      | Val (Ret (_, b)) => Some (fld v 0, num_of v 0, fld v 1, num_of v 1, b) | _ => None end
    | _ => None end).
  assert (L : look (xruns dyops nfc true 100 false w1 (tl jprog)) =
    Some (1%nat, jg, 1%nat, jq, true)) by calc.
  rewrite <- R1 in L. destruct (xruns dyops nfc true 100 false w jprog) as [w'| | |] eqn:Run; try discriminate L. unfold look in L.
  destruct (rel_objs dyops nfc true 100 RLt w' 0 1) as [[[w'' b]|]| | |] eqn:Rl; try discriminate L.
  injection L as F0 N0 F1 N1 ->.
  exists jpols, xs, w, jprog, w', w'', true. split; [|split; [|split; [exact Run|split; [exact Rl|]]]].
  - split; [|reflexivity]. intros f. unfold jpols, xs, w. cbn [w_fields]. destruct (Nat.eqb f 1).
    + split; [apply jminimal; exact Zx|]. exists jball. split; [apply jin; pose proof jtiny; lra|].
      split; [apply junique; [lra|exact Zx]|exact In].
    + split; [exact one_minimal|]. eexists. split; [exact one_in|]. split; [intros z _; apply one_root|exact one_init].
  - unfold jprog. repeat constructor.
  - unfold value. rewrite F0, N0, F1, N1. cbn [xs Nat.eqb]. rewrite jg_val, jq_val. intros [H _]. specialize (H eq_refl). lra.
Qed.

(** * Floor division (C43): Q(sqrt 2) and Q(sqrt 6) *)
Definition spol (f : nat) : list Z := match f with O => one_pol | S O => [-2; 0; 1]%Z | _ => [-6; 0; 1]%Z end.
Definition sx (f : nat) : R := match f with O => 1 | S O => sqrt 2 | _ => sqrt 6 end.
Definition sball (f : nat) : ball := match f with O => Fin (1, 0) (1, 0) | S O => Fin (3, -1) (1, -1) | _ => Fin (5, -1) (1, -1) end%Z.

Lemma sq_minimal : forall m z, Z.odd m = true -> z * z = IZR (2 * m) -> minimal [- (2 * m); 0; 1]%Z z.
Proof.
  intros m z Hm Hz. constructor; [|cbn; lia|cbn; lia|].
  - rewrite !zeval_cons, zeval_nil, opp_IZR, <- Hz. ring.
  - intros p L E. destruct p as [|a [|b [|? ?]]]; [constructor| | |cbn in L; lia].
    + rewrite zeval_cons, zeval_nil in E. constructor; [|constructor]. apply eq_IZR. lra.
    + rewrite !zeval_cons, zeval_nil in E. assert (B : b = 0%Z).
      { apply (square_descent m Hm a b). apply eq_IZR. rewrite !mult_IZR in *. replace (IZR a) with (- (IZR b * z)) by lra.
        replace (- (IZR b * z) * - (IZR b * z)) with (z * z * (IZR b * IZR b)) by ring. rewrite Hz. ring. }
      subst b. repeat constructor. apply eq_IZR. lra.
Qed.
Lemma sq_unique : forall a z y, 0 < z -> 0 < y -> z * z = a -> y * y = a -> y = z.
Proof. intros a z y Hz Hy E1 E2. assert (E : (y - z) * (y + z) = 0) by lra. apply Rmult_integral in E. destruct E; lra. Qed.

Lemma sqrt_2 : 0 < sqrt 2 /\ sqrt 2 * sqrt 2 = 2.
Proof. split; [apply sqrt_lt_R0; lra|apply sqrt_sqrt; lra]. Qed.
Lemma sqrt_6 : 0 < sqrt 6 /\ sqrt 6 * sqrt 6 = 6.
Proof. split; [apply sqrt_lt_R0; lra|apply sqrt_sqrt; lra]. Qed.

Lemma sminimal : forall f, minimal (spol f) (sx f).
Proof.
  intros [|[|f]]; cbn [spol sx]; [exact one_minimal|apply (sq_minimal 1); [reflexivity|apply sqrt_2]|apply (sq_minimal 3); [reflexivity|apply sqrt_6]].
Qed.

Lemma in_half : forall m x, inb x (Fin (m, -1) (1, -1))%Z <-> (IZR m - 1) / 2 <= x <= (IZR m + 1) / 2.
Proof.
  intros m x. rewrite inb_bounds. change (-1)%Z with (- (1))%Z. rewrite !(dyv_neg_exp _ 1) by lia. change (2 ^ 1)%Z with 2%Z. lra.
Qed.

Lemma sfields : forall f, inb (sx f) (sball f) /\ forall z, inb z (sball f) -> zeval (spol f) z = 0 -> z = sx f.
Proof.
  destruct sqrt_2 as [P2 E2]. destruct sqrt_6 as [P6 E6].
  intros [|[|f]]; cbn [spol sx sball].
  - split; [exact one_in|intros z _; apply one_root].
  - rewrite in_half. split; [nra|]. intros z Hz Z. apply in_half in Hz. apply (sq_unique 2); [exact P2|lra|exact E2|].
    rewrite !zeval_cons, zeval_nil in Z. lra.
  - rewrite in_half. split; [nra|]. intros z Hz Z. apply in_half in Hz. apply (sq_unique 6); [exact P6|lra|exact E6|].
    rewrite !zeval_cons, zeval_nil in Z. lra.
Qed.

Definition sfield (f : nat) : renf :=
  match renf_init dyops true 100 (spol f) 1 (sball f) 64 with Val nf => nf | _ => one_nf end.
Definition sworld : world := {| w_fields := sfield; w_objs := fun _ => zero_in 0 |}.

Lemma sfield_init : forall f, renf_init dyops true 100 (spol f) 1 (sball f) 64 = Val (sfield f).
Proof.
  assert (H : forall f, (exists nf, renf_init dyops true 100 (spol f) 1 (sball f) 64 = Val nf) ->
    renf_init dyops true 100 (spol f) 1 (sball f) 64 = Val (sfield f)) by (intros f [nf E]; unfold sfield; rewrite E; reflexivity).
  intros f. apply H. destruct f as [|[|f]]; cbn [spol sball]; eexists; vm_compute; reflexivity.
Qed.

Lemma sworld_fresh : fresh spol sx sworld.
Proof.
  split; [|reflexivity]. intros f. split; [apply sminimal|]. exists (sball f). destruct (sfields f) as [A B].
  split; [exact A|]. split; [exact B|apply sfield_init].
Qed.

Definition sprog : list xcall := [XGen 0 1; XGen 1 2].
Definition sgen : elem := {| e_num := [0; 1]; e_den := 1 |}%Z.

Lemma sgen_val : forall x, ev x sgen = x.
Proof. exact jg_val. Qed.

Lemma floordiv_refuted : exists pol x w l w' w'' z, fresh pol x w /\ Forall xcall_ok l /\
  xruns dyops nfc true 100 false w l = Val w' /\
  fld w' 0 <> fld w' 1 /\ ~ rational (value x w' 0) /\ ~ rational (value x w' 1) /\
  floordiv dyops nfc true 100 false w' 0 1 = Val (Ret (w'', z)) /\ ~ is_floor (value x w' 0 / value x w' 1) z.
Proof.
  pose (look := fun r => match r with
    | Val v => match floordiv dyops nfc true 100 false v 0 1 with
      | Val (Ret (_, z)) => Some (fld v 0, num_of v 0, fld v 1, num_of v 1, z) | _ => None end
    | _ => None end).
  assert (L : look (xruns dyops nfc true 100 false sworld sprog) = Some (1%nat, sgen, 2%nat, sgen, 1%Z)) by calc.
  destruct (xruns dyops nfc true 100 false sworld sprog) as [w'| | |] eqn:Run; try discriminate L. unfold look in L.
  destruct (floordiv dyops nfc true 100 false w' 0 1) as [[[w'' z]|]| | |] eqn:Fl; try discriminate L.
  injection L as F0 N0 F1 N1 ->. destruct sqrt_2 as [P2 E2]. destruct sqrt_6 as [P6 E6].
  assert (P : forall f, f_pol (sfield f) = spol f) by (intros [|[|f]]; vm_compute; reflexivity).
  assert (Ok : Forall xcall_ok sprog) by (repeat constructor).
  assert (E : exact_world spol w').
  { apply (xruns_exact dyops nfc true 100 spol sx sminimal (fun f => nfc_ok _ _ (sminimal f)) false sprog sworld w'); [|exact Ok|exact Run].
    apply (fresh_exact spol sx); [exact P|exact sworld_fresh]. }
  exists spol, sx, sworld, sprog, w', w'', 1%Z. split; [exact sworld_fresh|]. split; [exact Ok|]. split; [exact Run|].
  split; [congruence|]. split; [apply (not_rational spol sx sminimal w' 0 E); rewrite N0; reflexivity|].
  split; [apply (not_rational spol sx sminimal w' 1 E); rewrite N1; reflexivity|]. split; [exact Fl|].
  unfold value. rewrite F0, N0, F1, N1, !sgen_val. cbn [sx]. intros [A B].
  assert (sqrt 6 <= sqrt 2); [|nra]. replace (sqrt 2) with (sqrt 2 / sqrt 6 * sqrt 6) by (field; lra). nra.
Qed.

(** The square root of 2 by the cube root of 2: elements stored in different
    ways are confused. *)
Definition upol (f : nat) : list Z := match f with O | S O => spol f | _ => cube_pol end.
Definition ucube : renf :=
  match renf_init dyops true 100 cube_pol 1 (Fin (3, -1) (1, -1))%Z 64 with Val nf => nf | _ => one_nf end.
Definition ufield (f : nat) : renf := match f with O | S O => sfield f | _ => ucube end.
Definition uworld : world := {| w_fields := ufield; w_objs := fun _ => zero_in 0 |}.

Lemma floordiv_undef : exists pol x w l w', fresh pol x w /\ Forall xcall_ok l /\
  xruns dyops nfc true 100 false w l = Val w' /\ value x w' 1 <> 0 /\
  floordiv dyops nfc true 100 false w' 0 1 = Undef.
Proof.
  destruct cube_root as (z & Hz & E).
  assert (Ini : renf_init dyops true 100 cube_pol 1 (Fin (3, -1) (1, -1))%Z 64 = Val ucube) by calc.
  pose (ux := fun f : nat => match f with O | S O => sx f | _ => z end).
  pose (look := fun r => match r with
    | Val v => match floordiv dyops nfc true 100 false v 0 1 with Undef => Some (fld v 1, num_of v 1) | _ => None end
    | _ => None end).
  assert (L : look (xruns dyops nfc true 100 false uworld sprog) = Some (2%nat, sgen)) by calc.
  destruct (xruns dyops nfc true 100 false uworld sprog) as [w'| | |] eqn:Run; try discriminate L. unfold look in L.
  destruct (floordiv dyops nfc true 100 false w' 0 1) as [[[? ?]|]| | |] eqn:Fl; try discriminate L. injection L as F1 N1.
  exists upol, ux, uworld, sprog, w'. split; [|split; [repeat constructor|]].
  - split; [|reflexivity]. destruct sworld_fresh as [F _]. intros [|[|f]]; [exact (F 0%nat)|exact (F 1%nat)|].
    unfold upol, ux, uworld. cbn [w_fields ufield].
    split; [apply cube_minimal; exact E|]. exists (Fin (3, -1) (1, -1))%Z. split; [apply in_half; lra|]. split; [|exact Ini].
    intros y Hy Y. unfold cube_pol in Y. rewrite !zeval_cons, zeval_nil in Y.
    assert (P : (y - z) * (y * y + y * z + z * z) = 0) by lra. apply in_half in Hy. apply Rmult_integral in P. destruct P; [lra|nra].
  - split; [exact Run|]. split; [|exact Fl]. unfold value. rewrite F1, N1, sgen_val. cbn [ux]. lra.
Qed.

(** * Powers (C42) *)
Lemma pow_refuted : exists pol x w l w', fresh pol x w /\ Forall xcall_ok l /\
  xruns dyops nfc true 100 false w l = Val w' /\ value x w' 0 <> 0 /\ in_range Int (low Int) /\
  pow dyops nfc true 100 w' 1 0 (low Int) = Undef.
Proof.
  pose (l := [XMakeInt 0 0 Int 1]%Z).
  assert (L : match xruns dyops nfc true 100 false sworld l with Val v => Some (fld v 0, num_of v 0) | _ => None end =
    Some (0%nat, {| e_num := [1]; e_den := 1 |}%Z)) by calc.
  destruct (xruns dyops nfc true 100 false sworld l) as [w'| | |] eqn:Run; try discriminate L. injection L as F0 N0.
  assert (P : forall f, f_pol (sfield f) = spol f) by (intros [|[|f]]; vm_compute; reflexivity).
  assert (Ok : Forall xcall_ok l) by (constructor; [cbn; lia|constructor]).
  assert (E : exact_world spol w').
  { apply (xruns_exact dyops nfc true 100 spol sx sminimal (fun f => nfc_ok _ _ (sminimal f)) false l sworld w'); [|exact Ok|exact Run].
    apply (fresh_exact spol sx); [exact P|exact sworld_fresh]. }
  assert (V : value sx w' 0 <> 0).
  { unfold value. rewrite F0, N0. unfold ev. cbn [e_num e_den sx]. rewrite zeval_cons, zeval_nil. lra. }
  exists spol, sx, sworld, l, w'. split; [exact sworld_fresh|]. split; [exact Ok|]. split; [exact Run|]. split; [exact V|].
  split; [cbn; lia|]. apply (pow_undef dyops nfc true 100 spol sx sminimal (fun f => nfc_ok _ _ (sminimal f)) w' 1 0 E); [discriminate|exact V].
Qed.

(** * Example: 3 in the rational field (object 1), 2^(1/3) in field 1 (object 0)
      and in every other field (object 2), 5/7 in field 1 (object 3) *)
Definition epol (f : nat) : list Z := if Nat.eqb f 0 then one_pol else cube_pol.
Definition ex (z : R) (f : nat) : R := if Nat.eqb f 0 then 1 else z.
Definition eworld : world :=
  {| w_fields := fun f => if Nat.eqb f 0 then one_nf else cube_nf;
     w_objs := fun i => match i with
       | O => {| ob_field := 1; ob_val := {| r_elem := sgen; r_emb := f_emb cube_nf |} |}
       | S O => {| ob_field := 0; ob_val := {| r_elem := {| e_num := [3]; e_den := 1 |}; r_emb := bint 3 |} |}
       | S (S O) => {| ob_field := 2; ob_val := {| r_elem := sgen; r_emb := f_emb cube_nf |} |}
       | S (S (S O)) => {| ob_field := 1; ob_val := {| r_elem := {| e_num := [5]; e_den := 7 |}; r_emb := Fin (1, 0) (1, -1) |} |}
       | _ => zero_in 0
       end |}%Z.

Lemma eminimal : forall z, z * z * z = 2 -> forall f, minimal (epol f) (ex z f).
Proof. intros z Hz f. unfold epol, ex. destruct (Nat.eqb f 0); [exact one_minimal|apply cube_minimal; exact Hz]. Qed.
Lemma esetting : forall z, z * z * z = 2 -> forall f, setting dyops (nfc (epol f)) (epol f) (ex z f) (fun _ => True).
Proof.
  intros z Hz f. unfold epol, ex. destruct (Nat.eqb f 0); [|apply cube_setting; exact Hz].
  constructor; [exact dyops_ok|exact one_minimal|apply nfc_ok, one_minimal|apply single_root_safe; [apply (min_root _ _ one_minimal)|exact one_root]].
Qed.
Lemma eworld_sound : forall z, 1 < z < 2 -> z * z * z = 2 -> sound_world epol (ex z) (fun _ _ => True) eworld.
Proof.
  intros z Hz E. assert (B : inb z (f_emb cube_nf)) by (apply (cube_field_ok z Hz E)).
  assert (G : forall g, elem_ok cube_pol z {| r_elem := sgen; r_emb := f_emb cube_nf |} -> elem_ok (epol (S g)) (ex z (S g)) {| r_elem := sgen; r_emb := f_emb cube_nf |}) by (intros g H; exact H).
  assert (Gs : elem_ok cube_pol z {| r_elem := sgen; r_emb := f_emb cube_nf |}).
  { split; cbn [r_elem r_emb]; [apply canon_intro; cbn; lia|rewrite sgen_val; exact B]. }
  constructor.
  - intros f. unfold epol, ex, eworld. cbn [w_fields]. destruct (Nat.eqb f 0); [|apply cube_field_ok; assumption].
    split; [reflexivity|]. split; [exact one_in|]. split; [exact Logic.I|cbn; lia].
  - intros [|[|[|[|i]]]]; unfold val, fld, eworld; cbn [w_objs ob_field ob_val].
    + apply (G 0%nat Gs).
    + split; cbn [r_elem r_emb]; [apply canon_intro; cbn; lia|]. unfold ev. cbn [e_num e_den]. rewrite zeval_cons, zeval_nil.
      replace ((3 + ex z 0 * 0) / 1) with (IZR 3) by (unfold ex; cbn [Nat.eqb]; lra). apply inb_int.
    + apply (G 1%nat Gs).
    + split; cbn [r_elem r_emb]; [apply canon_intro; cbn; lia|]. unfold ev. cbn [e_num e_den]. rewrite zeval_cons, zeval_nil.
      apply inb_bounds. change (-1)%Z with (- (1))%Z. rewrite dyv_int, (dyv_neg_exp _ 1) by lia. change (2 ^ 1)%Z with 2%Z. lra.
    + split; cbn [r_elem r_emb zero_in ob_val ob_field]; [apply canon_intro; cbn; lia|]. unfold ev. cbn [e_num e_den]. rewrite zeval_nil.
      replace (0 / 1) with 0 by field. apply inb_zero.
Qed.

(** * Floor division of irrational elements of different fields, in general *)
Section Mixed.
Variables (o : arbops) (ops : list Z -> nfops) (debug : bool) (fuel : nat) (pol : nat -> list Z) (x : nat -> R).
Hypothesis Hm : forall f, minimal (pol f) (x f).

Lemma floordiv_falls : forall strict w i j, exact_world pol w -> fld w i <> fld w j -> ~ rational (value x w i) -> ~ rational (value x w j) ->
  floordiv o ops debug fuel strict w i j = fdiv_objs o ops debug fuel w i j.
Proof.
  intros strict w i j E N Ni Nj. unfold floordiv. destruct (Nat.eqb_spec (fld w i) (fld w j)); [contradiction|].
  destruct (is_rational (num_of w j)) eqn:Qj; [apply (rational_iff pol x Hm w j E) in Qj; contradiction|].
  destruct (is_rational (num_of w i)) eqn:Qi; [apply (rational_iff pol x Hm w i E) in Qi; contradiction|]. reflexivity.
Qed.

Lemma floordiv_silent : forall strict w i j, exact_world pol w -> fld w i <> fld w j -> ~ rational (value x w i) -> ~ rational (value x w j) ->
  floordiv o ops debug fuel strict w i j <> Val Throw.
Proof.
  intros strict w i j E N Ni Nj. rewrite floordiv_falls by assumption. unfold fdiv_objs. cbv zeta.
  destruct (negb _); [discriminate|]. destruct (fdiv _ _ _ _ _ _ _ _) as [[[[nf' bi] bj] z]| | |]; cbn [bind]; discriminate.
Qed.

Lemma irrational_degree : forall w i, exact_world pol w -> ~ rational (value x w i) -> (3 <= length (pol (fld w i)))%nat.
Proof.
  intros w i E N. pose proof (can_len _ _ (ew_objs _ _ E i)) as L. destruct (le_lt_dec 3 (length (pol (fld w i)))) as [K|K]; [exact K|exfalso].
  apply N. apply (rational_iff pol x Hm w i E). unfold is_rational. destruct (e_num (num_of w i)) as [|a [|b l]]; try reflexivity. cbn [length] in L. lia.
Qed.

Lemma floordiv_mixed : forall strict w i j, exact_world pol w -> ~ rational (value x w i) -> ~ rational (value x w j) ->
  length (pol (fld w i)) = 3%nat /\ length (pol (fld w j)) <> 3%nat \/ length (pol (fld w i)) <> 3%nat /\ length (pol (fld w j)) = 3%nat ->
  floordiv o ops debug fuel strict w i j = Undef.
Proof.
  intros strict w i j E Ni Nj D. rewrite floordiv_falls by (assumption || intros Q; rewrite Q in D; lia).
  pose proof (irrational_degree w i E Ni). pose proof (irrational_degree w j E Nj).
  unfold fdiv_objs. cbv zeta. rewrite !(ew_fields _ _ E).
  assert (K : forall p, (3 <= length p)%nat -> kind p = if Nat.eqb (length p) 3 then 1%nat else 2%nat).
  { intros p Hp. unfold kind, linear, quadratic. destruct (Nat.leb_spec (length p) 2); [lia|]. reflexivity. }
  rewrite !K by assumption. destruct (Nat.eqb_spec (length (pol (fld w i))) 3), (Nat.eqb_spec (length (pol (fld w j))) 3); try lia; reflexivity.
Qed.
End Mixed.
