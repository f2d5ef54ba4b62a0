(** The ordering functions of the C++ interface, with right enclosures. *)
Require Import Reals List ZArith Bool Lia Lra Arith.
From Verif Require Import PolyR RootSpec RootModel ExtraModel Dyadic DyadicProofs ArbModel ArbSpec ArbProofs
  RefineProofs ElemModel ElemSpec ElemProofs ElemLoops ElemHist ElemMore ElemExact CxxModel CxxSpec CxxProofs.
Import ListNotations.
Open Scope R_scope.

Section Sound.
Variables (o : arbops) (ops : list Z -> nfops) (debug : bool) (fuel : nat) (pol : nat -> list Z) (x : nat -> R) (N : nat -> ball -> Prop).
Hypothesis HS : forall f, setting o (ops (pol f)) (pol f) (x f) (N f).

Notation value := (value x).
Notation exact := (exact_world pol).
Notation sound := (sound_world pol x N).
Notation decides := (decides pol x N).
Notation legal := (legal x).
Notation legal_run := (legal_run o ops debug fuel x).

Let Ho : arb_ok o := st_arb _ _ _ _ _ (HS 0).
Let Hm : forall f, minimal (pol f) (x f) := fun f => st_min _ _ _ _ _ (HS f).
Let Hn : forall f, nf_ok (pol f) (x f) (ops (pol f)) := fun f => st_nf _ _ _ _ _ (HS f).
Let HN : forall f, safe_balls o (pol f) (x f) (N f) := fun f => st_safe _ _ _ _ _ (HS f).
Let HJ : forall f, keeps o debug (pol f) (x f) (on_ball (N f)) := fun f => safe_keeps o debug (pol f) (x f) (N f) Ho (Hm f) (HN f).

Lemma sound_exact : forall w, sound w -> exact w.
Proof. intros w G. constructor; [intros f; apply (sw_fields _ _ _ _ G f)|intros i; apply (sw_objs _ _ _ _ G i)]. Qed.

Lemma set_field_sound : forall w f nf, sound w -> field_ok (pol f) (x f) (N f) nf -> sound (set_field w f nf).
Proof.
  intros w f nf G F. constructor; [|apply (sw_objs _ _ _ _ G)]. intros g. cbn [set_field w_fields].
  destruct (Nat.eqb_spec g f) as [->|]; [exact F|apply (sw_fields _ _ _ _ G)].
Qed.
Lemma set_obj_sound : forall w i y, sound w -> elem_ok (pol (ob_field y)) (x (ob_field y)) (ob_val y) -> sound (set_obj w i y).
Proof.
  intros w i y G E. constructor; [apply (sw_fields _ _ _ _ G)|]. intros h. unfold val, fld, set_obj. cbn [w_objs].
  destruct (Nat.eqb h i); [exact E|apply (sw_objs _ _ _ _ G)].
Qed.
Lemma set_ball_sound : forall w i b, sound w -> inb (value w i) b -> sound (set_ball w i b).
Proof.
  intros w i b G B. apply set_obj_sound; [exact G|]. cbn [ob_field ob_val]. split; [apply (sw_objs _ _ _ _ G i)|exact B].
Qed.

Lemma cmp_objs_ok : forall w i j w' s, sound w -> fld w i = fld w j -> cmp_objs o ops debug fuel w i j = Val (w', s) ->
  sound w' /\ same_objects w w' /\ s = Rsgn (value w i - value w j).
Proof.
  intros w i j w' s G F H. destruct (cmp_objs_exact o ops debug fuel pol w i j w' s (sound_exact w G) H) as [_ Sm].
  unfold cmp_objs in H. cbv zeta in H. set (f := fld w i) in *.
  match type of H with bind ?t _ = _ => destruct t as [[[[nf' bi] bj] s']| | |] eqn:C; try discriminate end.
  cbn [bind] in H. injection H as <- <-. pose proof (sw_fields _ _ _ _ G f) as Gf.
  assert (P : f_pol (w_fields w f) = pol f) by apply Gf. rewrite P in C.
  assert (Gj : elem_ok (pol f) (x f) (val w j)) by (rewrite F; apply (sw_objs _ _ _ _ G j)).
  destruct (cmp_ok o (ops (pol f)) debug (pol f) (x f) (on_ball (N f)) Ho (Hm f) (Hn f) (HJ f) _ _ _ _ _ _ _ _ Gf (sw_objs _ _ _ _ G i) Gj C)
    as (A1 & A2 & A3 & A4 & A5).
  split; [|split; [exact Sm|]].
  - apply set_ball_sound; [apply set_ball_sound; [apply set_field_sound; assumption|exact A3]|].
    unfold CxxSpec.value. rewrite fld_set_ball, num_set_ball, fld_set_field, num_set_field, <- F. exact A4.
  - unfold CxxSpec.value. rewrite <- F. exact A5.
Qed.

Lemma cmp_num_ok : forall w i qn qd w' s, sound w -> (0 < qd)%Z -> cmp_num o ops debug fuel w i qn qd = Val (w', s) ->
  sound w' /\ same_objects w w' /\ s = Rsgn (value w i - IZR qn / IZR qd).
Proof.
  intros w i qn qd w' s G Hq H. destruct (cmp_num_exact o ops debug fuel pol w i qn qd w' s (sound_exact w G) H) as [_ Sm].
  unfold cmp_num in H. cbv zeta in H. set (f := fld w i) in *.
  match type of H with bind ?t _ = _ => destruct t as [[[nf' bi] s']| | |] eqn:C; try discriminate end.
  cbn [bind] in H. injection H as <- <-. pose proof (sw_fields _ _ _ _ G f) as Gf.
  assert (P : f_pol (w_fields w f) = pol f) by apply Gf. rewrite P in C.
  destruct (cmp_q_ok o (ops (pol f)) debug (pol f) (x f) (on_ball (N f)) Ho (Hm f) (Hn f) (HJ f) _ _ _ _ _ _ _ _ Gf (sw_objs _ _ _ _ G i) Hq C)
    as (A1 & A2 & A3 & A4).
  split; [|split; [exact Sm|exact A4]]. apply set_ball_sound; [apply set_field_sound; assumption|exact A3].
Qed.

Lemma Rsgn_lt : forall a b, (Rsgn (a - b) <? 0)%Z = true <-> a < b.
Proof.
  intros a b. rewrite Z.ltb_lt. destruct (Rtotal_order a b) as [L|[E|L]].
  - rewrite Rsgn_neg by lra. split; [intros _; exact L|lia].
  - replace (a - b) with 0 by lra. rewrite Rsgn_0. split; [lia|intros; exfalso; lra].
  - rewrite Rsgn_pos by lra. split; [lia|intros; exfalso; lra].
Qed.
Lemma Rsgn_gt : forall a b, (0 <? Rsgn (a - b))%Z = true <-> b < a.
Proof.
  intros a b. rewrite Z.ltb_lt. destruct (Rtotal_order a b) as [L|[E|L]].
  - rewrite Rsgn_neg by lra. split; [lia|intros; exfalso; lra].
  - replace (a - b) with 0 by lra. rewrite Rsgn_0. split; [lia|intros; exfalso; lra].
  - rewrite Rsgn_pos by lra. split; [intros _; exact L|lia].
Qed.
Lemma Rsgn_sgn_lt : forall a b, (Z.sgn (Rsgn (a - b)) =? -1)%Z = true <-> a < b.
Proof.
  intros a b. rewrite <- Rsgn_lt, Z.eqb_eq, Z.ltb_lt. destruct (Rsgn (a - b)); cbn [Z.sgn]; lia.
Qed.
Lemma Rsgn_sgn_gt : forall a b, (Z.sgn (Rsgn (a - b)) =? 1)%Z = true <-> b < a.
Proof.
  intros a b. rewrite <- Rsgn_gt, Z.eqb_eq, Z.ltb_lt. destruct (Rsgn (a - b)); cbn [Z.sgn]; lia.
Qed.

Lemma decides_iff : forall w w' b P Q, (P <-> Q) -> decides w w' b P -> decides w w' b Q.
Proof. intros w w' b P Q H (A & B & C). split; [exact A|]. split; [exact B|]. rewrite C. exact H. Qed.

Lemma relop_lt_ok : forall w i qn qd w' b, sound w -> (0 < qd)%Z -> relop_mpq o ops debug fuel w i qn qd (-1) = Val (Ret (w', b)) ->
  decides w w' b (value w i < IZR qn / IZR qd).
Proof.
  intros w i qn qd w' b G Hq H. unfold relop_mpq in H. open H. destruct res as [v s]. injection H as <- <-.
  destruct (cmp_num_ok _ _ _ _ _ _ G Hq T) as (A & B & ->). split; [exact A|]. split; [exact B|]. apply Rsgn_sgn_lt.
Qed.
Lemma relop_gt_ok : forall w i qn qd w' b, sound w -> (0 < qd)%Z -> relop_mpq o ops debug fuel w i qn qd 1 = Val (Ret (w', b)) ->
  decides w w' b (IZR qn / IZR qd < value w i).
Proof.
  intros w i qn qd w' b G Hq H. unfold relop_mpq in H. open H. destruct res as [v s]. injection H as <- <-.
  destruct (cmp_num_ok _ _ _ _ _ _ G Hq T) as (A & B & ->). split; [exact A|]. split; [exact B|]. apply Rsgn_sgn_gt.
Qed.

Lemma lt_objs_ok : forall w i j w' b, sound w -> lt_objs o ops debug fuel w i j = Val (Ret (w', b)) ->
  decides w w' b (value w i < value w j).
Proof.
  intros w i j w' b G H. pose proof (sound_exact w G) as E. unfold lt_objs in H. destruct (Nat.eqb_spec (fld w i) (fld w j)) as [F|F].
  { open H. destruct res as [v s]. injection H as <- <-. destruct (cmp_objs_ok _ _ _ _ _ G F T) as (A & B & ->).
    split; [exact A|]. split; [exact B|]. apply Rsgn_lt. }
  destruct (is_rational (num_of w i)) eqn:Qi.
  { destruct (to_mpq_ok debug pol x Hm w i E Qi) as (a & d & T & D & _ & V). rewrite T in H. cbn [bind] in H.
    rewrite V. apply (relop_gt_ok _ _ _ _ _ _ G D H). }
  destruct (is_rational (num_of w j)) eqn:Qj; [|discriminate].
  destruct (to_mpq_ok debug pol x Hm w j E Qj) as (a & d & T & D & _ & V). rewrite T in H. cbn [bind] in H.
  rewrite V. apply (relop_lt_ok _ _ _ _ _ _ G D H).
Qed.

Lemma lt_objs_throws : forall w i j, exact w -> fld w i <> fld w j -> ~ rational (value w i) -> ~ rational (value w j) ->
  lt_objs o ops debug fuel w i j = Val Throw.
Proof.
  intros w i j E F Qi Qj. unfold lt_objs. apply Nat.eqb_neq in F. rewrite F.
  destruct (is_rational (num_of w i)) eqn:A; [apply (rational_iff pol x Hm w i E) in A; contradiction|].
  destruct (is_rational (num_of w j)) eqn:B; [apply (rational_iff pol x Hm w j E) in B; contradiction|]. reflexivity.
Qed.
Lemma lt_objs_throws_only : forall w i j, exact w -> lt_objs o ops debug fuel w i j = Val Throw ->
  fld w i <> fld w j /\ ~ rational (value w i) /\ ~ rational (value w j).
Proof.
  intros w i j E H. unfold lt_objs in H. destruct (Nat.eqb_spec (fld w i) (fld w j)) as [F|F].
  { open H. destruct res. discriminate. }
  destruct (is_rational (num_of w i)) eqn:A.
  { open H. destruct res. unfold relop_mpq in H. open H. destruct res. discriminate. }
  destruct (is_rational (num_of w j)) eqn:B.
  { open H. destruct res. unfold relop_mpq in H. open H. destruct res. discriminate. }
  split; [exact F|]. split; apply (not_rational pol x Hm); assumption.
Qed.

Lemma eq_objs_right : forall w i j w' b, sound w -> eq_objs debug w i j = Val (Ret (w', b)) -> decides w w' b (value w i = value w j).
Proof.
  intros w i j w' b G H. pose proof (sound_exact w G) as E.
  assert (D : fld w i = fld w j \/ rational (value w i) \/ rational (value w j)).
  { destruct (Nat.eq_dec (fld w i) (fld w j)) as [F|F]; [left; exact F|]. right. unfold eq_objs in H.
    apply Nat.eqb_neq in F. rewrite F in H. destruct (is_rational (num_of w i)) eqn:A; [left; apply (rational_iff pol x Hm w i E); exact A|].
    destruct (is_rational (num_of w j)) eqn:B; [right; apply (rational_iff pol x Hm w j E); exact B|discriminate]. }
  destruct (eq_objs_ok debug pol x Hm w i j E D) as (c & Q & V). rewrite Q in H. injection H as <- <-. split; [exact G|]. split; [split; reflexivity|exact V].
Qed.

Lemma flip_ok : forall w w' b P Q (a : out (exc (world * bool))), (~ P <-> Q) -> (forall v c, a = Val (Ret (v, c)) -> decides w v c P) ->
  flip a = Val (Ret (w', b)) -> decides w w' b Q.
Proof.
  intros w w' b P Q a PQ H F. unfold flip in F. opene F. destruct res as [v c]. injection F as <- <-.
  destruct (H _ _ eq_refl) as (A & B & C). split; [exact A|]. split; [exact B|]. rewrite <- PQ, <- C. destruct c; cbn [negb]; split; try congruence; tauto.
Qed.

Lemma rel_objs_ok : forall r w i j w' b, sound w -> rel_objs o ops debug fuel r w i j = Val (Ret (w', b)) ->
  decides w w' b (real_rel r (value w i) (value w j)).
Proof.
  intros r w i j w' b G H. destruct r; cbn [rel_objs real_rel] in *.
  - apply (eq_objs_right _ _ _ _ _ G H).
  - eapply flip_ok; [| |exact H]; [|intros v c Q; apply (eq_objs_right _ _ _ _ _ G Q)]. tauto.
  - apply (lt_objs_ok _ _ _ _ _ G H).
  - apply (lt_objs_ok _ _ _ _ _ G H).
  - eapply flip_ok; [| |exact H]; [|intros v c Q; apply (lt_objs_ok _ _ _ _ _ G Q)]. split; lra.
  - eapply flip_ok; [| |exact H]; [|intros v c Q; apply (lt_objs_ok _ _ _ _ _ G Q)]. split; lra.
Qed.

Lemma lt_int_ok : forall w i t z w' b, sound w -> in_range t z -> lt_int o ops debug fuel w i t z = Val (Ret (w', b)) ->
  decides w w' b (value w i < IZR z).
Proof.
  intros w i t z w' b G Ft H. assert (E : IZR z / IZR 1 = IZR z) by field. unfold lt_int in H. rewrite (arg_ok t z Ft) in H.
  destruct t; try (open H; destruct res as [v s]; injection H as <- <-; destruct (cmp_num_ok _ _ _ _ _ _ G Z.lt_0_1 T) as (A & B & ->);
    rewrite E; split; [exact A|]; split; [exact B|]; apply Rsgn_lt);
    apply (relop_lt_ok _ _ _ _ _ _ G Z.lt_0_1) in H; rewrite E in H; exact H.
Qed.
Lemma gt_int_ok : forall w i t z w' b, sound w -> in_range t z -> gt_int o ops debug fuel w i t z = Val (Ret (w', b)) ->
  decides w w' b (IZR z < value w i).
Proof.
  intros w i t z w' b G Ft H. assert (E : IZR z / IZR 1 = IZR z) by field. unfold gt_int in H. rewrite (arg_ok t z Ft) in H.
  destruct t; try (open H; destruct res as [v s]; injection H as <- <-; destruct (cmp_num_ok _ _ _ _ _ _ G Z.lt_0_1 T) as (A & B & ->);
    rewrite E; split; [exact A|]; split; [exact B|]; apply Rsgn_gt);
    apply (relop_gt_ok _ _ _ _ _ _ G Z.lt_0_1) in H; rewrite E in H; exact H.
Qed.
Lemma eq_int_right : forall w i t z w' b, sound w -> in_range t z -> eq_int w i t z = Val (Ret (w', b)) -> decides w w' b (value w i = IZR z).
Proof.
  intros w i t z w' b G Ft H. destruct (eq_int_ok pol x Hm w i t z (sound_exact w G) Ft) as (c & Q & V). rewrite Q in H. injection H as <- <-.
  split; [exact G|]. split; [split; reflexivity|exact V].
Qed.

Lemma rel_int_ok : forall r w i t z w' b, sound w -> in_range t z -> rel_int o ops debug fuel r w i t z = Val (Ret (w', b)) ->
  decides w w' b (real_rel r (value w i) (IZR z)).
Proof.
  intros r w i t z w' b G Ft H. destruct r; cbn [rel_int real_rel] in *.
  - apply (eq_int_right _ _ _ _ _ _ G Ft H).
  - eapply flip_ok; [| |exact H]; [|intros v c Q; apply (eq_int_right _ _ _ _ _ _ G Ft Q)]. tauto.
  - apply (lt_int_ok _ _ _ _ _ _ G Ft H).
  - apply (gt_int_ok _ _ _ _ _ _ G Ft H).
  - eapply flip_ok; [| |exact H]; [|intros v c Q; apply (gt_int_ok _ _ _ _ _ _ G Ft Q)]. split; lra.
  - eapply flip_ok; [| |exact H]; [|intros v c Q; apply (lt_int_ok _ _ _ _ _ _ G Ft Q)]. split; lra.
Qed.

Lemma rel_mpq_ok : forall r w i qn qd w' b, sound w -> (0 < qd)%Z -> Z.gcd qn qd = 1%Z -> rel_mpq o ops debug fuel r w i qn qd = Val (Ret (w', b)) ->
  decides w w' b (real_rel r (value w i) (IZR qn / IZR qd)).
Proof.
  intros r w i qn qd w' b G Hq Hg H.
  assert (E : forall v c, eq_mpq w i qn qd = Val (Ret (v, c)) -> decides w v c (value w i = IZR qn / IZR qd)).
  { intros v c Q. destruct (eq_mpq_ok pol x Hm w i qn qd (sound_exact w G) Hq Hg) as (d & Q' & V). rewrite Q' in Q. injection Q as <- <-.
    split; [exact G|]. split; [split; reflexivity|exact V]. }
  destruct r; cbn [rel_mpq real_rel] in *.
  - apply (E _ _ H).
  - eapply flip_ok; [| |exact H]; [|exact E]. tauto.
  - apply (relop_lt_ok _ _ _ _ _ _ G Hq H).
  - apply (relop_gt_ok _ _ _ _ _ _ G Hq H).
  - eapply flip_ok; [| |exact H]; [|intros v c Q; apply (relop_gt_ok _ _ _ _ _ _ G Hq Q)]. split; lra.
  - eapply flip_ok; [| |exact H]; [|intros v c Q; apply (relop_lt_ok _ _ _ _ _ _ G Hq Q)]. split; lra.
Qed.

Lemma rel_mpz_ok : forall r w i z w' b, sound w -> rel_mpz o ops debug fuel r w i z = Val (Ret (w', b)) ->
  decides w w' b (real_rel r (value w i) (IZR z)).
Proof.
  intros r w i z w' b G H. assert (E1 : IZR z / IZR 1 = IZR z) by field.
  assert (E : forall v c, eq_mpz w i z = Val (Ret (v, c)) -> decides w v c (value w i = IZR z)).
  { intros v c Q. destruct (eq_mpz_ok pol x Hm w i z (sound_exact w G)) as (d & Q' & V). rewrite Q' in Q. injection Q as <- <-.
    split; [exact G|]. split; [split; reflexivity|exact V]. }
  assert (Oth : forall s, rel_mpq o ops debug fuel s w i z 1 = Val (Ret (w', b)) -> decides w w' b (real_rel s (value w i) (IZR z))).
  { intros s Q. apply (rel_mpq_ok _ _ _ _ _ _ _ G Z.lt_0_1 (Z.gcd_1_r z)) in Q. rewrite E1 in Q. exact Q. }
  destruct r; cbn [rel_mpz] in H; try (apply Oth; exact H).
  - apply (E _ _ H).
  - cbn [real_rel]. eapply flip_ok; [| |exact H]; [|exact E]. tauto.
Qed.

(** * Programs *)
Lemma call_sound : forall w i j k w', sound w -> fld w i = fld w j -> call_ok (pol (fld w i)) k ->
  call_on o ops debug fuel w i j k = Val w' -> sound w'.
Proof.
  intros w i j k w' G F K H. unfold call_on in H. set (f := fld w i) in *. cbv zeta in H.
  set (m := fun h => if Nat.eqb h i then val w i else val w j) in *. pose proof (sw_fields _ _ _ _ G f) as Gf.
  assert (Ef : f_pol (w_fields w f) = pol f) by apply Gf. rewrite Ef in H.
  destruct (run o (ops (pol f)) debug fuel (w_fields w f) m k) as [[nf' m']| | |] eqn:Rn; try discriminate. cbn [bind] in H. injection H as <-.
  assert (Gm : mem_ok (pol f) (x f) m).
  { intros h. unfold m. destruct (Nat.eqb h i); [apply (sw_objs _ _ _ _ G)|]. rewrite F. apply (sw_objs _ _ _ _ G). }
  destruct (run_ok o (ops (pol f)) debug (pol f) (x f) (on_ball (N f)) Ho (Hm f) (Hn f) (HJ f) _ _ _ _ _ _ Gf Gm K Rn) as (A1 & A2 & A3 & _).
  apply set_obj_sound; [apply set_field_sound; assumption|]. cbn [ob_field ob_val]. apply A3.
Qed.

Lemma zero_in_sound : forall w i f, sound w -> sound (set_obj w i (zero_in f)).
Proof.
  intros w i f G. apply set_obj_sound; [exact G|]. cbn [ob_field ob_val zero_in]. split; [apply (canon_zero _ _ (Hm f))|].
  cbn [r_elem r_emb]. unfold ev. cbn [e_num e_den]. rewrite zeval_nil. replace (0 / IZR 1) with 0 by field. apply inb_zero.
Qed.

Lemma set_sound : forall w i f k w', sound w -> call_ok (pol f) k ->
  call_on o ops debug fuel (set_obj w i (zero_in f)) i i k = Val w' -> sound w'.
Proof.
  intros w i f k w' G A H. apply (call_sound _ _ _ _ _ (zero_in_sound w i f G) eq_refl) in H; [exact H|rewrite fld_get; exact A].
Qed.

Lemma convert_sound : forall w i f j w', sound w -> convert o ops debug fuel w i f j = Val (Ret w') -> sound w'.
Proof.
  intros w i f j w' G H. pose proof (sound_exact w G) as E. unfold convert in H. destruct (Nat.eqb_spec (fld w j) f) as [F|F].
  - injection H as <-. apply set_obj_sound; [exact G|]. cbn [ob_field ob_val]. rewrite <- F. apply (sw_objs _ _ _ _ G).
  - destruct (is_rational (num_of w j)) eqn:Q; [|discriminate]. destruct (to_mpq_ok debug pol x Hm w j E Q) as (a & d & T & D & _).
    rewrite T in H. cbn [bind] in H. open H. injection H as <-. apply (set_sound _ _ _ _ _ G) in T0; [exact T0|exact D].
Qed.
Lemma coerce_sound : forall w i f w', sound w -> coerce o ops debug fuel w i f = Val (Ret w') -> sound w'.
Proof.
  intros w i f w' G H. unfold coerce in H. destruct (Nat.eqb_spec f (fld w i)) as [F|F]; [injection H as <-; exact G|].
  destruct (is_zero (num_of w i)); [injection H as <-; apply zero_in_sound; exact G|].
  destruct (is_integer (num_of w i)).
  { cbv zeta in H. open H. injection H as <-. apply (set_sound _ _ _ _ _ G) in T; [exact T|cbn; tauto]. }
  destruct (is_rational (num_of w i)); [|discriminate]. apply (convert_sound _ _ _ _ _ G H).
Qed.
Lemma binop_sound : forall strict w i j p w', sound w -> binop o ops debug fuel strict p w i j = Val (Ret w') -> sound w'.
Proof.
  intros strict w i j p w' G H. pose proof (sound_exact w G) as E. unfold binop, ret in H. destruct (Nat.eqb_spec (fld w i) (fld w j)) as [F|F].
  { open H. injection H as <-. apply (call_sound _ _ _ _ _ G F) in T; [exact T|destruct p; cbn; tauto]. }
  destruct (_ && _ && _); [discriminate|]. destruct (is_integer (num_of w j)).
  { open H. injection H as <-. apply (call_sound _ _ _ _ _ G eq_refl) in T; [exact T|destruct p; cbn; tauto]. }
  destruct (is_rational (num_of w j)) eqn:Q.
  { rewrite (ew_fields _ _ E) in H. destruct (get_fmpq_ok pol x w j E Q) as (a & d & T & D & _). rewrite T in H. cbn [bind] in H.
    open H. injection H as <-. apply (call_sound _ _ _ _ _ G eq_refl) in T0; [exact T0|destruct p; cbn; tauto]. }
  opene H. pose proof (coerce_sound _ _ _ _ G T) as G1.
  destruct (coerce_keeps o ops debug fuel pol x Hm Hn _ _ _ _ E T) as (E1 & F1 & O1). open H. injection H as <-.
  apply (call_sound _ _ _ _ _ G1) in T0; [exact T0| |destruct p; cbn; tauto]. rewrite F1. unfold fld. rewrite O1; [reflexivity|congruence].
Qed.

Lemma fdiv_objs_ok : forall w i j w' z, sound w -> fld w i = fld w j -> fdiv_objs o ops debug fuel w i j = Val (Ret (w', z)) ->
  sound w' /\ same_objects w w' /\ value w j <> 0 /\ is_floor (value w i / value w j) z.
Proof.
  intros w i j w' z G F H. destruct (fdiv_objs_exact o ops debug fuel pol w i j w' z (sound_exact w G) H) as [_ Sm].
  unfold fdiv_objs in H. cbv zeta in H. destruct (negb _); [discriminate|]. set (f := fld w i) in *.
  match type of H with bind ?t _ = _ => destruct t as [[[[nf' bi] bj] s']| | |] eqn:C; try discriminate end.
  cbn [bind] in H. injection H as <- <-. pose proof (sw_fields _ _ _ _ G f) as Gf.
  assert (P : f_pol (w_fields w f) = pol f) by apply Gf. rewrite P in C.
  assert (Gj : elem_ok (pol f) (x f) (val w j)) by (rewrite F; apply (sw_objs _ _ _ _ G j)).
  assert (Sij : Nat.eqb i j = true -> r_elem (val w i) = r_elem (val w j)) by (intros Q; apply Nat.eqb_eq in Q; subst; reflexivity).
  destruct (fdiv_ok o (ops (pol f)) debug (pol f) (x f) (on_ball (N f)) Ho (Hm f) (Hn f) (HJ f) _ _ _ _ _ _ _ _ _ Gf (sw_objs _ _ _ _ G i) Gj Sij C)
    as (A1 & A2 & A3 & A4 & A5 & A6).
  split; [|split; [exact Sm|]].
  - apply set_ball_sound; [apply set_ball_sound; [apply set_field_sound; assumption|exact A3]|].
    unfold CxxSpec.value. rewrite fld_set_ball, num_set_ball, fld_set_field, num_set_field, <- F. exact A4.
  - unfold CxxSpec.value. rewrite <- F. split; assumption.
Qed.

Lemma sgn_obj_ok : forall w i w' z, sound w -> sgn_obj o debug fuel w i = Val (w', z) -> sound w' /\ same_objects w w' /\ z = Rsgn (value w i).
Proof.
  intros w i w' z G T. unfold sgn_obj in T. cbv zeta in T. open T. destruct res as [[nf' b'] z']. injection T as <- <-.
  destruct (sgn_ok o debug _ _ _ Ho (Hm _) (HJ _) _ _ _ _ _ _ (sw_fields _ _ _ _ G _) (sw_objs _ _ _ _ G i) T0) as (A1 & _ & A3 & A4).
  split; [apply set_ball_sound; [apply set_field_sound; assumption|exact A3]|]. split; [|exact A4].
  intros k. rewrite fld_set_ball, num_set_ball, fld_set_field, num_set_field. split; reflexivity.
Qed.
Lemma floor_obj_ok : forall rd S, rd_ok rd S -> forall w i w' z, sound w -> floor_obj o debug fuel rd w i = Val (w', z) ->
  sound w' /\ same_objects w w' /\ S (value w i) z.
Proof.
  intros rd S Hr w i w' z G T. unfold floor_obj in T. cbv zeta in T. open T. destruct res as [[nf' b'] z']. injection T as <- <-.
  destruct (round_int_ok o debug _ _ _ Ho (Hm _) (HJ _) _ _ Hr _ _ _ _ _ _ (sw_fields _ _ _ _ G _) (sw_objs _ _ _ _ G i) T0) as (A1 & _ & A3 & A4).
  split; [apply set_ball_sound; [apply set_field_sound; assumption|exact A3]|]. split; [|exact A4].
  intros k. rewrite fld_set_ball, num_set_ball, fld_set_field, num_set_field. split; reflexivity.
Qed.

Lemma floordiv_ok : forall strict w i j w' z, sound w -> fld w i = fld w j \/ rational (value w i) \/ rational (value w j) ->
  floordiv o ops debug fuel strict w i j = Val (Ret (w', z)) ->
  sound w' /\ same_objects w w' /\ value w j <> 0 /\ is_floor (value w i / value w j) z.
Proof.
  intros strict w i j w' z G D H. pose proof (sound_exact w G) as E. destruct (floordiv_exact o ops debug fuel pol x Hm Hn _ _ _ _ _ _ E H) as [_ Sm].
  unfold floordiv in H. destruct (Nat.eqb_spec (fld w i) (fld w j)) as [F|F]; [apply (fdiv_objs_ok _ _ _ _ _ G F H)|].
  assert (Nij : j <> i) by congruence.
  destruct (is_rational (num_of w j)) eqn:Qj.
  - opene H. pose proof (binop_sound _ _ _ _ _ _ G T) as G1. open H. destruct res0 as [[nf' b] z']. injection H as <- <-.
    assert (Zj : value w j <> 0).
    { intros V. unfold binop, ret in T. apply Nat.eqb_neq in F. rewrite F in T. destruct (_ && _ && _) in T; [discriminate|].
      assert (I : is_integer (num_of w j) = true) by (apply (integer_iff pol x Hm w j E); exists 0%Z; exact V). rewrite I in T.
      rewrite (integer_val pol x w j E I) in V. apply eq_IZR in V. rewrite V in T. discriminate T. }
    assert (Vq : value res i = value w i / value w j).
    { destruct strict.
      - assert (S0 : fld w i = 0%nat \/ fld w j = 0%nat).
        { destruct (Nat.eq_dec (fld w i) 0) as [|A]; [left; assumption|]. destruct (Nat.eq_dec (fld w j) 0) as [|B]; [right; assumption|].
          rewrite (binop_strict o ops debug fuel w i j Div F A B) in T. discriminate. }
        rewrite (binop_lenient o ops debug fuel w i j Div (or_intror S0)) in T.
        destruct (binop_ok o ops debug fuel pol x Hm Hn w i j Div E D (fun _ => Zj)) as (v & T' & _ & [V _] & _). rewrite T' in T. injection T as <-. exact V.
      - destruct (binop_ok o ops debug fuel pol x Hm Hn w i j Div E D (fun _ => Zj)) as (v & T' & _ & [V _] & _). rewrite T' in T. injection T as <-. exact V. }
    set (f := fld res i) in *. pose proof (sw_fields _ _ _ _ G1 f) as Gf. pose proof (sw_objs _ _ _ _ G1 i) as Gi. fold f in Gi.
    destruct (round_int_ok o debug (pol f) (x f) (on_ball (N f)) Ho (Hm f) (HJ f) _ _ rd_floor_ok _ _ _ _ _ _ Gf Gi T0) as (A1 & _ & _ & A4).
    split; [|split; [exact Sm|split; [exact Zj|rewrite <- Vq; exact A4]]].
    constructor; [|apply (sw_objs _ _ _ _ G)]. apply (sw_fields _ _ _ _ (set_field_sound res f nf' G1 A1)).
  - destruct (is_rational (num_of w i)) eqn:Qi.
    + destruct (to_mpq_ok debug pol x Hm w i E Qi) as (a & d & T & Dd & _ & V). rewrite T in H. cbn [bind] in H. unfold make_mpq in H.
      destruct (set_q_ok o ops debug fuel pol x Hm Hn w i (fld w j) a d E Dd) as (v & T' & E1 & [V1 O1] & F1).
      pose proof (set_sound w i (fld w j) (KSetQ i a d) v G Dd T') as G1. rewrite T' in H. cbn [bind] in H.
      opene H. destruct res as [v' z']. injection H as <- <-.
      assert (Fj : fld v j = fld w j) by (unfold fld; rewrite O1 by exact Nij; reflexivity).
      assert (Vj : value v j = value w j) by (unfold CxxSpec.value, num_of, val, fld; rewrite O1 by exact Nij; reflexivity).
      destruct (fdiv_objs_ok v i j v' z' G1 ltac:(congruence) T0) as (B1 & _ & B3 & B4). rewrite Vj in B3, B4. rewrite V1, <- V in B4.
      split; [|split; [exact Sm|split; assumption]]. apply set_obj_sound; [exact B1|apply (sw_objs _ _ _ _ G i)].
    + exfalso. destruct D as [D|[D|D]]; [contradiction|apply (not_rational pol x Hm w i E Qi D)|apply (not_rational pol x Hm w j E Qj D)].
Qed.

Lemma xrun_sound : forall strict w c w', sound w -> legal w c -> xrun o ops debug fuel strict w c = Val (Ret w') -> sound w'.
Proof.
  intros strict w c w' G [K L] H. destruct c; cbn [xrun xcall_ok] in *; unfold ret, done in *.
  - apply (binop_sound _ _ _ _ _ _ G H).
  - open H. injection H as <-. apply (call_sound _ _ _ _ _ G eq_refl) in T; [exact T|destruct p; cbn; tauto].
  - open H. injection H as <-. apply (call_sound _ _ _ _ _ G eq_refl) in T; [exact T|destruct p; cbn; tauto].
  - open H. injection H as <-. apply (call_sound _ _ _ _ _ G eq_refl) in T; [exact T|destruct p; cbn; tauto].
  - open H. injection H as <-. unfold negate in T. apply (call_sound _ _ _ _ _ (set_obj_sound w i (w_objs w j) G (sw_objs _ _ _ _ G j)) eq_refl) in T; [exact T|exact Logic.I].
  - open H. injection H as <-. destruct K as [K1 K2]. unfold pow in T.
    assert (G1 : sound (set_obj w i (zero_in (fld w j)))) by (apply zero_in_sound; exact G).
    assert (F1 : fld (set_obj w i (zero_in (fld w j))) i = fld (set_obj w i (zero_in (fld w j))) j).
    { rewrite fld_get. unfold fld. rewrite obj_other by congruence. reflexivity. }
    destruct (Z.ltb_spec e 0) as [Le|Le].
    + open T. assert (G2 : sound res0) by (apply (call_sound _ _ _ _ _ G1 F1) in T0; [exact T0|exact Logic.I]).
      destruct (e =? low Int)%Z; [discriminate|]. apply (call_sound _ _ _ _ _ G2 eq_refl) in T; [exact T|cbn; lia].
    + apply (call_sound _ _ _ _ _ G1 F1) in T; [exact T|exact Le].
  - injection H as <-. apply set_obj_sound; [exact G|apply (sw_objs _ _ _ _ G j)].
  - apply (convert_sound _ _ _ _ _ G H).
  - injection H as <-. apply zero_in_sound. exact G.
  - open H. injection H as <-. apply (set_sound _ _ _ _ _ G) in T; [exact T|exact Logic.I].
  - open H. injection H as <-. apply (set_sound _ _ _ _ _ G) in T; [exact T|exact Logic.I].
  - open H. injection H as <-. apply (set_sound _ _ _ _ _ G) in T; [exact T|exact K].
  - open H. injection H as <-. apply (set_sound _ _ _ _ _ G) in T; [exact T|exact Logic.I].
  - open H. injection H as <-. apply (set_sound _ _ _ _ _ G) in T; [exact T|exact K].
  - open H. injection H as <-. unfold make_vector in T. destruct (_ && _); [discriminate|]. apply (set_sound _ _ _ _ _ G) in T; [exact T|exact K].
  - opene H. destruct res as [v b]. injection H as <-. apply (rel_objs_ok _ _ _ _ _ _ G T).
  - opene H. destruct res as [v b]. injection H as <-. apply (rel_int_ok _ _ _ _ _ _ _ G K T).
  - opene H. destruct res as [v b]. injection H as <-. apply (rel_mpz_ok _ _ _ _ _ _ G T).
  - opene H. destruct res as [v b]. injection H as <-. apply (rel_mpq_ok _ _ _ _ _ _ _ G (proj1 K) (proj2 K) T).
  - opene H. destruct res as [v b]. injection H as <-. apply (floordiv_ok _ _ _ _ _ _ G L T).
  - open H. destruct res as [v b]. injection H as <-. unfold floor_obj in T. cbv zeta in T. open T. destruct res as [[nf' b'] z']. injection T as <- <-.
    cbn [fst]. destruct (round_int_ok o debug _ _ _ Ho (Hm _) (HJ _) _ _ rd_floor_ok _ _ _ _ _ _ (sw_fields _ _ _ _ G _) (sw_objs _ _ _ _ G i) T0) as (A1 & _ & A3 & _).
    apply set_ball_sound; [apply set_field_sound; assumption|exact A3].
  - open H. destruct res as [v b]. injection H as <-. unfold floor_obj in T. cbv zeta in T. open T. destruct res as [[nf' b'] z']. injection T as <- <-.
    cbn [fst]. destruct (round_int_ok o debug _ _ _ Ho (Hm _) (HJ _) _ _ rd_ceil_ok _ _ _ _ _ _ (sw_fields _ _ _ _ G _) (sw_objs _ _ _ _ G i) T0) as (A1 & _ & A3 & _).
    apply set_ball_sound; [apply set_field_sound; assumption|exact A3].
  - open H. destruct res as [v b]. injection H as <-. unfold sgn_obj in T. cbv zeta in T. open T. destruct res as [[nf' b'] z']. injection T as <- <-.
    cbn [fst]. destruct (sgn_ok o debug _ _ _ Ho (Hm _) (HJ _) _ _ _ _ _ _ (sw_fields _ _ _ _ G _) (sw_objs _ _ _ _ G i) T0) as (A1 & _ & A3 & _).
    apply set_ball_sound; [apply set_field_sound; assumption|exact A3].
  - open H. injection H as <-. apply set_field_sound; [exact G|]. pose proof (sw_fields _ _ _ _ G f) as Gf.
    assert (R : run o (ops (pol f)) debug fuel (w_fields w f) (fun _ => ob_val (zero_in f)) (KRefine prec) = Val (res, fun _ => ob_val (zero_in f))) by (cbn [run]; rewrite T; reflexivity).
    assert (Gm : mem_ok (pol f) (x f) (fun _ => ob_val (zero_in f))).
    { intros h. pose proof (sw_objs _ _ _ _ (zero_in_sound w 0 f G) 0%nat) as Z. unfold val, fld in Z. rewrite obj_get in Z. exact Z. }
    destruct (run_ok o (ops (pol f)) debug (pol f) (x f) (on_ball (N f)) Ho (Hm f) (Hn f) (HJ f) fuel (w_fields w f) (fun _ => ob_val (zero_in f)) (KRefine prec) res (fun _ => ob_val (zero_in f)) Gf Gm Logic.I R) as (A1 & _).
    exact A1.
Qed.

Lemma legal_run_sound : forall strict l w w', sound w -> legal_run strict w l w' -> sound w'.
Proof.
  intros strict l. induction l as [|c l IH]; intros w w' G H; cbn [legal_run] in H; [subst; exact G|].
  destruct H as (L & [v|] & E & H); [|apply (IH _ _ G H)]. apply (IH _ _ (xrun_sound _ _ _ _ G L E) H).
Qed.
End Sound.
