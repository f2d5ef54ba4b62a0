(** The C++ interface computes with real numbers. *)
Require Import Reals List ZArith Bool Lia Lra Arith FunctionalExtensionality.
From Verif Require Import PolyR RootSpec RootModel ExtraModel Dyadic DyadicProofs ArbModel ArbSpec ArbProofs
  RefineProofs ElemModel ElemSpec ElemProofs ElemLoops ElemHist ElemMore ElemExact CxxModel CxxSpec.
Import ListNotations.
Open Scope R_scope.

Ltac open H := match type of H with bind ?t _ = _ => let T := fresh "T" in let res := fresh "res" in destruct t as [res| | |] eqn:T; try discriminate; cbn [bind] in H end.
Ltac opene H := unfold ebind in H; match type of H with bind ?t _ = _ => let T := fresh "T" in let res := fresh "res" in destruct t as [[res|]| | |] eqn:T; try discriminate; cbn [bind] in H end.

(** * Machine integers *)
Lemma cast_fits : forall t z, fits t z = true -> cast t z = z.
Proof.
  intros t z H. unfold fits in H. apply andb_true_iff in H. destruct H as [A B]. apply Z.leb_le in A, B.
  unfold cast. rewrite Z.mod_small; [lia|]. split; [lia|]. revert A B. unfold low, high. destruct t; cbn [signed bits]; cbn; lia.
Qed.

Lemma fits_wider : forall t u z, (low u <= low t)%Z -> (high t <= high u)%Z -> fits t z = true -> fits u z = true.
Proof.
  intros t u z A B H. unfold fits in *. apply andb_true_iff in H. destruct H as [H1 H2]. apply Z.leb_le in H1, H2.
  apply andb_true_iff. split; apply Z.leb_le; lia.
Qed.

Lemma in_range_fits : forall t z, in_range t z -> fits t z = true.
Proof. intros t z H. unfold fits. apply andb_true_iff. rewrite !Z.leb_le. destruct t; cbn in *; lia. Qed.
Lemma arg_ok : forall t z, in_range t z -> arg t z = z.
Proof.
  intros t z H. apply in_range_fits in H. destruct t; cbn [arg]; try reflexivity.
  - apply cast_fits, (fits_wider Short); [cbn; lia|cbn; lia|exact H].
  - apply cast_fits, (fits_wider UShort); [cbn; lia|cbn; lia|exact H].
  - apply cast_fits, (fits_wider Int); [cbn; lia|cbn; lia|exact H].
  - apply cast_fits, (fits_wider UInt); [cbn; lia|cbn; lia|exact H].
  - destruct (fits Long z) eqn:E; [apply cast_fits; exact E|reflexivity].
  - destruct (fits ULong z) eqn:E; [apply cast_fits; exact E|reflexivity].
Qed.

(** * Worlds *)
Lemma fld_set_val : forall w i y j, fld (set_val w i y) j = fld w j.
Proof. intros. unfold fld, set_val, set_obj. cbn [w_objs]. destruct (Nat.eqb_spec j i) as [->|]; reflexivity. Qed.
Lemma val_set_val : forall w i y j, val (set_val w i y) j = if Nat.eqb j i then y else val w j.
Proof. intros. unfold val, set_val, set_obj. cbn [w_objs]. destruct (Nat.eqb j i); reflexivity. Qed.
Lemma fld_set_field : forall w f nf j, fld (set_field w f nf) j = fld w j.
Proof. reflexivity. Qed.
Lemma val_set_field : forall w f nf j, val (set_field w f nf) j = val w j.
Proof. reflexivity. Qed.
Lemma fld_set_ball : forall w i b j, fld (set_ball w i b) j = fld w j.
Proof. intros. unfold set_ball. apply fld_set_val. Qed.
Lemma num_set_ball : forall w i b j, num_of (set_ball w i b) j = num_of w j.
Proof. intros. unfold set_ball, num_of. rewrite val_set_val. destruct (Nat.eqb_spec j i) as [->|]; reflexivity. Qed.
Lemma num_set_field : forall w f nf j, num_of (set_field w f nf) j = num_of w j.
Proof. reflexivity. Qed.

Section Cxx.
Variables (o : arbops) (ops : list Z -> nfops) (debug : bool) (fuel : nat) (pol : nat -> list Z) (x : nat -> R).
Hypothesis Hm : forall f, minimal (pol f) (x f).
Hypothesis Hn : forall f, nf_ok (pol f) (x f) (ops (pol f)).

Notation value := (value x).
Notation exact := (exact_world pol).

Lemma rational_iff : forall w i, exact w -> is_rational (num_of w i) = true <-> rational (value w i).
Proof. intros w i E. apply (is_rational_spec _ _ (Hm _)). apply (ew_objs _ _ E). Qed.
Lemma not_rational : forall w i, exact w -> is_rational (num_of w i) = false -> ~ rational (value w i).
Proof. intros w i E H Q. apply (rational_iff w i E) in Q. congruence. Qed.
Lemma zero_iff : forall w i, exact w -> is_zero (num_of w i) = true <-> value w i = 0.
Proof. intros w i E. apply (is_zero_spec _ _ (Hm _)). apply (ew_objs _ _ E). Qed.

(** One C call on an object. *)
Lemma call_exact : forall w i j k w', exact w -> fld w i = fld w j -> call_ok (pol (fld w i)) k -> arith k -> sound_call (pol (fld w i)) k ->
  call_on o ops debug fuel w i j k = Val w' ->
  exact w' /\ (forall h, h <> i -> w_objs w' h = w_objs w h) /\ fld w' i = fld w i /\
  exists v, effect (x (fld w i)) (fun h => if Nat.eqb h i then value w i else value w j) k v /\ value w' i = v i.
Proof.
  intros w i j k w' E F K A Sd H. unfold call_on in H. set (f := fld w i) in *. cbv zeta in H.
  set (m := fun h => if Nat.eqb h i then val w i else val w j) in *.
  assert (Ef : f_pol (w_fields w f) = pol f) by apply (ew_fields _ _ E). rewrite Ef in H.
  destruct (run o (ops (pol f)) debug fuel (w_fields w f) m k) as [[nf' m']| | |] eqn:Rn; try discriminate. cbn [bind] in H. injection H as <-.
  assert (Gm : exact_mem (pol f) m).
  { intros h. unfold m. destruct (Nat.eqb h i); [apply (ew_objs _ _ E)|]. rewrite F. apply (ew_objs _ _ E). }
  destruct (arith_exact o (ops (pol f)) debug (pol f) (x f) (Hm f) (Hn f) _ _ _ _ _ _ Gm K A Sd Rn) as [G' Ee].
  pose proof (run_kept o (ops (pol f)) debug _ _ _ _ _ _ Rn) as Kp.
  split; [|split; [|split]].
  - constructor.
    + intros g. cbn [set_val set_obj w_fields set_field]. destruct (Nat.eqb_spec g f) as [->|]; [|apply (ew_fields _ _ E)].
      destruct Kp as [[[Kp _] _] _]. rewrite Kp. exact Ef.
    + intros h. unfold num_of. rewrite fld_set_val, val_set_val, fld_set_field. destruct (Nat.eqb_spec h i) as [->|]; [apply G'|].
      apply (ew_objs _ _ E).
  - intros h Hh. unfold set_val, set_obj. cbn [w_objs]. apply Nat.eqb_neq in Hh. rewrite Hh. reflexivity.
  - rewrite fld_set_val. reflexivity.
  - exists (values (x f) m'). split.
    + replace (fun h => if Nat.eqb h i then value w i else value w j) with (values (x f) m); [exact Ee|].
      apply functional_extensionality. intros h. unfold values, m, CxxSpec.value. destruct (Nat.eqb h i); [reflexivity|]. rewrite <- F. reflexivity.
    + unfold CxxSpec.value, num_of. rewrite fld_set_val, val_set_val, Nat.eqb_refl. reflexivity.
Qed.

Lemma set_obj_exact : forall w i y, exact w -> canon (pol (ob_field y)) (r_elem (ob_val y)) -> exact (set_obj w i y).
Proof.
  intros w i y E C. constructor; [apply (ew_fields _ _ E)|]. intros h. unfold num_of, val, fld, set_obj. cbn [w_objs].
  destruct (Nat.eqb h i); [exact C|apply (ew_objs _ _ E)].
Qed.

Lemma zero_in_exact : forall w i f, exact w -> exact (set_obj w i (zero_in f)).
Proof. intros w i f E. apply set_obj_exact; [exact E|]. cbn [ob_field ob_val zero_in r_elem]. apply (canon_zero _ _ (Hm f)). Qed.

Lemma obj_get : forall w i y, w_objs (set_obj w i y) i = y.
Proof. intros. unfold set_obj. cbn [w_objs]. rewrite Nat.eqb_refl. reflexivity. Qed.
Lemma obj_other : forall w i y j, j <> i -> w_objs (set_obj w i y) j = w_objs w j.
Proof. intros w i y j H. unfold set_obj. cbn [w_objs]. apply Nat.eqb_neq in H. rewrite H. reflexivity. Qed.
Lemma fld_get : forall w i y, fld (set_obj w i y) i = ob_field y.
Proof. intros. unfold fld. rewrite obj_get. reflexivity. Qed.

(** The result of writing operations. *)
Definition wrote (w w' : world) (i : nat) (v : R) : Prop := exact w' /\ gave x w w' i v /\ fld w' i = fld w i.

Lemma op_elem_ok : forall w i j p, exact w -> fld w i = fld w j -> (p = Div -> value w j <> 0) ->
  exists w', call_on o ops debug fuel w i j (op_elem p i i j) = Val w' /\ wrote w w' i (real_op p (value w i) (value w j)).
Proof.
  intros w i j p E F Z.
  assert (T : exists w', call_on o ops debug fuel w i j (op_elem p i i j) = Val w').
  { unfold call_on. cbv zeta. destruct p; cbn [op_elem run bind]; try (eexists; reflexivity).
    assert (M : r_elem (if Nat.eqb j i then val w i else val w j) = num_of w j) by (destruct (Nat.eqb_spec j i) as [->|]; reflexivity).
    rewrite M. destruct (is_zero (num_of w j)) eqn:Zj; [|cbn [bind]; eexists; reflexivity].
    apply (zero_iff w j E) in Zj. exfalso. apply Z; [reflexivity|exact Zj]. }
  destruct T as (w' & T). exists w'. split; [exact T|].
  assert (A : arith (op_elem p i i j) /\ sound_call (pol (fld w i)) (op_elem p i i j) /\ call_ok (pol (fld w i)) (op_elem p i i j))
    by (destruct p; cbn; tauto).
  destruct A as (A1 & A2 & A3). destruct (call_exact _ _ _ _ _ E F A3 A1 A2 T) as (E' & Oth & Fi & v & Ef & Vi).
  split; [exact E'|]. split; [|exact Fi]. split; [|exact Oth]. rewrite Vi.
  assert (Wi : forall (a b : R), (if Nat.eqb i i then a else b) = a) by (intros; rewrite Nat.eqb_refl; reflexivity).
  assert (Wj : (if Nat.eqb j i then value w i else value w j) = value w j) by (destruct (Nat.eqb_spec j i) as [->|]; reflexivity).
  destruct p; cbn [op_elem] in Ef; inversion Ef; subst; unfold vset; rewrite !Wi, ?Wj; reflexivity.
Qed.

Lemma op_z_ok : forall w i z p, exact w -> (p = Div -> z <> 0%Z) ->
  exists w', call_on o ops debug fuel w i i (op_z p i i z) = Val w' /\ wrote w w' i (real_op p (value w i) (IZR z)).
Proof.
  intros w i z p E Z.
  assert (T : exists w', call_on o ops debug fuel w i i (op_z p i i z) = Val w').
  { unfold call_on. cbv zeta. destruct p; cbn [op_z run bind]; try (eexists; reflexivity).
    destruct (Z.eqb_spec z 0) as [->|]; [exfalso; apply Z; reflexivity|cbn [bind]; eexists; reflexivity]. }
  destruct T as (w' & T). exists w'. split; [exact T|].
  assert (A : arith (op_z p i i z) /\ sound_call (pol (fld w i)) (op_z p i i z) /\ call_ok (pol (fld w i)) (op_z p i i z))
    by (destruct p; cbn; tauto).
  destruct A as (A1 & A2 & A3). destruct (call_exact _ _ _ _ _ E eq_refl A3 A1 A2 T) as (E' & Oth & Fi & v & Ef & Vi).
  split; [exact E'|]. split; [|exact Fi]. split; [|exact Oth]. rewrite Vi.
  assert (Wi : forall (a b : R), (if Nat.eqb i i then a else b) = a) by (intros; rewrite Nat.eqb_refl; reflexivity).
  destruct p; cbn [op_z] in Ef; inversion Ef; subst; unfold vset; rewrite !Wi; reflexivity.
Qed.

Lemma op_q_ok : forall w i qn qd p, exact w -> (0 < qd)%Z -> (p = Div -> qn <> 0%Z) ->
  exists w', call_on o ops debug fuel w i i (op_q p i i qn qd) = Val w' /\ wrote w w' i (real_op p (value w i) (IZR qn / IZR qd)).
Proof.
  intros w i qn qd p E Hq Z.
  assert (T : exists w', call_on o ops debug fuel w i i (op_q p i i qn qd) = Val w').
  { unfold call_on. cbv zeta. destruct p; cbn [op_q run bind]; try (eexists; reflexivity).
    destruct (Z.eqb_spec qn 0) as [->|]; [exfalso; apply Z; reflexivity|cbn [bind]; eexists; reflexivity]. }
  destruct T as (w' & T). exists w'. split; [exact T|].
  assert (A : arith (op_q p i i qn qd) /\ sound_call (pol (fld w i)) (op_q p i i qn qd) /\ call_ok (pol (fld w i)) (op_q p i i qn qd))
    by (destruct p; cbn; tauto).
  destruct A as (A1 & A2 & A3). destruct (call_exact _ _ _ _ _ E eq_refl A3 A1 A2 T) as (E' & Oth & Fi & v & Ef & Vi).
  split; [exact E'|]. split; [|exact Fi]. split; [|exact Oth]. rewrite Vi.
  assert (Wi : forall (a b : R), (if Nat.eqb i i then a else b) = a) by (intros; rewrite Nat.eqb_refl; reflexivity).
  destruct p; cbn [op_q] in Ef; inversion Ef; subst; unfold vset; rewrite !Wi; reflexivity.
Qed.

(** Writing a rational into a fresh element of field [f]. *)
Lemma set_q_ok : forall w i f qn qd, exact w -> (0 < qd)%Z ->
  exists w', call_on o ops debug fuel (set_obj w i (zero_in f)) i i (KSetQ i qn qd) = Val w' /\
    exact w' /\ gave x w w' i (IZR qn / IZR qd) /\ fld w' i = f.
Proof.
  intros w i f qn qd E Hq.
  assert (T : exists w', call_on o ops debug fuel (set_obj w i (zero_in f)) i i (KSetQ i qn qd) = Val w') by (eexists; reflexivity).
  destruct T as (w' & T). exists w'. split; [exact T|].
  destruct (call_exact _ i i (KSetQ i qn qd) _ (zero_in_exact w i f E) eq_refl Hq (fun h => h) Logic.I T) as (E' & Oth & Fi & v & Ef & Vi).
  split; [exact E'|]. split; [|rewrite Fi; apply fld_get]. split; [rewrite Vi; inversion Ef; subst; unfold vset; rewrite Nat.eqb_refl; reflexivity|].
  intros j Hj. rewrite (Oth j Hj). apply obj_other. exact Hj.
Qed.

Lemma set_z_ok : forall w i f z, exact w ->
  exists w', call_on o ops debug fuel (set_obj w i (zero_in f)) i i (KSetZ i z) = Val w' /\
    exact w' /\ gave x w w' i (IZR z) /\ fld w' i = f.
Proof.
  intros w i f z E.
  assert (T : exists w', call_on o ops debug fuel (set_obj w i (zero_in f)) i i (KSetZ i z) = Val w') by (eexists; reflexivity).
  destruct T as (w' & T). exists w'. split; [exact T|].
  destruct (call_exact _ i i (KSetZ i z) _ (zero_in_exact w i f E) eq_refl Logic.I (fun h => h) Logic.I T) as (E' & Oth & Fi & v & Ef & Vi).
  split; [exact E'|]. split; [|rewrite Fi; apply fld_get]. split; [rewrite Vi; inversion Ef; subst; unfold vset; rewrite Nat.eqb_refl; reflexivity|].
  intros j Hj. rewrite (Oth j Hj). apply obj_other. exact Hj.
Qed.

Lemma set_poly_ok : forall w i f v d, exact w -> (0 < d)%Z ->
  exists w', call_on o ops debug fuel (set_obj w i (zero_in f)) i i (KSetPoly i v d) = Val w' /\
    exact w' /\ gave x w w' i (zeval v (x f) / IZR d) /\ fld w' i = f.
Proof.
  intros w i f v d E Hd.
  assert (T : exists w', call_on o ops debug fuel (set_obj w i (zero_in f)) i i (KSetPoly i v d) = Val w') by (eexists; reflexivity).
  destruct T as (w' & T). exists w'. split; [exact T|].
  destruct (call_exact _ i i (KSetPoly i v d) _ (zero_in_exact w i f E) eq_refl Hd (fun h => h) Logic.I T) as (E' & Oth & Fi & u & Ef & Vi).
  split; [exact E'|]. split; [|rewrite Fi; apply fld_get].
  split; [rewrite Vi; inversion Ef; subst; unfold vset; rewrite Nat.eqb_refl, fld_get; reflexivity|].
  intros j Hj. rewrite (Oth j Hj). apply obj_other. exact Hj.
Qed.

(** Reading the value of a rational element. *)
Lemma canon_frac : forall f e, canon (pol f) e -> is_rational e = true -> Z.gcd (nth 0 (e_num e) 0%Z) (e_den e) = 1%Z.
Proof.
  intros f e C Q. pose proof (can_den _ _ C) as D. apply (can_gcd _ _ C).
  - assert (Z.gcd (nth 0 (e_num e) 0%Z) (e_den e) <> 0%Z) by (intros H; apply Z.gcd_eq_0_r in H; lia).
    pose proof (Z.gcd_nonneg (nth 0 (e_num e) 0%Z) (e_den e)). lia.
  - apply Z.gcd_divide_r.
  - intros c Hc. unfold is_rational in Q. destruct (e_num e) as [|c0 [|? ?]]; [destruct Hc| |discriminate].
    destruct Hc as [<-|[]]. apply Z.gcd_divide_l.
Qed.

Lemma get_fmpq_ok : forall w i, exact w -> is_rational (num_of w i) = true ->
  exists a d, get_fmpq (pol (fld w i)) (num_of w i) = Val (a, d) /\ (0 < d)%Z /\ value w i = IZR a / IZR d.
Proof.
  intros w i E Q. pose proof (ew_objs _ _ E i) as C. pose proof (can_den _ _ C) as D.
  exists (nth 0 (e_num (num_of w i)) 0%Z), (e_den (num_of w i)).
  split; [|split; [exact D|apply (rational_val _ _ Q)]]. unfold get_fmpq. destruct (linear (pol (fld w i))); [reflexivity|].
  unfold canonicalise. destruct (Z.eqb_spec (e_den (num_of w i)) 0) as [Z0|_]; [lia|].
  rewrite (canon_frac _ _ C Q). rewrite !Z.div_1_r, Z.sgn_pos, Z.abs_eq by lia. rewrite Z.mul_1_l. reflexivity.
Qed.

Lemma to_mpq_ok : forall w i, exact w -> is_rational (num_of w i) = true ->
  exists a d, to_mpq debug (num_of w i) = Val (a, d) /\ (0 < d)%Z /\ Z.gcd a d = 1%Z /\ value w i = IZR a / IZR d.
Proof.
  intros w i E Q. pose proof (ew_objs _ _ E i) as C. pose proof (can_den _ _ C) as D. unfold to_mpq.
  destruct (is_zero (num_of w i)) eqn:Z.
  - apply (zero_iff w i E) in Z. exists 0%Z, 1%Z. rewrite Z. split; [reflexivity|]. split; [lia|]. split; [reflexivity|]. field.
  - rewrite Q. rewrite andb_false_r. exists (nth 0 (e_num (num_of w i)) 0%Z), (e_den (num_of w i)).
    split; [reflexivity|]. split; [exact D|]. split; [exact (canon_frac _ _ C Q)|apply (rational_val _ _ Q)].
Qed.

Lemma integer_val : forall w i, exact w -> is_integer (num_of w i) = true -> value w i = IZR (get_fmpz (num_of w i)).
Proof.
  intros w i E H. unfold is_integer in H. apply andb_true_iff in H. destruct H as [Q D]. apply Z.eqb_eq in D.
  unfold CxxSpec.value. rewrite (rational_val _ _ Q), D. unfold get_fmpz. field.
Qed.

Lemma integer_rational : forall e, is_integer e = true -> is_rational e = true.
Proof. intros e H. apply andb_true_iff in H. apply H. Qed.

(** ** coerce and the converting constructor *)
Lemma convert_ok : forall w i f j, exact w -> fld w j = f \/ rational (value w j) ->
  exists w', convert o ops debug fuel w i f j = Val (Ret w') /\ exact w' /\ gave x w w' i (value w j) /\ fld w' i = f.
Proof.
  intros w i f j E H. unfold convert. destruct (Nat.eqb_spec (fld w j) f) as [F|F].
  - eexists. split; [reflexivity|]. split; [|split; [split|]].
    + apply set_obj_exact; [exact E|]. cbn [ob_field ob_val]. rewrite <- F. apply (ew_objs _ _ E).
    + unfold CxxSpec.value, num_of, val, fld. rewrite obj_get. cbn [ob_field ob_val]. rewrite <- F. reflexivity.
    + intros h Hh. apply obj_other. exact Hh.
    + apply fld_get.
  - destruct H as [H|H]; [contradiction|]. apply (rational_iff w j E) in H. rewrite H.
    destruct (to_mpq_ok w j E H) as (a & d & T & D & _ & V). rewrite T. cbn [bind].
    destruct (set_q_ok w i f a d E D) as (w' & T' & E' & G & Fi). rewrite T'. cbn [bind].
    exists w'. rewrite V. auto.
Qed.

Lemma convert_throws : forall w i f j, exact w -> fld w j <> f -> ~ rational (value w j) ->
  convert o ops debug fuel w i f j = Val Throw.
Proof.
  intros w i f j E F H. unfold convert. apply Nat.eqb_neq in F. rewrite F.
  destruct (is_rational (num_of w j)) eqn:Q; [apply (rational_iff w j E) in Q; contradiction|reflexivity].
Qed.

Lemma coerce_ok : forall w i f, exact w -> rational (value w i) ->
  exists w', coerce o ops debug fuel w i f = Val (Ret w') /\ exact w' /\ gave x w w' i (value w i) /\ fld w' i = f.
Proof.
  intros w i f E Q. unfold coerce. destruct (Nat.eqb_spec f (fld w i)) as [->|F].
  { exists w. split; [reflexivity|]. split; [exact E|]. split; [split; [reflexivity|auto]|reflexivity]. }
  destruct (is_zero (num_of w i)) eqn:Z.
  { eexists. split; [reflexivity|]. split; [apply zero_in_exact; exact E|]. split; [split|apply fld_get].
    - apply (zero_iff w i E) in Z. rewrite Z. unfold CxxSpec.value, num_of, val, fld. rewrite obj_get. cbn [zero_in ob_field ob_val r_elem].
      unfold ev. cbn [e_num e_den]. rewrite zeval_nil. field.
    - intros j Hj. apply obj_other. exact Hj. }
  destruct (is_integer (num_of w i)) eqn:I.
  { destruct (set_z_ok w i f (get_fmpz (num_of w i)) E) as (w' & T & E' & G & Fi). rewrite T. cbn [bind].
    exists w'. rewrite (integer_val w i E I). auto. }
  pose proof Q as Q'. apply (rational_iff w i E) in Q'. rewrite Q'. apply convert_ok; [exact E|right; exact Q].
Qed.

Lemma coerce_throws : forall w i f, exact w -> f <> fld w i -> ~ rational (value w i) -> coerce o ops debug fuel w i f = Val Throw.
Proof.
  intros w i f E F Q. unfold coerce. apply Nat.eqb_neq in F. rewrite F.
  destruct (is_rational (num_of w i)) eqn:Qb; [apply (rational_iff w i E) in Qb; contradiction|].
  destruct (is_zero (num_of w i)) eqn:Z.
  { exfalso. apply Q. apply (zero_iff w i E) in Z. exists 0%Z, 1%Z. rewrite Z. split; [lia|field]. }
  destruct (is_integer (num_of w i)) eqn:I; [apply integer_rational in I; congruence|reflexivity].
Qed.

(** ** binop *)
Lemma binop_ok : forall w i j p, exact w -> fld w i = fld w j \/ rational (value w i) \/ rational (value w j) ->
  (p = Div -> value w j <> 0) ->
  exists w', binop o ops debug fuel false p w i j = Val (Ret w') /\ exact w' /\
    gave x w w' i (real_op p (value w i) (value w j)) /\ (fld w' i = fld w i \/ fld w' i = fld w j).
Proof.
  intros w i j p E H Z. unfold binop. cbn [andb]. destruct (Nat.eqb_spec (fld w i) (fld w j)) as [F|F].
  { destruct (op_elem_ok w i j p E F Z) as (w' & T & E' & G & Fi). rewrite T. exists w'. split; [reflexivity|]. auto. }
  assert (Nij : j <> i) by (intros ->; apply F; reflexivity).
  destruct (is_integer (num_of w j)) eqn:I.
  { pose proof (integer_val w j E I) as V.
    destruct (op_z_ok w i (get_fmpz (num_of w j)) p E) as (w' & T & E' & G & Fi).
    { intros Hp Hz. apply (Z Hp). rewrite V, Hz. reflexivity. }
    rewrite T. exists w'. split; [reflexivity|]. rewrite V. auto. }
  destruct (is_rational (num_of w j)) eqn:Q.
  { rewrite (ew_fields _ _ E). destruct (get_fmpq_ok w j E Q) as (a & d & T & D & V). rewrite T. cbn [bind].
    destruct (op_q_ok w i a d p E D) as (w' & T' & E' & G & Fi).
    { intros Hp Hz. apply (Z Hp). rewrite V, Hz. field. apply not_0_IZR. lia. }
    rewrite T'. exists w'. split; [reflexivity|]. rewrite V. auto. }
  destruct H as [H|[H|H]]; [contradiction| |apply (rational_iff w j E) in H; congruence].
  destruct (coerce_ok w i (fld w j) E H) as (w1 & T1 & E1 & [G1 O1] & F1). rewrite T1. cbn [ebind bind].
  assert (Fj : fld w1 j = fld w j) by (unfold fld; rewrite O1 by exact Nij; reflexivity).
  assert (Vj : value w1 j = value w j) by (unfold CxxSpec.value, num_of, val, fld; rewrite O1 by exact Nij; reflexivity).
  destruct (op_elem_ok w1 i j p E1) as (w' & T & E' & [G O'] & Fi); [congruence|rewrite Vj; exact Z|].
  rewrite T. exists w'. split; [reflexivity|]. split; [exact E'|]. split.
  - split; [rewrite G, G1, Vj; reflexivity|]. intros h Hh. rewrite O' by exact Hh. apply O1. exact Hh.
  - right. congruence.
Qed.

Lemma binop_throws : forall strict w i j p, exact w -> fld w i <> fld w j -> ~ rational (value w i) -> ~ rational (value w j) ->
  binop o ops debug fuel strict p w i j = Val Throw.
Proof.
  intros strict w i j p E F Qi Qj. unfold binop. pose proof F as F'. apply Nat.eqb_neq in F'. rewrite F'.
  destruct (_ && _ && _); [reflexivity|].
  destruct (is_rational (num_of w j)) eqn:Q; [apply (rational_iff w j E) in Q; contradiction|].
  destruct (is_integer (num_of w j)) eqn:I; [apply integer_rational in I; congruence|].
  rewrite (coerce_throws w i (fld w j) E); [reflexivity|congruence|exact Qi].
Qed.

(** With LIBEANTIC_STRICT_BINOP one of the operands must be in the rational
    field or both in one field. *)
Lemma binop_strict : forall w i j p, fld w i <> fld w j -> fld w i <> 0%nat -> fld w j <> 0%nat ->
  binop o ops debug fuel true p w i j = Val Throw.
Proof.
  intros w i j p F A B. unfold binop. apply Nat.eqb_neq in F, A, B. rewrite F, A, B. reflexivity.
Qed.
Lemma binop_lenient : forall w i j p, fld w i = fld w j \/ fld w i = 0%nat \/ fld w j = 0%nat ->
  binop o ops debug fuel true p w i j = binop o ops debug fuel false p w i j.
Proof.
  intros w i j p [H|[H|H]]; unfold binop; rewrite H; cbn [andb negb Nat.eqb]; rewrite ?Nat.eqb_refl, ?andb_false_r; cbn [negb andb]; rewrite ?andb_false_r; reflexivity.
Qed.

(** ** Integers and rationals *)
Lemma binop_int_ok : forall w i t z p, exact w -> in_range t z -> (p = Div -> z <> 0%Z) ->
  exists w', binop_int o ops debug fuel p w i t z = Val w' /\ wrote w w' i (real_op p (value w i) (IZR z)).
Proof. intros w i t z p E H Z. unfold binop_int. rewrite (arg_ok t z H). apply op_z_ok; assumption. Qed.
Lemma binop_mpz_ok : forall w i z p, exact w -> (p = Div -> z <> 0%Z) ->
  exists w', binop_mpz o ops debug fuel p w i z = Val w' /\ wrote w w' i (real_op p (value w i) (IZR z)).
Proof. intros. apply op_z_ok; assumption. Qed.
Lemma binop_mpq_ok : forall w i qn qd p, exact w -> (0 < qd)%Z -> (p = Div -> qn <> 0%Z) ->
  exists w', binop_mpq o ops debug fuel p w i qn qd = Val w' /\ wrote w w' i (real_op p (value w i) (IZR qn / IZR qd)).
Proof. intros. apply op_q_ok; assumption. Qed.

(** ** Powers *)
Lemma pow_to_nat : forall (v : R) e, (0 <= e)%Z -> v ^ Z.to_nat e = powerRZ v e.
Proof. intros v [|p|p] H; [reflexivity|reflexivity|lia]. Qed.
Lemma pow_inv_nat : forall (v : R) e, v <> 0 -> (e < 0)%Z -> (/ v) ^ Z.to_nat (- e) = powerRZ v e.
Proof. intros v [|p|p] H L; try lia. cbn [Z.opp Z.to_nat powerRZ]. apply pow_inv. Qed.

Lemma other_after : forall w i y j, j <> i -> fld (set_obj w i y) j = fld w j /\ value (set_obj w i y) j = value w j.
Proof. intros w i y j H. unfold CxxSpec.value, num_of, val, fld. rewrite (obj_other w i y j H). auto. Qed.

Lemma powp_ok : forall w i j e, exact w -> fld w i = fld w j -> (0 <= e)%Z ->
  exists w', call_on o ops debug fuel w i j (KPow i j e) = Val w' /\ wrote w w' i (powerRZ (value w j) e).
Proof.
  intros w i j e E F P.
  assert (T : exists w', call_on o ops debug fuel w i j (KPow i j e) = Val w') by (eexists; reflexivity).
  destruct T as (w' & T). exists w'. split; [exact T|].
  destruct (call_exact _ i j (KPow i j e) _ E F P (fun h => h) Logic.I T) as (E' & Oth & Fi & v & Ef & Vi).
  split; [exact E'|]. split; [|exact Fi]. split; [|exact Oth]. rewrite Vi.
  assert (Wj : (if Nat.eqb j i then value w i else value w j) = value w j) by (destruct (Nat.eqb_spec j i) as [->|]; reflexivity).
  inversion Ef; subst. unfold vset. rewrite Nat.eqb_refl, Wj. apply pow_to_nat. exact P.
Qed.

Lemma inv_ok : forall w i j, exact w -> fld w i = fld w j -> value w j <> 0 ->
  exists w', call_on o ops debug fuel w i j (KInv i j) = Val w' /\ wrote w w' i (/ value w j).
Proof.
  intros w i j E F Z.
  assert (T : exists w', call_on o ops debug fuel w i j (KInv i j) = Val w').
  { unfold call_on. cbv zeta. cbn [run]. unfold do_inv. cbn [upd upd_elem upd_emb].
    assert (M : r_elem (if Nat.eqb j i then val w i else val w j) = num_of w j) by (destruct (Nat.eqb_spec j i) as [->|]; reflexivity).
    rewrite M. destruct (is_zero (num_of w j)) eqn:Zj; [apply (zero_iff w j E) in Zj; contradiction|]. cbn [bind]. eexists; reflexivity. }
  destruct T as (w' & T). exists w'. split; [exact T|].
  destruct (call_exact _ i j (KInv i j) _ E F Logic.I (fun h => h) Logic.I T) as (E' & Oth & Fi & v & Ef & Vi).
  split; [exact E'|]. split; [|exact Fi]. split; [|exact Oth]. rewrite Vi.
  assert (Wj : (if Nat.eqb j i then value w i else value w j) = value w j) by (destruct (Nat.eqb_spec j i) as [->|]; reflexivity).
  inversion Ef; subst. unfold vset. rewrite Nat.eqb_refl, Wj. reflexivity.
Qed.

Lemma pow_ok : forall w i j e, exact w -> i <> j -> in_range Int e -> e <> low Int -> (value w j = 0 -> (0 <= e)%Z) ->
  exists w', pow o ops debug fuel w i j e = Val w' /\ exact w' /\ gave x w w' i (powerRZ (value w j) e) /\ fld w' i = fld w j.
Proof.
  intros w i j e E N _ M Z. unfold pow. set (w1 := set_obj w i (zero_in (fld w j))).
  assert (E1 : exact w1) by (apply zero_in_exact; exact E).
  destruct (other_after w i (zero_in (fld w j)) j (not_eq_sym N)) as [Fj Vj]. fold w1 in Fj, Vj.
  assert (Fi : fld w1 i = fld w j) by apply fld_get.
  assert (O1 : forall h, h <> i -> w_objs w1 h = w_objs w h) by (intros h Hh; apply obj_other; exact Hh).
  destruct (Z.ltb_spec e 0) as [L|L].
  - assert (Nz : value w j <> 0) by (intros H; specialize (Z H); lia).
    destruct (inv_ok w1 i j E1 ltac:(congruence) ltac:(rewrite Vj; exact Nz)) as (w2 & T2 & E2 & [G2 O2] & F2). rewrite T2. cbn [bind].
    destruct (Z.eqb_spec e (low Int)) as [|_]; [contradiction|].
    destruct (powp_ok w2 i i (- e) E2 eq_refl ltac:(lia)) as (w3 & T3 & E3 & [G3 O3] & F3).
    exists w3. split; [exact T3|]. split; [exact E3|]. split; [|congruence]. split.
    + rewrite G3, G2, Vj. rewrite <- pow_to_nat by lia. apply pow_inv_nat; [exact Nz|exact L].
    + intros h Hh. rewrite O3, O2, O1 by exact Hh. reflexivity.
  - destruct (powp_ok w1 i j e E1 ltac:(congruence) L) as (w3 & T3 & E3 & [G3 O3] & F3).
    exists w3. split; [exact T3|]. split; [exact E3|]. split; [|congruence]. split.
    + rewrite G3, Vj. reflexivity.
    + intros h Hh. rewrite O3, O1 by exact Hh. reflexivity.
Qed.

Lemma pow_undef : forall w i j, exact w -> i <> j -> value w j <> 0 -> pow o ops debug fuel w i j (low Int) = Undef.
Proof.
  intros w i j E N Z. unfold pow. set (w1 := set_obj w i (zero_in (fld w j))).
  assert (E1 : exact w1) by (apply zero_in_exact; exact E).
  destruct (other_after w i (zero_in (fld w j)) j (not_eq_sym N)) as [Fj Vj]. fold w1 in Fj, Vj.
  assert (Fi : fld w1 i = fld w j) by apply fld_get.
  replace (low Int <? 0)%Z with true by reflexivity.
  destruct (inv_ok w1 i j E1 ltac:(congruence) ltac:(rewrite Vj; exact Z)) as (w2 & T2 & _). rewrite T2. cbn [bind].
  rewrite Z.eqb_refl. reflexivity.
Qed.

Lemma negate_ok : forall w i j, exact w ->
  exists w', negate o ops debug fuel w i j = Val w' /\ exact w' /\ gave x w w' i (- value w j) /\ fld w' i = fld w j.
Proof.
  intros w i j E. unfold negate. set (w1 := set_obj w i (w_objs w j)).
  assert (E1 : exact w1) by (apply set_obj_exact; [exact E|apply (ew_objs _ _ E j)]).
  assert (V1 : value w1 i = value w j) by (unfold CxxSpec.value, num_of, val, fld, w1; rewrite obj_get; reflexivity).
  assert (F1 : fld w1 i = fld w j) by (unfold w1; rewrite fld_get; reflexivity).
  assert (T : exists w', call_on o ops debug fuel w1 i i (KNeg i i) = Val w') by (eexists; reflexivity).
  destruct T as (w' & T). exists w'. split; [exact T|].
  destruct (call_exact _ i i (KNeg i i) _ E1 eq_refl Logic.I (fun h => h) Logic.I T) as (E' & Oth & Fi & v & Ef & Vi).
  split; [exact E'|]. split; [|congruence]. split.
  - rewrite Vi. inversion Ef; subst. unfold vset. rewrite !Nat.eqb_refl, V1. reflexivity.
  - intros h Hh. rewrite Oth by exact Hh. apply obj_other. exact Hh.
Qed.

(** ** Equality *)
Lemma frac_eq : forall a b c d, (0 < b)%Z -> (0 < d)%Z -> Z.gcd a b = 1%Z -> Z.gcd c d = 1%Z ->
  ((a =? c)%Z && (b =? d)%Z)%bool = true <-> IZR a / IZR b = IZR c / IZR d.
Proof.
  intros a b c d B D G1 G2. assert (IZR b <> 0) by (apply not_0_IZR; lia). assert (IZR d <> 0) by (apply not_0_IZR; lia).
  rewrite andb_true_iff, !Z.eqb_eq. split; [intros [-> ->]; reflexivity|]. intros H1.
  assert (H2 : (a * d = c * b)%Z).
  { apply eq_IZR. rewrite !mult_IZR. replace (IZR a) with (IZR a / IZR b * IZR b) by (field; assumption). rewrite H1. field. assumption. }
  assert (Hb : (b | d)%Z) by (apply Z.gauss with a; [exists c; lia|rewrite Z.gcd_comm; exact G1]).
  assert (Hd : (d | b)%Z) by (apply Z.gauss with c; [exists a; lia|rewrite Z.gcd_comm; exact G2]).
  assert (b = d) by (apply Z.divide_antisym_nonneg; lia || assumption). subst d. split; [nia|reflexivity].
Qed.

Lemma eq_objs_ok : forall w i j, exact w -> fld w i = fld w j \/ rational (value w i) \/ rational (value w j) ->
  exists b, eq_objs debug w i j = Val (Ret (w, b)) /\ (b = true <-> value w i = value w j).
Proof.
  intros w i j E H. unfold eq_objs. destruct (Nat.eqb_spec (fld w i) (fld w j)) as [F|F].
  { eexists. split; [reflexivity|]. unfold CxxSpec.value. rewrite F.
    apply (elem_eqb_spec _ _ (Hm (fld w j))); [rewrite <- F; apply (ew_objs _ _ E)|apply (ew_objs _ _ E)]. }
  assert (Irr : forall a b, is_rational (num_of w a) = true -> is_rational (num_of w b) = false -> value w a <> value w b).
  { intros a b Qa Qb V. apply (rational_iff w a E) in Qa. apply (not_rational w b E Qb). rewrite <- V. exact Qa. }
  destruct (is_rational (num_of w i)) eqn:Qi.
  - destruct (is_rational (num_of w j)) eqn:Qj; cbn [negb].
    + destruct (to_mpq_ok w i E Qi) as (a & b & Ti & B & G1 & Vi). destruct (to_mpq_ok w j E Qj) as (c & d & Tj & D & G2 & Vj).
      rewrite Ti, Tj. cbn [bind]. eexists. split; [reflexivity|]. rewrite Vi, Vj. apply frac_eq; assumption.
    + exists false. split; [reflexivity|]. split; [discriminate|]. intros V. exfalso. apply (Irr i j Qi Qj V).
  - destruct (is_rational (num_of w j)) eqn:Qj.
    + exists false. split; [reflexivity|]. split; [discriminate|]. intros V. exfalso. symmetry in V. apply (Irr j i Qj Qi V).
    + exfalso. destruct H as [H|[H|H]]; [contradiction|apply (not_rational w i E Qi H)|apply (not_rational w j E Qj H)].
Qed.

Lemma eq_objs_throws : forall w i j, exact w -> fld w i <> fld w j -> ~ rational (value w i) -> ~ rational (value w j) ->
  eq_objs debug w i j = Val Throw.
Proof.
  intros w i j E F Qi Qj. unfold eq_objs. apply Nat.eqb_neq in F. rewrite F.
  destruct (is_rational (num_of w i)) eqn:A; [apply (rational_iff w i E) in A; contradiction|].
  destruct (is_rational (num_of w j)) eqn:B; [apply (rational_iff w j E) in B; contradiction|]. reflexivity.
Qed.

Lemma equal_z_ok : forall w i z, exact w -> equal_q (num_of w i) z 1 = true <-> value w i = IZR z.
Proof.
  intros w i z E. rewrite (equal_q_spec _ _ (Hm (fld w i)) _ z 1 (ew_objs _ _ E i) ltac:(lia) (Z.gcd_1_r z)).
  unfold CxxSpec.value. replace (IZR z / IZR 1) with (IZR z) by field. reflexivity.
Qed.

Lemma integer_iff : forall w i, exact w -> is_integer (num_of w i) = true <-> exists z, value w i = IZR z.
Proof. intros w i E. apply (is_integer_spec _ _ (Hm _)). apply (ew_objs _ _ E). Qed.

Lemma eq_mpz_ok : forall w i z, exact w -> exists b, eq_mpz w i z = Val (Ret (w, b)) /\ (b = true <-> value w i = IZR z).
Proof.
  intros w i z E. eexists. split; [reflexivity|]. destruct (is_integer (num_of w i)) eqn:I; cbn [negb]; [apply equal_z_ok; exact E|].
  split; [discriminate|]. intros V. assert (is_integer (num_of w i) = true) by (apply (integer_iff w i E); exists z; exact V). congruence.
Qed.

Lemma eq_int_ok : forall w i t z, exact w -> in_range t z ->
  exists b, eq_int w i t z = Val (Ret (w, b)) /\ (b = true <-> value w i = IZR z).
Proof.
  intros w i t z E H. eexists. split; [reflexivity|]. rewrite (arg_ok t z H).
  assert (A : (if (z =? 0)%Z then is_zero (num_of w i) else equal_q (num_of w i) z 1) = true <-> value w i = IZR z).
  { destruct (Z.eqb_spec z 0) as [->|_]; [apply zero_iff; exact E|apply equal_z_ok; exact E]. }
  assert (B : (if negb (is_integer (num_of w i)) then false else equal_q (num_of w i) z 1) = true <-> value w i = IZR z).
  { destruct (eq_mpz_ok w i z E) as (b & Q & V). injection Q as <-. exact V. }
  destruct t; first [exact A | exact B | apply equal_z_ok; exact E].
Qed.

Lemma eq_mpq_ok : forall w i qn qd, exact w -> (0 < qd)%Z -> Z.gcd qn qd = 1%Z ->
  exists b, eq_mpq w i qn qd = Val (Ret (w, b)) /\ (b = true <-> value w i = IZR qn / IZR qd).
Proof.
  intros w i qn qd E Hq G. eexists. split; [reflexivity|]. destruct (is_rational (num_of w i)) eqn:Q; cbn [negb].
  - apply (equal_q_spec _ _ (Hm (fld w i)) _ _ _ (ew_objs _ _ E i) Hq G).
  - split; [discriminate|]. intros V. exfalso. apply (not_rational w i E Q). exists qn, qd. auto.
Qed.

(** ** Every program keeps the objects in canonical form *)
Lemma set_field_exact : forall w f nf, exact w -> f_pol nf = pol f -> exact (set_field w f nf).
Proof.
  intros w f nf E P. constructor; [|apply (ew_objs _ _ E)]. intros g. cbn [set_field w_fields].
  destruct (Nat.eqb_spec g f) as [->|]; [exact P|apply (ew_fields _ _ E)].
Qed.
Lemma kept_exact : forall w f nf, exact w -> kept (w_fields w f) nf -> exact (set_field w f nf).
Proof. intros w f nf E [[K _] _]. apply set_field_exact; [exact E|]. rewrite K. apply (ew_fields _ _ E). Qed.
Lemma set_ball_exact : forall w i b, exact w -> exact (set_ball w i b).
Proof.
  intros w i b E. constructor; [apply (ew_fields _ _ E)|]. intros h. rewrite fld_set_ball, num_set_ball. apply (ew_objs _ _ E).
Qed.

Lemma same_refl : forall w, same_objects w w.
Proof. split; reflexivity. Qed.
Lemma same_set_ball : forall w v i b, same_objects w v -> same_objects w (set_ball v i b).
Proof. intros w v i b H h. rewrite fld_set_ball, num_set_ball. apply H. Qed.

Lemma cmp_objs_exact : forall w i j w' s, exact w -> cmp_objs o ops debug fuel w i j = Val (w', s) -> exact w' /\ same_objects w w'.
Proof.
  intros w i j w' s E H. unfold cmp_objs in H. cbv zeta in H.
  match type of H with bind ?t _ = _ => destruct t as [[[[nf' bi] bj] s']| | |] eqn:C; try discriminate end.
  cbn [bind] in H. injection H as <- <-. apply cmp_kept in C. split; [apply set_ball_exact, set_ball_exact, kept_exact; assumption|].
  apply same_set_ball, same_set_ball. split; reflexivity.
Qed.
Lemma cmp_num_exact : forall w i qn qd w' s, exact w -> cmp_num o ops debug fuel w i qn qd = Val (w', s) -> exact w' /\ same_objects w w'.
Proof.
  intros w i qn qd w' s E H. unfold cmp_num in H. cbv zeta in H.
  match type of H with bind ?t _ = _ => destruct t as [[[nf' bi] s']| | |] eqn:C; try discriminate end.
  cbn [bind] in H. injection H as <- <-. apply cmp_q_kept in C. split; [apply set_ball_exact, kept_exact; assumption|].
  apply same_set_ball. split; reflexivity.
Qed.

Lemma call_keeps : forall w i j k w', exact w -> fld w i = fld w j -> call_ok (pol (fld w i)) k -> arith k -> sound_call (pol (fld w i)) k ->
  call_on o ops debug fuel w i j k = Val w' -> exact w'.
Proof. intros w i j k w' E F A B C H. apply (call_exact _ _ _ _ _ E F A B C H). Qed.

Lemma op_elem_keeps : forall w i j p w', exact w -> fld w i = fld w j -> call_on o ops debug fuel w i j (op_elem p i i j) = Val w' -> exact w'.
Proof. intros w i j p w' E F H. apply (call_keeps _ _ _ _ _ E F) in H; [exact H|destruct p; cbn; tauto..]. Qed.
Lemma op_z_keeps : forall w i z p w', exact w -> call_on o ops debug fuel w i i (op_z p i i z) = Val w' -> exact w'.
Proof. intros w i z p w' E H. apply (call_keeps _ _ _ _ _ E eq_refl) in H; [exact H|destruct p; cbn; tauto..]. Qed.
Lemma op_q_keeps : forall w i qn qd p w', exact w -> (0 < qd)%Z -> call_on o ops debug fuel w i i (op_q p i i qn qd) = Val w' -> exact w'.
Proof. intros w i qn qd p w' E Hq H. apply (call_keeps _ _ _ _ _ E eq_refl) in H; [exact H|destruct p; cbn; tauto..]. Qed.

Lemma convert_keeps : forall w i f j w', exact w -> convert o ops debug fuel w i f j = Val (Ret w') -> exact w' /\ fld w' i = f /\
  forall h, h <> i -> w_objs w' h = w_objs w h.
Proof.
  intros w i f j w' E H. unfold convert in H. destruct (Nat.eqb_spec (fld w j) f) as [F|F].
  - injection H as <-. split; [|split; [apply fld_get|intros; apply obj_other; assumption]].
    apply set_obj_exact; [exact E|]. cbn [ob_field ob_val]. rewrite <- F. apply (ew_objs _ _ E).
  - destruct (is_rational (num_of w j)) eqn:Q; [|discriminate]. destruct (to_mpq_ok w j E Q) as (a & d & T & D & _). rewrite T in H. cbn [bind] in H.
    destruct (set_q_ok w i f a d E D) as (v & T' & E' & [_ O'] & Fi). rewrite T' in H. cbn [bind] in H. injection H as <-. auto.
Qed.

Lemma coerce_keeps : forall w i f w', exact w -> coerce o ops debug fuel w i f = Val (Ret w') -> exact w' /\ fld w' i = f /\
  forall h, h <> i -> w_objs w' h = w_objs w h.
Proof.
  intros w i f w' E H. unfold coerce in H. destruct (Nat.eqb_spec f (fld w i)) as [F|F]; [injection H as <-; auto|].
  destruct (is_zero (num_of w i)) eqn:Z.
  { injection H as <-. split; [apply zero_in_exact; exact E|]. split; [apply fld_get|intros; apply obj_other; assumption]. }
  destruct (is_integer (num_of w i)) eqn:I.
  { destruct (set_z_ok w i f (get_fmpz (num_of w i)) E) as (v & T & E' & [_ O'] & Fi). rewrite T in H. cbn [bind] in H. injection H as <-. auto. }
  destruct (is_rational (num_of w i)); [|discriminate]. apply (convert_keeps _ _ _ _ _ E H).
Qed.

Lemma binop_keeps : forall strict w i j p w', exact w -> binop o ops debug fuel strict p w i j = Val (Ret w') -> exact w'.
Proof.
  intros strict w i j p w' E H. unfold binop, ret in H. destruct (Nat.eqb_spec (fld w i) (fld w j)) as [F|F].
  { open H. injection H as <-. apply (op_elem_keeps _ _ _ _ _ E F T). }
  destruct (_ && _ && _); [discriminate|]. destruct (is_integer (num_of w j)).
  { open H. injection H as <-. apply (op_z_keeps _ _ _ _ _ E T). }
  destruct (is_rational (num_of w j)) eqn:Q.
  { rewrite (ew_fields _ _ E) in H. destruct (get_fmpq_ok w j E Q) as (a & d & T & D & _). rewrite T in H. cbn [bind] in H.
    open H. injection H as <-. apply (op_q_keeps _ _ _ _ _ _ E D T0). }
  opene H. destruct (coerce_keeps _ _ _ _ E T) as (E1 & F1 & O1). open H. injection H as <-.
  apply (op_elem_keeps _ _ _ _ _ E1) in T0; [exact T0|]. rewrite F1. unfold fld. rewrite O1; [reflexivity|congruence].
Qed.

Lemma set_keeps : forall w i f k w', exact w -> call_ok (pol f) k -> arith k -> sound_call (pol f) k ->
  call_on o ops debug fuel (set_obj w i (zero_in f)) i i k = Val w' -> exact w'.
Proof.
  intros w i f k w' E A B C H. apply (call_keeps _ _ _ _ _ (zero_in_exact w i f E) eq_refl) in H; [exact H|rewrite fld_get; exact A|exact B|rewrite fld_get; exact C].
Qed.

Lemma gen_canon : forall f nf y, f_pol nf = pol f -> gen o (ops (pol f)) nf = Val y -> canon (pol f) (r_elem y).
Proof.
  intros f nf y Ep E. unfold gen in E. rewrite Ep in E. pose proof (min_len _ _ (Hm f)) as L. pose proof (min_lead _ _ (Hm f)) as Ld.
  assert (Hgen : forall b, Val {| r_elem := n_set_poly (ops (pol f)) [0; 1]%Z 1; r_emb := b |} = Val y -> canon (pol f) (r_elem y)).
  { intros b H. injection H as <-. apply (nk_set_poly _ _ _ (Hn f) [0; 1]%Z 1 ltac:(lia)). }
  destruct (pol f) as [|c0 [|c1 [|c2 p]]] eqn:Epl; cbn [length] in L; try lia; [|rewrite <- Epl in *; apply (Hgen _ E)].
  clear Hgen. cbn [last] in Ld. unfold canonicalise in E. destruct (Z.eqb_spec c0 0) as [|C0]; [discriminate|].
  cbn [bind] in E.
  assert (Hg : (0 < Z.gcd (- c1) c0)%Z).
  { pose proof (Z.gcd_nonneg (- c1) c0). assert (Z.gcd (- c1) c0 <> 0)%Z; [|lia]. intros W. apply Z.gcd_eq_0_r in W. lia. }
  set (g := Z.gcd (- c1) c0) in *.
  destruct (Z.gcd_divide_l (- c1) c0) as (u & Eu). fold g in Eu. destruct (Z.gcd_divide_r (- c1) c0) as (w & Ew). fold g in Ew.
  assert (U : (- c1 / g = u)%Z) by (rewrite Eu; apply Z.div_mul; lia).
  assert (W : (c0 / g = w)%Z) by (rewrite Ew; apply Z.div_mul; lia).
  rewrite U, W in E. assert (u <> 0)%Z by nia. assert (w <> 0)%Z by nia.
  assert (Hr : Z.gcd u w = 1%Z).
  { assert (K : Z.gcd (u * g) (w * g) = g) by (rewrite <- Eu, <- Ew; reflexivity).
    rewrite Z.gcd_mul_mono_r_nonneg in K by lia. pose proof (Z.gcd_nonneg u w). nia. }
  assert (Na : (Z.sgn c0 * u <> 0)%Z) by (destruct c0; cbn [Z.sgn]; lia).
  destruct (Z.eqb_spec (Z.sgn c0 * u) 0) as [|_]; [contradiction|]. injection E as <-. cbn [r_elem].
  constructor; cbn [e_num e_den last length]; [lia|exact Na|lia|].
  intros d Hd D1 D2. specialize (D2 (Z.sgn c0 * u)%Z (or_introl eq_refl)). apply (proj1 (Z.divide_abs_r _ _)) in D1.
  assert (D3 : (d | u)%Z) by (destruct c0; cbn [Z.sgn] in D2; [contradiction|rewrite Z.mul_1_l in D2; exact D2|apply Z.divide_opp_r; replace (- u)%Z with (-1 * u)%Z by lia; exact D2]).
  assert (D4 : (d | Z.gcd u w)%Z) by (apply Z.gcd_greatest; assumption). rewrite Hr in D4. apply Z.divide_1_r_nonneg in D4; lia.
Qed.

Lemma gen_keeps : forall w i f w', exact w -> call_on o ops debug fuel (set_obj w i (zero_in f)) i i (KGen i) = Val w' -> exact w'.
Proof.
  intros w i f w' E H. pose proof (zero_in_exact w i f E) as E1. set (w1 := set_obj w i (zero_in f)) in *. unfold call_on in H. cbv zeta in H. cbn [run] in H.
  assert (F1 : fld w1 i = f) by apply fld_get. rewrite F1 in H.
  destruct (gen o (ops (f_pol (w_fields w1 f))) (w_fields w1 f)) as [y| | |] eqn:G; try discriminate. cbn [bind] in H. injection H as <-.
  rewrite (ew_fields _ _ E1) in G. pose proof (gen_canon f _ _ (ew_fields _ _ E1 f) G) as C.
  unfold set_val. rewrite fld_set_field, F1. apply set_obj_exact.
  - apply set_field_exact; [exact E1|apply (ew_fields _ _ E1)].
  - cbn [ob_field ob_val]. unfold upd, upd_elem, upd_emb. cbn. rewrite Nat.eqb_refl. exact C.
Qed.

Lemma fdiv_objs_exact : forall w i j w' z, exact w -> fdiv_objs o ops debug fuel w i j = Val (Ret (w', z)) -> exact w' /\ same_objects w w'.
Proof.
  intros w i j w' z E H. unfold fdiv_objs in H. cbv zeta in H. destruct (negb _); [discriminate|].
  match type of H with bind ?t _ = _ => destruct t as [[[[nf' bi] bj] s']| | |] eqn:C; try discriminate end.
  cbn [bind] in H. injection H as <- <-. apply fdiv_kept in C. split; [apply set_ball_exact, set_ball_exact, kept_exact; assumption|].
  apply same_set_ball, same_set_ball. split; reflexivity.
Qed.

Lemma rel_exact : forall w w' b (x0 : out (exc (world * bool))),
  (forall v c, x0 = Val (Ret (v, c)) -> exact v /\ same_objects w v) -> flip x0 = Val (Ret (w', b)) -> exact w' /\ same_objects w w'.
Proof.
  intros w w' b x0 H F. unfold flip in F. opene F. destruct res as [v c]. injection F as <- <-. apply (H _ _ eq_refl).
Qed.

Lemma eq_objs_exact : forall w i j w' b, exact w -> eq_objs debug w i j = Val (Ret (w', b)) -> exact w' /\ same_objects w w'.
Proof.
  intros w i j w' b E H. assert (w' = w); [|subst; split; [exact E|apply same_refl]]. unfold eq_objs in H.
  repeat match type of H with (if ?t then _ else _) = _ => destruct t end; try discriminate; try (injection H as <- <-; reflexivity).
  open H. destruct res. open H. destruct res. injection H as <- <-. reflexivity.
Qed.
Lemma relop_mpq_exact : forall w i qn qd c w' b, exact w -> relop_mpq o ops debug fuel w i qn qd c = Val (Ret (w', b)) -> exact w' /\ same_objects w w'.
Proof.
  intros w i qn qd c w' b E H. unfold relop_mpq in H. open H. destruct res as [v s]. injection H as <- <-. apply (cmp_num_exact _ _ _ _ _ _ E T).
Qed.
Lemma lt_objs_exact : forall w i j w' b, exact w -> lt_objs o ops debug fuel w i j = Val (Ret (w', b)) -> exact w' /\ same_objects w w'.
Proof.
  intros w i j w' b E H. unfold lt_objs in H. destruct (Nat.eqb _ _).
  { open H. destruct res. injection H as <- <-. apply (cmp_objs_exact _ _ _ _ _ E T). }
  destruct (is_rational (num_of w i)); [open H; destruct res; apply (relop_mpq_exact _ _ _ _ _ _ _ E H)|].
  destruct (is_rational (num_of w j)); [open H; destruct res; apply (relop_mpq_exact _ _ _ _ _ _ _ E H)|discriminate].
Qed.
Lemma rel_objs_exact : forall r w i j w' b, exact w -> rel_objs o ops debug fuel r w i j = Val (Ret (w', b)) -> exact w' /\ same_objects w w'.
Proof.
  intros r w i j w' b E H. destruct r; cbn [rel_objs] in H;
    first [apply (eq_objs_exact _ _ _ _ _ E H) | apply (lt_objs_exact _ _ _ _ _ E H)
      | eapply rel_exact; [|exact H]; intros; first [eapply eq_objs_exact; eassumption | eapply lt_objs_exact; eassumption]].
Qed.
Lemma lt_int_exact : forall w i t z w' b, exact w -> lt_int o ops debug fuel w i t z = Val (Ret (w', b)) -> exact w' /\ same_objects w w'.
Proof.
  intros w i t z w' b E H. destruct t; cbn [lt_int] in H; try apply (relop_mpq_exact _ _ _ _ _ _ _ E H);
    open H; destruct res; injection H as <- <-; apply (cmp_num_exact _ _ _ _ _ _ E T).
Qed.
Lemma gt_int_exact : forall w i t z w' b, exact w -> gt_int o ops debug fuel w i t z = Val (Ret (w', b)) -> exact w' /\ same_objects w w'.
Proof.
  intros w i t z w' b E H. destruct t; cbn [gt_int] in H; try apply (relop_mpq_exact _ _ _ _ _ _ _ E H);
    open H; destruct res; injection H as <- <-; apply (cmp_num_exact _ _ _ _ _ _ E T).
Qed.
Lemma eq_int_exact : forall w i t z w' b, exact w -> eq_int w i t z = Val (Ret (w', b)) -> exact w' /\ same_objects w w'.
Proof. intros w i t z w' b E H. unfold eq_int in H. cbv zeta in H. injection H as <- <-. split; [exact E|apply same_refl]. Qed.
Lemma eq_mpz_exact : forall w i z w' b, exact w -> eq_mpz w i z = Val (Ret (w', b)) -> exact w' /\ same_objects w w'.
Proof. intros w i z w' b E H. unfold eq_mpz in H. injection H as <- <-. split; [exact E|apply same_refl]. Qed.
Lemma eq_mpq_exact : forall w i qn qd w' b, exact w -> eq_mpq w i qn qd = Val (Ret (w', b)) -> exact w' /\ same_objects w w'.
Proof. intros w i qn qd w' b E H. unfold eq_mpq in H. injection H as <- <-. split; [exact E|apply same_refl]. Qed.
Lemma rel_int_exact : forall r w i t z w' b, exact w -> rel_int o ops debug fuel r w i t z = Val (Ret (w', b)) -> exact w' /\ same_objects w w'.
Proof.
  intros r w i t z w' b E H. destruct r; cbn [rel_int] in H;
    first [apply (eq_int_exact _ _ _ _ _ _ E H) | apply (lt_int_exact _ _ _ _ _ _ E H) | apply (gt_int_exact _ _ _ _ _ _ E H)
      | eapply rel_exact; [|exact H]; intros; first [eapply eq_int_exact; eassumption | eapply lt_int_exact; eassumption | eapply gt_int_exact; eassumption]].
Qed.
Lemma rel_mpq_exact : forall r w i qn qd w' b, exact w -> rel_mpq o ops debug fuel r w i qn qd = Val (Ret (w', b)) -> exact w' /\ same_objects w w'.
Proof.
  intros r w i qn qd w' b E H. destruct r; cbn [rel_mpq] in H;
    first [apply (eq_mpq_exact _ _ _ _ _ _ E H) | apply (relop_mpq_exact _ _ _ _ _ _ _ E H)
      | eapply rel_exact; [|exact H]; intros; first [eapply eq_mpq_exact; eassumption | eapply relop_mpq_exact; eassumption]].
Qed.
Lemma rel_mpz_exact : forall r w i z w' b, exact w -> rel_mpz o ops debug fuel r w i z = Val (Ret (w', b)) -> exact w' /\ same_objects w w'.
Proof.
  intros r w i z w' b E H. destruct r; cbn [rel_mpz] in H;
    first [apply (eq_mpz_exact _ _ _ _ _ E H) | apply (rel_mpq_exact _ _ _ _ _ _ _ E H)
      | eapply rel_exact; [|exact H]; intros; eapply eq_mpz_exact; eassumption].
Qed.

Lemma floordiv_exact : forall strict w i j w' z, exact w -> floordiv o ops debug fuel strict w i j = Val (Ret (w', z)) -> exact w' /\ same_objects w w'.
Proof.
  intros strict w i j w' z E H. unfold floordiv in H. destruct (Nat.eqb _ _); [apply (fdiv_objs_exact _ _ _ _ _ E H)|].
  destruct (is_rational (num_of w j)).
  { opene H. pose proof (binop_keeps _ _ _ _ _ _ E T) as E1. open H. destruct res0 as [[nf' b] z']. injection H as <- <-.
    apply round_int_kept in T0. split; [|split; reflexivity]. constructor; [|apply (ew_objs _ _ E)].
    intros f. unfold restore. cbn [w_fields]. apply (ew_fields _ _ (kept_exact _ _ _ E1 T0)). }
  destruct (is_rational (num_of w i)) eqn:Q; [|apply (fdiv_objs_exact _ _ _ _ _ E H)].
  destruct (to_mpq_ok w i E Q) as (a & d & T & D & _). rewrite T in H. cbn [bind] in H. unfold make_mpq in H.
  destruct (set_q_ok w i (fld w j) a d E D) as (v & T' & E1 & [_ O1] & _). rewrite T' in H. cbn [bind] in H.
  opene H. destruct res as [v' z']. injection H as <- <-. destruct (fdiv_objs_exact _ _ _ _ _ E1 T0) as [E2 S2]. split.
  - apply set_obj_exact; [exact E2|apply (ew_objs _ _ E i)].
  - intros h. destruct (Nat.eq_dec h i) as [->|Nh].
    + unfold num_of, val, fld. rewrite obj_get. auto.
    + destruct (S2 h) as [S2a S2b]. unfold num_of, val, fld in *. rewrite obj_other by exact Nh. rewrite S2a, S2b, O1 by exact Nh. auto.
Qed.

Lemma xrun_exact : forall strict w c w', exact w -> xcall_ok c -> xrun o ops debug fuel strict w c = Val (Ret w') -> exact w'.
Proof.
  intros strict w c w' E K H. destruct c; cbn [xrun xcall_ok] in *; unfold ret, done in *.
  - apply (binop_keeps _ _ _ _ _ _ E H).
  - open H. injection H as <-. apply (op_z_keeps _ _ _ _ _ E T).
  - open H. injection H as <-. apply (op_z_keeps _ _ _ _ _ E T).
  - open H. injection H as <-. apply (op_q_keeps _ _ _ _ _ _ E K T).
  - open H. injection H as <-. destruct (negate_ok w i j E) as (v & T' & E' & _). congruence.
  - open H. injection H as <-. destruct K as [K1 K2]. unfold pow in T.
    assert (E1 : exact (set_obj w i (zero_in (fld w j)))) by (apply zero_in_exact; exact E).
    assert (F1 : fld (set_obj w i (zero_in (fld w j))) i = fld (set_obj w i (zero_in (fld w j))) j).
    { rewrite fld_get. symmetry. apply other_after. congruence. }
    destruct (Z.ltb_spec e 0) as [L|L].
    + open T. assert (E2 : exact res0) by (apply (call_keeps _ _ _ _ _ E1 F1) in T0; [exact T0|cbn; tauto..]).
      destruct (e =? low Int)%Z; [discriminate|]. apply (call_keeps _ _ _ _ _ E2 eq_refl) in T; [exact T|cbn; lia|cbn; tauto|cbn; tauto].
    + apply (call_keeps _ _ _ _ _ E1 F1) in T; [exact T|cbn; lia|cbn; tauto|cbn; tauto].
  - injection H as <-. apply set_obj_exact; [exact E|apply (ew_objs _ _ E j)].
  - apply (convert_keeps _ _ _ _ _ E H).
  - injection H as <-. apply zero_in_exact. exact E.
  - open H. injection H as <-. apply (gen_keeps _ _ _ _ E T).
  - open H. injection H as <-. apply (set_keeps _ _ _ _ _ E) in T; [exact T|cbn; tauto..].
  - open H. injection H as <-. apply (set_keeps _ _ _ _ _ E) in T; [exact T|cbn; tauto..].
  - open H. injection H as <-. apply (set_keeps _ _ _ _ _ E) in T; [exact T|cbn; tauto..].
  - open H. injection H as <-. apply (set_keeps _ _ _ _ _ E) in T; [exact T|cbn; tauto..].
  - open H. injection H as <-. unfold make_vector in T. destruct (_ && _); [discriminate|]. apply (set_keeps _ _ _ _ _ E) in T; [exact T|cbn; tauto..].
  - opene H. destruct res as [v b]. injection H as <-. apply (rel_objs_exact _ _ _ _ _ _ E T).
  - opene H. destruct res as [v b]. injection H as <-. apply (rel_int_exact _ _ _ _ _ _ _ E T).
  - opene H. destruct res as [v b]. injection H as <-. apply (rel_mpz_exact _ _ _ _ _ _ E T).
  - opene H. destruct res as [v b]. injection H as <-. apply (rel_mpq_exact _ _ _ _ _ _ _ E T).
  - opene H. destruct res as [v b]. injection H as <-. apply (floordiv_exact _ _ _ _ _ _ E T).
  - open H. destruct res as [v b]. injection H as <-. unfold floor_obj in T. cbv zeta in T. open T. destruct res as [[nf' b'] z']. injection T as <- <-.
    cbn [fst]. apply round_int_kept in T0. apply set_ball_exact, kept_exact; assumption.
  - open H. destruct res as [v b]. injection H as <-. unfold floor_obj in T. cbv zeta in T. open T. destruct res as [[nf' b'] z']. injection T as <- <-.
    cbn [fst]. apply round_int_kept in T0. apply set_ball_exact, kept_exact; assumption.
  - open H. destruct res as [v b]. injection H as <-. unfold sgn_obj in T. cbv zeta in T. open T. destruct res as [[nf' b'] z']. injection T as <- <-.
    cbn [fst]. apply sgn_kept in T0. apply set_ball_exact, kept_exact; assumption.
  - open H. injection H as <-. apply refine_kept in T. apply kept_exact; assumption.
Qed.

Lemma xruns_exact : forall strict l w w', exact w -> Forall xcall_ok l -> xruns o ops debug fuel strict w l = Val w' -> exact w'.
Proof.
  intros strict l. induction l as [|c l IH]; intros w w' E K H; cbn [xruns] in H; [injection H as <-; exact E|].
  inversion K as [|? ? K1 K2]; subst. open H. destruct res as [v|]; [|apply (IH _ _ E K2 H)].
  apply (IH _ _ (xrun_exact _ _ _ _ E K1 T) K2 H).
Qed.
End Cxx.
