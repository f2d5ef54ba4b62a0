(** Arguments from Python. *)
Require Import Reals List ZArith Bool Lia Lra Ascii.
From Verif Require Import PolyR RootSpec Dyadic ArbModel ArbSpec ElemModel ElemSpec StrModel StrSpec StrMore MakeText
  CxxModel CxxSpec CxxProofs CxxMake CxxOpModel CxxOpSpec CxxOp PyModel PySpec PyProofs PyElem PyArgModel PyArgSpec.
Import ListNotations.
Open Scope Z_scope.

(** * Texts *)
Lemma digitb_facts : forall c, digitb c = true -> isspaceb c = false /\ digit_value c = code c - 48 /\ 0 <= code c - 48 < 10 /\ Ascii.eqb c "-" = false /\ Ascii.eqb c "/" = false.
Proof. intros [[] [] [] [] [] [] [] []] H; try discriminate H; cbn; repeat split; try reflexivity; unfold code; cbn; lia. Qed.

Lemma gmp_digits_fold : forall s acc, Forall (fun c => digitb c = true) s -> gmp_digits 10 acc s = Some (fold_left num_step s acc).
Proof.
  induction s as [|c s IH]; intros acc F; [reflexivity|]. inversion F as [|? ? C F']; subst. destruct (digitb_facts c C) as (S & D & B & _).
  cbn [gmp_digits fold_left]. rewrite S, D. destruct (Z.leb_spec 10 (code c - 48)); [lia|]. rewrite IH by exact F'. reflexivity.
Qed.

Lemma digit_char_zero : forall d, 0 <= d < 10 -> digit_char d = "0"%char -> d = 0.
Proof. intros d H E. destruct (digit_char_ok d H) as [_ C]. rewrite E in C. change (code "0") with 48 in C. lia. Qed.

(** No number but zero is written with a leading zero. *)
Lemma decimal_head : forall f z, 0 < z -> z < 10 ^ Z.of_nat f -> exists c s, decimal f z = c :: s /\ c <> "0"%char.
Proof.
  induction f as [|f IH]; intros z H L; [cbn in L; lia|]. cbn [decimal]. destruct (Z.ltb_spec z 10) as [S|S].
  - rewrite Z.mod_small by lia. exists (digit_char z), []. split; [reflexivity|]. intros E. apply digit_char_zero in E; lia.
  - rewrite Nat2Z.inj_succ, Z.pow_succ_r in L by lia. destruct (IH (z / 10)) as (c & s & E & N).
    + apply Z.div_str_pos. lia.
    + apply Z.div_lt_upper_bound; lia.
    + rewrite E. exists c, (s ++ [digit_char (z mod 10)]). split; [reflexivity|exact N].
Qed.
Lemma dec_head : forall z, 0 < z -> exists c s, dec z = c :: s /\ c <> "0"%char.
Proof.
  intros z H. unfold dec. apply decimal_head; [exact H|]. destruct (Z.log2_spec z H) as [_ L].
  rewrite Nat2Z.inj_succ, Z2Nat.id by apply Z.log2_nonneg. eapply Z.lt_le_trans; [exact L|]. apply Z.pow_le_mono_l. lia.
Qed.

Lemma gmp_abs_dec : forall z, 0 <= z -> gmp_abs (dec z) = Some z.
Proof.
  intros z H. destruct (Z.eq_dec z 0) as [->|N]; [reflexivity|]. destruct (dec_ok z H) as [[_ F] V].
  destruct (dec_head z ltac:(lia)) as (c & s & E & Nc). rewrite E in *. unfold gmp_abs. inversion F as [|? ? C F']; subst.
  destruct (digitb_facts c C) as (_ & D & B & _). rewrite D. destruct (Z.leb_spec 10 (code c - 48)); [lia|].
  destruct (Ascii.eqb_spec c "0"); [contradiction|]. rewrite gmp_digits_fold by exact F. reflexivity.
Qed.
Lemma dec_first : forall z, 0 <= z -> exists c s, dec z = c :: s /\ digitb c = true.
Proof. intros z H. destruct (dec_ok z H) as [[N F] _]. destruct (dec z) as [|c s]; [contradiction|]. inversion F. eauto. Qed.
Lemma skip_digit : forall c s, digitb c = true -> skip_space (c :: s) = c :: s.
Proof. intros c s D. cbn [skip_space]. rewrite (proj1 (digitb_facts c D)). reflexivity. Qed.

Lemma gmp_z_dec : forall z, 0 <= z -> gmp_z (dec z) = Some z.
Proof.
  intros z H. pose proof (gmp_abs_dec z H) as A. destruct (dec_first z H) as (c & s & E & D). unfold gmp_z. rewrite E in *.
  rewrite skip_digit by exact D. destruct (digitb_facts c D) as (_ & _ & _ & M & _). rewrite M. exact A.
Qed.
Lemma gmp_abs_digit : forall s z, gmp_abs s = Some z -> exists c s', s = c :: s' /\ digitb c = true.
Proof.
  intros [|c s] z H; [discriminate|]. exists c, s. split; [reflexivity|]. cbn [gmp_abs] in H. destruct (Z.leb_spec 10 (digit_value c)) as [|L]; [discriminate|].
  unfold digit_value in L. destruct (digitb c); [reflexivity|]. exfalso.
  destruct ((65 <=? code c) && (code c <=? 90)) eqn:U; [apply andb_true_iff in U; lia|].
  destruct ((97 <=? code c) && (code c <=? 122)) eqn:V; [apply andb_true_iff in V; lia|]. lia.
Qed.
Lemma skip_space_in : forall s c, In c (skip_space s) -> In c s.
Proof. induction s as [|d s IH]; intros c H; [exact H|]. cbn [skip_space] in H. destruct (isspaceb d); [right; apply IH, H|exact H]. Qed.
Lemma gmp_z_digit : forall s z, gmp_z s = Some z -> exists c, In c s /\ digitb c = true.
Proof.
  intros s z H. unfold gmp_z in H. pose proof (skip_space_in s) as I. destruct (skip_space s) as [|c t]; [discriminate|]. destruct (Ascii.eqb c "-").
  - destruct (gmp_abs t) as [y|] eqn:A; [|discriminate]. apply gmp_abs_digit in A. destruct A as (d & t' & -> & D). exists d. split; [apply I; right; left; reflexivity|exact D].
  - apply gmp_abs_digit in H. destruct H as (d & t' & E & D). injection E as -> ->. exists d. split; [apply I; left; reflexivity|exact D].
Qed.
Lemma gmp_z_sdec : forall z, gmp_z (sdec z) = Some z.
Proof.
  intros z. unfold sdec. destruct (Z.ltb_spec z 0) as [L|L]; [|apply gmp_z_dec; exact L].
  unfold gmp_z. cbn [skip_space]. change (isspaceb "-") with false. cbn match. change (Ascii.eqb "-" "-") with true. cbn match.
  rewrite gmp_abs_dec by lia. cbn [option_map]. rewrite Z.opp_involutive. reflexivity.
Qed.

Lemma upto_none : forall s, Forall (fun c => Ascii.eqb c "/" = false) s -> upto "/" s = (s, []).
Proof. induction 1 as [|c s C F IH]; [reflexivity|]. cbn [upto]. rewrite C, IH. reflexivity. Qed.
Lemma upto_here : forall s t, Forall (fun c => Ascii.eqb c "/" = false) s -> upto "/" (s ++ "/"%char :: t) = (s, "/"%char :: t).
Proof. intros s t. induction 1 as [|c s C F IH]; [reflexivity|]. cbn [app upto]. rewrite C, IH. reflexivity. Qed.
Lemma sdec_slash : forall z, Forall (fun c => Ascii.eqb c "/" = false) (sdec z).
Proof.
  assert (K : forall z, 0 <= z -> Forall (fun c => Ascii.eqb c "/" = false) (dec z)).
  { intros z H. destruct (dec_ok z H) as [[_ F] _]. eapply Forall_impl; [|exact F]. intros c D. apply (digitb_facts c D). }
  intros z. unfold sdec. destruct (Z.ltb_spec z 0); [constructor; [reflexivity|]|]; (apply K; lia).
Qed.
Lemma gmp_q_text : forall q, 0 < snd q -> gmp_q (q_text q) = Some q.
Proof.
  intros [n d] H. cbn [snd] in H. unfold gmp_q, q_text. cbn [fst snd]. destruct (Z.eqb_spec d 1) as [->|N].
  - rewrite app_nil_r, upto_none by apply sdec_slash. rewrite gmp_z_sdec. reflexivity.
  - rewrite upto_here by apply sdec_slash. rewrite gmp_z_sdec, gmp_z_dec by lia. reflexivity.
Qed.

(** * Conversion of numbers *)
Section Args.
Variable cy : cppyy.
Hypothesis Hcy : cppyy_ok cy.
Variable obj_value : nat -> option (Z * Z).
Variables as_mpq as_mpz : nat -> option pyv.
Hypothesis Hobj : objects_ok obj_value as_mpq as_mpz.

Local Notation conv := (for_eantic cy true as_mpq as_mpz).
Local Notation through := (through_gmpy true as_mpq as_mpz).

(** Python integers stay; the others become C++ numbers. *)
Lemma conv_number : forall v q, number obj_value v q -> (exists z, v = VInt z /\ q = (z, 1) /\ conv v = Ret (VInt z)) \/
  (exists z, q = (z, 1) /\ conv v = Ret (VMpz z)) \/ lowest q /\ conv v = Ret (VMpq q).
Proof.
  intros v q H. destruct H as [z|z|q L|z|q L|n q E].
  - left. eauto.
  - right. left. eauto.
  - right. right. eauto.
  - right. left. exists z. split; [reflexivity|]. cbn. rewrite gmp_z_sdec. reflexivity.
  - right. right. split; [exact L|]. cbn. rewrite gmp_q_text by apply L. reflexivity.
  - right. cbn [for_eantic]. unfold through_gmpy. cbn [mpq_method]. destruct (as_mpq n) as [u|] eqn:Eq.
    + destruct (ob_mpq _ _ _ Hobj n u Eq) as (q' & L & -> & E'). rewrite E in E'. injection E' as <-. cbn [mpz_method].
      right. split; [exact L|]. rewrite gmp_q_text by apply L. reflexivity.
    + cbn [mpz_method]. destruct (as_mpz n) as [u|] eqn:Ez.
      * destruct (ob_mpz _ _ _ Hobj n u Ez) as (z & -> & E'). rewrite E in E'. injection E' as ->. left. exists z. split; [reflexivity|].
        rewrite gmp_z_sdec. reflexivity.
      * exfalso. destruct (ob_has _ _ _ Hobj n q E); congruence.
Qed.

Lemma number_pos : forall v q, number obj_value v q -> (forall n p, obj_value n = Some p -> 0 < snd p) -> 0 < snd q.
Proof. intros v q H P. destruct H; cbn; try lia; try apply H; eauto. Qed.
Lemma obj_pos : forall n p, obj_value n = Some p -> lowest p.
Proof.
  intros n p E. destruct (ob_has _ _ _ Hobj n p E) as [A|A].
  - destruct (as_mpq n) as [u|] eqn:Eq; [|contradiction]. destruct (ob_mpq _ _ _ Hobj n u Eq) as (q & L & _ & E'). rewrite E in E'. injection E' as ->. exact L.
  - destruct (as_mpz n) as [u|] eqn:Ez; [|contradiction]. destruct (ob_mpz _ _ _ Hobj n u Ez) as (z & _ & E'). rewrite E in E'. injection E' as ->.
    split; [cbn; lia|]. cbn. apply Z.gcd_1_r.
Qed.

Lemma conv_coefficient : forall v q, number obj_value v q -> int_in Long v -> ethen (conv v) (coefficient cy) = Ret q.
Proof.
  intros v q H R. destruct (conv_number v q H) as [(z & -> & -> & E)|[(z & -> & E)|(L & E)]]; rewrite E; cbn.
  - apply (ck_mpq _ Hcy). exact R.
  - reflexivity.
  - reflexivity.
Qed.

(** The inner loop of [for_eantic], under a name. *)
Fixpoint go (l : list pyv) : exc (list pyv) :=
  match l with [] => Ret [] | a :: l' => ethen (conv a) (fun b => emap (cons b) (go l')) end.
Lemma conv_seq : forall l, conv (VSeq l) = ethen (go l) (fun l => ethen (all (coefficient cy) l) (fun l => through (VVec l))).
Proof. reflexivity. Qed.

Lemma go_numbers : forall l qs, Forall2 (number obj_value) l qs -> Forall (int_in Long) l -> ethen (go l) (all (coefficient cy)) = Ret qs.
Proof.
  induction 1 as [|v q l qs Hv _ IH]; intros F; [reflexivity|]. inversion F as [|? ? R F']; subst. specialize (IH F').
  pose proof (conv_coefficient v q Hv R) as C. cbn [go]. destruct (conv v) as [b|]; [|discriminate C]. cbn [ethen] in C |- *.
  destruct (go l) as [bs|]; [|discriminate IH]. cbn [ethen emap all] in IH |- *. rewrite C. cbn [ethen]. rewrite IH. reflexivity.
Qed.
Lemma conv_numbers : forall l qs, Forall2 (number obj_value) l qs -> Forall (int_in Long) l -> conv (VSeq l) = Ret (VVec qs).
Proof.
  intros l qs H F. pose proof (go_numbers l qs H F) as G. rewrite conv_seq. destruct (go l) as [bs|]; [|discriminate G].
  cbn [ethen] in *. rewrite G. reflexivity.
Qed.

(** * What is refused *)
Lemma strange_coefficient : forall v b, strange obj_value v -> for_eantic cy true as_mpq as_mpz v = Ret b -> coefficient cy b = Throw /\ scalar cy b = Throw /\ (forall j, b <> VElem j) /\ (forall z, b <> VInt z).
Proof.
  intros v b H E. destruct H as [l|l|s| |f|n N].
  - cbn in E. injection E as <-. repeat split; discriminate.
  - rewrite conv_seq in E. destruct (go l); [|discriminate]. cbn [ethen] in E. destruct (all _ _); [|discriminate].
    cbn in E. injection E as <-. repeat split; discriminate.
  - cbn in E. injection E as <-. repeat split; discriminate.
  - cbn in E. injection E as <-. repeat split; discriminate.
  - cbn in E. injection E as <-. repeat split; discriminate.
  - cbn in E. destruct (as_mpq n) as [u|] eqn:Eq; [destruct (ob_mpq _ _ _ Hobj n u Eq) as (q & _ & _ & E'); congruence|].
    cbn in E. destruct (as_mpz n) as [u|] eqn:Ez; [destruct (ob_mpz _ _ _ Hobj n u Ez) as (q & _ & E'); congruence|].
    injection E as <-. repeat split; discriminate.
Qed.
Lemma go_strange : forall l, Exists (fun v => strange obj_value v \/ exists i, v = VElem i) l -> ethen (go l) (all (coefficient cy)) = Throw.
Proof.
  induction 1 as [v l H|v l _ IH]; cbn [go].
  - destruct (conv v) as [b|] eqn:E; [|reflexivity]. cbn [ethen]. destruct (go l) as [bs|]; [|reflexivity]. cbn [emap ethen all].
    assert (C : coefficient cy b = Throw).
    { destruct H as [H|(i & ->)]; [apply (strange_coefficient v b H E)|]. cbn in E. injection E as <-. reflexivity. }
    rewrite C. reflexivity.
  - destruct (conv v) as [b|]; [|reflexivity]. cbn [ethen]. destruct (go l) as [bs|]; [|reflexivity]. cbn [emap ethen all] in *.
    rewrite IH. destruct (coefficient cy b); reflexivity.
Qed.
Lemma conv_strange : forall l, Exists (fun v => strange obj_value v \/ exists i, v = VElem i) l -> conv (VSeq l) = Throw.
Proof.
  intros l H. pose proof (go_strange l H) as G. rewrite conv_seq. destruct (go l) as [bs|]; [|reflexivity]. cbn [ethen] in *. rewrite G. reflexivity.
Qed.

(** * Elements *)
Open Scope R_scope.
Variables (o : arbops) (ops : list Z -> nfops) (debug : bool) (fuel : nat).
Variable old : bool.
Variable zd : Z -> out (option (Z * Z)).
Variable gen_name : nat -> str.
Variables (pol : nat -> list Z) (x : nat -> R).
Hypothesis Hmin : forall f, minimal (pol f) (x f).
Hypothesis Hops : forall f, nf_ok (pol f) (x f) (ops (pol f)).

Local Notation relem := (renf_elem cy true as_mpq as_mpz o ops debug fuel old zd gen_name).

Lemma make_scal_in_ok : forall w k f s, exact_world pol w -> scal_ok s ->
  exists w', make_scal_in o ops debug fuel w k f s = Val (Ret w') /\ made_in pol x w w' k f (scal_val s).
Proof.
  intros w k f s E S. unfold make_scal_in.
  destruct s as [t z|z|qn qd]; cbn [scal_val scal_ok] in *.
  - destruct (make_int_ok o ops debug fuel pol x Hmin Hops w k f t z E S) as (w' & -> & M). cbn [bind]. eauto.
  - unfold make_z. assert (T : exists w', call_on o ops debug fuel (set_obj w k (zero_in f)) k k (KSetZ k z) = Val w') by (eexists; reflexivity).
    destruct T as (w' & T). rewrite T. cbn [bind]. exists w'. split; [reflexivity|].
    refine (set_made o ops debug fuel pol x Hmin Hops _ _ _ _ (IZR z) _ E _ _ _ _ T); [cbn; tauto..|].
    intros u u' Ef. inversion Ef; subst. unfold vset. rewrite Nat.eqb_refl. reflexivity.
  - destruct (make_mpq_ok o ops debug fuel pol x Hmin Hops w k f qn qd E (proj1 S)) as (w' & -> & M). cbn [bind]. eauto.
Qed.

Lemma zero_made : forall w k f, exact_world pol w -> made_in pol x w (set_obj w k (zero_in f)) k f 0.
Proof.
  intros w k f E. split; [apply (zero_in_exact pol x Hmin); exact E|]. split; [split|].
  - unfold value, num_of, val, fld. rewrite obj_get. cbn. unfold ev, zeval. cbn. unfold Rdiv. ring.
  - intros j H. apply obj_other. exact H.
  - rewrite fld_get. reflexivity.
Qed.

Lemma qreal_z : forall z, qreal (z, 1%Z) = IZR z.
Proof. intros z. unfold qreal. cbn. unfold Rdiv. rewrite Rinv_1. ring. Qed.

Local Notation inside := (construct_in cy o ops debug fuel old zd gen_name).

Lemma number_inside : forall w k f v q, exact_world pol w -> number obj_value v q -> int_in Long v ->
  exists v' w', conv v = Ret v' /\ inside w k f v' = Val (Ret w') /\ made_in pol x w w' k f (qreal q) /\
    match v' with VInt _ | VMpz _ | VMpq _ => True | _ => False end.
Proof.
  intros w k f v q E H R. destruct (conv_number v q H) as [(z & -> & -> & C)|[(z & -> & C)|(L & C)]]; rewrite C.
  - destruct (ck_make _ Hcy z R) as (t & T & Rt). destruct (make_scal_in_ok w k f (SInt t z) E Rt) as (w' & M & Md).
    exists (VInt z), w'. split; [reflexivity|]. cbn [construct_in]. rewrite T, qreal_z. cbn [lift]. auto.
  - destruct (make_scal_in_ok w k f (SMpz z) E I) as (w' & M & Md). exists (VMpz z), w'. rewrite qreal_z. auto.
  - destruct (make_scal_in_ok w k f (SMpq (fst q) (snd q)) E L) as (w' & M & Md). exists (VMpq q), w'. auto.
Qed.

Lemma number_in_ok : forall w k f v q, exact_world pol w -> number obj_value v q -> int_in Long v ->
  exists w', relem w k [VField f; v] = Val (Ret w') /\ made_in pol x w w' k f (qreal q).
Proof.
  intros w k f v q E H R. destruct (number_inside w k f v q E H R) as (v' & w' & C & M & Md & _). exists w'. split; [|exact Md].
  cbn [renf_elem]. rewrite C. exact M.
Qed.
Lemma number_ok : forall w k v q, exact_world pol w -> number obj_value v q -> int_in Long v ->
  exists w', relem w k [v] = Val (Ret w') /\ relem w k [VNone; v] = Val (Ret w') /\ made_in pol x w w' k 0 (qreal q).
Proof.
  intros w k v q E H R. destruct (number_inside w k 0 v q E H R) as (v' & w' & C & M & Md & K). exists w'.
  assert (A : lift (conv v) (construct cy o ops debug fuel old zd gen_name w k) = Val (Ret w')).
  { rewrite C. cbn [lift]. destruct v'; try contradiction; exact M. }
  split; [|split; [exact A|exact Md]]. destruct H; exact A.
Qed.

Lemma nothing_ok : forall w k, exact_world pol w -> exists w', relem w k [] = Val (Ret w') /\ made_in pol x w w' k 0 0.
Proof. intros w k E. eexists. split; [reflexivity|]. apply zero_made, E. Qed.
Lemma field_ok : forall w k f, exact_world pol w -> exists w', relem w k [VField f] = Val (Ret w') /\ made_in pol x w w' k f 0.
Proof. intros w k f E. eexists. split; [reflexivity|]. apply zero_made, E. Qed.

Lemma element_ok : forall w k f j, exact_world pol w ->
  (fld w j = f \/ rational (value x w j) -> exists w', relem w k [VField f; VElem j] = Val (Ret w') /\ made_in pol x w w' k f (value x w j)) /\
  (fld w j <> f -> ~ rational (value x w j) -> relem w k [VField f; VElem j] = Val Throw).
Proof. intros w k f j E. exact (convert_both o ops debug fuel pol x Hmin Hops w k f j E). Qed.
Lemma copy_ok : forall w k j, exact_world pol w -> exists w', relem w k [VElem j] = Val (Ret w') /\ made_in pol x w w' k (fld w j) (value x w j).
Proof. intros w k j E. eexists. split; [reflexivity|]. exact (plus_ok pol x w k j E). Qed.

Lemma numbers_pos : forall l qs, Forall2 (number obj_value) l qs -> Forall (fun q => (0 < snd q)%Z) qs.
Proof. induction 1 as [|v q l qs H _ IH]; constructor; [|exact IH]. apply (number_pos v q H). intros n p E. apply (obj_pos n p E). Qed.

(** Coefficients. *)
Lemma sequence_ok : forall w k f l qs, exact_world pol w -> Forall2 (number obj_value) l qs -> Forall (int_in Long) l ->
  (length l <= length (pol f) - 1)%nat \/ debug = false -> (old = true -> l <> []) ->
  exists w', relem w k [VField f; VSeq l] = Val (Ret w') /\ made_in pol x w w' k f (rational_poly qs (x f)).
Proof.
  intros w k f l qs E H R L O. cbn [renf_elem]. rewrite (conv_numbers l qs H R). cbn [lift construct_in].
  assert (Ln : length l = length qs) by (clear - H; induction H; cbn; congruence). pose proof (min_len _ _ (Hmin f)) as L2. rewrite (ew_fields _ _ E f).
  assert (K : debug && Nat.leb (length (pol f)) (length qs) = false).
  { destruct L as [L| ->]; [|reflexivity]. destruct (Nat.leb_spec (length (pol f)) (length qs)); [lia|apply andb_false_r]. }
  rewrite K. assert (K2 : old && Nat.eqb (length qs) 0 = false).
  { destruct old; [|reflexivity]. cbn [andb]. destruct qs; [|reflexivity]. destruct l; [|discriminate Ln]. contradiction (O eq_refl). reflexivity. }
  rewrite K2. pose proof (numbers_pos l qs H) as P. destruct (common_den_ok qs P) as [D _].
  destruct (make_vector_ok o ops debug fuel pol x Hmin Hops w k f (numerators qs) (common_den qs) E D) as (w' & M & Md).
  { unfold numerators. rewrite map_length. destruct L as [L|L]; [left; lia|right; exact L]. }
  rewrite M. cbn [bind]. exists w'. split; [reflexivity|]. rewrite numerators_ok in Md by exact P. exact Md.
Qed.

(** Texts. *)
Lemma text_ok : forall w k f s ts, exact_world pol w -> name (gen_name f) -> form false (gen_name f) s ts ->
  exists w', relem w k [VField f; VStr s] = Val (Ret w') /\ made_in pol x w w' k f (terms_val (x f) ts).
Proof.
  intros w k f s ts E N F. cbn [renf_elem for_eantic]. unfold through_gmpy. cbn [mpq_method mpz_method lift construct_in].
  rewrite cut_tilde_id by (eapply form_chars; eassumption).
  destruct (set_str_value zd false (gen_name f) s ts N F) as (p & -> & L & V). cbn [bind].
  pose proof (lt_den p L) as D.
  assert (T : exists w', call_on o ops debug fuel (set_obj w k (zero_in f)) k k (KSetPoly k (e_num p) (e_den p)) = Val w') by (eexists; reflexivity).
  destruct T as (w' & T). rewrite T. cbn [bind]. exists w'. split; [reflexivity|]. rewrite <- V.
  refine (set_made o ops debug fuel pol x Hmin Hops _ _ _ _ _ _ E _ _ _ _ T); [cbn; tauto..|].
  intros u u' Ef. inversion Ef; subst. unfold vset. rewrite Nat.eqb_refl. reflexivity.
Qed.
Lemma realalg_ok : forall w k f l, exact_world pol w -> name (gen_name f) -> l <> [] -> Forall (fun q => (0 < snd q)%Z) l -> (Z.of_nat (length l) <= long_max)%Z ->
  exists w', realalg_elem cy true as_mpq as_mpz o ops debug fuel old zd gen_name w k f (RAlg l) = Val (Ret w') /\ made_in pol x w w' k f (rational_poly l (x f)).
Proof.
  intros w k f l E N Nl P L. destruct (poly_string_form (gen_name f) l N Nl P L) as (s & ts & Es & F & V).
  unfold realalg_elem. rewrite Es. cbn [emap lift]. destruct (text_ok w k f s ts E N F) as (w' & M & Md). exists w'. split; [exact M|]. rewrite <- V. exact Md.
Qed.

Lemma realalg_rest : forall w k f, exact_world pol w ->
  (forall z, in_range Long z -> exists w', realalg_elem cy true as_mpq as_mpz o ops debug fuel old zd gen_name w k f (RInt z) = Val (Ret w') /\ made_in pol x w w' k f (IZR z)) /\
  forall s ts, name (gen_name f) -> form false (gen_name f) s ts ->
    exists w', realalg_elem cy true as_mpq as_mpz o ops debug fuel old zd gen_name w k f (RText s) = Val (Ret w') /\ made_in pol x w w' k f (terms_val (x f) ts).
Proof.
  intros w k f E. split.
  - intros z R. destruct (number_in_ok w k f (VInt z) (z, 1%Z) E (ltac:(constructor)) R) as (w' & A & M). exists w'. split; [exact A|]. rewrite qreal_z in M. exact M.
  - intros s ts N F. exact (text_ok w k f s ts E N F).
Qed.

(** What is refused. *)
Lemma many_refused : forall w k a b c l, relem w k (a :: b :: c :: l) = Val Throw.
Proof. intros w k a b c l. destruct a; try reflexivity; destruct b; reflexivity. Qed.
Lemma sequence_refused : forall w k f l, Exists (fun v => strange obj_value v \/ exists i, v = VElem i) l ->
  relem w k [VField f; VSeq l] = Val Throw.
Proof. intros w k f l H. cbn [renf_elem]. rewrite conv_strange by exact H. reflexivity. Qed.

Lemma alone_refused : forall w k v, strange obj_value v -> (forall f, v <> VField f) -> relem w k [v] = Val Throw.
Proof.
  intros w k v H N. assert (A : lift (conv v) (construct cy o ops debug fuel old zd gen_name w k) = Val Throw).
  { destruct (conv v) as [b|] eqn:C; [|reflexivity]. cbn [lift]. destruct (strange_coefficient v b H C) as (_ & S & M & M').
    destruct b; try reflexivity; try discriminate S; try contradiction (M i eq_refl). contradiction (M' z eq_refl). }
  destruct H; try exact A. contradiction (N f eq_refl).
Qed.

(** * Operators *)
Lemma conv_scalar : forall v q, number obj_value v q -> exists v', conv v = Ret v' /\ (forall j, v' <> VElem j) /\
  ((exists z, v = VInt z /\ ~ in_range Int z /\ scalar cy v' = Throw) \/
   exists s, scalar cy v' = Ret s /\ scal_ok s /\ scal_val s = qreal q).
Proof.
  intros v q H. destruct (conv_number v q H) as [(z & -> & -> & C)|[(z & -> & C)|(L & C)]]; eexists; (split; [exact C|]); (split; [discriminate|]).
  - cbn [scalar]. destruct (cy_op cy z) as [s|] eqn:E.
    + right. destruct (ck_exact _ Hcy z s E) as (t & -> & R). exists (SInt t z). rewrite qreal_z. repeat split. exact R.
    + left. exists z. split; [reflexivity|]. split; [|reflexivity]. intros R. exact (ck_op _ Hcy z R E).
  - right. exists (SMpz z). rewrite qreal_z. repeat split.
  - right. exists (SMpq (fst q) (snd q)). repeat split; apply L.
Qed.

Local Notation binary' := (binary cy true as_mpq as_mpz o ops debug fuel).
Local Notation rbinary' := (rbinary cy true as_mpq as_mpz o ops debug fuel).

Lemma not_elem : forall A v' (g : nat -> A) (h : A), (forall j, v' <> VElem j) -> match v' with VElem j => g j | _ => h end = h.
Proof. intros A v' g h N. destruct v'; try reflexivity. contradiction (N i eq_refl). Qed.

Lemma binary_ok : forall strict p w k i v q, exact_world pol w -> number obj_value v q -> (p = Div -> qreal q <> 0) ->
  (exists w', binary' strict p w k i v = Val (Ret w') /\ exact_world pol w' /\ gave x w w' k (real_op p (value x w i) (qreal q)) /\ fld w' k = fld w i) \/
  binary' strict p w k i v = Val Throw /\ exists z, v = VInt z /\ ~ in_range Int z.
Proof.
  intros strict p w k i v q E H D. destruct (conv_scalar v q H) as (v' & C & N & S). unfold binary. rewrite C. cbn [lift].
  rewrite not_elem by exact N. destruct S as [(z & -> & R & ->)|(s & -> & S & V)]; cbn [lift].
  - right. split; [reflexivity|]. exists z. auto.
  - left. rewrite <- V in *. exact (op_right_ok o ops debug fuel pol x Hmin Hops p w k i s E S D).
Qed.
Lemma rbinary_ok : forall strict p w k i v q, exact_world pol w -> k <> i -> number obj_value v q -> (p = Div -> value x w i <> 0) ->
  (exists w', rbinary' strict p w k i v = Val (Ret w') /\ exact_world pol w' /\ gave x w w' k (real_op p (qreal q) (value x w i)) /\
     (fld w' k = fld w i \/ fld w' k = 0%nat /\ rational (value x w i))) \/
  rbinary' strict p w k i v = Val Throw /\ exists z, v = VInt z /\ ~ in_range Int z.
Proof.
  intros strict p w k i v q E K H D. destruct (conv_scalar v q H) as (v' & C & N & S). unfold rbinary. rewrite C. cbn [lift].
  rewrite not_elem by exact N. destruct S as [(z & -> & R & ->)|(s & -> & S & V)]; cbn [lift].
  - right. split; [reflexivity|]. exists z. auto.
  - left. rewrite <- V in *. exact (op_left_ok o ops debug fuel pol x Hmin Hops strict p w k s i E K S D).
Qed.
(** Division by zero and too many coefficients. *)
Lemma binary_zero : forall strict w k i v q, number obj_value v q -> qreal q = 0 -> binary' strict Div w k i v = Abort.
Proof.
  intros strict w k i v q H Z. destruct (conv_scalar v q H) as (v' & C & N & S). unfold binary. rewrite C. cbn [lift].
  rewrite not_elem by exact N. destruct S as [(z & -> & R & _)|(s & -> & S & V)]; cbn [lift].
  - inversion H; subst. rewrite qreal_z in Z. apply eq_IZR in Z. subst z. destruct R. vm_compute. split; discriminate.
  - rewrite Z in V. unfold op_right. destruct s as [t z|z|qn qd]; cbn [scal_val scal_ok assign_scal] in *.
    + apply eq_IZR in V. subst z. unfold binop_int. rewrite (arg_ok t 0 S). reflexivity.
    + apply eq_IZR in V. subst z. reflexivity.
    + destruct S as [P _]. assert (qn = 0%Z) as ->; [|reflexivity]. apply eq_IZR. apply (Rmult_eq_reg_r (/ IZR qd)); [|apply Rinv_neq_0_compat, not_0_IZR; lia].
      rewrite Rmult_0_l. exact V.
Qed.
Lemma sequence_long : forall w k f l qs, exact_world pol w -> Forall2 (number obj_value) l qs -> Forall (int_in Long) l ->
  (length (pol f) <= length l)%nat -> debug = true -> relem w k [VField f; VSeq l] = Abort.
Proof.
  intros w k f l qs E H R L D. cbn [renf_elem]. rewrite (conv_numbers l qs H R). cbn [lift construct_in].
  assert (Ln : length l = length qs) by (clear - H; induction H; cbn; congruence). rewrite (ew_fields _ _ E f), D.
  destruct (Nat.leb_spec (length (pol f)) (length qs)); [reflexivity|lia].
Qed.
Lemma binary_elem : forall p w k i j, exact_world pol w -> k <> i -> k <> j ->
  (fld w i = fld w j \/ rational (value x w i) \/ rational (value x w j) -> (p = Div -> value x w j <> 0) ->
   exists w', binary' false p w k i (VElem j) = Val (Ret w') /\ rbinary' false p w k j (VElem i) = Val (Ret w') /\
     exact_world pol w' /\ gave x w w' k (real_op p (value x w i) (value x w j)) /\ (fld w' k = fld w i \/ fld w' k = fld w j)) /\
  (fld w i <> fld w j -> ~ rational (value x w i) -> ~ rational (value x w j) -> forall strict,
   binary' strict p w k i (VElem j) = Val Throw /\ rbinary' strict p w k j (VElem i) = Val Throw).
Proof.
  intros p w k i j E K1 K2. unfold binary, rbinary. cbn [for_eantic lift]. split.
  - intros R D. destruct (op_objs_ok o ops debug fuel pol x Hmin Hops false p w k i j E K1 K2 R D) as (w' & A & B). exists w'. split; [exact A|]. split; [exact A|exact B].
  - intros N A B strict. rewrite (op_objs_throws o ops debug fuel pol x Hmin strict false p w k i j E K1 K2 N A B). split; reflexivity.
Qed.
Lemma binary_refused : forall strict p w k i v, strange obj_value v -> binary' strict p w k i v = Val Throw /\ rbinary' strict p w k i v = Val Throw.
Proof.
  intros strict p w k i v H. unfold binary, rbinary. destruct (conv v) as [b|] eqn:C; [|split; reflexivity]. cbn [lift].
  destruct (strange_coefficient v b H C) as (_ & S & N & _). rewrite !not_elem by exact N. rewrite S. split; reflexivity.
Qed.
End Args.

(** An integer of SageMath, 7, and a rational number, -5/3. *)
Definition case_value (n : nat) : option (Z * Z) := match n with O => Some (7, 1) | 1%nat => Some (-5, 3) | _ => None end%Z.
Definition case_mpq (n : nat) : option pyv := match n with 1%nat => Some (VGmpq (-5, 3)%Z) | _ => None end.
Definition case_mpz (n : nat) : option pyv := match n with O => Some (VGmpz 7) | _ => None end.
Definition in_rangeb (t : ity) (z : Z) : bool :=
  match t with
  | Int => (-2147483648 <=? z) && (z <=? 2147483647)
  | _ => (-9223372036854775808 <=? z) && (z <=? 9223372036854775807)
  end%Z.
Definition case_cppyy : cppyy := {|
  cy_make := fun z => if in_rangeb Long z then Ret (SInt Long z) else Throw;
  cy_op := fun z => if in_rangeb Int z then Ret (SInt Int z) else Throw;
  cy_mpq := fun z => if in_rangeb Long z then Ret (z, 1%Z) else Throw |}.
Lemma in_rangeb_ok : forall t z, t = Int \/ t = Long -> in_rangeb t z = true <-> in_range t z.
Proof. intros t z [-> | ->]; unfold in_rangeb, in_range; rewrite andb_true_iff, !Z.leb_le; reflexivity. Qed.
Lemma case_cppyy_ok : cppyy_ok case_cppyy.
Proof.
  constructor; cbn [case_cppyy cy_make cy_op cy_mpq]; intros z.
  - intros H. apply in_rangeb_ok in H; [|tauto]. rewrite H. exists Long. split; [reflexivity|]. apply in_rangeb_ok; [tauto|exact H].
  - intros H. apply in_rangeb_ok in H; [|tauto]. rewrite H. discriminate.
  - intros s. destruct (in_rangeb Int z) eqn:H; [|discriminate]. intros [= <-]. exists Int. split; [reflexivity|]. apply in_rangeb_ok; [tauto|exact H].
  - intros H. apply in_rangeb_ok in H; [|tauto]. rewrite H. reflexivity.
Qed.
Lemma case_objects_ok : objects_ok case_value case_mpq case_mpz.
Proof.
  constructor; intros [|[|n]] v; cbn; try discriminate; intros [= <-].
  - exists (-5, 3)%Z. repeat split.
  - exists 7%Z. repeat split.
  - right. discriminate.
  - left. discriminate.
Qed.
