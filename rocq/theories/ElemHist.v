(** Elements: the generator and histories of calls. *)
Require Import Reals List ZArith Bool Lia Lra Arith FunctionalExtensionality.
From Verif Require Import PolyR RootSpec RootModel ExtraModel Dyadic DyadicProofs ArbModel ArbSpec ArbProofs
  RefineProofs ElemModel ElemSpec ElemProofs ElemLoops.
Import ListNotations.
Open Scope R_scope.

Section Elem.
Variables (o : arbops) (n : nfops) (debug : bool) (pol : list Z) (x : R) (J : renf -> Prop).
Hypothesis Ho : arb_ok o.
Hypothesis Hm : minimal pol x.
Hypothesis Hn : nf_ok pol x n.
Hypothesis HJ : keeps o debug pol x J.

Notation good := (good pol x J).
Notation goodr := (goodr pol x).

Definition goodm (m : mem) : Prop := forall i, goodr (m i).
Definition vals (m : mem) : nat -> R := fun i => ev x (r_elem (m i)).

Lemma elem_upd_elem : forall m a e i, r_elem (upd_elem m a e i) = if Nat.eqb i a then e else r_elem (m i).
Proof. intros. unfold upd_elem. destruct (Nat.eqb i a); reflexivity. Qed.
Lemma emb_upd_elem : forall m a e i, r_emb (upd_elem m a e i) = r_emb (m i).
Proof. intros. unfold upd_elem. destruct (Nat.eqb_spec i a) as [->|]; reflexivity. Qed.
Lemma elem_upd_emb : forall m a b i, r_elem (upd_emb m a b i) = r_elem (m i).
Proof. intros. unfold upd_emb. destruct (Nat.eqb_spec i a) as [->|]; reflexivity. Qed.
Lemma emb_upd_emb : forall m a b i, r_emb (upd_emb m a b i) = if Nat.eqb i a then b else r_emb (m i).
Proof. intros. unfold upd_emb. destruct (Nat.eqb i a); reflexivity. Qed.

(** Element and enclosure of one object are replaced. *)
Lemma put_ok : forall m a e b v, goodm m -> represents pol x e v -> inb v b ->
  goodm (upd_emb (upd_elem m a e) a b) /\ vals (upd_emb (upd_elem m a e) a b) = vset (vals m) a v.
Proof.
  intros m a e b v G [C V] B. split.
  - intros i. specialize (G i) as [G1 G2]. split; rewrite elem_upd_emb, elem_upd_elem; [|rewrite emb_upd_emb, emb_upd_elem];
      destruct (Nat.eqb i a); try assumption. rewrite V. exact B.
  - apply functional_extensionality. intros i. unfold vals, vset. rewrite elem_upd_emb, elem_upd_elem.
    destruct (Nat.eqb i a); [exact V|reflexivity].
Qed.

Lemma upd_ok : forall m a y, goodm m -> goodr y -> goodm (upd m a y) /\ vals (upd m a y) = vset (vals m) a (ev x (r_elem y)).
Proof.
  intros m a y G Gy. split.
  - intros i. unfold upd. destruct (Nat.eqb i a); [exact Gy|apply G].
  - apply functional_extensionality. intros i. unfold vals, vset, upd. destruct (Nat.eqb i a); reflexivity.
Qed.

Lemma emb_ok : forall m a b, goodm m -> inb (ev x (r_elem (m a))) b -> goodm (upd_emb m a b) /\ vals (upd_emb m a b) = vals m.
Proof.
  intros m a b G B. split.
  - intros i. specialize (G i) as [G1 G2]. split; rewrite elem_upd_emb; [exact G1|]. rewrite emb_upd_emb.
    destruct (Nat.eqb_spec i a) as [->|]; [exact B|exact G2].
  - apply functional_extensionality. intros i. unfold vals. rewrite elem_upd_emb. reflexivity.
Qed.

(** * Generator *)
Lemma gen_ok : forall nf y, good nf -> gen o n nf = Val y -> goodr y /\ ((3 <= length pol)%nat -> ev x (r_elem y) = x).
Proof.
  intros nf y (G1 & G2 & _ & G4) E. unfold gen in E. rewrite G1 in E.
  pose proof (min_len _ _ Hm) as L. pose proof (min_lead _ _ Hm) as Ld.
  assert (Hgen : Val {| r_elem := n_set_poly n [0; 1]%Z 1; r_emb := eval_arb_q o [0; 1]%Z 1 (f_emb nf) (f_prec nf) |} = Val y ->
    goodr y /\ ev x (r_elem y) = x).
  { clear E. intros E. injection E as <-. destruct (nk_set_poly _ _ _ Hn [0; 1]%Z 1 ltac:(lia)) as [C V]. split.
    - apply goodr_intro; [exact C|]. rewrite V. apply (eval_arb_q_ok o Ho); [exact G4|exact G2|lia].
    - cbn [r_elem]. rewrite V, !zeval_cons, zeval_nil. field. }
  destruct pol as [|c0 [|c1 [|c2 p]]] eqn:Ep; cbn [length] in L; try lia.
  2:{ destruct (Hgen E) as [A B]. split; [exact A|intros _; exact B]. }
  split; [|cbn [length]; lia]. cbn [last] in Ld. unfold canonicalise in E. destruct (Z.eqb_spec c0 0) as [|C0]; [discriminate|].
  cbn [bind] in E.
  assert (Hg : (0 < Z.gcd (- c1) c0)%Z).
  { pose proof (Z.gcd_nonneg (- c1) c0). assert (Z.gcd (- c1) c0 <> 0)%Z; [|lia]. intros W. apply Z.gcd_eq_0_r in W. lia. }
  set (g := Z.gcd (- c1) c0) in *.
  destruct (Z.gcd_divide_l (- c1) c0) as (u & Eu). fold g in Eu. destruct (Z.gcd_divide_r (- c1) c0) as (w & Ew). fold g in Ew.
  assert (U : (- c1 / g = u)%Z) by (rewrite Eu; apply Z.div_mul; lia).
  assert (W : (c0 / g = w)%Z) by (rewrite Ew; apply Z.div_mul; lia).
  rewrite U, W in E. assert (u <> 0)%Z by nia. assert (w <> 0)%Z by nia.
  assert (Hr : Z.gcd u w = 1%Z).
  { assert (K : Z.gcd (u * g) (w * g) = g) by (rewrite <- Eu, <- Ew; reflexivity).
    rewrite Z.gcd_mul_mono_r_nonneg in K by lia. pose proof (Z.gcd_nonneg u w). nia. }
  assert (Na : (Z.sgn c0 * u <> 0)%Z) by (destruct c0; cbn [Z.sgn]; lia).
  destruct (Z.eqb_spec (Z.sgn c0 * u) 0) as [|_]; [contradiction|]. injection E as <-. apply goodr_intro.
  - constructor; cbn [e_num e_den last length]; [lia|exact Na|lia|].
    intros d Hd D1 D2. specialize (D2 (Z.sgn c0 * u)%Z (or_introl eq_refl)). apply (proj1 (Z.divide_abs_r _ _)) in D1.
    assert (D3 : (d | u)%Z) by (destruct c0; cbn [Z.sgn] in D2; [contradiction|rewrite Z.mul_1_l in D2; exact D2|apply Z.divide_opp_r; replace (- u)%Z with (-1 * u)%Z by lia; exact D2]).
    assert (D4 : (d | Z.gcd u w)%Z) by (apply Z.gcd_greatest; assumption). rewrite Hr in D4. apply Z.divide_1_r_nonneg in D4; lia.
  - unfold ev. cbn [e_num e_den]. rewrite zeval_cons, zeval_nil, Rmult_0_r, Rplus_0_r. apply (ok_set_q o Ho); [exact G4|lia].
Qed.

(** * One call *)

(** What every call preserves, and the announced effect for the sound ones. *)
Definition call_post (nf : renf) (m : mem) (k : call) (nf' : renf) (m' : mem) : Prop :=
  good nf' /\ kept nf nf' /\ goodm m' /\ (sound_call pol k -> effect x (vals m) k (vals m')).

Lemma nz_of : forall m i, goodm m -> is_zero (r_elem (m i)) = false -> vals m i <> 0.
Proof. intros m i G H Z. destruct (G i) as [C _]. apply (is_zero_spec pol x Hm _ C) in Z. congruence. Qed.

Lemma inv_ok : forall nf m a b m', good nf -> goodm m -> do_inv o n (f_prec nf) m a b = Val m' ->
  goodm m' /\ vals m' = vset (vals m) a (/ vals m b) /\ vals m b <> 0.
Proof.
  intros nf m a b m' G Gm E. unfold do_inv in E. destruct (is_zero (r_elem (m b))) eqn:Z; [discriminate|].
  pose proof (nz_of m b Gm Z) as Nz. destruct (Gm b) as [Cb Bb]. cbv zeta in E. injection E as <-.
  destruct (put_ok m a (n_inv n (r_elem (m b))) (o_inv o (r_emb (upd_elem m a (n_inv n (r_elem (m b))) b)) (f_prec nf)) (/ vals m b) Gm) as [A B].
  - apply (nk_inv _ _ _ Hn); assumption.
  - rewrite emb_upd_elem. apply (ok_inv o Ho); [apply G|exact Bb|exact Nz].
  - split; [exact A|]. split; assumption.
Qed.

Lemma mul_q_ok : forall nf m a b p q, good nf -> goodm m -> (0 < q)%Z ->
  goodm (do_mul_q o n (f_prec nf) m a b p q) /\ vals (do_mul_q o n (f_prec nf) m a b p q) = vset (vals m) a (vals m b * (IZR p / IZR q)).
Proof.
  intros nf m a b p q G Gm Hq. destruct (Gm b) as [Cb Bb]. unfold do_mul_q. apply put_ok; [exact Gm| |].
  - apply (nk_mul_q _ _ _ Hn); assumption.
  - rewrite emb_upd_elem. apply (ok_mul o Ho); [apply G|exact Bb|]. apply (ok_set_q o Ho); [apply G|lia].
Qed.

Lemma set_ok : forall m a b, goodm m -> goodm (do_set m a b) /\ vals (do_set m a b) = vset (vals m) a (vals m b).
Proof.
  intros m a b Gm. destruct (Gm b) as [Cb Bb]. unfold do_set. apply put_ok; [exact Gm|split; [exact Cb|reflexivity]|].
  rewrite emb_upd_elem. exact Bb.
Qed.

Lemma vset_same : forall v a y z, vset (vset v a y) a z = vset v a z.
Proof. intros. apply functional_extensionality. intros i. unfold vset. destruct (Nat.eqb i a); reflexivity. Qed.
Lemma vset_get : forall v a y, vset v a y a = y.
Proof. intros. unfold vset. rewrite Nat.eqb_refl. reflexivity. Qed.

Lemma write2_ok : forall m a b ea eb, goodm m -> inb (vals m a) ea -> inb (vals m b) eb ->
  goodm (write2 m a b ea eb) /\ vals (write2 m a b ea eb) = vals m.
Proof.
  intros m a b ea eb G A B. unfold write2. destruct (emb_ok m a ea G A) as [G1 V1].
  destruct (emb_ok (upd_emb m a ea) b eb G1) as [G2 V2].
  - rewrite elem_upd_emb. exact B.
  - split; [exact G2|congruence].
Qed.

(** Calls of the form: element, then enclosure read from the updated memory. *)
Lemma two_post : forall nf m k a e (b : mem -> ball) v, good nf -> goodm m -> represents pol x e v ->
  inb v (b (upd_elem m a e)) -> effect x (vals m) k (vset (vals m) a v) ->
  call_post nf m k nf (upd_emb (upd_elem m a e) a (b (upd_elem m a e))).
Proof.
  intros nf m k a e b v G Gm R B F. destruct (put_ok m a e (b (upd_elem m a e)) v Gm R B) as [A V].
  split; [exact G|]. split; [apply kept_refl|]. split; [exact A|]. intros _. rewrite V. exact F.
Qed.

Lemma canon_const : forall c, (c = 1%Z) -> canon pol {| e_num := [c]; e_den := 1 |}.
Proof.
  intros c ->. pose proof (min_len _ _ Hm). constructor; cbn [e_num e_den last length]; try lia.
  intros g Hg D _. apply Z.divide_1_r_nonneg in D; lia.
Qed.
Lemma canon_zero : canon pol {| e_num := []; e_den := 1 |}.
Proof. pose proof (min_len _ _ Hm). constructor; cbn [e_num e_den last length]; try lia. intros g Hg D _. apply Z.divide_1_r_nonneg in D; lia. Qed.

Lemma run_ok : forall fuel nf m k nf' m', good nf -> goodm m -> call_ok pol k ->
  run o n debug fuel nf m k = Val (nf', m') -> call_post nf m k nf' m'.
Proof.
  intros fuel nf m k nf' m' G Gm Hk E. assert (Gp : (2 <= f_prec nf)%Z) by apply G.
  destruct k; cbn [run call_ok] in *.
  Ltac vx := cbv zeta in *; match goal with H : Val _ = Val _ |- _ => injection H as <- <- end.
  Ltac rd Gm := repeat rewrite emb_upd_elem; try apply Gm.
  - vx. eapply (two_post _ _ _ _ _ (fun _ => bzero) 0); try assumption; [split; [exact canon_zero|]|apply inb_zero|constructor].
    unfold ev. cbn [e_num e_den]. rewrite zeval_nil. field.
  - vx. eapply (two_post _ _ _ _ _ (fun _ => bint 1) 1); try assumption; [split; [apply canon_const; reflexivity|]|apply (inb_int 1)|constructor].
    unfold ev. cbn [e_num e_den]. rewrite zeval_cons, zeval_nil. field.
  - destruct (gen o n nf) as [y| | |] eqn:Eg; try discriminate. cbn [bind] in E. injection E as <- <-.
    destruct (gen_ok nf y G Eg) as [A B]. destruct (upd_ok m a y Gm A) as [C D].
    split; [exact G|]. split; [apply kept_refl|]. split; [exact C|]. intros S. rewrite D, (B S). constructor.
  - vx. apply (two_post nf m (KSetZ a z) a _ (fun _ => bint z) (IZR z)); try assumption; [|apply inb_int|constructor].
    destruct (nk_set_q _ _ _ Hn z 1 ltac:(lia)) as [C V]. split; [exact C|]. rewrite V. field.
  - vx. apply (two_post nf m (KSetQ a qn qd) a _ (fun _ => o_set_q o qn qd (f_prec nf)) (IZR qn / IZR qd)); try assumption;
      [apply (nk_set_q _ _ _ Hn); exact Hk|apply (ok_set_q o Ho); lia|constructor].
  - vx. apply (two_post nf m (KSetPoly a p d) a _ (fun _ => eval_arb_q o p d (f_emb nf) (f_prec nf)) (zeval p x / IZR d)); try assumption;
      [apply (nk_set_poly _ _ _ Hn); exact Hk|apply (eval_arb_q_ok o Ho); [exact Gp|apply G|lia]|constructor].
  - injection E as <- <-. destruct (set_ok m a b Gm) as [A V]. split; [exact G|]. split; [apply kept_refl|]. split; [exact A|].
    intros _. rewrite V. constructor.
  - cbv zeta in E. rewrite elem_upd_elem, Nat.eqb_refl in E.
    destruct (set_evaluation o nf e prec) as [b| | |] eqn:Ee; try discriminate. cbn [bind] in E. injection E as <- <-.
    apply (two_post nf m (KSetNf a e prec) a e (fun _ => b) (ev x e)); try assumption; [split; [exact Hk|reflexivity]| |constructor].
    apply (set_eval_ok o pol x J Ho Hm _ _ _ _ G Hk Ee).
  - cbv zeta in E. injection E as <- <-. destruct (upd_ok m a (m b) Gm (Gm b)) as [A V].
    destruct (upd_ok (upd m a (m b)) b (m a) A (Gm a)) as [A' V'].
    split; [exact G|]. split; [apply kept_refl|]. split; [exact A'|]. intros _. rewrite V', V. constructor.
  - vx. apply (two_post nf m (KAdd a b c) a _ (fun m => o_add o (r_emb (m b)) (r_emb (m c)) (f_prec nf)) (vals m b + vals m c)); try assumption;
      [apply (nk_add _ _ _ Hn); apply Gm|cbv beta; apply (ok_add o Ho); [exact Gp| |]; rd Gm|constructor].
  - vx. apply (two_post nf m (KSub a b c) a _ (fun m => o_sub o (r_emb (m b)) (r_emb (m c)) (f_prec nf)) (vals m b - vals m c)); try assumption;
      [apply (nk_sub _ _ _ Hn); apply Gm|cbv beta; apply (ok_sub o Ho); [exact Gp| |]; rd Gm|constructor].
  - vx. apply (two_post nf m (KMul a b c) a _ (fun m => o_mul o (r_emb (m b)) (r_emb (m c)) (f_prec nf)) (vals m b * vals m c)); try assumption;
      [apply (nk_mul _ _ _ Hn); apply Gm|cbv beta; apply (ok_mul o Ho); [exact Gp| |]; rd Gm|constructor].
  - destruct (is_zero (r_elem (m c))) eqn:Z; [discriminate|]. pose proof (nz_of m c Gm Z) as Nz. vx.
    apply (two_post nf m (KDiv a b c) a _ (fun m => o_div o (r_emb (m b)) (r_emb (m c)) (f_prec nf)) (vals m b / vals m c)); try assumption;
      [apply (nk_div _ _ _ Hn); [apply Gm|apply Gm|exact Nz]|cbv beta; apply (ok_div o Ho); [exact Gp| | |exact Nz]; rd Gm|constructor].
  - vx. apply (two_post nf m (KAddZ a b z) a _ (fun m => o_add_z o (r_emb (m b)) z (f_prec nf)) (vals m b + IZR z)); try assumption;
      [|cbv beta; apply (ok_add_z o Ho); [exact Gp|]; rd Gm|constructor].
    destruct (nk_add_q _ _ _ Hn (r_elem (m b)) z 1 ltac:(apply Gm) ltac:(lia)) as [C V]. split; [exact C|]. rewrite V. unfold vals. field.
  - vx. apply (two_post nf m (KSubZ a b z) a _ (fun m => o_sub_z o (r_emb (m b)) z (f_prec nf)) (vals m b - IZR z)); try assumption;
      [|cbv beta; apply (ok_sub_z o Ho); [exact Gp|]; rd Gm|constructor].
    destruct (nk_sub_q _ _ _ Hn (r_elem (m b)) z 1 ltac:(apply Gm) ltac:(lia)) as [C V]. split; [exact C|]. rewrite V. unfold vals. field.
  - vx. apply (two_post nf m (KMulZ a b z) a _ (fun m => o_mul_z o (r_emb (m b)) z (f_prec nf)) (vals m b * IZR z)); try assumption;
      [|cbv beta; apply (ok_mul_z o Ho); [exact Gp|]; rd Gm|constructor].
    destruct (nk_mul_q _ _ _ Hn (r_elem (m b)) z 1 ltac:(apply Gm) ltac:(lia)) as [C V]. split; [exact C|]. rewrite V. unfold vals. field.
  - destruct (Z.eqb_spec z 0) as [|Nz]; [discriminate|]. vx.
    apply (two_post nf m (KDivZ a b z) a _ (fun m => o_div_z o (r_emb (m b)) z (f_prec nf)) (vals m b / IZR z)); try assumption;
      [|cbv beta; apply (ok_div_z o Ho); [exact Gp| |exact Nz]; rd Gm|constructor].
    destruct (nk_div_q _ _ _ Hn (r_elem (m b)) z 1 ltac:(apply Gm) Nz ltac:(lia)) as [C V]. split; [exact C|]. rewrite V. unfold vals.
    field. apply not_0_IZR. exact Nz.
  - vx. apply (two_post nf m (KAddQ a b qn qd) a _ (fun m => o_add o (r_emb (m b)) (o_set_q o qn qd (f_prec nf)) (f_prec nf)) (vals m b + IZR qn / IZR qd)); try assumption;
      [apply (nk_add_q _ _ _ Hn); [apply Gm|exact Hk]|cbv beta; apply (ok_add o Ho); [exact Gp|rd Gm|apply (ok_set_q o Ho); lia]|constructor].
  - vx. apply (two_post nf m (KSubQ a b qn qd) a _ (fun m => o_sub o (r_emb (m b)) (o_set_q o qn qd (f_prec nf)) (f_prec nf)) (vals m b - IZR qn / IZR qd)); try assumption;
      [apply (nk_sub_q _ _ _ Hn); [apply Gm|exact Hk]|cbv beta; apply (ok_sub o Ho); [exact Gp|rd Gm|apply (ok_set_q o Ho); lia]|constructor].
  - vx. apply (two_post nf m (KQSub a qn qd b) a _ (fun m => o_sub o (o_set_q o qn qd (f_prec nf)) (r_emb (m b)) (f_prec nf)) (IZR qn / IZR qd - vals m b)); try assumption;
      [apply (nk_q_sub _ _ _ Hn); [apply Gm|exact Hk]|cbv beta; apply (ok_sub o Ho); [exact Gp|apply (ok_set_q o Ho); lia|rd Gm]|constructor].
  - injection E as <- <-. destruct (mul_q_ok nf m a b qn qd G Gm Hk) as [A V].
    split; [exact G|]. split; [apply kept_refl|]. split; [exact A|]. intros _. rewrite V. constructor.
  - destruct (Z.eqb_spec qn 0) as [|Nz]; [discriminate|]. vx.
    apply (two_post nf m (KDivQ a b qn qd) a _ (fun m => o_div o (r_emb (m b)) (o_set_q o qn qd (f_prec nf)) (f_prec nf)) (vals m b / (IZR qn / IZR qd))); try assumption;
      [apply (nk_div_q _ _ _ Hn); [apply Gm|exact Nz|exact Hk]|cbv beta; apply (ok_div o Ho); [exact Gp|rd Gm|apply (ok_set_q o Ho); lia|]|constructor].
    apply Rmult_integral_contrapositive_currified; [apply not_0_IZR; exact Nz|apply Rinv_neq_0_compat, not_0_IZR; lia].
  - destruct (do_inv o n (f_prec nf) (do_set m a c) a a) as [m1| | |] eqn:Ei; try discriminate. cbn [bind] in E. injection E as <- <-.
    destruct (set_ok m a c Gm) as [A1 V1]. destruct (inv_ok nf _ a a m1 G A1 Ei) as (A2 & V2 & Nz).
    destruct (mul_q_ok nf m1 a c qn qd G A2 Hk) as [A3 V3].
    split; [exact G|]. split; [apply kept_refl|]. split; [exact A3|]. cbn [sound_call]. intros S. subst c.
    rewrite V3, V2, V1, !vset_get, !vset_same.
    replace (/ vals m a * (IZR qn / IZR qd)) with (IZR qn / IZR qd / vals m a) by (unfold Rdiv; ring). constructor.
  - vx. apply (two_post nf m (KNeg a b) a _ (fun m => bneg (r_emb (m b))) (- vals m b)); try assumption;
      [apply (nk_neg _ _ _ Hn); apply Gm|cbv beta; apply inb_neg; rd Gm|constructor].
  - destruct (do_inv o n (f_prec nf) m a b) as [m1| | |] eqn:Ei; try discriminate. cbn [bind] in E. injection E as <- <-.
    destruct (inv_ok nf m a b m1 G Gm Ei) as (A & V & _).
    split; [exact G|]. split; [apply kept_refl|]. split; [exact A|]. intros _. rewrite V. constructor.
  - vx. apply (two_post nf m (KPow a b e) a _ (fun m => o_pow o (r_emb (m b)) e (f_prec nf)) (vals m b ^ Z.to_nat e)); try assumption;
      [apply (nk_pow _ _ _ Hn); [apply Gm|exact Hk]|cbv beta; apply (ok_pow o Ho); [exact Gp|exact Hk|]; rd Gm|constructor].
  - destruct (set_evaluation o nf (r_elem (m a)) prec) as [b| | |] eqn:Ee; try discriminate. cbn [bind] in E. injection E as <- <-.
    destruct (Gm a) as [Ca _]. destruct (emb_ok m a b Gm (set_eval_ok o pol x J Ho Hm _ _ _ _ G Ca Ee)) as [A V].
    split; [exact G|]. split; [apply kept_refl|]. split; [exact A|]. intros _. rewrite V. constructor.
  - destruct (refine o debug fuel nf prec) as [nf1| | |] eqn:Er; try discriminate. cbn [bind] in E. injection E as <- <-.
    destruct (HJ _ _ _ _ G Er) as (G1 & K1).
    split; [exact G1|]. split; [exact K1|]. split; [exact Gm|]. intros _. constructor.
  - destruct (sgn o debug fuel nf (m a)) as [[[nf1 b] s]| | |] eqn:Es; try discriminate. cbn [bind] in E. injection E as <- <-.
    destruct (sgn_ok o debug pol x J Ho Hm HJ _ _ _ _ _ _ G (Gm a) Es) as (G1 & K1 & B & _). destruct (emb_ok m a b Gm B) as [A V].
    split; [exact G1|]. split; [exact K1|]. split; [exact A|]. intros _. rewrite V. constructor.
  - destruct (cmp o n debug fuel nf (m a) (m b)) as [[[[nf1 ea] eb] s]| | |] eqn:Es; try discriminate. cbn [bind] in E. injection E as <- <-.
    destruct (cmp_ok o n debug pol x J Ho Hm Hn HJ _ _ _ _ _ _ _ _ G (Gm a) (Gm b) Es) as (G1 & K1 & Ba & Bb & _).
    destruct (write2_ok m a b ea eb Gm Ba Bb) as [A V].
    split; [exact G1|]. split; [exact K1|]. split; [exact A|]. intros _. rewrite V. constructor.
  - destruct (cmp_q o n debug fuel nf (m a) qn qd) as [[[nf1 b] s]| | |] eqn:Es; try discriminate. cbn [bind] in E. injection E as <- <-.
    destruct (cmp_q_ok o n debug pol x J Ho Hm Hn HJ _ _ _ _ _ _ _ _ G (Gm a) Hk Es) as (G1 & K1 & B & _). destruct (emb_ok m a b Gm B) as [A V].
    split; [exact G1|]. split; [exact K1|]. split; [exact A|]. intros _. rewrite V. constructor.
  - destruct (floor o debug fuel nf (m a)) as [[[nf1 b] s]| | |] eqn:Es; try discriminate. cbn [bind] in E. injection E as <- <-.
    destruct (round_int_ok o debug pol x J Ho Hm HJ _ _ rd_floor_ok _ _ _ _ _ _ G (Gm a) Es) as (G1 & K1 & B & _). destruct (emb_ok m a b Gm B) as [A V].
    split; [exact G1|]. split; [exact K1|]. split; [exact A|]. intros _. rewrite V. constructor.
  - destruct (ceil o debug fuel nf (m a)) as [[[nf1 b] s]| | |] eqn:Es; try discriminate. cbn [bind] in E. injection E as <- <-.
    destruct (round_int_ok o debug pol x J Ho Hm HJ _ _ rd_ceil_ok _ _ _ _ _ _ G (Gm a) Es) as (G1 & K1 & B & _). destruct (emb_ok m a b Gm B) as [A V].
    split; [exact G1|]. split; [exact K1|]. split; [exact A|]. intros _. rewrite V. constructor.
  - destruct (fdiv o n debug (Nat.eqb b c) fuel nf (m b) (m c)) as [[[[nf1 eb] ec] s]| | |] eqn:Es; try discriminate. cbn [bind] in E. injection E as <- <-.
    destruct (fdiv_ok o n debug pol x J Ho Hm Hn HJ _ _ _ _ _ _ _ _ _ G (Gm b) (Gm c)
      ltac:(intros Eb; apply Nat.eqb_eq in Eb; rewrite Eb; reflexivity) Es) as (G1 & K1 & Bb & Bc & _).
    destruct (write2_ok m b c eb ec Gm Bb Bc) as [A V].
    split; [exact G1|]. split; [exact K1|]. split; [exact A|]. intros _. rewrite V. constructor.
  - destruct (get_arb o debug fuel nf (m a) prec) as [[[nf1 b] s]| | |] eqn:Es; try discriminate. cbn [bind] in E. injection E as <- <-.
    destruct (get_arb_ok o debug pol x J Ho Hm HJ _ _ _ _ _ _ _ G (Gm a) Hk Es) as (G1 & K1 & B & _). destruct (emb_ok m a b Gm B) as [A V].
    split; [exact G1|]. split; [exact K1|]. split; [exact A|]. intros _. rewrite V. constructor.
  - destruct (cfrac o n debug fuel nf (m a) k) as [[[nf1 cs] w]| | |] eqn:Es; try discriminate. cbn [bind] in E. injection E as <- <-.
    destruct (cfrac_ok o n debug pol x J Ho Hm Hn HJ _ _ _ _ _ _ _ G (Gm a) Es) as (G1 & K1 & B & C & _). destruct (upd_ok m r w Gm B) as [A V].
    split; [exact G1|]. split; [exact K1|]. split; [exact A|]. intros _. rewrite V. apply (ef_cfrac x (vals m) r a k cs). exact C.
Qed.

Lemma runs_ok : forall fuel l nf m nf' m', good nf -> goodm m -> Forall (call_ok pol) l ->
  runs o n debug fuel nf m l = Val (nf', m') -> good nf' /\ kept nf nf' /\ goodm m'.
Proof.
  intros fuel. induction l as [|k l IH]; intros nf m nf' m' G Gm Hl E; cbn [runs] in E.
  - injection E as <- <-. split; [exact G|]. split; [apply kept_refl|exact Gm].
  - inversion Hl; subst. destruct (run o n debug fuel nf m k) as [[nf1 m1]| | |] eqn:Er; try discriminate. cbn [bind] in E.
    destruct (run_ok fuel nf m k nf1 m1 G Gm H1 Er) as (G1 & K1 & Gm1 & _).
    destruct (IH nf1 m1 nf' m' G1 Gm1 H2 E) as (A & B & C). split; [exact A|]. split; [eapply kept_trans; eassumption|exact C].
Qed.
End Elem.
