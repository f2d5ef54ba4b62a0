(** Proofs about threads. *)
Require Import List ZArith Bool Lia FunctionalExtensionality.
From Verif Require Import RootModel ExtraModel Dyadic ArbModel ElemModel ConcModel ConcSpec.
Import ListNotations.
Open Scope Z_scope.

(** ** Programs alone, as a function *)
Fixpoint aexec {A} (p : prog A) (nf : renf) (m : mem) : renf * mem * out A :=
  match p with
  | Fin_ r => (nf, m, r)
  | Rd i k => aexec (k (m i)) nf m
  | WrE i e k => aexec k nf (upd_elem m i e)
  | WrB i b k => aexec k nf (upd_emb m i b)
  | RdF k => aexec (k nf) nf m
  | WrImm z k => aexec k (with_imm nf z) m
  | WrEmb b k => aexec k (with_ball nf b) m
  end.
(** Field and memory kept only when the program returns. *)
Definition aval {A} (p : prog A) (nf : renf) (m : mem) : out (renf * mem * A) :=
  let '(nf', m', r) := aexec p nf m in bind r (fun a => Val (nf', m', a)).

Lemma aexec_alone {A} (p : prog A) : forall nf m nf' m' r, aexec p nf m = (nf', m', r) -> alone nf m p nf' m' r.
Proof.
  induction p; cbn; intros nf m nf' m' r' E.
  1:{ injection E as <- <- <-. constructor. }
  all: eapply alone_step; [reflexivity | auto].
Qed.
Lemma alone_aexec {A} nf m (p : prog A) nf' m' r : alone nf m p nf' m' r -> aexec p nf m = (nf', m', r).
Proof.
  induction 1; [reflexivity |].
  destruct p; cbn in *; inversion H; subst; auto.
Qed.

Lemma aval_bind {A B} (p : prog A) (f : A -> prog B) : forall nf m,
  aval (pbind p f) nf m = bind (aval p nf m) (fun '(nf', m', a) => aval (f a) nf' m').
Proof.
  unfold aval. induction p; intros nf m; cbn.
  1:{ destruct r; reflexivity. }
  all: eauto.
Qed.
Lemma aval_local {A B} (r : out A) (f : A -> prog B) nf m :
  aval (local r f) nf m = bind r (fun a => aval (f a) nf m).
Proof. unfold local. rewrite aval_bind. destruct r; reflexivity. Qed.
Lemma aval_done {A} (a : A) nf m : aval (done a) nf m = Val (nf, m, a).
Proof. reflexivity. Qed.
Lemma aval_fin {A} (r : out A) nf m : aval (Fin_ r) nf m = bind r (fun a => Val (nf, m, a)).
Proof. reflexivity. Qed.
Lemma aval_rd {A} i (k : relem -> prog A) nf m : aval (Rd i k) nf m = aval (k (m i)) nf m.
Proof. reflexivity. Qed.
Lemma aval_wre {A} i e (k : prog A) nf m : aval (WrE i e k) nf m = aval k nf (upd_elem m i e).
Proof. reflexivity. Qed.
Lemma aval_wrb {A} i b (k : prog A) nf m : aval (WrB i b k) nf m = aval k nf (upd_emb m i b).
Proof. reflexivity. Qed.
Lemma aval_rdf {A} (k : renf -> prog A) nf m : aval (RdF k) nf m = aval (k nf) nf m.
Proof. reflexivity. Qed.
Lemma aval_imm {A} z (k : prog A) nf m : aval (WrImm z k) nf m = aval k (with_imm nf z) m.
Proof. reflexivity. Qed.
Lemma aval_emb {A} b (k : prog A) nf m : aval (WrEmb b k) nf m = aval k (with_ball nf b) m.
Proof. reflexivity. Qed.

(** ** Memory *)
Lemma upd_emb_emb m a b b' : upd_emb (upd_emb m a b) a b' = upd_emb m a b'.
Proof. apply functional_extensionality; intro i. unfold upd_emb. rewrite Nat.eqb_refl. now destruct (Nat.eqb i a). Qed.
Lemma upd_emb_id m a : upd_emb m a (r_emb (m a)) = m.
Proof.
  apply functional_extensionality; intro i. unfold upd_emb.
  destruct (Nat.eqb_spec i a) as [-> |]; [destruct (m a)|]; reflexivity.
Qed.
Lemma upd_emb_at m a b : upd_emb m a b a = {| r_elem := r_elem (m a); r_emb := b |}.
Proof. unfold upd_emb. now rewrite Nat.eqb_refl. Qed.
Lemma upd_emb_elem m a b i : r_elem (upd_emb m a b i) = r_elem (m i).
Proof. unfold upd_emb. destruct (Nat.eqb_spec i a) as [-> |]; reflexivity. Qed.
Lemma upd_elem_at m a e : upd_elem m a e a = {| r_elem := e; r_emb := r_emb (m a) |}.
Proof. unfold upd_elem. now rewrite Nat.eqb_refl. Qed.
Lemma upd_both m a e b : upd_emb (upd_elem m a e) a b = upd m a {| r_elem := e; r_emb := b |}.
Proof. apply functional_extensionality; intro i. unfold upd_emb, upd_elem, upd. rewrite Nat.eqb_refl. now destruct (Nat.eqb i a). Qed.
Lemma upd_upd m a x y : upd (upd m a x) a y = upd m a y.
Proof. apply functional_extensionality; intro i. unfold upd. now destruct (Nat.eqb i a). Qed.
Lemma upd_at m a x : upd m a x a = x.
Proof. unfold upd. now rewrite Nat.eqb_refl. Qed.
Lemma upd_emb_upd m a x b : upd_emb (upd m a x) a b = upd m a {| r_elem := r_elem x; r_emb := b |}.
Proof. apply functional_extensionality; intro i. unfold upd_emb, upd. rewrite Nat.eqb_refl. now destruct (Nat.eqb i a). Qed.
Lemma upd_elem_upd m a x e : upd_elem (upd m a x) a e = upd m a {| r_elem := e; r_emb := r_emb x |}.
Proof. apply functional_extensionality; intro i. unfold upd_elem, upd. rewrite Nat.eqb_refl. now destruct (Nat.eqb i a). Qed.

Lemma upd_id m a : upd m a (m a) = m.
Proof. apply functional_extensionality; intro i. unfold upd. now destruct (Nat.eqb_spec i a) as [-> |]. Qed.
Lemma upd_comm m a b x y : a <> b -> upd (upd m a x) b y = upd (upd m b y) a x.
Proof.
  intro D. apply functional_extensionality; intro i. unfold upd.
  destruct (Nat.eqb_spec i a), (Nat.eqb_spec i b); congruence.
Qed.
Lemma upd_other m a x i : i <> a -> upd m a x i = m i.
Proof. intro D. unfold upd. now destruct (Nat.eqb_spec i a). Qed.

(** A hidden element keeps its value for everyone else. *)
Lemma aval_hide {A} (d : nat) (p : prog A) : forall x nf m,
  aval (hide d x p) nf m = bind (aval p nf (upd m d x)) (fun '(nf', m', a) => Val (nf', upd m' d (m d), a)).
Proof.
  induction p as [r|i k IH|i e k IH|i b k IH|k IH|z k IH|b k IH]; intros x nf m; cbn [hide].
  - unfold aval. cbn. destruct r; cbn; try reflexivity. now rewrite upd_upd, upd_id.
  - rewrite aval_rd. destruct (Nat.eqb_spec i d) as [-> | D].
    + rewrite IH, upd_at. reflexivity.
    + rewrite aval_rd, IH, upd_other by assumption. reflexivity.
  - rewrite aval_wre. destruct (Nat.eqb_spec i d) as [-> | D].
    + rewrite IH, upd_elem_upd. reflexivity.
    + rewrite aval_wre, IH.
      replace (upd (upd_elem m i e) d x) with (upd_elem (upd m d x) i e).
      2:{ apply functional_extensionality; intro j. unfold upd_elem, upd.
          destruct (Nat.eqb_spec i d); [congruence|].
          destruct (Nat.eqb_spec j i), (Nat.eqb_spec j d); congruence. }
      replace (upd_elem m i e d) with (m d); [reflexivity|].
      unfold upd_elem. destruct (Nat.eqb_spec d i); congruence.
  - rewrite aval_wrb. destruct (Nat.eqb_spec i d) as [-> | D].
    + rewrite IH, upd_emb_upd. reflexivity.
    + rewrite aval_wrb, IH.
      replace (upd (upd_emb m i b) d x) with (upd_emb (upd m d x) i b).
      2:{ apply functional_extensionality; intro j. unfold upd_emb, upd.
          destruct (Nat.eqb_spec i d); [congruence|].
          destruct (Nat.eqb_spec j i), (Nat.eqb_spec j d); congruence. }
      replace (upd_emb m i b d) with (m d); [reflexivity|].
      unfold upd_emb. destruct (Nat.eqb_spec d i); congruence.
  - rewrite !aval_rdf. apply IH.
  - rewrite !aval_imm. apply IH.
  - rewrite !aval_emb. apply IH.
Qed.

Ltac run1 := repeat (rewrite ?aval_bind, ?aval_local, ?aval_done, ?aval_fin, ?aval_rd, ?aval_wre, ?aval_wrb,
                       ?aval_rdf, ?aval_imm, ?aval_emb; cbn [bind]).

Section Conc.
Variable o : arbops.
Variable n : nfops.
Variable debug : bool.

Lemma refine_loop_alone : forall fuel nf m prec cp,
  aval (p_refine_loop o fuel prec cp) nf m = bind (refine_loop o fuel nf prec cp) (fun nf' => Val (nf', m, tt)).
Proof.
  induction fuel as [|f IH]; intros nf m prec cp; [reflexivity|].
  cbn [p_refine_loop refine_loop]. rewrite aval_rdf.
  destruct (rel_accuracy (f_emb nf) <? prec); [|reflexivity].
  cbv zeta. rewrite aval_local.
  assert (N : forall t, aval (WrEmb t (RdF (fun nf' => local (comp_prec nf' 32) (fun cp' => p_refine_loop o f prec cp')))) nf m =
    bind (bind (comp_prec (with_emb nf t) 32) (fun cp' => refine_loop o f (with_emb nf t) prec cp')) (fun nf' => Val (nf', m, tt))).
  { intro t. rewrite aval_emb, aval_rdf, aval_local. change (with_ball nf t) with (with_emb nf t).
    destruct (comp_prec (with_emb nf t) 32); cbn [bind]; auto. }
  destruct (newton_step o (f_pol nf) (zderiv (f_pol nf)) (f_emb nf) cp) as [[nb nt]| | |]; cbn [bind]; try reflexivity.
  assert (B : aval (local (bisection_step o (f_pol nf) (f_emb nf) cp) (fun bs =>
                match bs with
                | (true, Some t) => WrEmb t (RdF (fun nf' => local (comp_prec nf' 32) (fun cp' => p_refine_loop o f prec cp')))
                | _ => p_refine_loop o f prec (2 * cp)
                end)) nf m =
            bind (bind (bisection_step o (f_pol nf) (f_emb nf) cp) (fun bs =>
                match bs with
                | (true, Some t) => bind (comp_prec (with_emb nf t) 32) (fun cp' => refine_loop o f (with_emb nf t) prec cp')
                | _ => refine_loop o f nf prec (2 * cp)
                end)) (fun nf' => Val (nf', m, tt))).
  { rewrite aval_local.
    destruct (bisection_step o (f_pol nf) (f_emb nf) cp) as [[[|] [bt|]]| | |]; cbn [bind]; try reflexivity; auto. }
  destruct nb, nt; auto.
Qed.

Lemma refine_alone fuel nf m prec :
  aval (p_refine o debug fuel prec) nf m = bind (refine o debug fuel nf prec) (fun nf' => Val (nf', m, tt)).
Proof.
  unfold p_refine, refine.
  set (go := RdF _).
  assert (G : forall nf, aval go nf m = bind (bind (comp_prec nf (Z.max (f_prec nf) 64)) (fun cp => refine_loop o fuel nf prec cp))
                                             (fun nf' => Val (nf', m, tt))).
  { intro nf0. subst go. rewrite aval_rdf, aval_local.
    destruct (comp_prec nf0 _); cbn [bind]; auto using refine_loop_alone. }
  destruct debug; [|apply G].
  unfold p_set_immutable, set_immutable. run1.
  destruct (f_imm nf =? 0); [|reflexivity].
  run1. rewrite G. change (with_imm nf 1) with {| f_pol := f_pol nf; f_den := f_den nf; f_emb := f_emb nf; f_prec := f_prec nf; f_imm := 1 |}.
  destruct (bind (comp_prec _ _) _) as [nf2| | |]; cbn [bind]; try reflexivity.
  run1. destruct (f_imm nf2 =? 0); reflexivity.
Qed.

Lemma horner_alone i prec : forall p nf m,
  aval (p_horner o i p prec) nf m = Val (nf, upd_emb m i (eval_arb o p (f_emb nf) prec), tt).
Proof.
  induction p as [|c q IH]; intros nf m; [reflexivity|].
  cbn [p_horner eval_arb]. rewrite aval_bind, IH. cbn [bind]. run1.
  rewrite !upd_emb_emb, !upd_emb_at. reflexivity.
Qed.

Lemma eval_alone i prec nf m :
  aval (p_eval o i prec) nf m = bind (set_evaluation o nf (r_elem (m i)) prec) (fun b => Val (nf, upd_emb m i b, tt)).
Proof.
  unfold p_eval, set_evaluation.
  destruct (prec <? 2); [reflexivity|]. run1.
  destruct (linear (f_pol nf)); [reflexivity|].
  destruct (quadratic (f_pol nf)).
  - run1. rewrite !upd_emb_emb, !upd_emb_at. reflexivity.
  - run1. rewrite horner_alone. run1. rewrite !upd_emb_emb, !upd_emb_at. reflexivity.
Qed.

Lemma sgn_loop_alone i : forall fuel nf m prec cond,
  aval (p_sgn_loop o debug fuel i prec cond) nf m =
  bind (sgn_loop o debug fuel nf (r_elem (m i)) (r_emb (m i)) prec cond) (fun '(nf', b, s) => Val (nf', upd_emb m i b, s)).
Proof.
  induction fuel as [|f IH]; intros nf m prec cond; [reflexivity|].
  cbn [p_sgn_loop sgn_loop]. run1.
  destruct (contains_zero (r_emb (m i))); cbn [negb].
  2: { run1. now rewrite upd_emb_id. }
  run1. rewrite refine_alone.
  destruct (refine o debug f nf (2 * prec)) as [nf1| | |]; cbn [bind]; try reflexivity.
  run1. rewrite eval_alone.
  destruct (set_evaluation o nf1 (r_elem (m i)) (2 * prec + cond)) as [b'| | |]; cbn [bind]; try reflexivity.
  rewrite IH, upd_emb_at. cbn [r_elem r_emb].
  destruct (sgn_loop o debug f nf1 (r_elem (m i)) b' (2 * prec) cond) as [[[? ?] ?]| | |]; cbn [bind]; try reflexivity.
  now rewrite upd_emb_emb.
Qed.

Lemma sgn_alone i fuel nf m :
  aval (p_sgn o debug fuel i) nf m = bind (sgn o debug fuel nf (m i)) (fun '(nf', b, s) => Val (nf', upd_emb m i b, s)).
Proof.
  unfold p_sgn, sgn. run1.
  destruct (e_num (r_elem (m i))) as [|c [|c' l]] eqn:En.
  1, 2: run1; now rewrite upd_emb_id.
  run1. destruct (contains_zero (r_emb (m i))); cbn [negb].
  2: { run1. now rewrite upd_emb_id. }
  unfold p_cond, p_start. run1. rewrite eval_alone.
  destruct (set_evaluation o nf (r_elem (m i)) (start_prec nf + elem_cond nf (r_elem (m i)))) as [b| | |]; cbn [bind]; try reflexivity.
  rewrite sgn_loop_alone, upd_emb_at. cbn [r_elem r_emb].
  destruct (sgn_loop o debug fuel nf _ _ _ _) as [[[? ?] ?]| | |]; cbn [bind]; try reflexivity.
  now rewrite upd_emb_emb.
Qed.

Lemma sgn_tmp_alone fuel nf m x :
  aval (p_sgn_tmp o debug fuel x) nf m = bind (sgn o debug fuel nf x) (fun '(nf', _, s) => Val (nf', m, s)).
Proof.
  unfold p_sgn_tmp. rewrite aval_hide, sgn_alone, upd_at.
  destruct (sgn o debug fuel nf x) as [[[? ?] ?]| | |]; cbn [bind]; try reflexivity.
  now rewrite upd_emb_upd, upd_upd, upd_id.
Qed.

Lemma zlist_eqb_refl : forall p, zlist_eqb p p = true.
Proof. induction p as [|c p IH]; [reflexivity|]. cbn. now rewrite Z.eqb_refl, IH. Qed.

Lemma write2_id m i j : write2 m i j (r_emb (m i)) (r_emb (m j)) = m.
Proof. unfold write2. rewrite upd_emb_id. apply upd_emb_id. Qed.
Lemma write2_r m i j b : write2 m i j (r_emb (m i)) b = upd_emb m j b.
Proof. unfold write2. now rewrite upd_emb_id. Qed.
Lemma write2_l m i j b : i <> j -> write2 m i j b (r_emb (m j)) = upd_emb m i b.
Proof.
  intro D. unfold write2. apply functional_extensionality; intro k. unfold upd_emb.
  destruct (Nat.eqb_spec j i); [congruence|].
  destruct (Nat.eqb_spec k j) as [-> |]; [|reflexivity].
  destruct (Nat.eqb_spec j i); [congruence|]. destruct (m j); reflexivity.
Qed.
Lemma write2_at_r m i j a b : write2 m i j a b j = {| r_elem := r_elem (m j); r_emb := b |}.
Proof. unfold write2. rewrite upd_emb_at. now rewrite upd_emb_elem. Qed.
Lemma write2_at_l m i j a b : i <> j -> write2 m i j a b i = {| r_elem := r_elem (m i); r_emb := a |}.
Proof.
  intro D. unfold write2, upd_emb. destruct (Nat.eqb_spec i j); [congruence|]. now rewrite Nat.eqb_refl.
Qed.

Lemma cmp_alone i j fuel nf m :
  aval (p_cmp o n debug fuel i j) nf m =
  bind (cmp o n debug fuel nf (m i) (m j)) (fun '(nf', ea, eb, s) => Val (nf', write2 m i j ea eb, s)).
Proof.
  unfold p_cmp, cmp. run1.
  destruct (elem_eqb (r_elem (m i)) (r_elem (m j))) eqn:Eq.
  { run1. now rewrite write2_id. }
  assert (D : i <> j).
  { intros ->. unfold elem_eqb in Eq. rewrite zlist_eqb_refl, Z.eqb_refl in Eq. discriminate. }
  run1. destruct (blt (r_emb (m i)) (r_emb (m j))). { run1. now rewrite write2_id. }
  run1. destruct (blt (r_emb (m j)) (r_emb (m i))). { run1. now rewrite write2_id. }
  run1. destruct (is_rational (r_elem (m i)) && is_rational (r_elem (m j))).
  { destruct (is_zero (r_elem (m i))).
    { run1. rewrite sgn_alone.
      destruct (sgn o debug fuel nf (m j)) as [[[? ?] ?]| | |]; cbn [bind]; try reflexivity.
      rewrite aval_done. now rewrite write2_r. }
    destruct (is_zero (r_elem (m j))).
    { rewrite sgn_alone.
      destruct (sgn o debug fuel nf (m i)) as [[[? ?] ?]| | |]; cbn [bind]; try reflexivity.
      now rewrite write2_l by assumption. }
    run1. now rewrite write2_id. }
  unfold p_cond, p_start. run1. rewrite eval_alone.
  destruct (set_evaluation o nf (r_elem (m i)) _) as [ea| | |]; cbn [bind]; try reflexivity.
  run1. rewrite eval_alone. rewrite !upd_emb_elem.
  destruct (set_evaluation o nf (r_elem (m j)) _) as [eb| | |]; cbn [bind]; try reflexivity.
  fold (write2 m i j ea eb). run1.
  rewrite !write2_at_r, !(write2_at_l _ _ _ _ _ D). cbn [r_elem r_emb].
  destruct (blt ea eb); [reflexivity|]. run1.
  rewrite !write2_at_r, !(write2_at_l _ _ _ _ _ D). cbn [r_elem r_emb].
  destruct (blt eb ea); [reflexivity|]. run1.
  rewrite !write2_at_r, !(write2_at_l _ _ _ _ _ D).
  rewrite sgn_tmp_alone.
  destruct (sgn o debug fuel nf _) as [[[? ?] ?]| | |]; cbn [bind]; reflexivity.
Qed.

Lemma cmp_q_alone i qn qd fuel nf m :
  aval (p_cmp_q o n debug fuel i qn qd) nf m =
  bind (cmp_q o n debug fuel nf (m i) qn qd) (fun '(nf', b, s) => Val (nf', upd_emb m i b, s)).
Proof.
  unfold p_cmp_q, cmp_q. destruct (qn =? 0); [apply sgn_alone|].
  run1. destruct (is_zero (r_elem (m i))). { run1. now rewrite upd_emb_id. }
  destruct (is_rational (r_elem (m i))). { run1. now rewrite upd_emb_id. }
  run1. set (d := o_sub o (r_emb (m i)) _ _).
  destruct (contains_zero d); cbn [negb]. 2:{ run1. now rewrite upd_emb_id. }
  unfold p_cond, p_start. run1.
  destruct (debug && (start_prec nf =? - elem_cond nf (r_elem (m i)))); [reflexivity|].
  run1. rewrite eval_alone.
  destruct (set_evaluation o nf (r_elem (m i)) _) as [b| | |]; cbn [bind]; try reflexivity.
  run1. rewrite !upd_emb_at. cbn [r_elem r_emb]. set (d' := o_sub o b _ (start_prec nf)).
  destruct (contains_zero d'); cbn [negb]; [|reflexivity].
  run1. rewrite !upd_emb_at. cbn [r_elem r_emb]. rewrite sgn_tmp_alone.
  destruct (sgn o debug fuel nf _) as [[[? ?] ?]| | |]; cbn [bind]; reflexivity.
Qed.

Lemma finite_loop_alone i : forall fuel nf m prec cond,
  aval (p_finite_loop o debug fuel i prec cond) nf m =
  bind (finite_loop o debug fuel nf (r_elem (m i)) (r_emb (m i)) prec cond) (fun '(nf', b) => Val (nf', upd_emb m i b, tt)).
Proof.
  induction fuel as [|f IH]; intros nf m prec cond; [reflexivity|].
  cbn [p_finite_loop finite_loop]. run1.
  destruct (is_finite (r_emb (m i))).
  { run1. now rewrite upd_emb_id. }
  run1. rewrite refine_alone.
  destruct (refine o debug f nf (2 * prec)) as [nf1| | |]; cbn [bind]; try reflexivity.
  run1. rewrite eval_alone.
  destruct (set_evaluation o nf1 (r_elem (m i)) (2 * prec + cond)) as [b'| | |]; cbn [bind]; try reflexivity.
  rewrite IH, upd_emb_at. cbn [r_elem r_emb].
  destruct (finite_loop o debug f nf1 _ _ _ _) as [[? ?]| | |]; cbn [bind]; try reflexivity.
  now rewrite upd_emb_emb.
Qed.

Lemma round_loop_alone rd i size cond : forall fuel nf m prec,
  aval (p_round_loop o debug rd fuel i size prec cond) nf m =
  bind (round_loop o debug rd fuel nf (r_elem (m i)) size prec cond) (fun '(nf', b, z) => Val (nf', upd_emb m i b, z)).
Proof.
  induction fuel as [|f IH]; intros nf m prec; [reflexivity|].
  cbn [p_round_loop round_loop]. run1. rewrite eval_alone.
  destruct (set_evaluation o nf (r_elem (m i)) (prec + cond)) as [b| | |]; cbn [bind]; try reflexivity.
  run1. rewrite upd_emb_at. cbn [r_emb].
  set (again := do _ <- _; _).
  assert (G : aval again nf (upd_emb m i b) =
    bind (bind (refine o debug f nf (2 * prec)) (fun nf' => round_loop o debug rd f nf' (r_elem (m i)) size (2 * prec) cond))
      (fun '(nf', b, z) => Val (nf', upd_emb m i b, z))).
  { subst again. run1. rewrite refine_alone.
    destruct (refine o debug f nf (2 * prec)) as [nf1| | |]; cbn [bind]; try reflexivity.
    rewrite IH, upd_emb_at. cbn [r_elem].
    destruct (round_loop o debug rd f nf1 _ _ _ _) as [[[? ?] ?]| | |]; cbn [bind]; try reflexivity.
    now rewrite upd_emb_emb. }
  destruct (unique_int rd b (Z.max size prec)) as [[l r]|]; [|exact G].
  destruct (l =? r); [reflexivity | exact G].
Qed.

Lemma round_alone rd i fuel nf m :
  aval (p_round o debug rd fuel i) nf m =
  bind (round_int o debug rd fuel nf (m i)) (fun '(nf', b, z) => Val (nf', upd_emb m i b, z)).
Proof.
  unfold p_round, round_int. run1.
  destruct (is_rational (r_elem (m i))).
  { run1. destruct (coeff0 (f_pol nf) (r_elem (m i))); cbn [bind]; try reflexivity. now rewrite aval_done, upd_emb_id. }
  run1. destruct (is_finite (r_emb (m i))) eqn:Fi.
  - run1. destruct (unique_int rd (r_emb (m i)) (f_prec nf)) as [[l r]|]; [|reflexivity].
    destruct (l =? r). { run1. now rewrite upd_emb_id. }
    unfold p_cond, p_start. run1. apply round_loop_alone.
  - unfold p_cond, p_start. run1. rewrite eval_alone.
    destruct (set_evaluation o nf (r_elem (m i)) _) as [b| | |]; cbn [bind]; try reflexivity.
    run1. rewrite finite_loop_alone, upd_emb_at. cbn [r_elem r_emb].
    destruct (finite_loop o debug fuel nf _ _ _ _) as [[nf1 b1]| | |]; cbn [bind]; try reflexivity.
    run1. rewrite upd_emb_emb, upd_emb_at. cbn [r_emb].
    destruct (unique_int rd b1 (f_prec nf1)) as [[l r]|]; [|reflexivity].
    destruct (l =? r); [reflexivity|].
    run1. rewrite round_loop_alone, upd_emb_at. cbn [r_elem].
    destruct (round_loop o debug rd fuel nf1 _ _ _ _) as [[[? ?] ?]| | |]; cbn [bind]; try reflexivity.
    now rewrite upd_emb_emb.
Qed.

Lemma get_arb_loop_alone i cond prec : forall fuel nf m pprec,
  aval (p_get_arb_loop o debug fuel i pprec cond prec) nf m =
  bind (get_arb_loop o debug fuel nf (r_elem (m i)) pprec cond prec) (fun '(nf', b, z) => Val (nf', upd_emb m i b, z)).
Proof.
  induction fuel as [|f IH]; intros nf m pprec; [reflexivity|].
  cbn [p_get_arb_loop get_arb_loop]. run1. rewrite eval_alone.
  destruct (set_evaluation o nf (r_elem (m i)) (pprec + cond)) as [b| | |]; cbn [bind]; try reflexivity.
  run1. rewrite upd_emb_at. cbn [r_emb].
  destruct (rel_error b <? - prec - 2).
  { run1. now rewrite upd_emb_at. }
  run1. rewrite refine_alone.
  destruct (refine o debug f nf (2 * pprec)) as [nf1| | |]; cbn [bind]; try reflexivity.
  rewrite IH, upd_emb_at. cbn [r_elem].
  destruct (get_arb_loop o debug f nf1 _ _ _ _) as [[[? ?] ?]| | |]; cbn [bind]; try reflexivity.
  now rewrite upd_emb_emb.
Qed.

Lemma get_arb_alone i prec fuel nf m :
  aval (p_get_arb o debug fuel i prec) nf m =
  bind (get_arb o debug fuel nf (m i) prec) (fun '(nf', b, z) => Val (nf', upd_emb m i b, z)).
Proof.
  unfold p_get_arb, get_arb. run1.
  destruct (is_zero (r_elem (m i))). { run1. now rewrite upd_emb_id. }
  run1. destruct (rel_error (r_emb (m i)) <? - prec - 2). { run1. now rewrite upd_emb_id. }
  unfold p_cond, p_start. run1. apply get_arb_loop_alone.
Qed.

Lemma finite_loop_p_alone i : forall fuel nf m prec cond,
  aval (p_finite_loop_p o debug fuel i prec cond) nf m =
  bind (finite_loop_p o debug fuel nf (r_elem (m i)) (r_emb (m i)) prec cond) (fun '(nf', b, p) => Val (nf', upd_emb m i b, p)).
Proof.
  induction fuel as [|f IH]; intros nf m prec cond; [reflexivity|].
  cbn [p_finite_loop_p finite_loop_p]. run1.
  destruct (is_finite (r_emb (m i))).
  { run1. now rewrite upd_emb_id. }
  run1. rewrite refine_alone.
  destruct (refine o debug f nf (2 * prec)) as [nf1| | |]; cbn [bind]; try reflexivity.
  run1. rewrite eval_alone.
  destruct (set_evaluation o nf1 (r_elem (m i)) (2 * prec + cond)) as [b'| | |]; cbn [bind]; try reflexivity.
  rewrite IH, upd_emb_at. cbn [r_elem r_emb].
  destruct (finite_loop_p o debug f nf1 _ _ _ _) as [[[? ?] ?]| | |]; cbn [bind]; try reflexivity.
  now rewrite upd_emb_emb.
Qed.
Lemma nonzero_loop_alone i : forall fuel nf m prec cond,
  aval (p_nonzero_loop o debug fuel i prec cond) nf m =
  bind (nonzero_loop o debug fuel nf (r_elem (m i)) (r_emb (m i)) prec cond) (fun '(nf', b, p) => Val (nf', upd_emb m i b, p)).
Proof.
  induction fuel as [|f IH]; intros nf m prec cond; [reflexivity|].
  cbn [p_nonzero_loop nonzero_loop]. run1.
  destruct (contains_zero (r_emb (m i))); cbn [negb].
  2: { run1. now rewrite upd_emb_id. }
  run1. rewrite refine_alone.
  destruct (refine o debug f nf (2 * prec)) as [nf1| | |]; cbn [bind]; try reflexivity.
  run1. rewrite eval_alone.
  destruct (set_evaluation o nf1 (r_elem (m i)) (2 * prec + cond)) as [b'| | |]; cbn [bind]; try reflexivity.
  rewrite IH, upd_emb_at. cbn [r_elem r_emb].
  destruct (nonzero_loop o debug f nf1 _ _ _ _) as [[[? ?] ?]| | |]; cbn [bind]; try reflexivity.
  now rewrite upd_emb_emb.
Qed.

Lemma write2_write2 m i j a b a' b' : write2 (write2 m i j a b) i j a' b' = write2 m i j a' b'.
Proof.
  apply functional_extensionality; intro k. unfold write2, upd_emb. rewrite ?Nat.eqb_refl.
  destruct (Nat.eqb_spec k j) as [-> |].
  - destruct (Nat.eqb_spec j i) as [-> |]; rewrite ?Nat.eqb_refl; cbn; reflexivity.
  - destruct (Nat.eqb_spec k i) as [-> |]; [|reflexivity].
    destruct (Nat.eqb_spec i j); [congruence|]. reflexivity.
Qed.
(** Two enclosures, the same one when the elements are the same object. *)
Definition fits (i j : nat) (a b : ball) : Prop := i = j -> a = b.
Lemma fits_at_l m i j a b : fits i j a b -> write2 m i j a b i = {| r_elem := r_elem (m i); r_emb := a |}.
Proof.
  intro H. destruct (Nat.eq_dec i j) as [E|E].
  - rewrite (H E). subst j. apply write2_at_r.
  - now apply write2_at_l.
Qed.

Lemma quot_loop_alone b c : forall fuel nf m eb ec q prec bcond ccond,
  fits b c eb ec -> (b = c -> bcond = ccond) ->
  aval (p_quot_loop o debug fuel b c q prec bcond ccond) nf (write2 m b c eb ec) =
  bind (quot_loop o debug fuel nf (r_elem (m b)) (r_elem (m c)) eb ec q prec bcond ccond)
    (fun '(nf', eb', ec', q') => Val (nf', write2 m b c eb' ec', q')).
Proof.
  induction fuel as [|f IH]; intros nf m eb ec q prec bcond ccond HF HC; [reflexivity|].
  cbn [p_quot_loop quot_loop]. destruct (rad_ge_half q); [|reflexivity].
  run1. rewrite refine_alone.
  destruct (refine o debug f nf (2 * prec)) as [nf1| | |]; cbn [bind]; try reflexivity.
  run1. rewrite eval_alone. rewrite (fits_at_l _ _ _ _ _ HF). cbn [r_elem].
  destruct (set_evaluation o nf1 (r_elem (m b)) (2 * prec + bcond)) as [eb'| | |] eqn:E1; cbn [bind]; try reflexivity.
  run1. rewrite eval_alone. rewrite upd_emb_elem, write2_at_r. cbn [r_elem].
  destruct (set_evaluation o nf1 (r_elem (m c)) (2 * prec + ccond)) as [ec'| | |] eqn:E2; cbn [bind]; try reflexivity.
  fold (write2 (write2 m b c eb ec) b c eb' ec'). rewrite write2_write2.
  assert (HF' : fits b c eb' ec').
  { intros ->. rewrite HC in E1 by reflexivity. congruence. }
  run1. rewrite (fits_at_l _ _ _ _ _ HF'), write2_at_r. cbn [r_emb]. now apply IH.
Qed.

Lemma fdiv_alone b c fuel nf m :
  aval (p_fdiv o n debug fuel b c) nf m =
  bind (fdiv o n debug (Nat.eqb b c) fuel nf (m b) (m c)) (fun '(nf', eb, ec, z) => Val (nf', write2 m b c eb ec, z)).
Proof.
  unfold p_fdiv, fdiv. run1.
  destruct (is_rational (r_elem (m c))).
  { destruct (is_zero (r_elem (m c))); [reflexivity|]. run1.
    rewrite aval_hide, round_alone, upd_at. unfold floor.
    destruct (round_int o debug rd_floor fuel nf _) as [[[? ?] ?]| | |]; cbn [bind]; try reflexivity.
    now rewrite upd_emb_upd, upd_upd, upd_id, write2_id. }
  unfold p_start, p_cond. run1. rewrite eval_alone.
  set (bcond := elem_cond nf (r_elem (m b))). set (ccond := elem_cond nf (r_elem (m c))).
  assert (HC : b = c -> bcond = ccond) by (intros ->; reflexivity).
  destruct (set_evaluation o nf (r_elem (m b)) _) as [eb| | |]; cbn [bind]; try reflexivity.
  run1. rewrite finite_loop_p_alone, upd_emb_at. cbn [r_elem r_emb].
  destruct (finite_loop_p o debug fuel nf (r_elem (m b)) eb _ bcond) as [[[nf1 eb1] prec]| | |]; cbn [bind]; try reflexivity.
  rewrite upd_emb_emb. run1. rewrite eval_alone, upd_emb_elem.
  destruct (set_evaluation o nf1 (r_elem (m c)) (prec + ccond)) as [ec| | |]; cbn [bind]; try reflexivity.
  run1. rewrite nonzero_loop_alone, upd_emb_at, upd_emb_elem. cbn [r_elem r_emb].
  destruct (nonzero_loop o debug fuel nf1 (r_elem (m c)) ec prec ccond) as [[[nf2 ec1] prec2]| | |]; cbn [bind]; try reflexivity.
  rewrite upd_emb_emb. fold (write2 m b c eb1 ec1).
  set (eb2 := if Nat.eqb b c then ec1 else eb1).
  assert (HW : write2 m b c eb1 ec1 = write2 m b c eb2 ec1).
  { subst eb2. destruct (Nat.eqb_spec b c) as [-> |]; [|reflexivity]. unfold write2. now rewrite !upd_emb_emb. }
  assert (HF : fits b c eb2 ec1).
  { intro E. subst eb2. now rewrite E, Nat.eqb_refl. }
  rewrite HW. clearbody eb2. clear HW. run1.
  rewrite (fits_at_l _ _ _ _ _ HF), write2_at_r. cbn [r_emb].
  rewrite quot_loop_alone by assumption.
  destruct (quot_loop o debug fuel nf2 (r_elem (m b)) (r_elem (m c)) eb2 ec1 (o_div o eb2 ec1 prec2) prec2 bcond ccond)
    as [[[[nf3 eb3] ec3] q]| | |] eqn:EQ; cbn [bind]; try reflexivity.
  assert (HF3 : fits b c eb3 ec3).
  { clear - EQ HF HC. revert EQ HF. generalize (o_div o eb2 ec1 prec2). revert eb2 ec1 nf2 prec2.
    induction fuel as [|f IH]; intros eb2 ec1 nf2 prec2 q0; cbn [quot_loop]; [discriminate|].
    destruct (rad_ge_half q0); [|intros [= <- <- <- <-] HF; exact HF].
    destruct (refine o debug f nf2 (2 * prec2)) as [nf4| | |]; cbn [bind]; try discriminate.
    destruct (set_evaluation o nf4 (r_elem (m b)) (2 * prec2 + bcond)) as [x| | |] eqn:E1; cbn [bind]; try discriminate.
    destruct (set_evaluation o nf4 (r_elem (m c)) (2 * prec2 + ccond)) as [y| | |] eqn:E2; cbn [bind]; try discriminate.
    intros E _. apply (IH _ _ _ _ _ E). intro D. rewrite D in E1. rewrite HC in E1 by assumption. congruence. }
  destruct q as [mi ra|]; [|reflexivity].
  destruct (dceil (dsub mi ra) <=? dfloor (dadd mi ra)); [|reflexivity].
  run1. rewrite write2_at_r. cbn [r_elem r_emb].
  set (l := dceil (dsub mi ra)).
  rewrite aval_hide, cmp_alone, upd_at.
  rewrite (upd_other _ (S b) _ b) by lia. rewrite (fits_at_l _ _ _ _ _ HF3).
  set (ac := {| r_elem := _; r_emb := _ |}). set (y := {| r_elem := r_elem (m b); r_emb := eb3 |}).
  destruct (cmp o n debug fuel nf3 ac y) as [[[[nf4 ea] eb4] s]| | |]; cbn [bind]; try reflexivity.
  replace (upd (write2 (upd (write2 m b c eb3 ec3) (S b) ac) (S b) b ea eb4) (S b) (write2 m b c eb3 ec3 (S b)))
    with (upd_emb (write2 m b c eb3 ec3) b eb4).
  2:{ apply functional_extensionality; intro k. unfold upd, write2, upd_emb.
      rewrite ?Nat.eqb_refl. destruct (Nat.eqb_spec b (S b)); [lia|].
      destruct (Nat.eqb_spec k b) as [-> | D].
      - destruct (Nat.eqb_spec b (S b)); [lia|]. reflexivity.
      - destruct (Nat.eqb_spec k (S b)) as [-> |]; [|reflexivity]. destruct (Nat.eqb_spec (S b) b); [lia|reflexivity]. }
  replace (upd_emb (write2 m b c eb3 ec3) b eb4) with (write2 m b c eb4 (if Nat.eqb b c then eb4 else ec3)).
  2:{ apply functional_extensionality; intro k. unfold write2, upd_emb.
      rewrite ?Nat.eqb_refl. destruct (Nat.eqb_spec b c) as [-> | D].
      - rewrite Nat.eqb_refl. now destruct (Nat.eqb_spec k c).
      - destruct (Nat.eqb_spec c b); [congruence|].
        destruct (Nat.eqb_spec k b) as [-> | D']; [|reflexivity].
        destruct (Nat.eqb_spec b c); [congruence|]. reflexivity. }
  run1. rewrite sgn_alone, write2_at_r.
  destruct (sgn o debug fuel nf4 _) as [[[nf5 ec5] cs]| | |]; cbn [bind]; try reflexivity.
  run1. repeat f_equal.
  unfold write2. rewrite upd_emb_emb. destruct (Nat.eqb_spec b c) as [-> |]; [now rewrite !upd_emb_emb|reflexivity].
Qed.

Lemma cfrac_alone r fuel : forall k nf m,
  aval (p_cfrac o n debug fuel r k) nf m =
  bind (cfrac_loop o n debug fuel nf (m r) k) (fun '(nf', l, x) => Val (nf', upd m r x, l)).
Proof.
  induction k as [|k IH]; intros nf m.
  { cbn. unfold aval. cbn. f_equal. f_equal. f_equal. apply functional_extensionality; intro i. unfold upd.
    now destruct (Nat.eqb_spec i r) as [-> |]. }
  cbn [p_cfrac cfrac_loop]. run1. rewrite round_alone. unfold floor.
  destruct (round_int o debug rd_floor fuel nf (m r)) as [[[nf1 eb] c]| | |]; cbn [bind]; try reflexivity.
  unfold p1. run1. rewrite !upd_emb_elem, upd_elem_at, upd_emb_at. cbn [r_elem r_emb].
  rewrite upd_both.
  replace (upd (upd_emb m r eb) r _) with (upd m r {| r_elem := n_sub_q n (r_elem (m r)) c 1; r_emb := o_sub_z o eb c (f_prec nf1) |}).
  2:{ apply functional_extensionality; intro i. unfold upd, upd_emb. now destruct (Nat.eqb i r). }
  rewrite ?upd_at. cbn [r_elem].
  destruct (is_zero (n_sub_q n (r_elem (m r)) c 1)); [reflexivity|].
  run1. rewrite !upd_at. cbn [r_elem r_emb].
  rewrite upd_elem_upd, upd_at. cbn [r_elem r_emb]. rewrite upd_emb_upd. cbn [r_elem]. rewrite IH, upd_at.
  destruct (cfrac_loop o n debug fuel nf1 _ k) as [[[? ?] ?]| | |]; cbn [bind]; try reflexivity.
  rewrite aval_done, upd_upd. reflexivity.
Qed.
Lemma p1_alone a b fe fb nf m :
  aval (p1 a b fe fb) nf m =
  Val (nf, upd_emb (upd_elem m a (fe (r_elem (m b)))) a (fb (r_emb (upd_elem m a (fe (r_elem (m b))) b)) (f_prec nf)), tt).
Proof. reflexivity. Qed.

(** A call made by a thread alone is the call of ElemModel.v. *)
Lemma call_alone fuel nf m k :
  aval (p_call o n debug fuel k) nf m =
  bind (run o n debug fuel nf m k) (fun '(nf', m') =>
  bind (answer o n debug fuel nf m k) (fun a => Val (nf', m', a))).
Proof.
  destruct k; cbn [p_call run answer]; try reflexivity.
  - run1. destruct (gen o n nf) as [x| | |]; cbn [bind]; try reflexivity.
    run1. rewrite upd_both. now destruct x.
  - run1. rewrite eval_alone. destruct (set_evaluation o nf _ prec); reflexivity.
  - run1. rewrite !upd_both. cbn [bind].
    replace {| r_elem := r_elem (m b); r_emb := r_emb (m b) |} with (m b) by now destruct (m b).
    replace {| r_elem := r_elem (m a); r_emb := r_emb (m a) |} with (m a) by now destruct (m a).
    reflexivity.
  - run1. destruct (is_zero (r_elem (m c))); reflexivity.
  - destruct (z =? 0); reflexivity.
  - destruct (qn =? 0); reflexivity.
  - unfold p_inv, do_inv. run1. unfold p_set. rewrite p1_alone. run1.
    unfold do_set. destruct (is_zero _); reflexivity.
  - unfold p_inv, do_inv. run1. destruct (is_zero _); reflexivity.
  - run1. rewrite eval_alone. destruct (set_evaluation o nf _ prec); reflexivity.
  - run1. rewrite refine_alone. destruct (refine o debug fuel nf prec); reflexivity.
  - run1. rewrite sgn_alone. destruct (sgn o debug fuel nf (m a)) as [[[? ?] ?]| | |]; reflexivity.
  - run1. rewrite cmp_alone. destruct (cmp o n debug fuel nf (m a) (m b)) as [[[[? ?] ?] ?]| | |]; reflexivity.
  - run1. rewrite cmp_q_alone. destruct (cmp_q o n debug fuel nf (m a) qn qd) as [[[? ?] ?]| | |]; reflexivity.
  - run1. rewrite round_alone. unfold floor. destruct (round_int o debug rd_floor fuel nf (m a)) as [[[? ?] ?]| | |]; reflexivity.
  - run1. rewrite round_alone. unfold ceil. destruct (round_int o debug rd_ceil fuel nf (m a)) as [[[? ?] ?]| | |]; reflexivity.
  - run1. rewrite fdiv_alone. destruct (fdiv o n debug _ fuel nf (m b) (m c)) as [[[[? ?] ?] ?]| | |]; reflexivity.
  - run1. rewrite get_arb_alone. destruct (get_arb o debug fuel nf (m a) prec) as [[[? ?] ?]| | |]; reflexivity.
  - run1. unfold p_set. rewrite p1_alone. cbn [bind]. run1.
    replace (r_emb (upd_elem m r (r_elem (m a)) a)) with (r_emb (m a)).
    2:{ unfold upd_elem. destruct (Nat.eqb_spec a r) as [-> |]; reflexivity. }
    rewrite upd_both, upd_at. cbn [r_elem]. unfold cfrac.
    destruct (is_zero (r_elem (m a))). { cbn. now destruct (m a). }
    run1. rewrite cfrac_alone, upd_at.
    replace {| r_elem := r_elem (m a); r_emb := r_emb (m a) |} with (m a) by now destruct (m a).
    destruct (cfrac_loop o n debug fuel nf (m a) k) as [[[? ?] ?]| | |]; cbn [bind]; try reflexivity.
    run1. now rewrite upd_upd.
Qed.

Lemma calls_alone fuel : forall l nf m,
  aval (p_calls o n debug fuel l) nf m = calls o n debug fuel nf m l.
Proof.
  induction l as [|k l IH]; intros nf m; [reflexivity|].
  cbn [p_calls calls]. run1. rewrite call_alone.
  destruct (run o n debug fuel nf m k) as [[nf' m']| | |]; cbn [bind]; try reflexivity.
  destruct (answer o n debug fuel nf m k) as [a| | |]; cbn [bind]; try reflexivity.
  run1. rewrite IH.
  destruct (calls o n debug fuel nf' m' l) as [[[? ?] ?]| | |]; reflexivity.
Qed.
End Conc.

Lemma calls_are o n debug fuel l nf m :
  (forall nf' m' r, calls o n debug fuel nf m l = Val (nf', m', r) -> alone nf m (p_calls o n debug fuel l) nf' m' (Val r)) /\
  (forall nf' m' r, alone nf m (p_calls o n debug fuel l) nf' m' r -> bind r (fun a => Val (nf', m', a)) = calls o n debug fuel nf m l).
Proof.
  rewrite <- calls_alone. split; intros nf' m' r E.
  - apply aexec_alone. unfold aval in E. destruct (aexec _ nf m) as [[nf1 m1] [a| | |]]; cbn in E; congruence.
  - apply alone_aexec in E. unfold aval. rewrite E. reflexivity.
Qed.

(** ** Threads *)

(** Programs that keep to their own elements, read the shared ones and leave the
    field [nf] as it is. *)
Fixpoint stays {A} (own : nat -> option nat) (t : nat) (nf : renf) (p : prog A) : Prop :=
  match p with
  | Fin_ _ => True
  | Rd i k => (own i = Some t \/ own i = None) /\ forall x, stays own t nf (k x)
  | WrE i e k => own i = Some t /\ stays own t nf k
  | WrB i b k => own i = Some t /\ stays own t nf k
  | RdF k => stays own t nf (k nf)
  | WrImm z k => with_imm nf z = nf /\ stays own t nf k
  | WrEmb b k => with_ball nf b = nf /\ stays own t nf k
  end.

(** Memories that are the same for thread [t]. *)
Definition sees (own : nat -> option nat) (t : nat) (m m' : mem) : Prop :=
  forall i, own i = Some t \/ own i = None -> m i = m' i.

Lemma sees_elem own t m m' i e : sees own t m m' -> own i = Some t -> sees own t (upd_elem m i e) (upd_elem m' i e).
Proof. intros H O j Hj. unfold upd_elem. rewrite (H i) by auto. destruct (Nat.eqb j i); auto. Qed.
Lemma sees_emb own t m m' i b : sees own t m m' -> own i = Some t -> sees own t (upd_emb m i b) (upd_emb m' i b).
Proof. intros H O j Hj. unfold upd_emb. rewrite (H i) by auto. destruct (Nat.eqb j i); auto. Qed.
Lemma sees_elem_other own t u m i e : own i = Some u -> u <> t -> sees own t (upd_elem m i e) m.
Proof. intros O D j Hj. unfold upd_elem. destruct (Nat.eqb_spec j i) as [-> |]; [|reflexivity]. destruct Hj; congruence. Qed.
Lemma sees_emb_other own t u m i b : own i = Some u -> u <> t -> sees own t (upd_emb m i b) m.
Proof. intros O D j Hj. unfold upd_emb. destruct (Nat.eqb_spec j i) as [-> |]; [|reflexivity]. destruct Hj; congruence. Qed.
Lemma sees_refl own t m : sees own t m m.
Proof. intros i _; reflexivity. Qed.
Lemma sees_trans own t a b c : sees own t a b -> sees own t b c -> sees own t a c.
Proof. intros H1 H2 i Hi. now rewrite H1, H2. Qed.

(** A step of a thread that stays: the field is the same, other threads see the
    same memory, and the end of the thread is the same from any memory it cannot
    tell from the real one. *)
Lemma stays_step {A} own t nf m (p : prog A) nf' m' p' :
  stays own t nf p -> step1 nf m p = Some (nf', m', p') ->
  nf' = nf /\ stays own t nf p' /\
  (forall u, u <> t -> sees own u m' m) /\
  (forall ma, sees own t m ma -> exists ma', sees own t m' ma' /\ aexec p' nf ma' = aexec p nf ma).
Proof.
  destruct p; cbn [step1 stays aexec]; intros S E; try discriminate; injection E as <- <- <-.
  - destruct S as [O S]. repeat split; auto using sees_refl.
    intros ma Hs. exists ma. split; [assumption|]. now rewrite (Hs i O).
  - destruct S as [O S]. repeat split; auto.
    + intros u D. apply (sees_elem_other own u t); auto.
    + intros ma Hs. exists (upd_elem ma i e). split; [now apply sees_elem|reflexivity].
  - destruct S as [O S]. repeat split; auto.
    + intros u D. apply (sees_emb_other own u t); auto.
    + intros ma Hs. exists (upd_emb ma i b). split; [now apply sees_emb|reflexivity].
  - repeat split; auto using sees_refl. intros ma Hs. exists ma. auto.
  - destruct S as [O S]. rewrite O. repeat split; auto using sees_refl. intros ma Hs. exists ma. auto.
  - destruct S as [O S]. rewrite O. repeat split; auto using sees_refl. intros ma Hs. exists ma. auto.
Qed.

(** Threads that stay do not disturb each other. *)
Lemma undisturbed_from {A} own (R : nat -> renf * mem * out A) (s s' : state A) : steps s s' ->
  forall nf m ps, s = (nf, m, ps) -> (forall t, stays own t nf (ps t)) ->
  (forall t, exists ma, sees own t m ma /\ aexec (ps t) nf ma = R t) ->
  forall nf' m' ps', s' = (nf', m', ps') ->
  nf' = nf /\ (forall t, exists ma, sees own t m' ma /\ aexec (ps' t) nf ma = R t).
Proof.
  induction 1 as [s | nf0 m0 ps0 t nf1 m1 p1 s E Rs IH]; intros nf m ps Es S HR nf' m' ps' Es'.
  - rewrite Es in Es'. injection Es' as <- <- <-. auto.
  - injection Es as -> -> ->.
    destruct (stays_step own t nf m (ps t) nf1 m1 p1 (S t) E) as (-> & S1 & O1 & K).
    apply (IH nf m1 (fun u => if Nat.eqb u t then p1 else ps u) eq_refl); [| |assumption].
    + intro u. destruct (Nat.eqb_spec u t) as [-> |]; auto.
    + intro u. destruct (HR u) as (ma & Ha & Ea). destruct (Nat.eqb_spec u t) as [-> | D].
      * destruct (K ma Ha) as (mb & Hb & Eb). exists mb. split; [assumption | congruence].
      * exists ma. split; [|assumption]. apply (sees_trans own u m1 m ma); auto.
Qed.
Lemma undisturbed {A} own nf m (ps : pool A) nf' m' ps' :
  (forall t, stays own t nf (ps t)) -> steps (nf, m, ps) (nf', m', ps') ->
  nf' = nf /\ (forall t, exists ma, sees own t m' ma /\ aexec (ps' t) nf ma = aexec (ps t) nf m).
Proof.
  intros S E. apply (undisturbed_from own (fun t => aexec (ps t) nf m) _ _ E nf m ps eq_refl S); [|reflexivity].
  intro t. exists m. split; [apply sees_refl | reflexivity].
Qed.

Lemma stays_bind {A B} own t nf (p : prog A) (f : A -> prog B) :
  stays own t nf p -> (forall a, stays own t nf (f a)) -> stays own t nf (pbind p f).
Proof.
  intros S F. induction p; cbn in *.
  - destruct r; cbn; auto.
  - destruct S as [O S]. split; auto.
  - destruct S as [O S]. split; auto.
  - destruct S as [O S]. split; auto.
  - auto.
  - destruct S as [O S]. split; auto.
  - destruct S as [O S]. split; auto.
Qed.
(** A hidden element is nobody else's. *)
Lemma stays_hide {A} own t nf d (p : prog A) : forall x,
  stays (fun i => if Nat.eqb i d then Some t else own i) t nf p -> stays own t nf (hide d x p).
Proof.
  induction p; intro x; cbn; intro S; auto.
  - destruct S as [O S]. destruct (Nat.eqb_spec i d); [auto|]. cbn. split; auto.
  - destruct S as [O S]. destruct (Nat.eqb_spec i d); [auto|]. cbn. split; auto.
  - destruct S as [O S]. destruct (Nat.eqb_spec i d); [auto|]. cbn. split; auto.
  - destruct S as [O S]. split; auto.
  - destruct S as [O S]. split; auto.
Qed.

Create HintDb conc.

Section Stays.
Variable o : arbops.
Variable n : nfops.
Variable nf : renf.
Hypothesis marked : f_imm nf = 1.

Lemma stays_local {A B} own t (r : out A) (f : A -> prog B) :
  (forall a, stays own t nf (f a)) -> stays own t nf (local r f).
Proof. intro F. unfold local. destruct r; cbn; auto. Qed.

(** Assertions make a refinement of a marked field end the process. *)
Lemma stays_refine own t fuel prec : stays own t nf (p_refine o true fuel prec).
Proof.
  unfold p_refine, p_set_immutable. cbn. rewrite marked. cbn. split; [|exact I].
  unfold with_imm. rewrite <- marked. now destruct nf.
Qed.

Ltac st := repeat (first
  [ progress intros
  | match goal with
    | |- stays _ _ _ (if ?b then _ else _) => destruct b
    | |- stays _ _ _ (match ?b with Some _ => _ | None => _ end) => destruct b
    | |- stays _ _ _ (match ?b with pair _ _ => _ end) => destruct b
    | |- stays _ _ _ (let _ := _ in _) => cbv zeta
    | |- stays _ _ _ (pbind _ _) => apply stays_bind
    | |- stays _ _ _ (local _ _) => apply stays_local
    | |- stays _ _ _ (p_refine _ _ _ _) => apply stays_refine
    | |- stays _ _ _ (done _) => exact I
    | |- stays _ _ _ (Fin_ _) => exact I
    | |- stays _ _ _ (RdF _) => cbn [stays]
    | |- stays _ _ _ (Rd _ _) => cbn [stays]
    | |- stays _ _ _ (WrB _ _ _) => cbn [stays]
    | |- stays _ _ _ (WrE _ _ _) => cbn [stays]
    | |- _ /\ _ => split
    end
  | progress (auto with conc) ]).

Lemma stays_horner own t i p prec : own i = Some t -> stays own t nf (p_horner o i p prec).
Proof. intro M. induction p as [|c q IH]; cbn [p_horner]; st. Qed.
Hint Resolve stays_horner : conc.
Lemma stays_eval own t i prec : own i = Some t -> stays own t nf (p_eval o i prec).
Proof. intro M. unfold p_eval. st. Qed.
Hint Resolve stays_eval : conc.
Lemma stays_cond own t i : own i = Some t \/ own i = None -> stays own t nf (p_cond i).
Proof. intro M. unfold p_cond. st. Qed.
Lemma stays_start own t : stays own t nf p_start.
Proof. exact I. Qed.
Hint Resolve stays_cond stays_start : conc.
Lemma stays_sgn_loop own t i : own i = Some t ->
  forall fuel prec cond, stays own t nf (p_sgn_loop o true fuel i prec cond).
Proof. intro M. induction fuel; intros; cbn [p_sgn_loop]; st. Qed.
Hint Resolve stays_sgn_loop : conc.
Lemma stays_sgn own t i fuel : own i = Some t -> stays own t nf (p_sgn o true fuel i).
Proof. intro M. unfold p_sgn. st. destruct (e_num _) as [|? [|? ?]]; st. Qed.
Hint Resolve stays_sgn : conc.
Lemma stays_sgn_tmp own t fuel x : stays own t nf (p_sgn_tmp o true fuel x).
Proof. apply stays_hide. apply stays_sgn. reflexivity. Qed.
Hint Resolve stays_sgn_tmp : conc.
Lemma stays_cmp own t i j fuel : own i = Some t -> own j = Some t -> stays own t nf (p_cmp o n true fuel i j).
Proof. intros M M'. unfold p_cmp. st. Qed.
Lemma stays_cmp_q own t i qn qd fuel : own i = Some t -> stays own t nf (p_cmp_q o n true fuel i qn qd).
Proof. intro M. unfold p_cmp_q. st. Qed.
Hint Resolve stays_cmp stays_cmp_q : conc.
Lemma stays_finite_loop own t i : own i = Some t ->
  forall fuel prec cond, stays own t nf (p_finite_loop o true fuel i prec cond).
Proof. intro M. induction fuel; intros; cbn [p_finite_loop]; st. Qed.
Lemma stays_finite_loop_p own t i : own i = Some t ->
  forall fuel prec cond, stays own t nf (p_finite_loop_p o true fuel i prec cond).
Proof. intro M. induction fuel; intros; cbn [p_finite_loop_p]; st. Qed.
Lemma stays_nonzero_loop own t i : own i = Some t ->
  forall fuel prec cond, stays own t nf (p_nonzero_loop o true fuel i prec cond).
Proof. intro M. induction fuel; intros; cbn [p_nonzero_loop]; st. Qed.
Lemma stays_round_loop own t rd i : own i = Some t ->
  forall fuel size prec cond, stays own t nf (p_round_loop o true rd fuel i size prec cond).
Proof. intro M. induction fuel; intros; cbn [p_round_loop]; st. Qed.
Hint Resolve stays_finite_loop stays_finite_loop_p stays_nonzero_loop stays_round_loop : conc.
Lemma stays_round own t rd i fuel : own i = Some t -> stays own t nf (p_round o true rd fuel i).
Proof. intro M. unfold p_round. st. Qed.
Lemma stays_quot_loop own t b c : own b = Some t -> own c = Some t ->
  forall fuel q prec bcond ccond, stays own t nf (p_quot_loop o true fuel b c q prec bcond ccond).
Proof. intros M M'. induction fuel; intros; cbn [p_quot_loop]; st. Qed.
Hint Resolve stays_round stays_quot_loop : conc.
Lemma stays_fdiv own t b c fuel : own b = Some t -> own c = Some t -> stays own t nf (p_fdiv o n true fuel b c).
Proof.
  intros M M'. unfold p_fdiv. st.
  - apply stays_hide. apply stays_round. reflexivity.
  - destruct a6 as [mi ra|]; st.
    apply stays_hide. apply stays_cmp; [now rewrite Nat.eqb_refl|].
    destruct (Nat.eqb_spec b (S b)); [lia|assumption].
Qed.
Lemma stays_get_arb_loop own t i : own i = Some t ->
  forall fuel pprec cond prec, stays own t nf (p_get_arb_loop o true fuel i pprec cond prec).
Proof. intro M. induction fuel; intros; cbn [p_get_arb_loop]; st. Qed.
Hint Resolve stays_fdiv stays_get_arb_loop : conc.
Lemma stays_get_arb own t i prec fuel : own i = Some t -> stays own t nf (p_get_arb o true fuel i prec).
Proof. intro M. unfold p_get_arb. st. Qed.
Lemma stays_p0 own t a e b : own a = Some t -> stays own t nf (p0 a e b).
Proof. intro M. unfold p0. st. Qed.
Lemma stays_p1 own t a b fe fb : own a = Some t -> own b = Some t \/ own b = None -> stays own t nf (p1 a b fe fb).
Proof. intros M M'. unfold p1. st. Qed.
Lemma stays_p2 own t a b c fe fb : own a = Some t -> own b = Some t \/ own b = None -> own c = Some t \/ own c = None ->
  stays own t nf (p2 a b c fe fb).
Proof. intros M M' M''. unfold p2. st. Qed.
Hint Resolve stays_get_arb stays_p0 stays_p1 stays_p2 : conc.
Lemma stays_cfrac own t r fuel : own r = Some t -> forall k, stays own t nf (p_cfrac o n true fuel r k).
Proof. intro M. induction k; cbn [p_cfrac]; st. Qed.
Hint Resolve stays_cfrac : conc.

Lemma stays_call own t fuel k :
  (forall i, In i (writes_of k) -> own i = Some t) -> (forall i, In i (reads_of k) -> own i = Some t \/ own i = None) ->
  stays own t nf (p_call o n true fuel k).
Proof.
  intros W R.
  destruct k; cbn [writes_of reads_of] in *; cbn [p_call];
    repeat match goal with
      | H : forall i, In i [?a; ?b] -> _ |- _ =>
          pose proof (H a (or_introl eq_refl)); pose proof (H b (or_intror (or_introl eq_refl))); clear H
      | H : forall i, In i [?a] -> _ |- _ => pose proof (H a (or_introl eq_refl)); clear H
      | H : forall i, In i [] -> _ |- _ => clear H
      end; unfold p_set, p_inv, p_mul_q; st.
Qed.
Lemma stays_calls own t fuel : forall l, divided own t l -> stays own t nf (p_calls o n true fuel l).
Proof.
  induction l as [|k l IH]; intro D; cbn [p_calls]; [exact I|].
  apply stays_bind; [|intro; apply stays_bind; [|intro; exact I]].
  - destruct (D k (or_introl eq_refl)). now apply stays_call.
  - apply IH. intros k' Hk. apply D. now right.
Qed.

(** The result. *)
Lemma threads own fuel m (l : nat -> list call) nf' m' ps' :
  (forall t, divided own t (l t)) ->
  steps (nf, m, fun t => p_calls o n true fuel (l t)) (nf', m', ps') ->
  nf' = nf /\
  forall t r, ps' t = Fin_ r ->
    match r with
    | Val a => exists ma, calls o n true fuel nf m (l t) = Val (nf, ma, a) /\ forall i, own i = Some t -> m' i = ma i
    | Undef => calls o n true fuel nf m (l t) = Undef
    | Abort => calls o n true fuel nf m (l t) = Abort
    | Fuel => calls o n true fuel nf m (l t) = Fuel
    end.
Proof.
  intros D E. destruct (undisturbed own nf m _ nf' m' ps' (fun t => stays_calls own t fuel (l t) (D t)) E) as [-> U].
  split; [reflexivity|]. intros t r Er. destruct (U t) as (ma & Ha & Ea). rewrite Er in Ea. cbn in Ea.
  pose proof (calls_alone o n true fuel (l t) nf m) as C. unfold aval in C. rewrite <- Ea in C.
  destruct r; cbn in C; auto.
  exists ma. split; [now symmetry|]. intros i Hi. apply Ha. now left.
Qed.
End Stays.
