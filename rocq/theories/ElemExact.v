(** The exact parts of elements: what arithmetic stores does not depend on the
    enclosures, so nothing is assumed of balls here. *)
Require Import Reals List ZArith Bool Lia Lra FunctionalExtensionality.
From Verif Require Import PolyR RootSpec Dyadic DyadicProofs ArbModel ArbSpec FieldProofs RefineProofs
  ElemModel ElemSpec ElemProofs ElemHist ElemMore.
Import ListNotations.
Open Scope R_scope.

Section Exact.
Variables (o : arbops) (n : nfops) (debug : bool) (pol : list Z) (x : R).
Hypothesis Hm : minimal pol x.
Hypothesis Hn : nf_ok pol x n.

Let canonm := exact_mem pol.

Lemma put_exact : forall m a e b v, canonm m -> represents pol x e v ->
  canonm (upd_emb (upd_elem m a e) a b) /\ values x (upd_emb (upd_elem m a e) a b) = vset (values x m) a v.
Proof.
  intros m a e b v G [C V]. split.
  - intros i. rewrite elem_upd_emb, elem_upd_elem. destruct (Nat.eqb i a); [exact C|apply G].
  - apply functional_extensionality. intros i. unfold values, vset. rewrite elem_upd_emb, elem_upd_elem.
    destruct (Nat.eqb i a); [exact V|reflexivity].
Qed.

Lemma upd_exact : forall m a y, canonm m -> canon pol (r_elem y) ->
  canonm (upd m a y) /\ values x (upd m a y) = vset (values x m) a (ev x (r_elem y)).
Proof.
  intros m a y G C. split.
  - intros i. unfold upd. destruct (Nat.eqb i a); [exact C|apply G].
  - apply functional_extensionality. intros i. unfold values, vset, upd. destruct (Nat.eqb i a); reflexivity.
Qed.

Lemma put_post : forall m k a e b v, canonm m -> represents pol x e v -> effect x (values x m) k (vset (values x m) a v) ->
  canonm (upd_emb (upd_elem m a e) a b) /\ effect x (values x m) k (values x (upd_emb (upd_elem m a e) a b)).
Proof. intros m k a e b v G R F. destruct (put_exact m a e b v G R) as [A B]. split; [exact A|]. rewrite B. exact F. Qed.

Lemma nz_exact : forall m i, canonm m -> is_zero (r_elem (m i)) = false -> ev x (r_elem (m i)) <> 0.
Proof. intros m i G Z W. apply (is_zero_spec pol x Hm _ (G i)) in W. congruence. Qed.

Lemma inv_exact : forall p m a b m', canonm m -> do_inv o n p m a b = Val m' ->
  canonm m' /\ values x m' = vset (values x m) a (/ values x m b).
Proof.
  intros p m a b m' G E. unfold do_inv in E. destruct (is_zero (r_elem (m b))) eqn:Z; [discriminate|]. cbv zeta in E.
  injection E as <-. apply put_exact; [exact G|]. apply (nk_inv _ _ _ Hn); [apply G|]. apply nz_exact; assumption.
Qed.

Lemma arith_exact : forall fuel nf m k nf' m', canonm m -> call_ok pol k -> arith k -> sound_call pol k ->
  run o n debug fuel nf m k = Val (nf', m') -> canonm m' /\ effect x (values x m) k (values x m').
Proof.
  intros fuel nf m k nf' m' G Hk Ha Hs E. destruct k; cbn [run call_ok arith reads sound_call] in *; try tauto; cbv zeta in E.
  all: try (injection E as <- <-).
  - apply (put_post m (KZero a) a _ _ 0); [exact G| |constructor]. split; [apply (canon_zero pol x Hm)|]. unfold ev. cbn [e_num e_den]. rewrite zeval_nil. field.
  - apply (put_post m (KOne a) a _ _ 1); [exact G| |constructor]. split; [apply (canon_const pol x Hm); reflexivity|].
    unfold ev. cbn [e_num e_den]. rewrite zeval_cons, zeval_nil. field.
  - apply (put_post m (KSetZ a z) a _ _ (IZR z)); [exact G| |constructor]. destruct (nk_set_q _ _ _ Hn z 1 ltac:(lia)) as [C V]. split; [exact C|]. rewrite V. field.
  - apply (put_post m (KSetQ a qn qd) a _ _ (IZR qn / IZR qd)); [exact G|apply (nk_set_q _ _ _ Hn); exact Hk|constructor].
  - apply (put_post m (KSetPoly a p d) a _ _ (zeval p x / IZR d)); [exact G|apply (nk_set_poly _ _ _ Hn); exact Hk|constructor].
  - apply (put_post m (KSet a b) a _ _ (values x m b)); [exact G|split; [apply G|reflexivity]|constructor].
  - rewrite elem_upd_elem, Nat.eqb_refl in E. destruct (set_evaluation o nf e prec) as [b| | |]; try discriminate. cbn [bind] in E. injection E as <- <-.
    apply (put_post m (KSetNf a e prec) a _ _ (ev x e)); [exact G|split; [exact Hk|reflexivity]|constructor].
  - destruct (upd_exact m a (m b) G (G b)) as [A V]. destruct (upd_exact (upd m a (m b)) b (m a) A (G a)) as [A' V'].
    split; [exact A'|]. rewrite V', V. constructor.
  - apply (put_post m (KAdd a b c) a _ _ (values x m b + values x m c)); [exact G|apply (nk_add _ _ _ Hn); apply G|constructor].
  - apply (put_post m (KSub a b c) a _ _ (values x m b - values x m c)); [exact G|apply (nk_sub _ _ _ Hn); apply G|constructor].
  - apply (put_post m (KMul a b c) a _ _ (values x m b * values x m c)); [exact G|apply (nk_mul _ _ _ Hn); apply G|constructor].
  - destruct (is_zero (r_elem (m c))) eqn:Z; [discriminate|]. injection E as <- <-.
    apply (put_post m (KDiv a b c) a _ _ (values x m b / values x m c)); [exact G|apply (nk_div _ _ _ Hn); [apply G|apply G|apply nz_exact; assumption]|constructor].
  - apply (put_post m (KAddZ a b z) a _ _ (values x m b + IZR z)); [exact G| |constructor].
    destruct (nk_add_q _ _ _ Hn (r_elem (m b)) z 1 (G b) ltac:(lia)) as [C V]. split; [exact C|]. rewrite V. unfold values. field.
  - apply (put_post m (KSubZ a b z) a _ _ (values x m b - IZR z)); [exact G| |constructor].
    destruct (nk_sub_q _ _ _ Hn (r_elem (m b)) z 1 (G b) ltac:(lia)) as [C V]. split; [exact C|]. rewrite V. unfold values. field.
  - apply (put_post m (KMulZ a b z) a _ _ (values x m b * IZR z)); [exact G| |constructor].
    destruct (nk_mul_q _ _ _ Hn (r_elem (m b)) z 1 (G b) ltac:(lia)) as [C V]. split; [exact C|]. rewrite V. unfold values. field.
  - destruct (Z.eqb_spec z 0) as [|Nz]; [discriminate|]. injection E as <- <-.
    apply (put_post m (KDivZ a b z) a _ _ (values x m b / IZR z)); [exact G| |constructor].
    destruct (nk_div_q _ _ _ Hn (r_elem (m b)) z 1 (G b) Nz ltac:(lia)) as [C V]. split; [exact C|]. rewrite V. unfold values.
    field. apply not_0_IZR. exact Nz.
  - apply (put_post m (KAddQ a b qn qd) a _ _ (values x m b + IZR qn / IZR qd)); [exact G|apply (nk_add_q _ _ _ Hn); [apply G|exact Hk]|constructor].
  - apply (put_post m (KSubQ a b qn qd) a _ _ (values x m b - IZR qn / IZR qd)); [exact G|apply (nk_sub_q _ _ _ Hn); [apply G|exact Hk]|constructor].
  - apply (put_post m (KQSub a qn qd b) a _ _ (IZR qn / IZR qd - values x m b)); [exact G|apply (nk_q_sub _ _ _ Hn); [apply G|exact Hk]|constructor].
  - apply (put_post m (KMulQ a b qn qd) a _ _ (values x m b * (IZR qn / IZR qd))); [exact G|apply (nk_mul_q _ _ _ Hn); [apply G|exact Hk]|constructor].
  - destruct (Z.eqb_spec qn 0) as [|Nz]; [discriminate|]. injection E as <- <-.
    apply (put_post m (KDivQ a b qn qd) a _ _ (values x m b / (IZR qn / IZR qd))); [exact G|apply (nk_div_q _ _ _ Hn); [apply G|exact Nz|exact Hk]|constructor].
  - subst c. destruct (do_inv o n (f_prec nf) (do_set m a a) a a) as [m1| | |] eqn:Ei; try discriminate. cbn [bind] in E. injection E as <- <-.
    destruct (put_exact m a (r_elem (m a)) (r_emb (upd_elem m a (r_elem (m a)) a)) (values x m a) G) as [A1 V1]; [split; [apply G|reflexivity]|].
    assert (A1' : canonm (do_set m a a)) by exact A1. assert (V1' : values x (do_set m a a) = vset (values x m) a (values x m a)) by exact V1.
    destruct (inv_exact _ _ a a m1 A1' Ei) as (A2 & V2).
    destruct (put_post m1 (KMulQ a a qn qd) a (n_mul_q n (r_elem (m1 a)) qn qd)
      (o_mul o (r_emb (upd_elem m1 a (n_mul_q n (r_elem (m1 a)) qn qd) a)) (o_set_q o qn qd (f_prec nf)) (f_prec nf))
      (values x m1 a * (IZR qn / IZR qd)) A2) as [A3 V3];
      [apply (nk_mul_q _ _ _ Hn); [apply A2|exact Hk]|constructor|].
    split; [exact A3|]. 
    destruct (put_exact m1 a (n_mul_q n (r_elem (m1 a)) qn qd)
      (o_mul o (r_emb (upd_elem m1 a (n_mul_q n (r_elem (m1 a)) qn qd) a)) (o_set_q o qn qd (f_prec nf)) (f_prec nf))
      (values x m1 a * (IZR qn / IZR qd)) A2) as [_ V4]; [apply (nk_mul_q _ _ _ Hn); [apply A2|exact Hk]|].
    change (effect x (values x m) (KQDiv a qn qd a) (values x (upd_emb (upd_elem m1 a (n_mul_q n (r_elem (m1 a)) qn qd)) a
      (o_mul o (r_emb (upd_elem m1 a (n_mul_q n (r_elem (m1 a)) qn qd) a)) (o_set_q o qn qd (f_prec nf)) (f_prec nf))))).
    rewrite V4, V2, V1', !vset_get, !vset_same.
    replace (/ values x m a * (IZR qn / IZR qd)) with (IZR qn / IZR qd / values x m a) by (unfold Rdiv; ring). constructor.
  - apply (put_post m (KNeg a b) a _ _ (- values x m b)); [exact G|apply (nk_neg _ _ _ Hn); apply G|constructor].
  - destruct (do_inv o n (f_prec nf) m a b) as [m1| | |] eqn:Ei; try discriminate. cbn [bind] in E. injection E as <- <-.
    destruct (inv_exact _ _ a b m1 G Ei) as (A & V). split; [exact A|]. rewrite V. constructor.
  - apply (put_post m (KPow a b e) a _ _ (values x m b ^ Z.to_nat e)); [exact G|apply (nk_pow _ _ _ Hn); [apply G|exact Hk]|constructor].
Qed.

(** In degree at least two the generator is exact too. *)
Lemma gen_exact : forall nf, f_pol nf = pol -> (3 <= length pol)%nat ->
  exists y, gen o n nf = Val y /\ canon pol (r_elem y) /\ ev x (r_elem y) = x.
Proof.
  clear Hm. intros nf Ep L. unfold gen. rewrite Ep.
  destruct pol as [|c0 [|c1 [|c2 p]]]; cbn [length] in L; try lia. eexists. split; [reflexivity|]. cbn [r_elem].
  destruct (nk_set_poly _ _ _ Hn [0; 1]%Z 1 ltac:(lia)) as [C V]. split; [exact C|]. rewrite V, !zeval_cons, zeval_nil. field.
Qed.
End Exact.
