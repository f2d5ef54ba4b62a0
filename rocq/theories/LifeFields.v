(** The registry of fields with the hash and the equality of the library: the
    contract [registry_ok] of LifeSpec.v holds for fields whose enclosures of
    different roots never overlap. *)
Require Import Reals List ZArith Bool Lia Lra.
From Verif Require Import PolyR RootSpec RootModel ExtraModel Dyadic DyadicProofs ArbModel ArbSpec ArbProofs FieldProofs RefineProofs
  ElemModel ElemSpec ElemProofs ElemHist GetdModel GetdSpec GetdMore LifeModel LifeSpec.
Import ListNotations.
Open Scope R_scope.

(** A [renf_class]: the field, its cached generator, the name of the generator
    (CPP1:68-79).  [q_id] is no part of the object: it tells which of several
    roots is meant. *)
Record fdata (Ix : Type) := { q_id : Ix; q_nf : renf; q_gen : relem; q_name : nat }.
Arguments q_id {Ix}. Arguments q_nf {Ix}. Arguments q_gen {Ix}. Arguments q_name {Ix}.

Section Fields.
Context {Ix : Type}.
Variable o : arbops.
Variable n : Ix -> nfops.
Variable debug : bool.
Variable fuel : nat.
Variable sh : dbl -> Z.                (* std::hash<double> *)

(** fields_hasher, CPP1:39-41: the hash of the cached generator.  Simplification:
    when the conversion to double does not return, whatever the reason, nothing is
    said about the history ([Fuel]). *)
Definition fhash (d : fdata Ix) : out (fdata Ix * Z) :=
  match hash_key o (n (q_id d)) debug fuel (q_nf d) (q_gen d) with
  | Val (nf, y, k) => Val ({| q_id := q_id d; q_nf := nf; q_gen := y; q_name := q_name d |}, sh k)
  | _ => Fuel
  end.

(** fields_equality, CPP1:47-51: renf_equal and the names. *)
Definition feq (d e : fdata Ix) : bool := renf_equal (q_nf d) (q_nf e) && Nat.eqb (q_name d) (q_name e).
End Fields.

(** ** The denominator of the polynomial never changes *)
Section Den.
Variable o : arbops.
Variable n : nfops.
Variable debug : bool.

Lemma refine_loop_den : forall fuel nf prec cp nf', refine_loop o fuel nf prec cp = Val nf' -> f_den nf' = f_den nf.
Proof.
  induction fuel as [|fuel IH]; intros nf prec cp nf' E; [discriminate|]. cbn [refine_loop] in E.
  destruct (_ <? prec)%Z; [|injection E as <-; reflexivity].
  destruct (newton_step _ _ _ _ _) as [[b t]| | |]; cbn [bind] in E; try discriminate E.
  assert (Nx : forall t, bind (comp_prec (with_emb nf t) 32) (fun cp' => refine_loop o fuel (with_emb nf t) prec cp') = Val nf' -> f_den nf' = f_den nf).
  { intros u Q. destruct (comp_prec _ _) as [cp'| | |]; cbn [bind] in Q; try discriminate Q. apply IH in Q. exact Q. }
  assert (Bs : forall t : option ball, bind (bisection_step o (f_pol nf) (f_emb nf) cp) (fun bs =>
      match bs with
      | (true, Some t) => bind (comp_prec (with_emb nf t) 32) (fun cp' => refine_loop o fuel (with_emb nf t) prec cp')
      | _ => refine_loop o fuel nf prec (2 * cp) end) = Val nf' -> f_den nf' = f_den nf).
  { intros _ Q. destruct (bisection_step _ _ _ _) as [[c u]| | |]; cbn [bind] in Q; try discriminate Q.
    destruct c; [destruct u as [u|]; [exact (Nx _ Q)|]|]; apply IH in Q; exact Q. }
  destruct b; [destruct t as [t|]; [exact (Nx _ E)|]|]; exact (Bs None E).
Qed.

Lemma refine_den : forall fuel nf prec nf', refine o debug fuel nf prec = Val nf' -> f_den nf' = f_den nf.
Proof.
  intros fuel nf prec nf' E. unfold refine in E. destruct debug.
  - cbn [set_immutable] in E. destruct (f_imm nf =? 0)%Z; [|discriminate E].
    destruct (comp_prec _ _) as [cp| | |]; cbn [bind] in E; try discriminate E.
    destruct (refine_loop o fuel (with_imm nf 1) prec cp) as [nf2| | |] eqn:El; cbn [bind] in E; try discriminate E.
    destruct (f_imm nf2 =? 0)%Z; [discriminate E|]. injection E as <-. apply refine_loop_den in El. exact El.
  - destruct (comp_prec _ _) as [cp| | |]; cbn [bind] in E; try discriminate E. apply refine_loop_den in E. exact E.
Qed.

Lemma sgn_den : forall fuel nf y nf' b s, sgn o debug fuel nf y = Val (nf', b, s) -> f_den nf' = f_den nf.
Proof.
  assert (L : forall fuel nf a b prec cond nf' b' s, sgn_loop o debug fuel nf a b prec cond = Val (nf', b', s) -> f_den nf' = f_den nf).
  { induction fuel as [|fuel IH]; intros nf a b prec cond nf' b' s E; [discriminate|]. cbn [sgn_loop] in E.
    destruct (negb _); [injection E as <- _ _; reflexivity|].
    destruct (refine _ _ _ _ _) as [nf1| | |] eqn:E1; cbn [bind] in E; try discriminate E.
    destruct (set_evaluation _ _ _ _) as [b1| | |]; cbn [bind] in E; try discriminate E.
    apply IH in E. apply refine_den in E1. congruence. }
  intros fuel nf y nf' b s E. unfold sgn in E. destruct (e_num (r_elem y)) as [|c [|c' l]].
  1,2: injection E as <- _ _; reflexivity.
  destruct (negb _); [injection E as <- _ _; reflexivity|].
  destruct (set_evaluation _ _ _ _) as [b1| | |]; cbn [bind] in E; try discriminate E. apply L in E. exact E.
Qed.

Lemma cmp_q_den : forall fuel nf y p q nf' b s, cmp_q o n debug fuel nf y p q = Val (nf', b, s) -> f_den nf' = f_den nf.
Proof.
  intros fuel nf y p q nf' b s E. unfold cmp_q in E. destruct (p =? 0)%Z; [exact (sgn_den _ _ _ _ _ _ E)|].
  destruct (is_zero _); [injection E as <- _ _; reflexivity|]. destruct (is_rational _); [injection E as <- _ _; reflexivity|].
  destruct (negb _); [injection E as <- _ _; reflexivity|]. destruct (debug && _); [discriminate E|].
  destruct (set_evaluation _ _ _ _) as [b1| | |]; cbn [bind] in E; try discriminate E.
  destruct (negb _); [injection E as <- _ _; reflexivity|].
  destruct (sgn _ _ _ _ _) as [[[nf1 b2] s2]| | |] eqn:E1; cbn [bind] in E; try discriminate E.
  injection E as <- _ _. exact (sgn_den _ _ _ _ _ _ E1).
Qed.

Lemma overflows_den : forall depth fuel nf y nf' y' v, overflows o n debug depth fuel nf y = Val (nf', y', v) -> f_den nf' = f_den nf.
Proof.
  induction depth as [|k IH]; intros fuel nf y nf' y' v E; [discriminate|]. cbn [overflows] in E.
  destruct (sgn _ _ _ _ _) as [[[nf1 b1] s1]| | |] eqn:E1; cbn [bind] in E; try discriminate E. apply sgn_den in E1.
  destruct (0 <=? s1)%Z.
  - destruct (cmp_q _ _ _ _ _ _ UINT_MAX 1) as [[[nf2 b2] s2]| | |] eqn:E2; cbn [bind] in E; try discriminate E. apply cmp_q_den in E2.
    destruct (s2 <=? 0)%Z; [injection E as <- _ _; congruence|].
    destruct (cmp_q _ _ _ _ _ _ dbl_max_z 1) as [[[nf3 b3] s3]| | |] eqn:E3; cbn [bind] in E; try discriminate E. apply cmp_q_den in E3.
    injection E as <- _ _. congruence.
  - destruct (overflows _ _ _ k _ _ _) as [[[nf2 y2] v2]| | |] eqn:E2; cbn [bind] in E; try discriminate E. apply IH in E2.
    injection E as <- _ _. congruence.
Qed.

Lemma reduce_den : forall fuel nf y md nf' y' m, reduce_rnd o debug fuel nf y md = Val (nf', y', m) -> f_den nf' = f_den nf.
Proof.
  intros fuel nf y md nf' y' m E. unfold reduce_rnd in E. destruct md.
  all: try (injection E as <- _ _; reflexivity).
  all: destruct (sgn _ _ _ _ _) as [[[nf1 b1] s1]| | |] eqn:E1; cbn [bind] in E; try discriminate E; apply sgn_den in E1; injection E as <- _ _; exact E1.
Qed.

Lemma accuracy_den : forall fuel nf a b prec nf' b', accuracy_loop o debug fuel nf a b prec = Val (nf', b') -> f_den nf' = f_den nf.
Proof.
  induction fuel as [|fuel IH]; intros nf a b prec nf' b' E; [discriminate|]. cbn [accuracy_loop] in E.
  destruct (_ <? 55)%Z; [|injection E as <- _; reflexivity].
  destruct (refine _ _ _ _ _) as [nf1| | |] eqn:E1; cbn [bind] in E; try discriminate E.
  destruct (set_evaluation _ _ _ _) as [b1| | |]; cbn [bind] in E; try discriminate E.
  apply IH in E. apply refine_den in E1. congruence.
Qed.

Lemma double_den : forall md fuel nf a b prec nf' b' d, double_loop o debug md fuel nf a b prec = Val (nf', b', d) -> f_den nf' = f_den nf.
Proof.
  intros md. induction fuel as [|fuel IH]; intros nf a b prec nf' b' d E; [discriminate|]. cbn [double_loop] in E.
  assert (Ag : bind (refine o debug fuel nf (2 * prec)) (fun nf' => bind (set_evaluation o nf' a (2 * prec)) (fun b' =>
      double_loop o debug md fuel nf' a b' (2 * prec))) = Val (nf', b', d) -> f_den nf' = f_den nf).
  { intros Q. destruct (refine _ _ _ _ _) as [nf1| | |] eqn:E1; cbn [bind] in Q; try discriminate Q.
    destruct (set_evaluation _ _ _ _) as [b1| | |]; cbn [bind] in Q; try discriminate Q.
    apply IH in Q. apply refine_den in E1. congruence. }
  destruct (interval b prec) as [[l u]|]; [|exact (Ag E)].
  destruct (dbl_eqb _ _); [injection E as <- _ _; reflexivity|exact (Ag E)].
Qed.

Lemma get_d_den : forall fuel nf y md nf' y' d, get_d o n debug fuel nf y md = Val (nf', y', d) -> f_den nf' = f_den nf.
Proof.
  intros fuel nf y md nf' y' d E. unfold get_d in E. destruct (is_zero _); [injection E as <- _ _; reflexivity|].
  destruct (is_rational _); [injection E as <- _ _; reflexivity|].
  destruct (reduce_rnd _ _ _ _ _ _) as [[[nf1 y1] m1]| | |] eqn:E1; cbn [bind] in E; try discriminate E. apply reduce_den in E1.
  destruct (overflows _ _ _ _ _ _ _) as [[[nf2 y2] v]| | |] eqn:E2; cbn [bind] in E; try discriminate E. apply overflows_den in E2.
  destruct (v =? 1)%Z; [injection E as <- _ _; congruence|]. destruct (v =? -1)%Z; [injection E as <- _ _; congruence|].
  assert (A : forall nf3 b3, (if (rel_accuracy (r_emb y2) <? 55)%Z
     then bind (if (2 * mid_bits (r_emb y2) <? f_prec nf)%Z then set_evaluation o nf2 (r_elem y2) (f_prec nf) else Val (r_emb y2))
            (fun b => accuracy_loop o debug fuel nf2 (r_elem y2) b (f_prec nf))
     else Val (nf2, r_emb y2)) = Val (nf3, b3) -> f_den nf3 = f_den nf2).
  { intros nf3 b3 Q. destruct (_ <? 55)%Z; [|injection Q as <- _; reflexivity].
    match type of Q with bind ?e _ = _ => destruct e as [b| | |]; cbn [bind] in Q; try discriminate Q end.
    exact (accuracy_den _ _ _ _ _ _ _ Q). }
  match type of E with bind ?e _ = _ => destruct e as [[nf3 b3]| | |] eqn:E3; cbn [bind] in E; try discriminate E end. specialize (A nf3 b3 eq_refl).
  destruct (double_loop _ _ _ _ _ _ _ _) as [[[nf4 b4] d4]| | |] eqn:E4; cbn [bind] in E; try discriminate E. apply double_den in E4.
  injection E as <- _ _. congruence.
Qed.
End Den.

(** ** The contract *)
Section Contract.
Context {Ix : Type}.
Variable o : arbops.
Variable n : Ix -> nfops.
Variable debug : bool.
Variable fuel : nat.
Variable sh : dbl -> Z.
Variable pol : Ix -> list Z.
Variable den : Ix -> Z.
Variable x : Ix -> R.
Variable N : Ix -> ball -> Prop.

(** A field of the root [x i] at any moment of its life, with its generator. *)
Definition is_gen (i : Ix) (e : elem) : Prop :=
  exists nf y, f_pol nf = pol i /\ gen o (n i) nf = Val y /\ r_elem y = e.
Definition good_data (d : fdata Ix) : Prop :=
  let i := q_id d in
  field_ok (pol i) (x i) (N i) (q_nf d) /\ f_den (q_nf d) = den i /\ elem_ok (pol i) (x i) (q_gen d) /\ is_gen i (r_elem (q_gen d)).
Definition data_class (d : fdata Ix) : Ix * nat := (q_id d, q_name d).
Definition hash_of (k : Ix * nat) (h : Z) : Prop :=
  exists d e, good_data d /\ data_class d = k /\ fhash o n debug fuel sh d = Val (e, h).

(** Enclosures of different roots of a polynomial do not overlap. *)
Definition separated : Prop := forall i j b c, pol i = pol j -> den i = den j ->
  inb (x i) b -> N i b -> inb (x j) c -> N j c -> boverlaps b c = true -> i = j.

Hypothesis Hset : forall i, setting o (n i) (pol i) (x i) (N i).
Hypothesis Hsh : forall a b, dbl_eq a b -> sh a = sh b.
Hypothesis Hsep : separated.

Lemma gen_same : forall i e e', is_gen i e -> is_gen i e' -> e = e'.
Proof.
  intros i e e' (nf & y & P & G & <-) (nf' & y' & P' & G' & <-). unfold gen in G, G'. rewrite P in G. rewrite P' in G'.
  destruct (pol i) as [|c0 [|c1 [|c2 l]]]; try (injection G as <-; injection G' as <-; reflexivity).
  destruct (canonicalise _ _) as [[a b]| | |]; cbn [bind] in G, G'; try discriminate G.
  injection G as <-. injection G' as <-. reflexivity.
Qed.

Lemma fields_ok : registry_ok good_data data_class hash_of (fhash o n debug fuel sh) Z.eqb feq.
Proof.
  constructor.
  - intros d G. destruct (fhash o n debug fuel sh d) as [[e h]| | |] eqn:E; try exact Logic.I;
      [|unfold fhash in E; destruct (hash_key _ _ _ _ _ _) as [[[? ?] ?]| | |]; discriminate E
       |unfold fhash in E; destruct (hash_key _ _ _ _ _ _) as [[[? ?] ?]| | |]; discriminate E].
    assert (G' : good_data e /\ data_class e = data_class d).
    { destruct G as (F & Dn & Y & Gn). unfold fhash in E.
      destruct (hash_key _ _ _ _ _ _) as [[[nf y] k]| | |] eqn:Ek; try discriminate E. injection E as <- <-. unfold hash_key in Ek.
      destruct (get_d_right _ _ debug _ _ _ (Hset (q_id d)) _ _ _ _ _ _ _ F Y Ek) as (F' & Y' & Q & _). split; [|reflexivity].
      split; [exact F'|]. split; [|split; [exact Y'|]]; cbn [q_id q_nf q_gen].
      + rewrite (get_d_den _ _ _ _ _ _ _ _ _ _ Ek). exact Dn.
      + rewrite Q. exact Gn. }
    split; [apply G'|]. split; [apply G'|]. exists d, e. repeat split; try apply G; try exact E.
  - intros k h h' (d & e & G & C & E) (d' & e' & G' & C' & E'). apply Z.eqb_eq. unfold fhash in E, E'.
    destruct (hash_key _ _ _ _ (q_nf d) _) as [[[nf y] a]| | |] eqn:Ek; try discriminate E. injection E as _ <-.
    destruct (hash_key _ _ _ _ (q_nf d') _) as [[[nf' y'] a']| | |] eqn:Ek'; try discriminate E'. injection E' as _ <-.
    assert (I : q_id d = q_id d') by (unfold data_class in *; congruence). apply Hsh.
    destruct G as (F & _ & Y & Gn), G' as (F' & _ & Y' & Gn'). rewrite <- I in F', Y', Gn', Ek'.
    refine (hash_same _ _ _ _ _ _ _ _ _ _ (Hset (q_id d)) (Hset (q_id d)) _ _ _ _ _ _ _ _ _ _ _ _ _ _ F F' Y Y' _ Ek Ek').
    f_equal. exact (gen_same _ _ _ Gn Gn').
  - intros d d' (F & Dn & _) (F' & Dn' & _). destruct F as (P & X & M & _), F' as (P' & X' & M' & _). unfold feq, data_class. split.
    + intros E. apply andb_true_iff in E. destruct E as [E Nm]. apply Nat.eqb_eq in Nm. unfold renf_equal in E.
      apply andb_true_iff in E. destruct E as [E Ov]. apply andb_true_iff in E. destruct E as [Ep Ed]. apply zlist_eqb_spec in Ep. apply Z.eqb_eq in Ed.
      rewrite Nm. f_equal. apply (Hsep (q_id d) (q_id d') (f_emb (q_nf d)) (f_emb (q_nf d'))); congruence.
    + intros E. injection E as I Nm. rewrite Nm, Nat.eqb_refl, andb_true_r. rewrite <- I in *.
      apply (renf_equal_same _ _ (x (q_id d))); congruence.
Qed.
End Contract.
