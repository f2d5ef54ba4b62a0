(** Proofs about PrecWModel.v. *)
Require Import List ZArith Bool Lia.
From Verif Require Import RootModel ExtraModel Dyadic ArbModel ElemModel ArrModel IdxModel PrecWModel.
Import ListNotations.
Open Scope Z_scope.

Definition room (fuel : nat) (prec cond : Z) : Prop := 0 <= prec /\ prec * 2 ^ Z.of_nat fuel <= 2 ^ 62 /\ Z.abs cond <= 2 ^ 61.

Lemma slong_in : forall z, Z.abs z <= 2 ^ 63 - 1 -> slong z = Val z.
Proof.
  intros z H. unfold slong, word_min, word_max. replace (- 2 ^ 63 <=? z) with true by (symmetry; apply Z.leb_le; lia).
  replace (z <=? 2 ^ 63 - 1) with true by (symmetry; apply Z.leb_le; lia). reflexivity.
Qed.

Lemma room_now : forall fuel prec cond, room fuel prec cond -> prec <= 2 ^ 62.
Proof. intros fuel prec cond (P & Q & _). pose proof (Z.pow_pos_nonneg 2 (Z.of_nat fuel) ltac:(lia) ltac:(lia)). nia. Qed.

Lemma room_next : forall f prec cond, room (S f) prec cond -> room f (2 * prec) cond.
Proof.
  intros f prec cond (P & Q & R). split; [lia|]. split; [|exact R]. rewrite Nat2Z.inj_succ, Z.pow_succ_r in Q by lia. nia.
Qed.

Section Prec.
Variable o : arbops.
Variable n : nfops.
Variable debug : bool.

Lemma eval_same : forall fuel nf a prec cond, room fuel prec cond -> eval_w o nf a prec cond = set_evaluation o nf a (prec + cond).
Proof. intros fuel nf a prec cond R. pose proof (room_now _ _ _ R). destruct R as (P & _ & C). unfold eval_w. rewrite slong_in by lia. reflexivity. Qed.

Lemma twice_same : forall f g nf prec cond, room (S g) prec cond ->
  twice_w o debug f nf prec = bind (refine o debug f nf (2 * prec)) (fun nf => Val (nf, 2 * prec)).
Proof.
  intros f g nf prec cond R. pose proof (room_now _ _ _ (room_next _ _ _ R)). destruct R as (P & _). unfold twice_w.
  rewrite (Z.mul_comm prec 2), slong_in by lia. reflexivity.
Qed.

Ltac go R := rewrite (twice_same _ _ _ _ _ R); match goal with |- bind (bind ?v _) _ = _ => destruct v end; try reflexivity; cbn [bind].

Lemma sgn_loop_same : forall fuel nf a b prec cond, room fuel prec cond -> sgn_loop_w o debug fuel nf a b prec cond = sgn_loop o debug fuel nf a b prec cond.
Proof.
  induction fuel as [|f IH]; intros nf a b prec cond R; [reflexivity|]. cbn [sgn_loop_w sgn_loop]. destruct (negb (contains_zero b)); [reflexivity|].
  go R. rewrite (eval_same f) by (apply room_next; exact R). match goal with |- bind ?v _ = _ => destruct v end; try reflexivity.
  cbn [bind]. apply IH, room_next, R.
Qed.

Lemma finite_loop_same : forall fuel nf a b prec cond, room fuel prec cond -> finite_loop_w o debug fuel nf a b prec cond = finite_loop o debug fuel nf a b prec cond.
Proof.
  induction fuel as [|f IH]; intros nf a b prec cond R; [reflexivity|]. cbn [finite_loop_w finite_loop]. destruct (is_finite b); [reflexivity|].
  go R. rewrite (eval_same f) by (apply room_next; exact R). match goal with |- bind ?v _ = _ => destruct v end; try reflexivity.
  cbn [bind]. apply IH, room_next, R.
Qed.

Lemma round_loop_same : forall rd fuel nf a size prec cond, room fuel prec cond ->
  round_loop_w o debug rd fuel nf a size prec cond = round_loop o debug rd fuel nf a size prec cond.
Proof.
  induction fuel as [|f IH]; intros nf a size prec cond R; [reflexivity|]. cbn [round_loop_w round_loop].
  rewrite (eval_same _ _ _ _ _ R). destruct (set_evaluation o nf a (prec + cond)) as [b| | |]; try reflexivity. cbn [bind]. cbv zeta.
  assert (A : bind (twice_w o debug f nf prec) (fun '(nf, prec) => round_loop_w o debug rd f nf a size prec cond) =
              bind (refine o debug f nf (2 * prec)) (fun nf' => round_loop o debug rd f nf' a size (2 * prec) cond)).
  { go R. apply IH, room_next, R. }
  destruct (unique_int rd b (Z.max size prec)) as [[l r]|]; [destruct (l =? r); [reflexivity|exact A]|exact A].
Qed.

Lemma sgn_same : forall fuel nf x, room fuel (start_prec nf) (elem_cond nf (r_elem x)) -> sgn_w o debug fuel nf x = sgn o debug fuel nf x.
Proof.
  intros fuel nf x R. unfold sgn_w, sgn. destruct (e_num (r_elem x)) as [|c [|d l]]; try reflexivity. destruct (negb _); [reflexivity|].
  rewrite (eval_same _ _ _ _ _ R). destruct (set_evaluation _ _ _ _); try reflexivity. cbn [bind]. apply sgn_loop_same, R.
Qed.

Lemma cmp_same : forall fuel nf x y, room fuel (start_prec nf) (elem_cond nf (r_elem x)) -> room fuel (start_prec nf) (elem_cond nf (r_elem y)) ->
  room fuel (start_prec nf) (elem_cond nf (n_sub n (r_elem x) (r_elem y))) -> cmp_w o n debug fuel nf x y = cmp o n debug fuel nf x y.
Proof.
  intros fuel nf x y R Q D. unfold cmp_w, cmp. rewrite (sgn_same _ _ _ R), (sgn_same _ _ _ Q), (eval_same _ _ _ _ _ R), (eval_same _ _ _ _ _ Q).
  cbv zeta. repeat match goal with |- (if ?b then _ else _) = _ => destruct b; [reflexivity|] end.
  destruct (set_evaluation o nf (r_elem x) _) as [ea| | |]; try reflexivity. cbn [bind].
  destruct (set_evaluation o nf (r_elem y) _) as [eb| | |]; try reflexivity. cbn [bind].
  rewrite (sgn_same fuel nf (relem_sub _ _ _ _ _)) by exact D. reflexivity.
Qed.

Lemma cmp_q_same : forall fuel nf x qn qd, room fuel (start_prec nf) (elem_cond nf (r_elem x)) ->
  room fuel (start_prec nf) (elem_cond nf (n_sub_q n (r_elem x) qn qd)) -> cmp_q_w o n debug fuel nf x qn qd = cmp_q o n debug fuel nf x qn qd.
Proof.
  intros fuel nf x qn qd R D. unfold cmp_q_w, cmp_q. rewrite (sgn_same _ _ _ R), (eval_same _ _ _ _ _ R), (slong_in (- elem_cond nf (r_elem x))) by (destruct R as (_ & _ & C); lia).
  assert (S : forall y, r_elem y = n_sub_q n (r_elem x) qn qd -> sgn_w o debug fuel nf y = sgn o debug fuel nf y) by (intros y E; apply sgn_same; rewrite E; exact D).
  cbv zeta. repeat match goal with |- (if ?b then _ else _) = (if ?b then _ else _) => destruct b; [reflexivity|] end.
  destruct debug; cbn [bind andb]; [destruct (start_prec nf =? - elem_cond nf (r_elem x)); [reflexivity|]; cbn [bind]|];
    (destruct (set_evaluation o nf (r_elem x) _) as [ea| | |]; try reflexivity; cbn [bind];
     match goal with |- (if ?b then _ else _) = _ => destruct b; [reflexivity|] end;
     rewrite S by reflexivity; reflexivity).
Qed.

Definition few_bits (z : Z) : Prop := Z.abs (zbits z) <= 2 ^ 62.
Lemma size_same : forall z, few_bits z -> size_w z = Val (zbits z + 1).
Proof. intros z H. unfold few_bits in H. unfold size_w. rewrite slong_in by lia. apply slong_in. lia. Qed.

Lemma round_same : forall rd fuel nf x, is_finite (r_emb x) = true -> room fuel (start_prec nf) (elem_cond nf (r_elem x)) ->
  (forall l r, unique_int rd (r_emb x) (f_prec nf) = Some (l, r) -> few_bits l /\ few_bits r) ->
  round_int_w o debug rd fuel nf x = round_int o debug rd fuel nf x.
Proof.
  intros rd fuel nf x F R S. unfold round_int_w, round_int. destruct (is_rational (r_elem x)); [reflexivity|]. rewrite F. cbn [bind]. cbv zeta.
  destruct (unique_int rd (r_emb x) (f_prec nf)) as [[l r]|]; [|reflexivity]. destruct (S l r eq_refl) as [A B].
  destruct (l =? r); [reflexivity|]. rewrite (size_same l A), (size_same r B). cbn [bind]. apply round_loop_same, R.
Qed.

(** The field after an infinite ball was made finite. *)
Lemma round_infinite : forall rd fuel nf x, is_finite (r_emb x) = false -> room fuel (start_prec nf) (elem_cond nf (r_elem x)) ->
  (forall nf' b, bind (set_evaluation o nf (r_elem x) (start_prec nf + elem_cond nf (r_elem x))) (fun b =>
     finite_loop o debug fuel nf (r_elem x) b (start_prec nf) (elem_cond nf (r_elem x))) = Val (nf', b) ->
     room fuel (start_prec nf') (elem_cond nf (r_elem x)) /\
     forall l r, unique_int rd b (f_prec nf') = Some (l, r) -> few_bits l /\ few_bits r) ->
  round_int_w o debug rd fuel nf x = round_int o debug rd fuel nf x.
Proof.
  intros rd fuel nf x F R S. unfold round_int_w, round_int. destruct (is_rational (r_elem x)); [reflexivity|]. rewrite F. cbv zeta.
  rewrite (eval_same _ _ _ _ _ R). destruct (set_evaluation o nf (r_elem x) _) as [b| | |]; try reflexivity. cbn [bind] in *.
  rewrite (finite_loop_same _ _ _ _ _ _ R). destruct (finite_loop o debug fuel nf (r_elem x) b _ _) as [[nf' b']| | |]; try reflexivity. cbn [bind].
  destruct (S nf' b' eq_refl) as [R' S']. destruct (unique_int rd b' (f_prec nf')) as [[l r]|]; [|reflexivity]. destruct (S' l r eq_refl) as [A B].
  destruct (l =? r); [reflexivity|]. rewrite (size_same l A), (size_same r B). cbn [bind]. apply round_loop_same, R'.
Qed.

Lemma get_arb_loop_same : forall fuel nf a pprec cond prec, room fuel pprec cond -> - word_max <= prec <= word_max - 2 ->
  get_arb_loop_w o debug fuel nf a pprec cond prec = get_arb_loop o debug fuel nf a pprec cond prec.
Proof.
  induction fuel as [|f IH]; intros nf a pprec cond prec R H; [reflexivity|]. cbn [get_arb_loop_w get_arb_loop].
  rewrite (eval_same _ _ _ _ _ R). destruct (set_evaluation o nf a (pprec + cond)) as [b| | |]; try reflexivity. cbn [bind].
  rewrite (slong_in (- prec)) by (unfold word_max in H; lia). cbn [bind]. rewrite (slong_in (- prec - 2)) by (unfold word_max in H; lia). cbn [bind].
  destruct (rel_error b <? - prec - 2); [rewrite slong_in by (unfold word_max in H; lia); reflexivity|]. go R. apply IH; [apply room_next, R|exact H].
Qed.

Lemma get_arb_same : forall fuel nf x prec, room fuel (start_prec nf) (elem_cond nf (r_elem x)) -> - word_max <= prec <= word_max - 2 ->
  get_arb_w o debug fuel nf x prec = get_arb o debug fuel nf x prec.
Proof.
  intros fuel nf x prec R H. unfold get_arb_w, get_arb. destruct (is_zero _); [reflexivity|].
  rewrite (slong_in (- prec)) by (unfold word_max in H; lia). cbn [bind]. rewrite (slong_in (- prec - 2)) by (unfold word_max in H; lia). cbn [bind].
  destruct (rel_error _ <? _); [rewrite slong_in by (unfold word_max in H; lia); reflexivity|]. apply get_arb_loop_same; assumption.
Qed.

Lemma get_arb_large : forall fuel nf x, is_zero (r_elem x) = false -> get_arb_w o debug fuel nf x word_max = Undef.
Proof. intros fuel nf x H. unfold get_arb_w. rewrite H. reflexivity. Qed.
Lemma get_arb_least : forall fuel nf x, is_zero (r_elem x) = false -> get_arb_w o debug fuel nf x word_min = Undef.
Proof. intros fuel nf x H. unfold get_arb_w. rewrite H. reflexivity. Qed.

(** Without conditions: the same, or an overflow, or the abort for ends that are too long. *)
Definition unless {A : Type} (u v : out A) : Prop := u = Undef \/ u = Abort \/ u = v.
Definition or_undef {A : Type} (u v : out A) : Prop := u = Undef \/ u = v.

Lemma or_bind : forall A B (u v : out A) (f g : A -> out B), or_undef u v -> (forall x, or_undef (f x) (g x)) -> or_undef (bind u f) (bind v g).
Proof. intros A B u v f g [->| ->] H; [left; reflexivity|]. destruct v; cbn; try (right; reflexivity). apply H. Qed.
Lemma or_refl : forall A (u : out A), or_undef u u.
Proof. right. reflexivity. Qed.
Lemma slong_or : forall z, or_undef (slong z) (Val z).
Proof. intros z. unfold slong. destruct (_ && _); [right|left]; reflexivity. Qed.

Lemma eval_or : forall nf a prec cond, or_undef (eval_w o nf a prec cond) (set_evaluation o nf a (prec + cond)).
Proof. intros nf a prec cond. exact (or_bind _ _ _ _ _ _ (slong_or (prec + cond)) (fun z => or_refl _ _)). Qed.

Lemma twice_or : forall B f nf prec (g : renf * Z -> out B) (h : renf -> out B), (forall nf, or_undef (g (nf, 2 * prec)) (h nf)) ->
  or_undef (bind (twice_w o debug f nf prec) g) (bind (refine o debug f nf (2 * prec)) h).
Proof.
  intros B f nf prec g h H. unfold twice_w. rewrite (Z.mul_comm prec 2). destruct (slong_or (2 * prec)) as [E|E]; rewrite E; [left; reflexivity|].
  cbn [bind]. destruct (refine o debug f nf (2 * prec)); cbn; try (right; reflexivity). apply H.
Qed.

Lemma sgn_loop_or : forall fuel nf a b prec cond, or_undef (sgn_loop_w o debug fuel nf a b prec cond) (sgn_loop o debug fuel nf a b prec cond).
Proof.
  induction fuel as [|f IH]; intros; [apply or_refl|]. cbn [sgn_loop_w sgn_loop]. destruct (negb _); [apply or_refl|].
  apply twice_or. intros nf'. apply or_bind; [apply eval_or|]. intros b'. apply IH.
Qed.
Lemma finite_loop_or : forall fuel nf a b prec cond, or_undef (finite_loop_w o debug fuel nf a b prec cond) (finite_loop o debug fuel nf a b prec cond).
Proof.
  induction fuel as [|f IH]; intros; [apply or_refl|]. cbn [finite_loop_w finite_loop]. destruct (is_finite _); [apply or_refl|].
  apply twice_or. intros nf'. apply or_bind; [apply eval_or|]. intros b'. apply IH.
Qed.
Lemma nonzero_loop_or : forall fuel nf a b prec cond, or_undef (nonzero_loop_w o debug fuel nf a b prec cond) (nonzero_loop o debug fuel nf a b prec cond).
Proof.
  induction fuel as [|f IH]; intros; [apply or_refl|]. cbn [nonzero_loop_w nonzero_loop]. destruct (negb _); [apply or_refl|].
  apply twice_or. intros nf'. apply or_bind; [apply eval_or|]. intros b'. apply IH.
Qed.
Lemma finite_loop_p_or : forall fuel nf a b prec cond, or_undef (finite_loop_p_w o debug fuel nf a b prec cond) (finite_loop_p o debug fuel nf a b prec cond).
Proof.
  induction fuel as [|f IH]; intros; [apply or_refl|]. cbn [finite_loop_p_w finite_loop_p]. destruct (is_finite _); [apply or_refl|].
  apply twice_or. intros nf'. apply or_bind; [apply eval_or|]. intros b'. apply IH.
Qed.
Lemma quot_loop_or : forall fuel nf b c eb ec q prec bcond ccond,
  or_undef (quot_loop_w o debug fuel nf b c eb ec q prec bcond ccond) (quot_loop o debug fuel nf b c eb ec q prec bcond ccond).
Proof.
  induction fuel as [|f IH]; intros; [apply or_refl|]. cbn [quot_loop_w quot_loop]. destruct (rad_ge_half _); [|apply or_refl].
  apply twice_or. intros nf'. apply or_bind; [apply eval_or|]. intros eb'. apply or_bind; [apply eval_or|]. intros ec'. apply IH.
Qed.
Lemma round_loop_or : forall rd fuel nf a size prec cond,
  or_undef (round_loop_w o debug rd fuel nf a size prec cond) (round_loop o debug rd fuel nf a size prec cond).
Proof.
  induction fuel as [|f IH]; intros; [apply or_refl|]. cbn [round_loop_w round_loop]. apply or_bind; [apply eval_or|]. intros b. cbv zeta.
  assert (A : or_undef (bind (twice_w o debug f nf prec) (fun '(nf, prec) => round_loop_w o debug rd f nf a size prec cond))
    (bind (refine o debug f nf (2 * prec)) (fun nf' => round_loop o debug rd f nf' a size (2 * prec) cond))) by (apply twice_or; intros nf'; apply IH).
  destruct (unique_int rd b (Z.max size prec)) as [[l r]|]; [destruct (l =? r); [apply or_refl|exact A]|exact A].
Qed.

Lemma sgn_or : forall fuel nf x, or_undef (sgn_w o debug fuel nf x) (sgn o debug fuel nf x).
Proof.
  intros fuel nf x. unfold sgn_w, sgn. destruct (e_num (r_elem x)) as [|c [|d l]]; try apply or_refl. destruct (negb _); [apply or_refl|].
  apply or_bind; [apply eval_or|]. intros b. apply sgn_loop_or.
Qed.

Lemma cmp_or : forall fuel nf x y, or_undef (cmp_w o n debug fuel nf x y) (cmp o n debug fuel nf x y).
Proof.
  intros fuel nf x y. unfold cmp_w, cmp. cbv zeta. destruct (elem_eqb _ _); [apply or_refl|]. destruct (blt _ _); [apply or_refl|].
  destruct (blt _ _); [apply or_refl|]. destruct (is_rational _ && _).
  - destruct (is_zero _); [apply or_bind; [apply sgn_or|intros; apply or_refl]|]. destruct (is_zero _); [apply or_bind; [apply sgn_or|intros; apply or_refl]|apply or_refl].
  - apply or_bind; [apply eval_or|]. intros ea. apply or_bind; [apply eval_or|]. intros eb. destruct (blt _ _); [apply or_refl|]. destruct (blt _ _); [apply or_refl|].
    apply or_bind; [apply sgn_or|intros; apply or_refl].
Qed.

Lemma cmp_q_or : forall fuel nf x qn qd, or_undef (cmp_q_w o n debug fuel nf x qn qd) (cmp_q o n debug fuel nf x qn qd).
Proof.
  intros fuel nf x qn qd. unfold cmp_q_w, cmp_q. cbv zeta. destruct (qn =? 0); [apply sgn_or|]. destruct (is_zero _); [apply or_refl|].
  destruct (is_rational _); [apply or_refl|]. destruct (negb _); [apply or_refl|].
  assert (T : forall B (u v : out B), or_undef u v ->
    or_undef (bind (if debug then bind (slong (- elem_cond nf (r_elem x))) (fun m => if start_prec nf =? m then Abort else Val tt) else Val tt) (fun _ => u))
      (if debug && (start_prec nf =? - elem_cond nf (r_elem x)) then Abort else v)).
  { intros B u v H. destruct debug; [|exact H]. cbn [andb]. destruct (slong_or (- elem_cond nf (r_elem x))) as [E|E]; rewrite E; [left; reflexivity|].
    cbn [bind]. destruct (_ =? _); [right; reflexivity|exact H]. }
  apply T. apply or_bind; [apply eval_or|]. intros ea. destruct (negb _); [apply or_refl|]. apply or_bind; [apply sgn_or|intros; apply or_refl].
Qed.

Lemma get_arb_or : forall fuel nf x prec, or_undef (get_arb_w o debug fuel nf x prec) (get_arb o debug fuel nf x prec).
Proof.
  intros fuel nf x prec. unfold get_arb_w, get_arb. destruct (is_zero _); [apply or_refl|].
  assert (U : forall B (f : Z -> out B) v, or_undef (f (- prec - 2)) v -> or_undef (bind (slong (- prec)) (fun u => bind (slong (u - 2)) f)) v).
  { intros B f v H. destruct (slong_or (- prec)) as [E|E]; rewrite E; [left; reflexivity|]. cbn [bind].
    destruct (slong_or (- prec - 2)) as [E'|E']; rewrite E'; [left; reflexivity|]. exact H. }
  assert (W : forall B (f : Z -> out B), or_undef (bind (slong (prec + 2)) f) (f (prec + 2))).
  { intros B f. destruct (slong_or (prec + 2)) as [E|E]; rewrite E; [left; reflexivity|]. apply or_refl. }
  apply U. destruct (rel_error _ <? _); [apply W|]. generalize (start_prec nf) (elem_cond nf (r_elem x)). intros pprec cond. revert nf pprec.
  induction fuel as [|f IH]; intros nf pprec; [apply or_refl|]. cbn [get_arb_loop_w get_arb_loop]. apply or_bind; [apply eval_or|]. intros b.
  apply U. destruct (rel_error b <? _); [apply W|]. apply twice_or. intros nf'. apply IH.
Qed.

Lemma or_unless : forall A (u v : out A), or_undef u v -> unless u v.
Proof. intros A u v [H|H]; [left|right; right]; exact H. Qed.
Lemma unless_bind : forall A B (u v : out A) (f g : A -> out B), unless u v -> (forall x, unless (f x) (g x)) -> unless (bind u f) (bind v g).
Proof.
  intros A B u v f g [->|[->| ->]] H; [left; reflexivity|right; left; reflexivity|]. destruct v; cbn; try (right; right; reflexivity). apply H.
Qed.

Lemma size_cases : forall z, size_w z = Undef \/ size_w z = Abort \/ size_w z = Val (zbits z + 1).
Proof.
  intros z. unfold size_w. destruct (slong_or (zbits z)) as [E|E]; rewrite E; [right; left; reflexivity|]. destruct (slong_or (zbits z + 1)) as [E'|E']; rewrite E'; tauto.
Qed.

Lemma round_unless : forall rd fuel nf x, unless (round_int_w o debug rd fuel nf x) (round_int o debug rd fuel nf x).
Proof.
  intros rd fuel nf x. unfold round_int_w, round_int. destruct (is_rational (r_elem x)); [right; right; reflexivity|]. cbv zeta.
  assert (T : forall nf b cond d, d = match cond with Some c => c | None => elem_cond nf (r_elem x) end ->
    unless (match unique_int rd b (f_prec nf) with
            | Some (l, r) => if l =? r then Val (nf, b, l) else bind (size_w l) (fun s => bind (size_w r) (fun t =>
                round_loop_w o debug rd fuel nf (r_elem x) (Z.max (Z.max s 1) t) (start_prec nf) match cond with Some c => c | None => elem_cond nf (r_elem x) end))
            | None => Undef end)
           (match unique_int rd b (f_prec nf) with
            | Some (l, r) => if l =? r then Val (nf, b, l) else round_loop o debug rd fuel nf (r_elem x) (rd_size l r) (start_prec nf) d
            | None => Undef end)).
  { intros nf0 b cond d ->. destruct (unique_int rd b (f_prec nf0)) as [[l r]|]; [|left; reflexivity]. destruct (l =? r); [right; right; reflexivity|].
    destruct (size_cases l) as [E|[E|E]]; rewrite E; [left; reflexivity|right; left; reflexivity|]. cbn [bind].
    destruct (size_cases r) as [F|[F|F]]; rewrite F; [left; reflexivity|right; left; reflexivity|]. cbn [bind]. apply or_unless, round_loop_or. }
  destruct (is_finite (r_emb x)).
  - cbn [bind]. apply (T nf (r_emb x) None). reflexivity.
  - destruct (eval_or nf (r_elem x) (start_prec nf) (elem_cond nf (r_elem x))) as [E|E]; rewrite E; [left; reflexivity|].
    destruct (set_evaluation o nf (r_elem x) _) as [b| | |]; try (right; right; reflexivity). cbn [bind].
    destruct (finite_loop_or fuel nf (r_elem x) b (start_prec nf) (elem_cond nf (r_elem x))) as [F|F]; rewrite F; [left; reflexivity|].
    destruct (finite_loop o debug fuel nf (r_elem x) b _ _) as [[nf' b']| | |]; try (right; right; reflexivity). cbn [bind].
    apply (T nf' b' (Some (elem_cond nf (r_elem x)))). reflexivity.
Qed.

Lemma fdiv_unless : forall same fuel nf x y, unless (fdiv_w o n debug same fuel nf x y) (fdiv o n debug same fuel nf x y).
Proof.
  intros same fuel nf x y. unfold fdiv_w, fdiv. cbv zeta. destruct (is_rational _).
  - destruct (is_zero _); [right; right; reflexivity|]. apply unless_bind; [apply round_unless|]. intros [[? ?] ?]. right; right; reflexivity.
  - apply or_unless. apply or_bind; [apply eval_or|]. intros eb. apply or_bind; [apply finite_loop_p_or|]. intros [[nf1 eb1] p1].
    apply or_bind; [apply eval_or|]. intros ec. apply or_bind; [apply nonzero_loop_or|]. intros [[nf2 ec2] p2].
    apply or_bind; [apply quot_loop_or|]. intros [[[nf3 eb3] ec3] q]. destruct q as [m r|]; [|apply or_refl]. destruct (_ <=? _); [|apply or_refl].
    apply or_bind; [apply cmp_or|]. intros [[[nf4 e4] eb4] s]. apply or_bind; [apply sgn_or|]. intros [[nf5 e5] s5]. apply or_refl.
Qed.

(** What is returned is what the functions with unbounded precisions return. *)
Lemma words_right : forall fuel nf,
  (forall x r, sgn_w o debug fuel nf x = Val r -> sgn o debug fuel nf x = Val r) /\
  (forall x y r, cmp_w o n debug fuel nf x y = Val r -> cmp o n debug fuel nf x y = Val r) /\
  (forall x qn qd r, cmp_q_w o n debug fuel nf x qn qd = Val r -> cmp_q o n debug fuel nf x qn qd = Val r) /\
  (forall rd x r, round_int_w o debug rd fuel nf x = Val r -> round_int o debug rd fuel nf x = Val r) /\
  (forall same x y r, fdiv_w o n debug same fuel nf x y = Val r -> fdiv o n debug same fuel nf x y = Val r) /\
  (forall x prec r, get_arb_w o debug fuel nf x prec = Val r -> get_arb o debug fuel nf x prec = Val r).
Proof.
  intros fuel nf. repeat split; intros.
  - destruct (sgn_or fuel nf x) as [E|E]; congruence.
  - destruct (cmp_or fuel nf x y) as [E|E]; congruence.
  - destruct (cmp_q_or fuel nf x qn qd) as [E|E]; congruence.
  - destruct (round_unless rd fuel nf x) as [E|[E|E]]; congruence.
  - destruct (fdiv_unless same fuel nf x y) as [E|[E|E]]; congruence.
  - destruct (get_arb_or fuel nf x prec) as [E|E]; congruence.
Qed.

Lemma words_only : forall fuel nf,
  (forall x, sgn_w o debug fuel nf x = Undef \/ sgn_w o debug fuel nf x = sgn o debug fuel nf x) /\
  (forall x y, cmp_w o n debug fuel nf x y = Undef \/ cmp_w o n debug fuel nf x y = cmp o n debug fuel nf x y) /\
  (forall x qn qd, cmp_q_w o n debug fuel nf x qn qd = Undef \/ cmp_q_w o n debug fuel nf x qn qd = cmp_q o n debug fuel nf x qn qd) /\
  (forall x prec, get_arb_w o debug fuel nf x prec = Undef \/ get_arb_w o debug fuel nf x prec = get_arb o debug fuel nf x prec) /\
  (forall rd x, round_int_w o debug rd fuel nf x = Undef \/ round_int_w o debug rd fuel nf x = Abort \/
     round_int_w o debug rd fuel nf x = round_int o debug rd fuel nf x) /\
  (forall same x y, fdiv_w o n debug same fuel nf x y = Undef \/ fdiv_w o n debug same fuel nf x y = Abort \/
     fdiv_w o n debug same fuel nf x y = fdiv o n debug same fuel nf x y).
Proof.
  intros fuel nf. split; [exact (sgn_or fuel nf)|]. split; [exact (cmp_or fuel nf)|]. split; [exact (cmp_q_or fuel nf)|].
  split; [exact (get_arb_or fuel nf)|]. split; [intros rd; exact (round_unless rd fuel nf)|]. intros same. exact (fdiv_unless same fuel nf).
Qed.
End Prec.
