(** Calls on elements return, with the right answers. *)
Require Import Reals List ZArith Bool Lia Lra.
From Verif Require Import RootSpec ExtraModel Dyadic DyadicProofs ArbModel ArbSpec RefineProofs ElemModel ElemSpec ElemProofs ElemMore
  GetdModel GetdSpec GetdMore RateSpec EndsSpec EndsProofs EndsGetd RefineEnds EndsMain DefSpec DefProofs.
Import ListNotations.
Open Scope R_scope.

Lemma answers_intro : forall A (F : nat -> out A) (Q : A -> Prop) (S : Prop), ends F -> (forall f, defined S (F f)) ->
  (forall f v, F f = Val v -> Q v) -> answers F Q S.
Proof.
  intros A F Q S (f0 & r & Nf & E) Hd Hq. exists f0, r. split; [exact E|]. specialize (E f0 (Nat.le_refl _)).
  specialize (Hd f0). specialize (Hq f0). rewrite E in Hd, Hq. destruct r; cbn in *; try assumption; [apply Hq; reflexivity|contradiction].
Qed.

(** The enclosures met from a given one on. *)
Lemma met_safe : forall o pol x N a0, safe_balls o pol x N -> safe_balls o pol x (fun a => N a /\ sharpened o pol a0 a).
Proof.
  intros o pol x N a0 [H1 H2 H3 H4]. constructor.
  - intros a y [Ha _]. apply H1. exact Ha.
  - intros a p t [Ha Hs] Hx Hp Ht E It. split; [apply (H2 a p); assumption|]. apply (sharp_newton _ _ _ a p); assumption.
  - intros a p t [Ha Hs] Hx Hp Ht En E It. split; [apply (H3 a p); assumption|]. apply (sharp_bisect _ _ _ a p); assumption.
  - intros a p l r [Ha _]. apply H4. exact Ha.
Qed.

Section Total.
Variables (o : arbops) (n : nfops) (pol : list Z) (x r0 : R) (debug : bool) (nf : renf).
Hypothesis L : library o n pol x.
Hypothesis Hsafe : safe_balls o pol x (fun a => rad_le a r0).
Hypothesis Hends : refines_end o debug pol x (fun a => rad_le a r0).
Hypothesis Hdef : forall fuel nf prec, f_pol nf = pol -> inb x (f_emb nf) -> rad_le (f_emb nf) r0 -> f_imm nf = 0%Z ->
  refine o debug fuel nf prec <> Abort /\ (refine o debug fuel nf prec = Undef -> word_overflow o pol (f_emb nf)).
Hypothesis Hready : ready pol x r0 nf.

Definition met (a : ball) : Prop := rad_le a r0 /\ sharpened o pol (f_emb nf) a.
Notation S := (word_overflow o pol (f_emb nf)).

Lemma Hs' : safe_balls o pol x met.
Proof. apply met_safe. exact Hsafe. Qed.
Lemma set' : setting o n pol x met.
Proof. constructor; [apply L|apply L|apply L|exact Hs']. Qed.
Lemma He' : refines_end o debug pol x met.
Proof. intros nf1 p (G1 & G2 & (G3 & _) & G4). apply Hends. repeat split; assumption. Qed.
Lemma Hd' : forall fuel nf1 p, field_ok pol x met nf1 -> f_imm nf1 = 0%Z -> defined S (refine o debug fuel nf1 p).
Proof.
  intros fuel nf1 p (G1 & G2 & (G3 & G3') & G4) Hi. destruct (Hdef fuel nf1 p G1 G2 G3 Hi) as [A B].
  destruct (refine o debug fuel nf1 p) as [v| | |]; cbn; try exact I; [|contradiction].
  apply (overflow_from o pol _ (f_emb nf1)); [exact G3'|]. apply B. reflexivity.
Qed.
Lemma ok' : ok pol x met (f_prec nf) nf.
Proof.
  destruct Hready as ((G1 & G2 & G3 & G4) & Hi & _). split; [|split; [exact Hi|reflexivity]].
  split; [exact G1|]. split; [exact G2|]. split; [split; [exact G3|constructor]|exact G4].
Qed.
Lemma fo' : field_ok pol x met nf. Proof. apply ok'. Qed.
Lemma back : forall nf', field_ok pol x met nf' -> field_ok pol x (fun a => rad_le a r0) nf'.
Proof. intros nf' (G1 & G2 & (G3 & _) & G4). repeat split; assumption. Qed.

Ltac args := first [exact (lb_ok _ _ _ _ L)|exact (lb_conv _ _ _ _ L)|exact (lb_min _ _ _ _ L)|exact (lb_nf _ _ _ _ L)|exact Hs'|exact He'|
  exact (proj2 (proj2 Hready))|exact Hd'|exact ok'|exact fo'|exact (lb_deg _ _ _ _ L)|assumption].

Lemma sgn_total : forall y, elem_ok pol x y ->
  answers (fun fuel => sgn o debug fuel nf y) (fun '(nf', b, s) => s = Rsgn (ev x (r_elem y))) S.
Proof.
  intros y Hy. apply answers_intro.
  - apply (sgn_ends o debug pol x met); args.
  - intros f. apply (sgn_def o debug pol x met (f_prec nf)); args.
  - intros f [[nf' b] s] E. apply (sgn_right o n debug pol x met set' _ _ _ _ _ _ fo' Hy E).
Qed.
Lemma cmp_total : forall y z, elem_ok pol x y -> elem_ok pol x z ->
  answers (fun fuel => cmp o n debug fuel nf y z) (fun '(nf', b, c, s) => s = Rsgn (ev x (r_elem y) - ev x (r_elem z))) S.
Proof.
  intros y z Hy Hz. apply answers_intro.
  - apply (cmp_ends o n debug pol x met); args.
  - intros f. apply (cmp_def o n debug pol x met (f_prec nf)); args.
  - intros f [[[nf' b] c] s] E. apply (cmp_right o n debug pol x met set' _ _ _ _ _ _ _ _ fo' Hy Hz E).
Qed.
Lemma cmp_q_total : forall y p q, elem_ok pol x y -> (0 < q)%Z ->
  answers (fun fuel => cmp_q o n debug fuel nf y p q) (fun '(nf', b, s) => s = Rsgn (ev x (r_elem y) - IZR p / IZR q)) S.
Proof.
  intros y p q Hy Hq. apply answers_intro.
  - apply (cmp_q_ends o n debug pol x met); args.
  - intros f. apply (cmp_q_def o n debug pol x met (f_prec nf)); args.
  - intros f [[nf' b] s] E. apply (cmp_q_right o n debug pol x met set' _ _ _ _ _ _ _ _ fo' Hy Hq E).
Qed.
Lemma floor_total : forall y, elem_ok pol x y -> ev x (r_elem y) <> 0 \/ (length pol <= 3)%nat ->
  answers (fun fuel => floor o debug fuel nf y) (fun '(nf', b, z) => is_floor (ev x (r_elem y)) z) S /\
  answers (fun fuel => ceil o debug fuel nf y) (fun '(nf', b, z) => is_ceil (ev x (r_elem y)) z) S.
Proof.
  intros y Hy H0. split; apply answers_intro.
  - apply (floor_ends o debug pol x met); args.
  - intros f. apply (round_int_def o debug pol x met (f_prec nf)); args.
  - intros f [[nf' b] z] E. apply (floor_right o n debug pol x met set' _ _ _ _ _ _ fo' Hy E).
  - apply (ceil_ends o debug pol x met); args.
  - intros f. apply (round_int_def o debug pol x met (f_prec nf)); args.
  - intros f [[nf' b] z] E. apply (ceil_right o n debug pol x met set' _ _ _ _ _ _ fo' Hy E).
Qed.
Lemma fdiv_total : forall same y z, elem_ok pol x y -> elem_ok pol x z -> (same = true -> r_elem y = r_elem z) -> ev x (r_elem z) <> 0 ->
  ev x (r_elem y) <> 0 \/ (length pol <= 3)%nat ->
  answers (fun fuel => fdiv o n debug same fuel nf y z) (fun '(nf', b, c, q) => is_floor (ev x (r_elem y) / ev x (r_elem z)) q) S.
Proof.
  intros same y z Hy Hz Hsame Hnz H0. apply answers_intro.
  - apply (fdiv_ends o n debug pol x met); args.
  - intros f. apply (fdiv_def o n debug pol x met (f_prec nf)); args.
  - intros f [[[nf' b] c] q] E. apply (fdiv_right o n debug pol x met set' _ _ _ _ _ _ _ _ _ fo' Hy Hz Hsame E).
Qed.
Lemma get_arb_total : round_sharp o -> forall y prec, elem_ok pol x y -> (0 <= prec)%Z -> (prec + 2 < WORD_MAX)%Z ->
  answers (fun fuel => get_arb o debug fuel nf y prec)
    (fun '(nf', b, r) => inb (ev x (r_elem y)) r /\ exists m s, r = Fin m s /\ dyv s * pw2 prec <= Rabs (dyv m)) S.
Proof.
  intros Hrs y prec Hy Hp Hw. apply answers_intro.
  - apply (get_arb_ends o debug pol x met); args.
  - intros f. apply (get_arb_def o debug pol x met (f_prec nf)); args.
  - intros f [[nf' b] r] E. apply (get_arb_accurate o n debug pol x met set' Hrs f nf y prec nf' b r fo' Hy); [lia|exact E].
Qed.
Lemma cfrac_total : forall y k, elem_ok pol x y ->
  answers (fun fuel => cfrac o n debug fuel nf y k)
    (fun '(nf', cs, w) => cf (ev x (r_elem y)) cs (ev x (r_elem w)) /\ (length cs = k \/ (length cs < k)%nat /\ ev x (r_elem w) = 0)) S.
Proof.
  intros y k Hy. apply answers_intro.
  - apply (cfrac_ends o n debug pol x met); args.
  - intros f. apply (cfrac_def o n debug pol x met (f_prec nf)); args.
  - intros f [[nf' cs] w] E. destruct (cfrac_right o n debug pol x met set' _ _ _ _ _ _ _ fo' Hy E) as (A & _ & B). split; assumption.
Qed.
Lemma get_d_total : forall y md, elem_ok pol x y ->
  answers (fun fuel => get_d o n debug fuel nf y md)
    (fun '(nf', y', d) => (in_range md (ev x (r_elem y)) -> is_round md (ev x (r_elem y)) d) /\
       (~ fraction (ev x (r_elem y)) -> MAX < ev x (r_elem y) -> d = DInf false) /\
       (~ fraction (ev x (r_elem y)) -> ev x (r_elem y) < - MAX -> d = DInf true)) S.
Proof.
  intros y md Hy. apply answers_intro.
  - apply (get_d_ends o n debug pol x met); args.
  - intros f. apply (get_d_def o n debug pol x met (f_prec nf)); args.
  - intros f [[nf' y'] d] E. destruct (get_d_right o n debug pol x met set' _ _ _ _ _ _ _ fo' Hy E) as (_ & _ & _ & A). exact A.
Qed.
Lemma history_total : forall m l, mem_ok pol x m -> Forall (call_ok pol) l -> Forall (sound_call pol) l -> Forall modest l -> legal pol x (values x m) l ->
  answers (fun fuel => runs o n debug fuel nf m l)
    (fun '(nf', m') => ready pol x r0 nf' /\ mem_ok pol x m' /\ effects x (values x m) l (values x m')) S.
Proof.
  intros m l Hm Hl Hsl Hml Hleg.
  assert (D : forall f, match runs o n debug f nf m l with
    | Val (nf', m') => ok pol x met (f_prec nf) nf' /\ mem_ok pol x m' /\ effects x (values x m) l (values x m')
    | Undef => S | Abort => False | Fuel => True end).
  { intros f. apply (runs_def o n debug pol x met (f_prec nf)); args. }
  apply answers_intro.
  - apply (runs_end o n debug pol x met); args.
  - intros f. specialize (D f). destruct (runs o n debug f nf m l) as [[nf' m']| | |]; cbn; try exact I; try exact D; contradiction.
  - intros f [nf' m'] E. specialize (D f). rewrite E in D. destruct D as ((G & Hi & Hp) & B & C). split; [|split; assumption].
    split; [apply back; exact G|]. split; [exact Hi|]. rewrite Hp. apply Hready.
Qed.
End Total.

(** The radius depends on the field only. *)
Lemma small_radius : forall o n pol x, library o n pol x -> exists r0, 0 < r0 /\ safe_balls o pol x (fun a => rad_le a r0) /\
  forall debug, refines_end o debug pol x (fun a => rad_le a r0) /\
  forall fuel nf prec, f_pol nf = pol -> inb x (f_emb nf) -> rad_le (f_emb nf) r0 -> f_imm nf = 0%Z ->
  refine o debug fuel nf prec <> Abort /\ (refine o debug fuel nf prec = Undef -> word_overflow o pol (f_emb nf)).
Proof. intros o n pol x [A B C D E F]. exact (small_balls o pol x A C D E). Qed.

(** The statements of PropertiesDef.v. *)
Ltac total t := intros o n pol x L; destruct (small_radius o n pol x L) as (r0 & R0 & Hs & H); exists r0; split; [exact R0|];
  intros debug nf Hr; destruct (H debug) as [He Hd]; intros; apply (t o n pol x r0 debug nf); assumption.

Lemma sgn_answers : forall o n pol x, library o n pol x -> exists r0, 0 < r0 /\ forall debug nf, ready pol x r0 nf ->
  forall y, elem_ok pol x y -> answers (fun fuel => sgn o debug fuel nf y) (fun '(nf', b, s) => s = Rsgn (ev x (r_elem y))) (word_overflow o pol (f_emb nf)).
Proof. total sgn_total. Qed.
Lemma cmp_answers : forall o n pol x, library o n pol x -> exists r0, 0 < r0 /\ forall debug nf, ready pol x r0 nf ->
  forall y z, elem_ok pol x y -> elem_ok pol x z ->
  answers (fun fuel => cmp o n debug fuel nf y z) (fun '(nf', b, c, s) => s = Rsgn (ev x (r_elem y) - ev x (r_elem z))) (word_overflow o pol (f_emb nf)).
Proof. total cmp_total. Qed.
Lemma cmp_q_answers : forall o n pol x, library o n pol x -> exists r0, 0 < r0 /\ forall debug nf, ready pol x r0 nf ->
  forall y p q, elem_ok pol x y -> (0 < q)%Z ->
  answers (fun fuel => cmp_q o n debug fuel nf y p q) (fun '(nf', b, s) => s = Rsgn (ev x (r_elem y) - IZR p / IZR q)) (word_overflow o pol (f_emb nf)).
Proof. total cmp_q_total. Qed.
Lemma floor_answers : forall o n pol x, library o n pol x -> exists r0, 0 < r0 /\ forall debug nf, ready pol x r0 nf ->
  forall y, elem_ok pol x y -> ev x (r_elem y) <> 0 \/ (length pol <= 3)%nat ->
  answers (fun fuel => floor o debug fuel nf y) (fun '(nf', b, z) => is_floor (ev x (r_elem y)) z) (word_overflow o pol (f_emb nf)) /\
  answers (fun fuel => ceil o debug fuel nf y) (fun '(nf', b, z) => is_ceil (ev x (r_elem y)) z) (word_overflow o pol (f_emb nf)).
Proof. total floor_total. Qed.
Lemma fdiv_answers : forall o n pol x, library o n pol x -> exists r0, 0 < r0 /\ forall debug nf, ready pol x r0 nf ->
  forall same y z, elem_ok pol x y -> elem_ok pol x z -> (same = true -> r_elem y = r_elem z) -> ev x (r_elem z) <> 0 ->
  ev x (r_elem y) <> 0 \/ (length pol <= 3)%nat ->
  answers (fun fuel => fdiv o n debug same fuel nf y z) (fun '(nf', b, c, q) => is_floor (ev x (r_elem y) / ev x (r_elem z)) q) (word_overflow o pol (f_emb nf)).
Proof. total fdiv_total. Qed.
Lemma cfrac_answers : forall o n pol x, library o n pol x -> exists r0, 0 < r0 /\ forall debug nf, ready pol x r0 nf ->
  forall y k, elem_ok pol x y -> answers (fun fuel => cfrac o n debug fuel nf y k)
    (fun '(nf', cs, w) => cf (ev x (r_elem y)) cs (ev x (r_elem w)) /\ (length cs = k \/ (length cs < k)%nat /\ ev x (r_elem w) = 0)) (word_overflow o pol (f_emb nf)).
Proof. total cfrac_total. Qed.
Lemma get_arb_answers : forall o n pol x, library o n pol x -> round_sharp o -> exists r0, 0 < r0 /\ forall debug nf, ready pol x r0 nf ->
  forall y prec, elem_ok pol x y -> (0 <= prec)%Z -> (prec + 2 < WORD_MAX)%Z -> answers (fun fuel => get_arb o debug fuel nf y prec)
    (fun '(nf', b, r) => inb (ev x (r_elem y)) r /\ exists m s, r = Fin m s /\ dyv s * pw2 prec <= Rabs (dyv m)) (word_overflow o pol (f_emb nf)).
Proof.
  intros o n pol x L Hrs; destruct (small_radius o n pol x L) as (r0 & R0 & Hs & H); exists r0; split; [exact R0|].
  intros debug nf Hr; destruct (H debug) as [He Hd]; intros. apply (get_arb_total o n pol x r0 debug nf); assumption.
Qed.
Lemma get_d_answers : forall o n pol x, library o n pol x -> exists r0, 0 < r0 /\ forall debug nf, ready pol x r0 nf ->
  forall y md, elem_ok pol x y -> answers (fun fuel => get_d o n debug fuel nf y md)
    (fun '(nf', y', d) => (in_range md (ev x (r_elem y)) -> is_round md (ev x (r_elem y)) d) /\
       (~ fraction (ev x (r_elem y)) -> MAX < ev x (r_elem y) -> d = DInf false) /\
       (~ fraction (ev x (r_elem y)) -> ev x (r_elem y) < - MAX -> d = DInf true)) (word_overflow o pol (f_emb nf)).
Proof. total get_d_total. Qed.
Lemma program_answers : forall o n pol x, library o n pol x -> exists r0, 0 < r0 /\ forall debug nf, ready pol x r0 nf ->
  forall m l, mem_ok pol x m -> Forall (call_ok pol) l -> Forall (sound_call pol) l -> Forall modest l -> legal pol x (values x m) l ->
  answers (fun fuel => runs o n debug fuel nf m l)
    (fun '(nf', m') => ready pol x r0 nf' /\ mem_ok pol x m' /\ effects x (values x m) l (values x m')) (word_overflow o pol (f_emb nf)).
Proof. total history_total. Qed.
