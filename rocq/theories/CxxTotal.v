(** Programs with the C++ classes return, with the right answers: the main part. *)
Require Import Reals List ZArith Bool Lia Lra Arith.
From Verif Require Import PolyR RootSpec RootModel ExtraModel Dyadic DyadicProofs ArbModel ArbSpec ArbProofs RefineProofs
  ElemModel ElemSpec ElemProofs ElemLoops ElemHist ElemMore ElemExact RateSpec EndsSpec EndsProofs RefineEnds DefSpec DefProofs DefMain
  LinearUse FlSpec FineSpec Margin CxxModel CxxSpec CxxProofs CxxSound CxxMake CxxUseSpec CxxUse.
Import ListNotations.
Open Scope R_scope.

(** Returning, with undefined behaviour under a condition only. *)
Definition sure {A} (S : Prop) (F : nat -> out A) : Prop := ends F /\ forall f, defined S (F f).
Section Sure.
Variable S : Prop.
Lemma sure_val : forall A (v : A), sure S (fun _ => Val v).
Proof. intros A v. split; [apply ends_val; discriminate|intros; exact I]. Qed.
Lemma sure_const : forall A (F : nat -> out A), (forall f, F f = F 0%nat) -> (exists v, F 0%nat = Val v) -> sure S F.
Proof.
  intros A F H (v & E). split; [apply (ends_ext _ (fun _ => Val v)); [intros f; rewrite H, E; reflexivity|apply ends_val; discriminate]|].
  intros f. rewrite H, E. exact I.
Qed.
Lemma sure_bind : forall A B (F : nat -> out A) (G : A -> nat -> out B), sure S F -> (forall f v, F f = Val v -> sure S (G v)) ->
  sure S (fun f => bind (F f) (fun v => G v f)).
Proof.
  intros A B F G [H1 H2] H. split; [apply ends_bind; [exact H1|intros f v E; apply (H f v E)]|].
  intros f. apply (defined_bind S); [apply H2|]. intros v E. apply (H f v E).
Qed.
Lemma sure_map : forall A B (F : nat -> out A) (G : A -> B), sure S F -> sure S (fun f => bind (F f) (fun v => Val (G v))).
Proof. intros A B F G H. apply (sure_bind A B F (fun v _ => Val (G v)) H). intros f v _. apply sure_val. Qed.
Lemma sure_ext : forall A (F G : nat -> out A), (forall f, F f = G f) -> sure S F -> sure S G.
Proof. intros A F G H [H1 H2]. split; [apply (ends_ext _ F _ H H1)|]. intros f. rewrite <- H. apply H2. Qed.
End Sure.

Lemma safe_ext : forall o pol x (N M : ball -> Prop), (forall a, N a <-> M a) -> safe_balls o pol x N -> safe_balls o pol x M.
Proof.
  intros o pol x N M H [H1 H2 H3 H4]. constructor.
  - intros a y Ha. apply H1, H, Ha.
  - intros a p t Ha Hx Hp Ht E It. apply H, (H2 a p); try assumption. apply H, Ha.
  - intros a p t Ha Hx Hp Ht En E It. apply H, (H3 a p); try assumption. apply H, Ha.
  - intros a p l r Ha. apply H4, H, Ha.
Qed.

Section Total.
Variables (o : arbops) (ops : list Z -> nfops) (debug strict : bool) (pol : nat -> list Z) (x r0 : nat -> R) (w0 : world).
Hypothesis Ho : arb_ok o.
Hypothesis Hc : arb_conv o.
Hypothesis Hm : forall f, minimal (pol f) (x f).
Hypothesis Hn : forall f, nf_ok (pol f) (x f) (ops (pol f)).
Hypothesis Hsafe : forall f, (3 <= length (pol f))%nat -> safe_balls o (pol f) (x f) (fun a => rad_le a (r0 f)).
Hypothesis Hends : forall f, (3 <= length (pol f))%nat -> refines_end o debug (pol f) (x f) (fun a => rad_le a (r0 f)).
Hypothesis Hdef : forall f, (3 <= length (pol f))%nat -> forall fuel nf prec, f_pol nf = pol f -> inb (x f) (f_emb nf) -> rad_le (f_emb nf) (r0 f) -> f_imm nf = 0%Z ->
  refine o debug fuel nf prec <> Abort /\ (refine o debug fuel nf prec = Undef -> word_overflow o (pol f) (f_emb nf)).
Hypothesis Hw0 : world_ready pol x r0 w0.

(** The enclosures met. *)
Definition Nx (f : nat) (a : ball) : Prop := (3 <= length (pol f))%nat -> rad_le a (r0 f) /\ sharpened o (pol f) (f_emb (w_fields w0 f)) a.
Definition lost : Prop := exists f, (3 <= length (pol f))%nat /\ word_overflow o (pol f) (f_emb (w_fields w0 f)).
Notation sure := (sure lost).
Notation value := (value x).

Lemma two_or_more : forall f, length (pol f) = 2%nat \/ (3 <= length (pol f))%nat.
Proof. intros f. pose proof (min_len _ _ (Hm f)). lia. Qed.
Lemma Nx_safe : forall f, safe_balls o (pol f) (x f) (Nx f).
Proof.
  intros f. destruct (two_or_more f) as [L|L].
  - apply (safe_ext _ _ _ (fun _ => True)); [|apply (lin_safe o (pol f) (x f) (Hm f) L)]. intros a. unfold Nx. split; [intros _ L3; lia|tauto].
  - apply (safe_ext _ _ _ (fun a => rad_le a (r0 f) /\ sharpened o (pol f) (f_emb (w_fields w0 f)) a)); [|apply met_safe, Hsafe, L].
    intros a. unfold Nx. tauto.
Qed.
Lemma HS : forall f, setting o (ops (pol f)) (pol f) (x f) (Nx f).
Proof. intros f. constructor; [exact Ho|apply Hm|apply Hn|apply Nx_safe]. Qed.
Lemma Nx_ends : forall f, (3 <= length (pol f))%nat -> refines_end o debug (pol f) (x f) (Nx f).
Proof. intros f L nf p (G1 & G2 & G3 & G4). apply (Hends f L nf p). repeat split; try assumption. apply G3, L. Qed.
Lemma Nx_def : forall f, (3 <= length (pol f))%nat -> forall fuel nf p, field_ok (pol f) (x f) (Nx f) nf -> f_imm nf = 0%Z -> defined lost (refine o debug fuel nf p).
Proof.
  intros f L fuel nf p (G1 & G2 & G3 & G4) Hi. destruct (G3 L) as [G5 G6]. destruct (Hdef f L fuel nf p G1 G2 G5 Hi) as [A B].
  destruct (refine o debug fuel nf p) as [v| | |]; cbn; try exact I; [|contradiction].
  exists f. split; [exact L|]. apply (overflow_from o (pol f) _ (f_emb nf)); [exact G6|]. apply B. reflexivity.
Qed.
Lemma Nx_prec : forall f, (3 <= length (pol f))%nat -> pw2 (2 - f_prec (w_fields w0 f)) <= Rabs (x f) ^ (length (pol f) - 2).
Proof. intros f L. apply (wr_more _ _ _ _ Hw0 f L). Qed.

(** The invariant. *)
Notation sound := (sound_world pol x Nx).
Definition steady (w : world) : Prop := sound w /\ wkept w0 w.
Lemma steady_start : steady w0.
Proof.
  split; [|apply wk_refl]. constructor; [|apply (wr_objs _ _ _ _ Hw0)]. intros f. destruct (two_or_more f) as [L|L].
  - destruct (wr_one _ _ _ _ Hw0 f L) as (A & B & C). split; [exact A|]. split; [exact B|]. split; [intros L3; lia|exact C].
  - destruct (wr_more _ _ _ _ Hw0 f L) as ((A & B & C & D) & _). split; [exact A|]. split; [exact B|]. split; [|exact D].
    intros _. split; [exact C|constructor].
Qed.
Lemma steady_ok : forall w f, steady w -> (3 <= length (pol f))%nat -> ok (pol f) (x f) (Nx f) (f_prec (w_fields w0 f)) (w_fields w f).
Proof.
  intros w f [G K] L. destruct (wr_more _ _ _ _ Hw0 f L) as (_ & Hi & _). destruct (K f) as ((_ & _ & K1) & K2).
  split; [apply (sw_fields _ _ _ _ G f)|]. split; congruence.
Qed.
Lemma steady_ready : forall w, steady w -> world_ready pol x r0 w.
Proof.
  intros w [G K]. constructor; [| |apply (sw_objs _ _ _ _ G)].
  - intros f _. destruct (sw_fields _ _ _ _ G f) as (A & B & _ & D). auto.
  - intros f L. destruct (sw_fields _ _ _ _ G f) as (A & B & C & D). destruct (wr_more _ _ _ _ Hw0 f L) as (_ & Hi & Hp). destruct (K f) as ((_ & _ & K1) & K2).
    split; [repeat split; try assumption; apply C, L|]. split; [congruence|]. rewrite K1. exact Hp.
Qed.
Lemma steady_exact : forall w, steady w -> exact_world pol w.
Proof. intros w [G _]. apply (sound_exact pol x Nx w G). Qed.

(** * The functions of the C interface *)
Section Fun.
Variables (w : world) (f : nat).
Hypothesis Hw : steady w.
Let nf : renf := w_fields w f.
Notation goodf := (elem_ok (pol f) (x f)).

Lemma nf_good : field_ok (pol f) (x f) (Nx f) nf. Proof. apply (sw_fields _ _ _ _ (proj1 Hw) f). Qed.
Lemma nf_good1 : field_ok (pol f) (x f) (fun _ => True) nf.
Proof. destruct nf_good as (A & B & _ & D). repeat split; assumption. Qed.

Ltac args := first [exact Ho|exact Hc|exact (Hm f)|exact (Hn f)|exact (Nx_safe f)|apply Nx_ends; assumption|apply Nx_def; assumption|
  apply Nx_prec; assumption|apply steady_ok; assumption|exact nf_good|assumption].

Lemma sgn_sure : forall y, goodf y -> sure (fun fuel => sgn o debug fuel nf y).
Proof.
  intros y Hy. destruct (two_or_more f) as [L|L].
  - apply sure_const; [intros; apply (one_sgn o debug (pol f) L _ _ _ (proj1 Hy))|].
    destruct (lin_sgn o debug (pol f) L 0 nf y (proj1 Hy)) as (s & ->). eexists; reflexivity.
  - split; [apply (sgn_ends o debug (pol f) (x f) (Nx f)); args|]. intros fuel. apply (sgn_def o debug (pol f) (x f) (Nx f) (f_prec (w_fields w0 f))); args.
Qed.
Lemma cmp_sure : forall y z, goodf y -> goodf z -> sure (fun fuel => cmp o (ops (pol f)) debug fuel nf y z).
Proof.
  intros y z Hy Hz. destruct (two_or_more f) as [L|L].
  - apply sure_const; [intros; apply (one_cmp o _ debug (pol f) L _ _ _ _ (proj1 Hy) (proj1 Hz))|].
    apply (lin_cmp o _ debug (pol f) L 0 nf y z (proj1 Hy) (proj1 Hz)).
  - split; [apply (cmp_ends o _ debug (pol f) (x f) (Nx f)); args|]. intros fuel. apply (cmp_def o _ debug (pol f) (x f) (Nx f) (f_prec (w_fields w0 f))); args.
Qed.
Lemma cmp_q_sure : forall y p q, goodf y -> (0 < q)%Z -> sure (fun fuel => cmp_q o (ops (pol f)) debug fuel nf y p q).
Proof.
  intros y p q Hy Hq. destruct (two_or_more f) as [L|L].
  - apply sure_const; [intros; apply (one_cmp_q o _ debug (pol f) L _ _ _ _ _ (proj1 Hy))|].
    apply (lin_cmp_q o _ debug (pol f) L 0 nf y p q (proj1 Hy)).
  - split; [apply (cmp_q_ends o _ debug (pol f) (x f) (Nx f)); args|]. intros fuel. apply (cmp_q_def o _ debug (pol f) (x f) (Nx f) (f_prec (w_fields w0 f))); args.
Qed.
Lemma round_sure : forall rd y, rd_const rd -> goodf y -> ev (x f) (r_elem y) <> 0 \/ (length (pol f) <= 3)%nat -> sure (fun fuel => round_int o debug rd fuel nf y).
Proof.
  intros rd y Hr Hy H0. destruct (two_or_more f) as [L|L].
  - apply sure_const; [intros; apply (one_round o debug (pol f) L _ _ _ _ (proj1 Hy))|].
    destruct (lin_round o (ops (pol f)) debug (pol f) (x f) (Hm f) (Hn f) L rd 0 nf y nf_good1 (proj1 Hy)) as (s & ->). eexists; reflexivity.
  - split; [apply (round_int_ends o debug (pol f) (x f) (Nx f)); args|]. intros fuel. apply (round_int_def o debug (pol f) (x f) (Nx f) (f_prec (w_fields w0 f))); args.
Qed.
Lemma fdiv_sure : forall same y z, goodf y -> goodf z -> (same = true -> r_elem y = r_elem z) -> ev (x f) (r_elem z) <> 0 ->
  ev (x f) (r_elem y) <> 0 \/ (length (pol f) <= 3)%nat -> sure (fun fuel => fdiv o (ops (pol f)) debug same fuel nf y z).
Proof.
  intros same y z Hy Hz Hsame Nz H0. destruct (two_or_more f) as [L|L].
  - apply sure_const; [intros; apply (one_fdiv o _ debug (pol f) (x f) (Hn f) L _ _ _ _ _ (proj1 Hy) (proj1 Hz) Nz)|].
    apply (lin_fdiv o _ debug (pol f) (x f) (Hm f) (Hn f) L same 0 nf y z nf_good1 (proj1 Hy) (proj1 Hz) Nz).
  - split; [apply (fdiv_ends o _ debug (pol f) (x f) (Nx f)); args|]. intros fuel. apply (fdiv_def o _ debug (pol f) (x f) (Nx f) (f_prec (w_fields w0 f))); args.
Qed.
Lemma refine_sure : forall p, (3 <= length (pol f))%nat -> sure (fun fuel => refine o debug fuel nf p).
Proof.
  intros p L. split; [apply (Nx_ends f L nf p nf_good)|]. intros fuel. apply (Nx_def f L); [exact nf_good|apply (steady_ok w f Hw L)].
Qed.
End Fun.

(** * The functions of the C++ interface *)
Notation exact_ := (exact_world pol).
Lemma steady_pol : forall w f, steady w -> f_pol (w_fields w f) = pol f.
Proof. intros w f [G _]. apply (sw_fields _ _ _ _ G f). Qed.
Lemma obj_good : forall w i, steady w -> elem_ok (pol (fld w i)) (x (fld w i)) (val w i).
Proof. intros w i [G _]. apply (sw_objs _ _ _ _ G i). Qed.
Lemma steady_run : forall fuel w c w', steady w -> legal x w c -> xrun o ops debug fuel strict w c = Val (Ret w') -> steady w'.
Proof.
  intros fuel w c w' [G K] L H. split; [apply (xrun_sound o ops debug fuel pol x Nx HS strict w c w' G L H)|].
  apply (wk_trans _ w); [exact K|apply (xrun_wk _ _ _ _ _ _ _ _ H)].
Qed.

Lemma cmp_objs_sure : forall w i j, steady w -> fld w i = fld w j -> sure (fun fuel => cmp_objs o ops debug fuel w i j).
Proof.
  intros w i j G F. unfold cmp_objs. cbv zeta. rewrite (steady_pol _ _ G). apply sure_bind.
  - apply cmp_sure; [exact G|apply obj_good, G|rewrite F; apply obj_good, G].
  - intros f [[[nf' b] c] s] _. apply sure_val.
Qed.
Lemma cmp_num_sure : forall w i p q, steady w -> (0 < q)%Z -> sure (fun fuel => cmp_num o ops debug fuel w i p q).
Proof.
  intros w i p q G Q. unfold cmp_num. cbv zeta. rewrite (steady_pol _ _ G). apply sure_bind.
  - apply cmp_q_sure; [exact G|apply obj_good, G|exact Q].
  - intros f [[nf' b] s] _. apply sure_val.
Qed.
Lemma relop_sure : forall w i p q c, steady w -> (0 < q)%Z -> sure (fun fuel => relop_mpq o ops debug fuel w i p q c).
Proof.
  intros w i p q c G Q. unfold relop_mpq. apply sure_bind; [apply cmp_num_sure; assumption|]. intros f [v s] _. apply sure_val.
Qed.
Lemma eq_objs_sure : forall w i j, steady w -> sure (fun _ => eq_objs debug w i j).
Proof.
  intros w i j G. apply sure_const; [reflexivity|]. pose proof (steady_exact _ G) as E.
  destruct (Nat.eq_dec (fld w i) (fld w j)) as [F|F].
  { destruct (eq_objs_ok debug pol x Hm w i j E (or_introl F)) as (b & -> & _). eexists; reflexivity. }
  destruct (is_rational (num_of w i)) eqn:Qi.
  { apply (rational_iff pol x Hm w i E) in Qi. destruct (eq_objs_ok debug pol x Hm w i j E (or_intror (or_introl Qi))) as (b & -> & _). eexists; reflexivity. }
  destruct (is_rational (num_of w j)) eqn:Qj.
  { apply (rational_iff pol x Hm w j E) in Qj. destruct (eq_objs_ok debug pol x Hm w i j E (or_intror (or_intror Qj))) as (b & -> & _). eexists; reflexivity. }
  unfold eq_objs. apply Nat.eqb_neq in F. rewrite F, Qi, Qj. eexists; reflexivity.
Qed.
Lemma lt_objs_sure : forall w i j, steady w -> sure (fun fuel => lt_objs o ops debug fuel w i j).
Proof.
  intros w i j G. pose proof (steady_exact _ G) as E. unfold lt_objs. destruct (Nat.eqb_spec (fld w i) (fld w j)) as [F|F].
  { apply sure_bind; [apply cmp_objs_sure; assumption|]. intros f [v s] _. apply sure_val. }
  destruct (is_rational (num_of w i)) eqn:Qi.
  { destruct (to_mpq_ok debug pol x Hm w i E Qi) as (a & d & T & D & _). rewrite T. cbn [bind]. apply relop_sure; assumption. }
  destruct (is_rational (num_of w j)) eqn:Qj; [|apply sure_val].
  destruct (to_mpq_ok debug pol x Hm w j E Qj) as (a & d & T & D & _). rewrite T. cbn [bind]. apply relop_sure; assumption.
Qed.
Lemma flip_sure : forall (t : nat -> out (exc (world * bool))), sure t -> sure (fun fuel => flip (t fuel)).
Proof. intros t H. unfold flip, ebind. apply sure_bind; [exact H|]. intros f [[v b]|] _; apply sure_val. Qed.
Lemma rel_objs_sure : forall r w i j, steady w -> sure (fun fuel => rel_objs o ops debug fuel r w i j).
Proof.
  intros r w i j G. destruct r; cbn [rel_objs]; first [apply eq_objs_sure; exact G|apply lt_objs_sure; exact G|
    apply flip_sure, eq_objs_sure, G|apply (flip_sure _ (lt_objs_sure _ _ _ G))].
Qed.
Lemma lt_int_sure : forall w i t z, steady w -> sure (fun fuel => lt_int o ops debug fuel w i t z).
Proof.
  intros w i t z G. assert (A : sure (fun fuel => bind (cmp_num o ops debug fuel w i (arg t z) 1) (fun '(w', s) => Val (Ret (w', (s <? 0)%Z))))).
  { apply sure_bind; [apply cmp_num_sure; [exact G|lia]|]. intros f [v s] _. apply sure_val. }
  destruct t; try exact A; apply relop_sure; try exact G; lia.
Qed.
Lemma gt_int_sure : forall w i t z, steady w -> sure (fun fuel => gt_int o ops debug fuel w i t z).
Proof.
  intros w i t z G. assert (A : sure (fun fuel => bind (cmp_num o ops debug fuel w i (arg t z) 1) (fun '(w', s) => Val (Ret (w', (0 <? s)%Z))))).
  { apply sure_bind; [apply cmp_num_sure; [exact G|lia]|]. intros f [v s] _. apply sure_val. }
  destruct t; try exact A; apply relop_sure; try exact G; lia.
Qed.
Lemma rel_int_sure : forall r w i t z, steady w -> sure (fun fuel => rel_int o ops debug fuel r w i t z).
Proof.
  intros r w i t z G. destruct r; cbn [rel_int]; first [apply sure_val|apply lt_int_sure; exact G|apply gt_int_sure; exact G|
    apply (flip_sure _ (lt_int_sure _ _ _ _ G))|apply (flip_sure _ (gt_int_sure _ _ _ _ G))].
Qed.
Lemma rel_mpq_sure : forall r w i p q, steady w -> (0 < q)%Z -> sure (fun fuel => rel_mpq o ops debug fuel r w i p q).
Proof.
  intros r w i p q G Q. destruct r; cbn [rel_mpq]; first [apply sure_val|apply relop_sure; assumption|apply (flip_sure _ (relop_sure _ _ _ _ _ G Q))].
Qed.
Lemma rel_mpz_sure : forall r w i z, steady w -> sure (fun fuel => rel_mpz o ops debug fuel r w i z).
Proof. intros r w i z G. destruct r; cbn [rel_mpz]; first [apply sure_val|apply rel_mpq_sure; [exact G|lia]]. Qed.

Lemma fdiv_objs_sure : forall w i j, steady w -> fld w i = fld w j -> value w j <> 0 -> value w i <> 0 \/ (length (pol (fld w i)) <= 3)%nat ->
  sure (fun fuel => fdiv_objs o ops debug fuel w i j).
Proof.
  intros w i j G F Z L. unfold fdiv_objs. cbv zeta. rewrite <- F, Nat.eqb_refl. cbn [negb]. rewrite (steady_pol _ _ G). apply sure_bind.
  - apply fdiv_sure; [exact G|apply obj_good, G|rewrite F; apply obj_good, G| |unfold CxxSpec.value in Z; rewrite <- F in Z; exact Z|exact L].
    intros Q. apply Nat.eqb_eq in Q. subst. reflexivity.
  - intros f [[[nf' b] c] z] _. apply sure_val.
Qed.

Notation state_ := (state_of x).
(** Arithmetic of two objects: all cases. *)
Lemma binop_all : forall p w i j, exact_ w -> (p = Div -> value w j <> 0) -> forall fuel,
  (~ compatible (state_ w) i j \/ refused strict (state_ w) i j) /\ binop o ops debug fuel strict p w i j = Val Throw \/
  compatible (state_ w) i j /\ ~ refused strict (state_ w) i j /\ exists w', binop o ops debug fuel strict p w i j = Val (Ret w') /\ exact_ w' /\
    gave x w w' i (real_op p (value w i) (value w j)) /\ (fld w' i = fld w i \/ fld w' i = fld w j).
Proof.
  intros p w i j E Z fuel. unfold compatible, refused, state_of. cbn [fst snd].
  assert (A : (fld w i = fld w j \/ rational (value w i) \/ rational (value w j)) \/ fld w i <> fld w j /\ ~ rational (value w i) /\ ~ rational (value w j)).
  { destruct (Nat.eq_dec (fld w i) (fld w j)) as [F|F]; [tauto|].
    destruct (is_rational (num_of w i)) eqn:Qi; [apply (rational_iff pol x Hm w i E) in Qi; tauto|]. apply (not_rational pol x Hm w i E) in Qi.
    destruct (is_rational (num_of w j)) eqn:Qj; [apply (rational_iff pol x Hm w j E) in Qj; tauto|]. apply (not_rational pol x Hm w j E) in Qj. tauto. }
  destruct A as [A|(A1 & A2 & A3)]; [|left; split; [tauto|apply (binop_throws o ops debug fuel pol x Hm); assumption]].
  assert (D : strict = false \/ fld w i = fld w j \/ fld w i = 0%nat \/ fld w j = 0%nat \/ strict = true /\ fld w i <> fld w j /\ fld w i <> 0%nat /\ fld w j <> 0%nat).
  { destruct strict; [|tauto]. destruct (Nat.eq_dec (fld w i) (fld w j)), (Nat.eq_dec (fld w i) 0), (Nat.eq_dec (fld w j) 0); tauto. }
  assert (B : strict = true /\ fld w i <> fld w j /\ fld w i <> 0%nat /\ fld w j <> 0%nat \/
    ~ (strict = true /\ fld w i <> fld w j /\ fld w i <> 0%nat /\ fld w j <> 0%nat) /\ binop o ops debug fuel strict p w i j = binop o ops debug fuel false p w i j).
  { destruct D as [D|[D|[D|[D|D]]]]; [right; split; [intros [D' _]; congruence|rewrite D; reflexivity]|right..|left; exact D];
      (split; [tauto|]); destruct strict; try reflexivity; apply binop_lenient; tauto. }
  destruct B as [B|[B1 B2]].
  - left. split; [right; exact B|]. destruct B as (-> & B1 & B2 & B3). apply binop_strict; assumption.
  - right. split; [exact A|]. split; [exact B1|]. rewrite B2. apply (binop_ok o ops debug fuel pol x Hm Hn); assumption.
Qed.

Lemma floordiv_sure : forall w i j, steady w -> xallowed pol (state_ w) (XFloordiv i j) -> sure (fun fuel => floordiv o ops debug fuel strict w i j).
Proof.
  intros w i j G (C & Z & L). pose proof (steady_exact _ G) as E. unfold compatible, state_of in *. cbn [fst snd] in *.
  unfold floordiv. destruct (Nat.eqb_spec (fld w i) (fld w j)) as [F|F]; [apply fdiv_objs_sure; try assumption; tauto|].
  destruct (is_rational (num_of w j)) eqn:Qj.
  - apply (sure_ext _ _ (fun fuel => ebind (binop o ops debug 0 strict Div w i j) (fun v => let nf := w_fields v (fld v i) in
      bind (floor o debug fuel nf (val v i)) (fun '(nf', _, z) => Val (Ret (restore w (set_field v (fld v i) nf'), z)))))).
    { intros f. rewrite (binop_const o ops debug f). reflexivity. }
    destruct (binop_all Div w i j E (fun _ => Z) 0%nat) as [[_ T]|(_ & _ & v & T & Ev & [V _] & Fv)]; rewrite T; cbn [ebind bind]; cbv zeta; [apply sure_val|].
    assert (Gv : steady v).
    { apply (steady_run 0%nat w (XBin Div i j)); [exact G|split; exact I|exact T]. }
    apply sure_bind; [|intros f [[nf' b] z] _; apply sure_val]. unfold floor. apply round_sure; [exact Gv|exact floor_const|apply obj_good, Gv|].
    change (value v i <> 0 \/ (length (pol (fld v i)) <= 3)%nat). rewrite V. cbn [real_op]. destruct L as [L|[L1 L2]].
    + left. intros W. apply Rmult_integral in W. destruct W as [W|W]; [contradiction|]. apply (Rinv_neq_0_compat _ Z W).
    + right. destruct Fv as [-> | ->]; assumption.
  - destruct (is_rational (num_of w i)) eqn:Qi.
    + destruct (to_mpq_ok debug pol x Hm w i E Qi) as (a & d & T & D & _ & V). rewrite T. cbn [bind].
      apply (sure_ext _ _ (fun fuel => bind (make_mpq o ops debug 0 w i (fld w j) a d) (fun v =>
        ebind (fdiv_objs o ops debug fuel v i j) (fun '(v', z) => Val (Ret (set_obj v' i (w_objs w i), z)))))); [reflexivity|].
      destruct (make_mpq_ok o ops debug 0 pol x Hm Hn w i (fld w j) a d E D) as (v & Tv & Ev & [V1 O1] & F1). rewrite Tv. cbn [bind].
      assert (Gv : steady v).
      { apply (steady_run 0%nat w (XMakeMpq i (fld w j) a d)); [exact G|split; [exact D|exact I]|]. cbn [xrun]. rewrite Tv. reflexivity. }
      assert (Nij : j <> i) by congruence.
      assert (Fj : fld v j = fld w j) by (unfold fld; rewrite O1 by exact Nij; reflexivity).
      assert (Vj : value v j = value w j) by (unfold CxxSpec.value, num_of, val, fld; rewrite O1 by exact Nij; reflexivity).
      unfold ebind. apply sure_bind; [|intros f [[v' z]|] _; apply sure_val].
      apply fdiv_objs_sure; [exact Gv|congruence|rewrite Vj; exact Z|]. rewrite V1, <- V, F1. tauto.
    + exfalso. destruct C as [C|[C|C]]; [contradiction|apply (not_rational pol x Hm w i E Qi C)|apply (not_rational pol x Hm w j E Qj C)].
Qed.
Lemma floor_obj_sure : forall rd w i, rd_const rd -> steady w -> value w i <> 0 \/ (length (pol (fld w i)) <= 3)%nat -> sure (fun fuel => floor_obj o debug fuel rd w i).
Proof.
  intros rd w i Hr G L. unfold floor_obj. cbv zeta. apply sure_bind; [|intros f [[nf' b] z] _; apply sure_val].
  apply round_sure; [exact G|exact Hr|apply obj_good, G|exact L].
Qed.
Lemma sgn_obj_sure : forall w i, steady w -> sure (fun fuel => sgn_obj o debug fuel w i).
Proof.
  intros w i G. unfold sgn_obj. cbv zeta. apply sure_bind; [|intros f [[nf' b] z] _; apply sure_val].
  apply sgn_sure; [exact G|apply obj_good, G].
Qed.

(** * Single calls *)
Lemma gave_put : forall w w' i v, gave x w w' i v -> put (state_ w) (state_ w') i (fld w' i) v.
Proof.
  intros w w' i v [V O]. split; [unfold state_of; rewrite V; reflexivity|]. intros j Hj. unfold state_of, CxxSpec.value, num_of, val, fld.
  rewrite (O j Hj). reflexivity.
Qed.
Lemma gave_in : forall w w' i v f, gave x w w' i v -> fld w' i = f -> put (state_ w) (state_ w') i f v.
Proof. intros w w' i v f H <-. apply gave_put, H. Qed.
Lemma same_stays : forall w w', same_objects w w' -> stays (state_ w) (state_ w').
Proof. intros w w' H i. destruct (H i) as [H1 H2]. unfold state_of, CxxSpec.value. rewrite H1, H2. reflexivity. Qed.
Lemma stays_refl : forall s, stays s s. Proof. intros s i. reflexivity. Qed.

Lemma gen_made : forall fuel w i f, exact_ w -> (3 <= length (pol f))%nat ->
  exists w', call_on o ops debug fuel (set_obj w i (zero_in f)) i i (KGen i) = Val w' /\ gave x w w' i (x f) /\ fld w' i = f.
Proof.
  intros fuel w i f E L. set (w1 := set_obj w i (zero_in f)). assert (F1 : fld w1 i = f) by apply fld_get.
  assert (P1 : f_pol (w_fields w1 f) = pol f) by apply (ew_fields _ _ E f).
  assert (T : exists y, gen o (ops (f_pol (w_fields w1 f))) (w_fields w1 f) = Val y /\ r_elem y = n_set_poly (ops (pol f)) [0; 1]%Z 1).
  { unfold gen. rewrite P1. destruct (pol f) as [|c0 [|c1 [|c2 p]]]; cbn [length] in L; try lia. eexists. split; reflexivity. }
  destruct T as (y & T & Ty). unfold call_on. cbv zeta. cbn [run]. rewrite F1, T. cbn [bind]. eexists. split; [reflexivity|].
  assert (U : upd (fun h => if Nat.eqb h i then val w1 i else val w1 i) i y i = y).
  { unfold upd, upd_elem, upd_emb. cbn [r_elem r_emb]. rewrite Nat.eqb_refl. destruct y. reflexivity. }
  rewrite U. split; [split|].
  - unfold CxxSpec.value, num_of. rewrite fld_set_val, val_set_val, Nat.eqb_refl, fld_set_field, F1, Ty.
    destruct (nk_set_poly _ _ _ (Hn f) [0; 1]%Z 1 ltac:(lia)) as [_ V]. rewrite V, !zeval_cons, zeval_nil. field.
  - intros j Hj. unfold set_val. rewrite obj_other by exact Hj. cbn [set_field w_objs]. apply obj_other. exact Hj.
  - rewrite fld_set_val, fld_set_field. exact F1.
Qed.

Lemma plain_all : forall fuel w c, steady w -> plain c -> xcall_ok c -> xallowed pol (state_ w) c ->
  exists w' a, xstep o ops debug fuel strict w c = Val (w', a) /\ right strict x (state_ w) c (state_ w') a.
Proof.
  intros fuel w c G Hp K L. pose proof (steady_exact _ G) as E.
  assert (A : forall (r : out world) w' i f v, r = Val w' -> gave x w w' i v -> fld w' i = f ->
    exists w'' a, bind (bind r ret) (fun e => Val (match e with Ret v => (v, XNone) | Throw => (w, XThrow) end)) = Val (w'', a) /\ (a = XNone /\ put (state_ w) (state_ w'') i f v)).
  { intros r w' i f v -> Gv F. exists w', XNone. split; [reflexivity|]. split; [reflexivity|apply gave_in; assumption]. }
  destruct c; cbn [plain] in Hp; try contradiction; cbn [xstep xrun right xcall_ok xallowed] in *.
  - destruct (binop_all p w i j E ltac:(intros ->; exact L) fuel) as [[B T]|(B1 & B2 & w' & T & _ & Gv & F)]; rewrite T; cbn [bind].
    + exists w, XThrow. split; [reflexivity|]. left. split; [exact B|]. split; [apply stays_refl|reflexivity].
    + exists w', XNone. split; [reflexivity|]. right. split; [exact B1|]. split; [exact B2|]. split; [reflexivity|]. exists (fld w' i).
      split; [exact F|apply gave_put, Gv].
  - destruct (binop_int_ok o ops debug fuel pol x Hm Hn w i t z p E K ltac:(intros ->; exact L)) as (w' & T & _ & Gv & F). apply (A _ w' _ _ _ T Gv F).
  - destruct (binop_mpz_ok o ops debug fuel pol x Hm Hn w i z p E ltac:(intros ->; exact L)) as (w' & T & _ & Gv & F). apply (A _ w' _ _ _ T Gv F).
  - destruct (binop_mpq_ok o ops debug fuel pol x Hm Hn w i qn qd p E K ltac:(intros ->; exact L)) as (w' & T & _ & Gv & F). apply (A _ w' _ _ _ T Gv F).
  - destruct (negate_ok o ops debug fuel pol x Hm Hn w i j E) as (w' & T & _ & Gv & F). apply (A _ w' _ _ _ T Gv F).
  - destruct K as [K1 K2], L as [L1 L2]. destruct (pow_ok o ops debug fuel pol x Hm Hn w i j e E K1 K2 L1 L2) as (w' & T & _ & Gv & F). apply (A _ w' _ _ _ T Gv F).
  - exists (set_obj w i (w_objs w j)), XNone. split; [reflexivity|]. split; [reflexivity|]. apply gave_in; [|apply fld_get]. split.
    + unfold CxxSpec.value, num_of, val, fld. rewrite obj_get. reflexivity.
    + intros h Hh. apply obj_other, Hh.
  - destruct (convert_both o ops debug fuel pol x Hm Hn w i f j E) as [C1 C2].
    assert (D : (fld w j = f \/ rational (value w j)) \/ fld w j <> f /\ ~ rational (value w j)).
    { destruct (Nat.eq_dec (fld w j) f) as [F|F]; [tauto|]. destruct (is_rational (num_of w j)) eqn:Qj.
      - apply (rational_iff pol x Hm w j E) in Qj. tauto.
      - apply (not_rational pol x Hm w j E) in Qj. tauto. }
    destruct D as [D|[D1 D2]].
    + destruct (C1 D) as (w' & T & _ & Gv & F). rewrite T. cbn [bind]. exists w', XNone. split; [reflexivity|]. left. split; [exact D|]. split; [reflexivity|apply gave_in; assumption].
    + rewrite (C2 D1 D2). cbn [bind]. exists w, XThrow. split; [reflexivity|]. right. split; [exact D1|]. split; [exact D2|]. split; [apply stays_refl|reflexivity].
  - exists (set_obj w i (zero_in f)), XNone. split; [reflexivity|]. split; [reflexivity|]. apply gave_in; [|apply fld_get]. split.
    + unfold CxxSpec.value, num_of, val, fld. rewrite obj_get. unfold ev. cbn. lra.
    + intros h Hh. apply obj_other, Hh.
  - destruct (gen_made fuel w i f E L) as (w' & T & Gv & F). apply (A _ w' _ _ _ T Gv F).
  - destruct (assign_int_ok o ops debug fuel pol x Hm Hn w i t z E K) as (w' & T & _ & Gv & F). apply (A _ w' _ _ _ T Gv F).
  - destruct (assign_mpq_ok o ops debug fuel pol x Hm Hn w i qn qd E K) as (w' & T & _ & Gv & F). apply (A _ w' _ _ _ T Gv F).
  - destruct (make_int_ok o ops debug fuel pol x Hm Hn w i f t z E K) as (w' & T & _ & Gv & F). apply (A _ w' _ _ _ T Gv F).
  - destruct (make_mpq_ok o ops debug fuel pol x Hm Hn w i f qn qd E K) as (w' & T & _ & Gv & F). apply (A _ w' _ _ _ T Gv F).
  - destruct (make_vector_ok o ops debug fuel pol x Hm Hn w i f v d E K ltac:(left; lia)) as (w' & T & _ & Gv & F). apply (A _ w' _ _ _ T Gv F).
Qed.

Lemma plain_or : forall c, plain c \/ ~ plain c.
Proof. intros c. destruct c; cbn; tauto. Qed.
Lemma plain_step_const : forall fuel w c, plain c -> xstep o ops debug fuel strict w c = xstep o ops debug 0 strict w c.
Proof.
  intros fuel w c H. pose proof (xrun_const o ops debug fuel strict w c H) as T. destruct c; cbn [plain] in H; try contradiction;
    unfold xstep; rewrite T; reflexivity.
Qed.
Lemma told_sure : forall A (t : A -> xans) w (r : nat -> out (exc (world * A))), sure r -> sure (fun fuel => told t w (r fuel)).
Proof. intros A t w r H. unfold told. apply sure_bind; [exact H|]. intros f e _. apply sure_val. Qed.

Lemma xstep_sure : forall w c, steady w -> xcall_ok c -> xallowed pol (state_ w) c -> sure (fun fuel => xstep o ops debug fuel strict w c).
Proof.
  intros w c G K L. destruct (plain_or c) as [P|P].
  { apply sure_const; [intros f; apply plain_step_const, P|]. destruct (plain_all 0 w c G P K L) as (w' & a & T & _). rewrite T. eexists; reflexivity. }
  destruct c; cbn [plain] in P; try (exfalso; apply P; exact I); cbn [xstep xcall_ok] in *.
  - apply (told_sure _ _ _ _ (rel_objs_sure r w i j G)).
  - apply (told_sure _ _ _ _ (rel_int_sure r w i t z G)).
  - apply (told_sure _ _ _ _ (rel_mpz_sure r w i z G)).
  - apply (told_sure _ _ _ _ (rel_mpq_sure r w i qn qd G (proj1 K))).
  - apply (told_sure _ _ _ _ (floordiv_sure w i j G L)).
  - apply sure_bind; [apply floor_obj_sure; [exact floor_const|exact G|exact L]|]. intros f [v z] _. apply sure_val.
  - apply sure_bind; [apply floor_obj_sure; [exact ceil_const|exact G|exact L]|]. intros f [v z] _. apply sure_val.
  - apply sure_bind; [apply sgn_obj_sure; exact G|]. intros f [v z] _. apply sure_val.
  - cbn [xrun xallowed] in *. apply sure_bind; [|intros g e _; apply sure_val]. apply sure_bind; [apply refine_sure; [exact G|exact L]|].
    intros g nf' _. apply sure_val.
Qed.

(** Exceptions of the comparisons. *)
Lemma flip_throw : forall t, flip t = Val Throw -> t = Val Throw.
Proof. intros t H. unfold flip in H. destruct t as [[[v b]|]| | |]; try discriminate. reflexivity. Qed.
Lemma relop_ret : forall fuel w i p q c, relop_mpq o ops debug fuel w i p q c <> Val Throw.
Proof. intros fuel w i p q c H. unfold relop_mpq in H. open H. destruct res. discriminate. Qed.
Lemma lt_int_ret : forall fuel w i t z, lt_int o ops debug fuel w i t z <> Val Throw.
Proof. intros fuel w i t z H. destruct t; cbn [lt_int] in H; first [apply (relop_ret _ _ _ _ _ _ H)|open H; destruct res; discriminate]. Qed.
Lemma gt_int_ret : forall fuel w i t z, gt_int o ops debug fuel w i t z <> Val Throw.
Proof. intros fuel w i t z H. destruct t; cbn [gt_int] in H; first [apply (relop_ret _ _ _ _ _ _ H)|open H; destruct res; discriminate]. Qed.
Lemma rel_int_ret : forall fuel r w i t z, rel_int o ops debug fuel r w i t z <> Val Throw.
Proof.
  intros fuel r w i t z H. destruct r; cbn [rel_int] in H; try apply flip_throw in H; first [apply (lt_int_ret _ _ _ _ _ H)|apply (gt_int_ret _ _ _ _ _ H)|discriminate].
Qed.
Lemma rel_mpq_ret : forall fuel r w i p q, rel_mpq o ops debug fuel r w i p q <> Val Throw.
Proof.
  intros fuel r w i p q H. destruct r; cbn [rel_mpq] in H; try apply flip_throw in H; first [apply (relop_ret _ _ _ _ _ _ H)|discriminate].
Qed.
Lemma rel_mpz_ret : forall fuel r w i z, rel_mpz o ops debug fuel r w i z <> Val Throw.
Proof. intros fuel r w i z H. destruct r; cbn [rel_mpz] in H; first [apply (rel_mpq_ret _ _ _ _ _ _ H)|discriminate|apply flip_throw in H; discriminate]. Qed.

Lemma incompatible : forall w i j, ~ compatible (state_ w) i j <-> fld w i <> fld w j /\ ~ rational (value w i) /\ ~ rational (value w j).
Proof. intros w i j. unfold compatible, state_of. cbn [fst snd]. tauto. Qed.
Lemma eq_objs_throw_iff : forall w i j, exact_ w -> eq_objs debug w i j = Val Throw <-> ~ compatible (state_ w) i j.
Proof.
  intros w i j E. split.
  - intros H C. destruct (eq_objs_ok debug pol x Hm w i j E C) as (b & T & _). rewrite T in H. discriminate.
  - intros C. apply incompatible in C. apply (eq_objs_throws debug pol x Hm); tauto.
Qed.
Lemma lt_objs_throw_iff : forall fuel w i j, exact_ w -> lt_objs o ops debug fuel w i j = Val Throw <-> ~ compatible (state_ w) i j.
Proof.
  intros fuel w i j E. split.
  - intros H. apply incompatible. apply (lt_objs_throws_only o ops debug fuel pol x Nx HS w i j E H).
  - intros C. apply incompatible in C. apply (lt_objs_throws o ops debug fuel pol x Nx HS); tauto.
Qed.
Lemma flip_throws : forall t, flip t = Val Throw <-> t = Val Throw.
Proof. intros t. split; [apply flip_throw|intros ->; reflexivity]. Qed.
Lemma compatible_sym : forall s i j, compatible s i j <-> compatible s j i.
Proof. intros s i j. unfold compatible. split; intros [H|[H|H]]; auto. Qed.
Lemma rel_objs_throw_iff : forall fuel r w i j, exact_ w -> rel_objs o ops debug fuel r w i j = Val Throw <-> ~ compatible (state_ w) i j.
Proof.
  intros fuel r w i j E. destruct r; cbn [rel_objs]; rewrite ?flip_throws; first [apply eq_objs_throw_iff; exact E|apply lt_objs_throw_iff; exact E|
    rewrite compatible_sym; apply lt_objs_throw_iff; exact E].
Qed.
Lemma floordiv_throw_iff : forall fuel w i j, exact_ w -> value w j <> 0 -> floordiv o ops debug fuel strict w i j = Val Throw <->
  refused strict (state_ w) i j /\ rational (value w j).
Proof.
  intros fuel w i j E Z. split.
  - intros H. unfold floordiv in H.
    assert (B : forall w i j, fdiv_objs o ops debug fuel w i j <> Val Throw).
    { intros v h k H'. unfold fdiv_objs in H'. cbv zeta in H'. destruct (negb _) in H'; [discriminate|]. open H'. destruct res as [[[nf' b] c] s]. discriminate. }
    destruct (Nat.eqb_spec (fld w i) (fld w j)) as [F|F]; [destruct (B _ _ _ H)|].
    destruct (is_rational (num_of w j)) eqn:Qj.
    + pose proof Qj as Qr. apply (rational_iff pol x Hm w j E) in Qr.
      destruct (binop_all Div w i j E (fun _ => Z) fuel) as [[[C|C] T]|(_ & _ & v & T & _)].
      * exfalso. apply C. right. right. exact Qr.
      * split; [exact C|exact Qr].
      * rewrite T in H. cbn [ebind bind] in H. cbv zeta in H. open H. destruct res as [[nf' b] z]. discriminate.
    + destruct (is_rational (num_of w i)) eqn:Qi; [|destruct (B _ _ _ H)].
      open H. destruct res as [p q]. open H. unfold ebind in H. open H. destruct res0 as [[v' z]|]; [discriminate|]. destruct (B _ _ _ T1).
  - intros [(S1 & S2 & S3 & S4) Q]. unfold state_of in *. cbn [fst snd] in *. unfold floordiv. pose proof S2 as F. apply Nat.eqb_neq in F. rewrite F.
    apply (rational_iff pol x Hm w j E) in Q. rewrite Q, S1, binop_strict by assumption. reflexivity.
Qed.

Lemma xstep_right : forall fuel w c w' a, steady w -> xcall_ok c -> xallowed pol (state_ w) c -> xstep o ops debug fuel strict w c = Val (w', a) ->
  steady w' /\ right strict x (state_ w) c (state_ w') a.
Proof.
  intros fuel w c w' a G K L H. pose proof (steady_exact _ G) as E. pose proof (proj1 G) as Gs. split.
  { apply xstep_run in H. destruct H as [[H _]|(_ & -> & _)]; [|exact G]. apply (steady_run fuel w c); [exact G| |exact H]. split; [exact K|].
    destruct c; try exact I. apply L. }
  destruct (plain_or c) as [P|P].
  { destruct (plain_all fuel w c G P K L) as (v & b & T & R). rewrite T in H. injection H as <- <-. exact R. }
  assert (D : forall v b Q, decides pol x Nx w v b Q -> tells (state_ w) (state_ v) (XBool b) Q).
  { intros v b Q (_ & A & B). split; [apply same_stays, A|]. exists b. split; [reflexivity|exact B]. }
  destruct c; cbn [plain] in P; try (exfalso; apply P; exact I); cbn [xstep xcall_ok right] in *; unfold told in H.
  - open H. destruct res as [[v b]|]; injection H as <- <-.
    + right. split; [|apply D, (rel_objs_ok o ops debug fuel pol x Nx HS _ _ _ _ _ _ Gs T)].
      destruct (Nat.eq_dec (fld w i) (fld w j)) as [F|F]; [left; exact F|].
      destruct (is_rational (num_of w i)) eqn:Qi; [right; left; apply (rational_iff pol x Hm w i E), Qi|].
      destruct (is_rational (num_of w j)) eqn:Qj; [right; right; apply (rational_iff pol x Hm w j E), Qj|]. exfalso.
      assert (C : ~ compatible (state_ w) i j).
      { apply incompatible. split; [exact F|]. split; apply (not_rational pol x Hm); assumption. }
      apply (rel_objs_throw_iff fuel r w i j E) in C. congruence.
    + left. split; [apply (rel_objs_throw_iff fuel r w i j E), T|]. split; [apply stays_refl|reflexivity].
  - open H. destruct res as [[v b]|]; [|destruct (rel_int_ret _ _ _ _ _ _ T)]. injection H as <- <-. apply D, (rel_int_ok o ops debug fuel pol x Nx HS _ _ _ _ _ _ _ Gs K T).
  - open H. destruct res as [[v b]|]; [|destruct (rel_mpz_ret _ _ _ _ _ T)]. injection H as <- <-. apply D, (rel_mpz_ok o ops debug fuel pol x Nx HS _ _ _ _ _ _ Gs T).
  - open H. destruct res as [[v b]|]; [|destruct (rel_mpq_ret _ _ _ _ _ _ T)]. injection H as <- <-.
    apply D, (rel_mpq_ok o ops debug fuel pol x Nx HS _ _ _ _ _ _ _ Gs (proj1 K) (proj2 K) T).
  - destruct L as (L1 & L2 & _). open H. destruct res as [[v z]|]; injection H as <- <-.
    + right. split.
      * intros C. apply (floordiv_throw_iff fuel w i j E L2) in C. congruence.
      * destruct (floordiv_ok o ops debug fuel pol x Nx HS _ _ _ _ _ _ Gs L1 T) as (_ & A & _ & B). split; [apply same_stays, A|]. exists z. split; [reflexivity|exact B].
    + left. destruct (proj1 (floordiv_throw_iff fuel w i j E L2) T) as [C1 C2]. split; [exact C1|]. split; [exact C2|]. split; [apply stays_refl|reflexivity].
  - open H. destruct res as [v z]. injection H as <- <-. destruct (floor_obj_ok o ops debug fuel pol x Nx HS _ _ rd_floor_ok _ _ _ _ Gs T) as (_ & A & B).
    split; [apply same_stays, A|]. exists z. split; [reflexivity|exact B].
  - open H. destruct res as [v z]. injection H as <- <-. destruct (floor_obj_ok o ops debug fuel pol x Nx HS _ _ rd_ceil_ok _ _ _ _ Gs T) as (_ & A & B).
    split; [apply same_stays, A|]. exists z. split; [reflexivity|exact B].
  - open H. destruct res as [v z]. injection H as <- <-. destruct (sgn_obj_ok o ops debug fuel pol x Nx HS _ _ _ _ Gs T) as (_ & A & B).
    split; [apply same_stays, A|]. exists z. split; [reflexivity|symmetry; exact B].
  - cbn [xrun] in H. open H. open T. injection T as <-. injection H as <- <-. split; [reflexivity|]. intros h. reflexivity.
Qed.

Lemma xsteps_sure : forall l w, steady w -> xlegal strict pol x (state_ w) l -> sure (fun fuel => xsteps o ops debug fuel strict w l).
Proof.
  induction l as [|c l IH]; intros w G L; cbn [xsteps]; [apply sure_val|]. inversion L as [|s c' l' K A N]; subst.
  apply sure_bind; [apply xstep_sure; assumption|]. intros f [v a] T. destruct (xstep_right f w c v a G K A T) as [G' R].
  apply sure_bind; [apply IH; [exact G'|apply (N _ _ R)]|]. intros g [v' r] _. apply sure_val.
Qed.
Lemma xsteps_right : forall fuel l w w' r, steady w -> xlegal strict pol x (state_ w) l -> xsteps o ops debug fuel strict w l = Val (w', r) ->
  steady w' /\ xhistory strict x (state_ w) l (state_ w') r.
Proof.
  intros fuel. induction l as [|c l IH]; intros w w' r G L H; cbn [xsteps] in H; [injection H as <- <-; split; [exact G|constructor]|].
  inversion L as [|s c' l' K A N]; subst. open H. destruct res as [v a]. destruct (xstep_right fuel w c v a G K A T) as [G' R].
  open H. destruct res as [v' r']. injection H as <- <-. destruct (IH v v' r' G' (N _ _ R) T0) as [B1 B2]. split; [exact B1|].
  econstructor; eassumption.
Qed.
Lemma xsteps_total : forall l, xlegal strict pol x (state_ w0) l -> answers (fun fuel => xsteps o ops debug fuel strict w0 l)
  (fun '(w', r) => world_ready pol x r0 w' /\ xhistory strict x (state_ w0) l (state_ w') r) lost.
Proof.
  intros l L. destruct (xsteps_sure l w0 steady_start L) as [A B]. apply answers_intro; [exact A|exact B|].
  intros f [w' r] T. destruct (xsteps_right f l w0 w' r steady_start L T) as [C D]. split; [apply steady_ready, C|exact D].
Qed.
End Total.

Theorem cxx_programs : forall o ops pol x X r0, arb_ok o -> arb_conv o -> arb_fl o -> arb_fine o ->
  (forall f, minimal (pol f) (x f)) -> (forall f, nf_ok (pol f) (x f) (ops (pol f))) ->
  (forall f, (3 <= length (pol f))%nat -> margin (pol f) (x f) (X f) (r0 f)) ->
  forall debug strict w l, world_ready pol x r0 w -> xlegal strict pol x (state_of x w) l ->
  answers (fun fuel => xsteps o ops debug fuel strict w l)
    (fun '(w', r) => world_ready pol x r0 w' /\ xhistory strict x (state_of x w) l (state_of x w') r)
    (exists f, (3 <= length (pol f))%nat /\ word_overflow o (pol f) (f_emb (w_fields w f))).
Proof.
  intros o ops pol x X r0 Ho Hc Hf Hg Hm Hn Hmg debug strict w l Hw L.
  apply (xsteps_total o ops debug strict pol x r0 w Ho Hc Hm Hn); try assumption.
  - intros f D. apply (margin_safe o (pol f) (x f) (X f) (r0 f) Ho Hf Hg (Hm f) D (Hmg f D)).
  - intros f D. apply (margin_safe o (pol f) (x f) (X f) (r0 f) Ho Hf Hg (Hm f) D (Hmg f D)).
  - intros f D. apply (margin_safe o (pol f) (x f) (X f) (r0 f) Ho Hf Hg (Hm f) D (Hmg f D)).
Qed.
