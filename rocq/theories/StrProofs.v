(** Proofs about the parser of polynomial strings. *)
Require Import Reals Lra Lia String List ZArith Bool Ascii.
From Verif Require Import PolyR RootModel ExtraModel ArbModel ElemModel ElemSpec NfArith NfArithProofs StrModel StrSpec.
Import ListNotations.
Open Scope Z_scope.

(** ** Characters *)
Ltac chars c := destruct c as [[] [] [] [] [] [] [] []]; vm_compute in *; try discriminate; try reflexivity; try (repeat split; reflexivity); auto.

Definition wordb (c : ascii) : bool := digitb c || alphab c || Ascii.eqb c "_".
(** Characters that occur in terms. *)
Definition termb (c : ascii) : bool :=
  wordb c || Ascii.eqb c "/" || Ascii.eqb c "*" || Ascii.eqb c "^" || Ascii.eqb c cblank.

Lemma eqb_refl c : Ascii.eqb c c = true.
Proof. apply Ascii.eqb_refl. Qed.
Lemma eqb_eq a b : Ascii.eqb a b = true -> a = b.
Proof. apply Ascii.eqb_eq. Qed.

Lemma digit_word c : digitb c = true -> wordb c = true.
Proof. unfold wordb; intros ->; reflexivity. Qed.
Lemma word_tame c : wordb c = true ->
  wild c = false /\ Ascii.eqb c cblank = false /\ Ascii.eqb c "+" = false /\ Ascii.eqb c "-" = false /\
  Ascii.eqb c "/" = false /\ Ascii.eqb c "*" = false /\ Ascii.eqb c "^" = false.
Proof. chars c. Qed.
Lemma word_term c : wordb c = true -> termb c = true.
Proof. unfold termb; intros ->; reflexivity. Qed.
Lemma term_nosign c : termb c = true -> signb c = false /\ wild c = false.
Proof. chars c. Qed.
Lemma alpha_word c : alphab c = true -> digitb c = false /\ wordb c = true.
Proof. chars c. Qed.
Lemma alpha_tame c : alphab c = true -> wild c = false.
Proof. chars c. Qed.
Lemma digit_tame c : digitb c = true -> wild c = false.
Proof. chars c. Qed.
Lemma isdigit_true c : digitb c = true -> isdigit c = Val true.
Proof. intros H. unfold isdigit, ctype. rewrite (proj1 (word_tame c (digit_word c H))), H. reflexivity. Qed.
Lemma isdigit_tame c : wild c = false -> isdigit c = Val (digitb c).
Proof. unfold isdigit, ctype. intros ->; reflexivity. Qed.

Lemma blanks_app a b : blanks a -> blanks b -> blanks (a ++ b).
Proof. apply Forall_app_2 || (intros; apply Forall_app; split; assumption). Qed.

Lemma name_word var : name var -> Forall (fun c => wordb c = true) var /\
  exists c v, var = c :: v /\ digitb c = false /\ wordb c = true.
Proof.
  destruct var as [|c v]; intros H; [destruct H|].
  destruct H as [Hc Hv].
  assert (W : digitb c = false /\ wordb c = true).
  { destruct Hc as [Hc| ->]; [apply alpha_word; exact Hc | split; reflexivity]. }
  split.
  - constructor; [apply W|].
    eapply Forall_impl; [|exact Hv].
    intros a [A|[A| ->]]; unfold wordb; [rewrite A | rewrite A, orb_true_r |]; reflexivity.
  - exists c, v. split; [reflexivity | exact W].
Qed.

Lemma name_varname var : name var -> is_varname var = Val true.
Proof.
  intros N. destruct var as [|c v]; [destruct N|]. destruct N as [Hc Hv]. cbn [is_varname].
  assert (E : isalpha c = Val (alphab c)).
  { unfold isalpha, ctype. destruct Hc as [Hc| ->]; [rewrite (alpha_tame c Hc); reflexivity | reflexivity]. }
  rewrite E. cbn [bind].
  replace (alphab c || Ascii.eqb c "_") with true
    by (destruct Hc as [->| ->]; [reflexivity | rewrite eqb_refl, orb_true_r; reflexivity]).
  clear E Hc. induction v as [|a v IH]; [reflexivity|].
  inversion Hv; subst. cbn [all_alnum].
  assert (W : wild a = false /\ (digitb a || alphab a || Ascii.eqb a "_") = true).
  { destruct H1 as [A|[A| ->]]; [split; [apply digit_tame; exact A | rewrite A; reflexivity] |
      split; [apply alpha_tame; exact A | rewrite A, orb_true_r; reflexivity] | split; reflexivity]. }
  unfold isalnum, ctype. rewrite (proj1 W). cbn [bind].
  replace (negb (digitb a || alphab a) && negb (Ascii.eqb a "_")) with false
    by (rewrite <- negb_orb, (proj2 W); reflexivity).
  apply IH; assumption.
Qed.

Lemma varname_name var : is_varname var = Val true -> name var.
Proof.
  destruct var as [|c v]; [discriminate|]. cbn [is_varname].
  unfold isalpha, ctype. destruct (wild c); [discriminate|]. cbn [bind].
  destruct (alphab c || Ascii.eqb c "_") eqn:E; [|discriminate].
  intros H. split.
  - apply orb_true_iff in E. destruct E as [E|E]; [left; exact E | right; apply eqb_eq; exact E].
  - clear E. induction v as [|a v IH]; [constructor|]. cbn [all_alnum] in H.
    unfold isalnum, ctype in H. destruct (wild a); [discriminate|]. cbn [bind] in H.
    destruct (digitb a) eqn:D; cbn in H; [constructor; [left; exact D | apply IH; exact H]|].
    destruct (alphab a) eqn:D2; cbn in H; [constructor; [right; left; exact D2 | apply IH; exact H]|].
    destruct (Ascii.eqb a "_") eqn:D3; cbn in H; [|discriminate].
    constructor; [right; right; apply eqb_eq; exact D3 | apply IH; exact H].
Qed.

(** ** Heads of strings *)
Definition head_ok (P : ascii -> bool) (s : str) : Prop := match s with [] => True | c :: _ => P c = true end.

Lemma skip_blanks_app b s : blanks b -> skip_blanks (b ++ s) = skip_blanks s.
Proof. induction 1 as [|c b <- B IH]; [reflexivity | cbn; exact IH]. Qed.
Lemma skip_blanks_head s : head_ok (fun c => negb (Ascii.eqb c cblank)) s -> skip_blanks s = s.
Proof. destruct s as [|c s]; [reflexivity|]. cbn. destruct (Ascii.eqb c cblank); [discriminate | reflexivity]. Qed.
Lemma skip_blanks_all b : blanks b -> skip_blanks b = [].
Proof. intros B. rewrite <- (app_nil_r b), skip_blanks_app by exact B. reflexivity. Qed.
Lemma skip_blanks_split s : exists b, blanks b /\ s = b ++ skip_blanks s /\
  head_ok (fun c => negb (Ascii.eqb c cblank)) (skip_blanks s).
Proof.
  induction s as [|c s (b & B & E & H)]; [exists []; repeat split; constructor|].
  cbn [skip_blanks]. destruct (Ascii.eqb c cblank) eqn:D.
  - apply eqb_eq in D. subst c. exists (cblank :: b). repeat split; [constructor; [reflexivity | exact B] | | exact H].
    cbn. f_equal. exact E.
  - exists []. repeat split; [constructor|]. cbn. rewrite D. reflexivity.
Qed.

(** ** Signs *)
Definition solid (c : ascii) : bool := negb (Ascii.eqb c cblank) && negb (signb c).

Lemma solid_inv c : solid c = true -> Ascii.eqb c cblank = false /\ Ascii.eqb c "+" = false /\ Ascii.eqb c "-" = false.
Proof.
  unfold solid, signb. rewrite andb_true_iff, !negb_true_iff, orb_false_iff. tauto.
Qed.

Lemma signs_run sg g : sign_run sg g -> forall g0 c t, solid c = true ->
  signs g0 (sg ++ c :: t) = Some (g0 * g, c :: t).
Proof.
  induction 1; intros g0 c t Sc; cbn [app signs].
  - destruct (solid_inv c Sc) as (A & B & C). rewrite A, B, C. cbn. rewrite Z.mul_1_r. reflexivity.
  - cbn. apply IHsign_run; exact Sc.
  - cbn. apply IHsign_run; exact Sc.
  - cbn. rewrite IHsign_run by exact Sc. do 2 f_equal. ring.
Qed.

Lemma signs_split s : forall g0 g t, signs g0 s = Some (g, t) -> exists sg g',
  sign_run sg g' /\ s = sg ++ t /\ g = g0 * g' /\ exists c u, t = c :: u /\ solid c = true.
Proof.
  induction s as [|c s IH]; cbn [signs]; intros g0 g t H; [discriminate|].
  destruct (Ascii.eqb c "-") eqn:E1.
  - apply eqb_eq in E1. subst c. destruct (IH _ _ _ H) as (sg & g' & A & -> & -> & D).
    exists ("-"%char :: sg), (- g'). repeat split; [constructor; exact A | ring | exact D].
  - destruct (Ascii.eqb c cblank) eqn:E2; cbn [orb] in H.
    + apply eqb_eq in E2. subst c. destruct (IH _ _ _ H) as (sg & g' & A & -> & -> & D).
      exists (cblank :: sg), g'. repeat split; [constructor; exact A | exact D].
    + destruct (Ascii.eqb c "+") eqn:E3.
      * apply eqb_eq in E3. subst c. destruct (IH _ _ _ H) as (sg & g' & A & -> & -> & D).
        exists ("+"%char :: sg), g'. repeat split; [constructor; exact A | exact D].
      * injection H as <- <-. exists [], 1. repeat split; [constructor | ring |].
        exists c, s. split; [reflexivity|]. unfold solid, signb. rewrite E1, E2, E3. reflexivity.
Qed.

Lemma sign_run_unit sg g : sign_run sg g -> g = 1 \/ g = -1.
Proof. induction 1; lia. Qed.

(** The blanks in front of a run of signs can be dropped. *)
Lemma run_skip sg g : sign_run sg g -> forall c t, solid c = true ->
  exists sg', sign_run sg' g /\ skip_blanks (sg ++ c :: t) = sg' ++ c :: t.
Proof.
  induction 1; intros c t Sc.
  - exists []. split; [constructor|]. cbn. rewrite (proj1 (solid_inv c Sc)). reflexivity.
  - cbn. apply IHsign_run; exact Sc.
  - exists ("+"%char :: s). split; [constructor; assumption | reflexivity].
  - exists ("-"%char :: s). split; [constructor; assumption | reflexivity].
Qed.
Lemma run_blanks b sg g : blanks b -> sign_run sg g -> sign_run (b ++ sg) g.
Proof. induction 1 as [|c b <- B IH]; intros H; [exact H | constructor; auto]. Qed.

(** ** Next term *)
Lemma jump_rest_app s r : Forall (fun c => signb c = false) s -> starts_with_sign r -> jump_rest (s ++ r) = (s, r).
Proof.
  induction 1 as [|c s H F IH]; intros R.
  - cbn. destruct r as [|c r]; [reflexivity|]. cbn. destruct R as [-> | ->]; reflexivity.
  - cbn. rewrite H, IH by exact R. reflexivity.
Qed.
Lemma next_term_app sg g c t r : sign_run sg g -> solid c = true -> Forall (fun c => signb c = false) t ->
  starts_with_sign r -> next_term (sg ++ c :: t ++ r) = (sg ++ c :: t, r).
Proof.
  intros H Sc F R. induction H; cbn [app next_term].
  - destruct (solid_inv c Sc) as (A & B & C).
    assert (D : signb c = false) by (unfold signb; rewrite B, C; reflexivity).
    rewrite D, A. cbn [orb].
    change (c :: t ++ r) with ((c :: t) ++ r). apply jump_rest_app; [constructor; assumption | exact R].
  - cbn. rewrite IHsign_run. reflexivity.
  - cbn. rewrite IHsign_run. reflexivity.
  - cbn. rewrite IHsign_run. reflexivity.
Qed.
Lemma jump_rest_split s u v : jump_rest s = (u, v) -> s = u ++ v /\ starts_with_sign v.
Proof.
  revert u v. induction s as [|c s IH]; cbn; intros u v H.
  - injection H as <- <-. split; [reflexivity | exact I].
  - destruct (signb c) eqn:E.
    + injection H as <- <-. split; [reflexivity|]. cbn. unfold signb in E. apply orb_true_iff in E.
      destruct E as [E|E]; apply eqb_eq in E; auto.
    + destruct (jump_rest s) as [u' v']. injection H as <- <-.
      destruct (IH _ _ eq_refl) as [-> B]. split; [reflexivity | exact B].
Qed.
Lemma next_term_split s u v : next_term s = (u, v) -> s = u ++ v /\ starts_with_sign v.
Proof.
  revert u v. induction s as [|c s IH]; intros u v H; cbn [next_term] in H.
  - injection H as <- <-. split; [reflexivity | exact I].
  - destruct (signb c || Ascii.eqb c cblank).
    + destruct (next_term s) as [u' v']. injection H as <- <-.
      destruct (IH _ _ eq_refl) as [-> B]. split; [reflexivity | exact B].
    + apply jump_rest_split. exact H.
Qed.
Lemma next_term_shorter c s u v : next_term (c :: s) = (u, v) -> (length v <= length s)%nat.
Proof.
  intros H. pose proof (next_term_split _ _ _ H) as [E _].
  destruct u as [|x u].
  - exfalso. cbn [next_term] in H. destruct (signb c || Ascii.eqb c cblank) eqn:D.
    + destruct (next_term s); discriminate.
    + cbn [jump_rest] in H. apply orb_false_iff in D. rewrite (proj1 D) in H. destruct (jump_rest s); discriminate.
  - injection E as -> ->. rewrite app_length. lia.
Qed.

(** ** Coefficients *)
Definition coefb (c : ascii) : bool := digitb c || Ascii.eqb c "/".
Definition stops (P : ascii -> bool) (s : str) : Prop :=
  match s with [] => True | c :: _ => P c = false /\ wild c = false end.

Lemma coef_tame c : coefb c = true -> wild c = false.
Proof. chars c. Qed.

Lemma coeff_chars_app u v : Forall (fun c => coefb c = true) u -> stops coefb v -> coeff_chars (u ++ v) = Val (u, v).
Proof.
  induction 1 as [|c u H F IH]; intros S.
  - cbn. destruct v as [|c v]; [reflexivity|]. destruct S as [A B]. cbn.
    rewrite (isdigit_tame c B). cbn. change (digitb c || Ascii.eqb c "/") with (coefb c). rewrite A. reflexivity.
  - cbn. rewrite (isdigit_tame c (coef_tame c H)). cbn.
    change (digitb c || Ascii.eqb c "/") with (coefb c). rewrite H, IH by exact S. reflexivity.
Qed.
Lemma coeff_chars_split s u v : coeff_chars s = Val (u, v) -> s = u ++ v /\ Forall (fun c => coefb c = true) u.
Proof.
  revert u v. induction s as [|c s IH]; cbn [coeff_chars]; intros u v H.
  - injection H as <- <-. split; [reflexivity | constructor].
  - unfold isdigit, ctype in H. destruct (wild c); [discriminate|]. cbn [bind] in H.
    change (digitb c || Ascii.eqb c "/") with (coefb c) in H. destruct (coefb c) eqn:E.
    + destruct (coeff_chars s) as [[u' v']| | |]; cbn [bind] in H; try discriminate. injection H as <- <-.
      destruct (IH _ _ eq_refl) as [-> F]. split; [reflexivity | constructor; assumption].
    + injection H as <- <-. split; [reflexivity | constructor].
Qed.

Lemma cut_slash_none u : Forall (fun c => digitb c = true) u -> cut_slash u = (u, None).
Proof.
  induction 1 as [|c u H F IH]; [reflexivity|]. cbn.
  destruct (word_tame c (digit_word c H)) as (_ & _ & _ & _ & -> & _). rewrite IH. reflexivity.
Qed.
Lemma cut_slash_some u v : Forall (fun c => digitb c = true) u -> cut_slash (u ++ "/"%char :: v) = (u, Some v).
Proof.
  induction 1 as [|c u H F IH]; [reflexivity|]. cbn.
  destruct (word_tame c (digit_word c H)) as (_ & _ & _ & _ & -> & _). rewrite IH. reflexivity.
Qed.
Lemma cut_slash_split s u v : cut_slash s = (u, v) -> Forall (fun c => coefb c = true) s ->
  Forall (fun c => digitb c = true) u /\ s = u ++ match v with None => [] | Some v => "/"%char :: v end.
Proof.
  revert u v. induction s as [|c s IH]; cbn; intros u v H F.
  - injection H as <- <-. split; [constructor | reflexivity].
  - inversion F; subst. destruct (Ascii.eqb c "/") eqn:E.
    + apply eqb_eq in E. subst c. injection H as <- <-. split; [constructor | reflexivity].
    + destruct (cut_slash s) as [u' v']. injection H as <- <-.
      destruct (IH _ _ eq_refl H3) as [A B]. split.
      * constructor; [|exact A]. unfold coefb in H2. rewrite E, orb_false_r in H2. exact H2.
      * cbn. f_equal. exact B.
Qed.

Lemma numval_nonneg s : Forall (fun c => digitb c = true) s -> 0 <= numval s.
Proof.
  unfold numval. assert (G : forall s a, 0 <= a -> Forall (fun c => digitb c = true) s -> 0 <= fold_left num_step s a).
  { clear s. induction s as [|c s IH]; intros a A F; [exact A|]. inversion F; subst. cbn. apply IH; [|assumption].
    unfold num_step. unfold digitb in H1. apply andb_true_iff in H1. destruct H1 as [H1 _]. apply Z.leb_le in H1. lia. }
  intros F. apply G; [lia | exact F].
Qed.

Section Zero.
Variable zd : Z -> out (option (Z * Z)).

Lemma coef_read c a b : coef c a b -> fmpq_set_str zd c = Val (Some (a, b)).
Proof.
  intros H. destruct H as [ds [N D]|ds es [N D] [M E] Z]; unfold fmpq_set_str.
  - rewrite cut_slash_none by exact D. reflexivity.
  - rewrite cut_slash_some by exact D. destruct es as [|e es]; [congruence|].
    replace (forallb digitb (e :: es)) with true.
    + destruct (Z.eqb_spec (numval (e :: es)) 0); [contradiction | reflexivity].
    + symmetry. apply forallb_forall. intros x Hx. apply (proj1 (Forall_forall _ _) E x Hx).
Qed.

Lemma coef_chars c a b : coef c a b -> Forall (fun c => coefb c = true) c /\ exists x t, c = x :: t /\ digitb x = true.
Proof.
  intros H. assert (D : forall s, Forall (fun c => digitb c = true) s -> Forall (fun c => coefb c = true) s).
  { intros s. apply Forall_impl. intros x D. unfold coefb. rewrite D. reflexivity. }
  destruct H as [ds [N F]|ds es [N F] [M E] Z].
  - split; [apply D; exact F|]. destruct ds as [|x t]; [congruence|]. inversion F; subst. exists x, t. auto.
  - split.
    + apply Forall_app. split; [apply D; exact F|]. constructor; [reflexivity | apply D; exact E].
    + destruct ds as [|x t]; [congruence|]. inversion F; subst. exists x, (t ++ "/"%char :: es). auto.
Qed.

Lemma coef_of_read c u a b : zero_den_ok zd -> digitb c = true -> Forall (fun c => coefb c = true) u ->
  fmpq_set_str zd (c :: u) = Val (Some (a, b)) -> coef (c :: u) a b.
Proof.
  intros Z Hc F H. unfold fmpq_set_str in H.
  destruct (cut_slash (c :: u)) as [w v] eqn:E.
  apply cut_slash_split in E; [|constructor; [unfold coefb; rewrite Hc; reflexivity | exact F]].
  destruct E as [D E].
  assert (W : w <> []).
  { intros ->. destruct v as [v|]; cbn in E; [|discriminate]. injection E as -> _. discriminate. }
  destruct v as [v|].
  - destruct v as [|x v]; [discriminate|]. destruct (forallb digitb (x :: v)) eqn:G; [|discriminate].
    destruct (Z.eqb_spec (numval (x :: v)) 0); [exfalso; exact (Z _ _ H)|].
    injection H as <- <-. rewrite E. apply co_frac; [split; assumption | | assumption].
    split; [discriminate|]. apply Forall_forall. intros y Hy. exact (proj1 (forallb_forall _ _) G y Hy).
  - injection H as <- <-. rewrite E, app_nil_r. apply co_int. split; assumption.
Qed.

(** ** Powers *)
Lemma span_app u v : Forall (fun c => digitb c = true) u -> head_ok (fun c => negb (digitb c)) v ->
  span_digits (u ++ v) = (u, v).
Proof.
  induction 1 as [|c u H F IH]; intros S; cbn.
  - destruct v as [|c v]; [reflexivity|]. cbn in *. apply negb_true_iff in S. rewrite S. reflexivity.
  - rewrite H, IH by exact S. reflexivity.
Qed.
Lemma span_split s u v : span_digits s = (u, v) -> s = u ++ v /\ Forall (fun c => digitb c = true) u.
Proof.
  revert u v. induction s as [|c s IH]; cbn; intros u v H.
  - injection H as <- <-. split; [reflexivity | constructor].
  - destruct (digitb c) eqn:E.
    + destruct (span_digits s) as [u' v']. injection H as <- <-.
      destruct (IH _ _ eq_refl) as [-> F]. split; [reflexivity | constructor; assumption].
    + injection H as <- <-. split; [reflexivity | constructor].
Qed.

Lemma blanks_head b : blanks b -> head_ok (fun c => negb (digitb c)) b.
Proof. destruct 1 as [|c b <- B]; reflexivity. Qed.

Lemma exponent_read ds bl : digits ds -> numval ds <= long_max -> blanks bl ->
  exponent (ds ++ bl) = Val (Some (numval ds)).
Proof.
  intros [N D] M B. destruct ds as [|c ds]; [congruence|]. unfold exponent.
  change ((c :: ds) ++ bl) with (c :: ds ++ bl) at 1. cbv iota beta.
  inversion D; subst. rewrite (isdigit_true c H1). cbn [bind].
  rewrite span_app by (exact D || apply blanks_head; exact B).
  destruct (Z.ltb_spec long_max (numval (c :: ds))); [lia|]. rewrite skip_blanks_all by exact B. reflexivity.
Qed.
Lemma exponent_split s k : exponent s = Val (Some k) -> exists ds bl,
  s = ds ++ bl /\ digits ds /\ numval ds <= long_max /\ blanks bl /\ k = numval ds.
Proof.
  unfold exponent. destruct s as [|c s]; [discriminate|].
  unfold isdigit, ctype. destruct (wild c); [discriminate|]. cbn [bind]. destruct (digitb c) eqn:E; [|discriminate].
  destruct (span_digits (c :: s)) as [u v] eqn:S.
  assert (U : u <> []).
  { cbn in S. rewrite E in S. destruct (span_digits s). injection S as <- _. discriminate. }
  apply span_split in S. destruct S as [S F].
  destruct (Z.ltb_spec long_max (numval u)); [discriminate|].
  destruct (skip_blanks_split v) as (b & B & Ev & _).
  destruct (skip_blanks v); [|discriminate]. intros H1. injection H1 as <-.
  exists u, v. rewrite app_nil_r in Ev. subst v. repeat split; assumption.
Qed.

Lemma digits_head ds r : digits ds -> exists c t, ds ++ r = c :: t /\ digitb c = true.
Proof. intros [N D]. destruct ds as [|c ds]; [congruence|]. inversion D; subst. exists c, (ds ++ r). auto. Qed.

Lemma after_var_read var s k bl : power var s k -> blanks bl -> exists r, s = var ++ r /\ after_var (r ++ bl) = Val (Some k).
Proof.
  intros H B. destruct H as [|b1 b2 ds B1 B2 D M|ds D M].
  - exists []. split; [rewrite app_nil_r; reflexivity|]. cbn [app]. unfold after_var.
    rewrite skip_blanks_all by exact B. destruct B as [|c bl <- B]; reflexivity.
  - exists (b1 ++ "^"%char :: b2 ++ ds). split; [reflexivity|]. unfold after_var.
    replace ((b1 ++ "^"%char :: b2 ++ ds) ++ bl) with (b1 ++ "^"%char :: b2 ++ ds ++ bl)
      by (rewrite <- app_assoc; cbn; rewrite <- app_assoc; reflexivity).
    rewrite skip_blanks_app by exact B1.
    cbn [skip_blanks]. change (Ascii.eqb "^" cblank) with false. cbv iota beta. change (Ascii.eqb "^" "^") with true. cbv iota beta.
    rewrite skip_blanks_app by exact B2.
    rewrite skip_blanks_head; [rewrite (exponent_read ds bl D M B) | ].
    + destruct B1 as [|c b1 <- B1]; reflexivity.
    + destruct (digits_head ds bl D) as (c & t & -> & Hc). cbn.
      destruct (word_tame c (digit_word c Hc)) as (_ & -> & _). reflexivity.
  - exists ds. split; [reflexivity|]. unfold after_var.
    destruct (digits_head ds bl D) as (c & t & E & Hc). rewrite E at 1. rewrite (isdigit_true c Hc). cbn [bind].
    apply exponent_read; assumption.
Qed.
Lemma after_var_split var r k : after_var r = Val (Some k) -> exists s bl,
  var ++ r = s ++ bl /\ power var s k /\ blanks bl.
Proof.
  unfold after_var. intros H.
  destruct (match r with [] => Val false | c :: _ => isdigit c end) as [d| | |]; cbn [bind] in H; try discriminate.
  destruct d.
  - apply exponent_split in H. destruct H as (ds & bl & -> & D & M & B & ->).
    exists (var ++ ds), bl. split; [apply app_assoc|]. split; [apply po_bare; assumption | exact B].
  - destruct (skip_blanks_split r) as (b1 & B1 & E & _).
    destruct (skip_blanks r) as [|c s'].
    + injection H as <-. exists var, r. split; [reflexivity|]. split; [constructor|]. rewrite E, app_nil_r. exact B1.
    + destruct (Ascii.eqb c "^") eqn:C; [|discriminate]. apply eqb_eq in C. subst c.
      destruct (skip_blanks_split s') as (b2 & B2 & E2 & _).
      apply exponent_split in H. destruct H as (ds & bl & E3 & D & M & B & ->).
      exists (var ++ b1 ++ "^"%char :: b2 ++ ds), bl. split; [|split; [apply po_caret; assumption | exact B]].
      rewrite E, E2, E3. rewrite <- !app_assoc. cbn. rewrite <- !app_assoc. reflexivity.
Qed.

Lemma prefix_app p s : prefix p (p ++ s) = Some s.
Proof. induction p as [|c p IH]; [reflexivity|]. cbn. rewrite eqb_refl. exact IH. Qed.
Lemma prefix_split p s r : prefix p s = Some r -> s = p ++ r.
Proof.
  revert s. induction p as [|c p IH]; cbn; intros s H; [congruence|].
  destruct s as [|d s]; [discriminate|]. destruct (Ascii.eqb c d) eqn:E; [|discriminate].
  apply eqb_eq in E. subst d. cbn. f_equal. apply IH. exact H.
Qed.

Lemma power_head var s k : name var -> power var s k -> exists c t, s = c :: t /\ wordb c = true /\ digitb c = false.
Proof.
  intros N H. destruct (name_word var N) as [_ (c & v & -> & D & W)].
  destruct H; [exists c, v | exists c, (v ++ b1 ++ "^"%char :: b2 ++ ds) | exists c, (v ++ ds)]; auto.
Qed.
Lemma go_read var s k bl : power var s k -> blanks bl ->
  match prefix var (s ++ bl) with None => Val None | Some r => after_var r end = Val (Some k).
Proof.
  intros H B. destruct (after_var_read var s k bl H B) as (r & -> & E).
  rewrite <- app_assoc, prefix_app. exact E.
Qed.
Lemma star_read var s k bl : name var -> power var s k -> blanks bl -> star_var var (s ++ bl) = Val (Some k).
Proof.
  intros N H B. pose proof (go_read var s k bl H B) as G.
  destruct (power_head var s k N H) as (c & t & -> & W & _). unfold star_var. cbn [app] in *.
  destruct (word_tame c W) as (_ & _ & _ & _ & _ & -> & _). exact G.
Qed.
Lemma star_read2 var s k b2 bl : name var -> power var s k -> blanks b2 -> blanks bl ->
  star_var var ("*"%char :: b2 ++ s ++ bl) = Val (Some k).
Proof.
  intros N H B2 B. pose proof (go_read var s k bl H B) as G.
  destruct (power_head var s k N H) as (c & t & -> & W & _). unfold star_var.
  change (Ascii.eqb "*" "*") with true. cbv iota beta. rewrite skip_blanks_app by exact B2.
  rewrite skip_blanks_head by (cbn; destruct (word_tame c W) as (_ & -> & _); reflexivity).
  exact G.
Qed.
Lemma star_split var x k : name var -> star_var var x = Val (Some k) -> exists s bl, blanks bl /\ power var s k /\
  (x = s ++ bl \/ exists b2, blanks b2 /\ x = "*"%char :: b2 ++ s ++ bl).
Proof.
  intros N.
  assert (G : forall s, match prefix var s with None => Val None | Some r => after_var r end = Val (Some k) ->
    exists s' bl, blanks bl /\ power var s' k /\ s = s' ++ bl).
  { intros s. destruct (prefix var s) as [r|] eqn:P; [|discriminate]. intros H.
    apply prefix_split in P. destruct (after_var_split var r k H) as (s' & bl & E & A & B).
    exists s', bl. repeat split; [exact B | exact A | congruence]. }
  unfold star_var. intros H.
  destruct x as [|c x].
  - apply G in H. destruct H as (s & bl & B & P & E). exists s, bl. auto.
  - destruct (Ascii.eqb c "*") eqn:E.
    + apply eqb_eq in E. subst c. destruct (skip_blanks_split x) as (b2 & B2 & E2 & _).
      destruct (skip_blanks x) as [|y z]; [discriminate|].
      apply G in H. destruct H as (s & bl & B & P & E). exists s, bl. repeat split; [exact B | exact P |].
      right. exists b2. split; [exact B2|]. congruence.
    + apply G in H. destruct H as (s & bl & B & P & E'). exists s, bl. auto.
Qed.

(** ** Terms *)
Lemma digit_not_blank c : digitb c = true -> Ascii.eqb c cblank = false /\ solid c = true.
Proof. chars c. Qed.
Lemma word_solid c : wordb c = true -> solid c = true.
Proof. chars c. Qed.

Lemma power_chars var s k : name var -> power var s k -> Forall (fun c => termb c = true) s.
Proof.
  intros N H. destruct (name_word var N) as [F _].
  assert (V : Forall (fun c => termb c = true) var) by (eapply Forall_impl; [|exact F]; intros; apply word_term; assumption).
  assert (D : forall ds, digits ds -> Forall (fun c => termb c = true) ds).
  { intros ds [_ D]. eapply Forall_impl; [|exact D]. intros; apply word_term, digit_word; assumption. }
  assert (B : forall b, blanks b -> Forall (fun c => termb c = true) b).
  { intros b. apply Forall_impl. intros a <-. reflexivity. }
  destruct H; auto.
  - apply Forall_app; split; [exact V|]. apply Forall_app; split; [auto|]. constructor; [reflexivity|].
    apply Forall_app; split; auto.
  - apply Forall_app; split; auto.
Qed.

Lemma body_chars loose var s a b k : name var -> body loose var s a b k ->
  Forall (fun c => termb c = true) s /\ exists c t, s = c :: t /\ solid c = true.
Proof.
  intros N H.
  assert (C : forall c a b, coef c a b -> Forall (fun c => termb c = true) c).
  { intros c0 a0 b0 Hc. eapply Forall_impl; [|apply (proj1 (coef_chars _ _ _ Hc))].
    intros x. unfold coefb, termb, wordb. rewrite orb_true_iff. intros [-> | ->]; cbn; [reflexivity|].
    rewrite orb_true_r. reflexivity. }
  assert (B : forall b, blanks b -> Forall (fun c => termb c = true) b).
  { intros b0. apply Forall_impl. intros x <-. reflexivity. }
  assert (S : forall c a b r, coef c a b -> exists x t, c ++ r = x :: t /\ solid x = true).
  { intros c0 a0 b0 r Hc. destruct (coef_chars _ _ _ Hc) as [_ (x & t & -> & D)]. exists x, (t ++ r).
    split; [reflexivity | apply digit_not_blank; exact D]. }
  destruct H.
  - split; [eauto|]. destruct (S _ _ _ [] H) as (x & t & E & D). rewrite app_nil_r in E. eauto.
  - split; [eapply power_chars; eauto|]. destruct (power_head _ _ _ N H) as (x & t & E & W & _).
    exists x, t. split; [exact E | apply word_solid; exact W].
  - split; [|eauto]. repeat (apply Forall_app; split); eauto. eapply power_chars; eauto.
  - split; [|eauto]. apply Forall_app; split; [eauto|]. apply Forall_app; split; [auto|].
    constructor; [reflexivity|]. apply Forall_app; split; [auto|]. eapply power_chars; eauto.
  - split; [|exists "*"%char, (b2 ++ s); split; reflexivity].
    constructor; [reflexivity|]. apply Forall_app; split; [auto|]. eapply power_chars; eauto.
Qed.

(** The part of [monomial] after the sign. *)
Definition tail_of (var : str) (sign : Z) (x : str) : out (option (Z * Z * Z)) :=
  bind (match x with [] => Val false | c :: _ => isdigit c end) (fun d =>
  bind (match x with
        | c :: x' =>
            if d then
              bind (coeff_chars x') (fun '(u, v) =>
              bind (fmpq_set_str zd (c :: u)) (fun r =>
                match r with None => Val None | Some q => Val (Some (q, v)) end))
            else Val (Some ((1, 1), x))
        | [] => Val (Some ((1, 1), x))
        end) (fun r =>
    match r with
    | None => Val None
    | Some ((a, b), x) =>
        let a := if sign =? -1 then - a else a in
        match skip_blanks x with
        | [] => Val (Some (a, b, 0))
        | x => bind (star_var var x) (fun k =>
                 match k with None => Val None | Some k => Val (Some (a, b, k)) end)
        end
    end)).

Lemma monomial_tail var w sg g c t : skip_blanks w = sg ++ c :: t -> sign_run sg g -> solid c = true ->
  monomial zd var w = tail_of var g (c :: t).
Proof.
  intros E R S. unfold monomial. rewrite E.
  pose proof (signs_run sg g R 1 c t S) as X. rewrite Z.mul_1_l in X.
  destruct (sg ++ c :: t) eqn:Q; [destruct sg; discriminate|]. rewrite X. reflexivity.
Qed.

Lemma tail_nonnum var g c t : g = 1 \/ g = -1 -> wild c = false -> digitb c = false -> Ascii.eqb c cblank = false ->
  tail_of var g (c :: t) = bind (star_var var (c :: t)) (fun k =>
                 match k with None => Val None | Some k => Val (Some (g, 1, k)) end).
Proof.
  intros G W D B. unfold tail_of. rewrite (isdigit_tame c W), D. cbn [bind].
  cbn [skip_blanks]. rewrite B. destruct G as [-> | ->]; reflexivity.
Qed.

Lemma tail_num var g c a b r : g = 1 \/ g = -1 -> coef c a b -> stops coefb r ->
  tail_of var g (c ++ r) =
    match skip_blanks r with
    | [] => Val (Some (g * a, b, 0))
    | x => bind (star_var var x) (fun k =>
             match k with None => Val None | Some k => Val (Some (g * a, b, k)) end)
    end.
Proof.
  intros G C S. destruct (coef_chars c a b C) as [F (x & t & -> & D)]. inversion F; subst.
  unfold tail_of. cbn [app]. rewrite (isdigit_true x D). cbn [bind].
  rewrite coeff_chars_app by assumption. cbn [bind].
  rewrite (coef_read _ _ _ C). cbn [bind].
  replace (if g =? -1 then - a else a) with (g * a) by (destruct G as [-> | ->]; cbn; destruct a; reflexivity).
  reflexivity.
Qed.

Lemma stops_word var s k r bl : name var -> power var s k -> blanks bl -> stops coefb (bl ++ s ++ r).
Proof.
  intros N H B. destruct (power_head var s k N H) as (c & t & -> & W & D).
  destruct B as [|x bl <- B]; [|split; reflexivity]. cbn.
  destruct (word_tame c W) as (A & _ & _ & _ & E & _). unfold coefb. rewrite D, E. auto.
Qed.

Lemma tail_read loose var s a b k bl g : name var -> g = 1 \/ g = -1 -> body loose var s a b k -> blanks bl ->
  tail_of var g (s ++ bl) = Val (Some (g * a, b, k)).
Proof.
  intros N G H B. destruct H.
  - rewrite (tail_num var g c a b bl G H); [rewrite skip_blanks_all by exact B; reflexivity|].
    destruct B as [|x bl <- B]; [exact I | split; reflexivity].
  - destruct (power_head var s k N H) as (c & t & E & W & D). subst s. cbn [app].
    destruct (word_tame c W) as (T & Bc & _).
    rewrite (tail_nonnum var g c (t ++ bl) G T D Bc).
    change (c :: t ++ bl) with ((c :: t) ++ bl).
    rewrite (star_read var (c :: t) k bl N H B). cbn [bind]. rewrite Z.mul_1_r. reflexivity.
  - rewrite <- !app_assoc. rewrite (tail_num var g c a b _ G H (stops_word var s k bl bl0 N H1 H0)).
    rewrite skip_blanks_app by exact H0.
    pose proof (star_read var s k bl N H1 B) as SR.
    destruct (power_head var s k N H1) as (x & t & E & W & D). subst s. cbn [app] in *.
    rewrite skip_blanks_head by (cbn; destruct (word_tame x W) as (_ & -> & _); reflexivity).
    rewrite SR. reflexivity.
  - rewrite <- !app_assoc. cbn [app]. rewrite <- !app_assoc.
    rewrite (tail_num var g c a b _ G H).
    + rewrite skip_blanks_app by exact H0.
      rewrite skip_blanks_head by reflexivity.
      rewrite (star_read2 var s k b2 bl N H2 H1 B). reflexivity.
    + destruct H0 as [|x b1 <- B1]; split; reflexivity.
  - cbn [app]. rewrite <- app_assoc.
    rewrite (tail_nonnum var g "*"%char _ G eq_refl eq_refl eq_refl).
    rewrite (star_read2 var s k b2 bl N H1 H0 B). cbn [bind]. rewrite Z.mul_1_r. reflexivity.
Qed.

Lemma tail_split var c t g a b k : name var -> zero_den_ok zd -> g = 1 \/ g = -1 -> solid c = true ->
  tail_of var g (c :: t) = Val (Some (a, b, k)) ->
  exists s bl a0, c :: t = s ++ bl /\ body true var s a0 b k /\ blanks bl /\ a = g * a0.
Proof.
  intros N Z G S H.
  destruct (wild c) eqn:W.
  { unfold tail_of, isdigit, ctype in H. rewrite W in H. discriminate. }
  destruct (digitb c) eqn:D.
  - unfold tail_of in H. rewrite (isdigit_true c D) in H. cbn [bind] in H.
    destruct (coeff_chars t) as [[u v]| | |] eqn:CC; cbn [bind] in H; try discriminate.
    apply coeff_chars_split in CC. destruct CC as [-> F].
    destruct (fmpq_set_str zd (c :: u)) as [[[a0 b0]|]| | |] eqn:FS; cbn [bind] in H; try discriminate.
    pose proof (coef_of_read c u a0 b0 Z D F FS) as C.
    replace (if g =? -1 then - a0 else a0) with (g * a0) in H by (destruct G as [-> | ->]; cbn; destruct a0; reflexivity).
    destruct (skip_blanks_split v) as (b1 & B1 & E1 & _).
    destruct (skip_blanks v) as [|y z].
    + injection H as <- <- <-. exists (c :: u), v, a0. repeat split; [constructor; exact C |].
      rewrite E1, app_nil_r. exact B1.
    + destruct (star_var var (y :: z)) as [[k'|]| | |] eqn:SV; cbn [bind] in H; try discriminate.
      injection H as <- <- <-. rewrite E1.
      destruct (star_split var (y :: z) k' N SV) as (s & bl & B & P & [E|(b2 & B2 & E)]); rewrite E.
      * exists ((c :: u) ++ b1 ++ s), bl, a0. repeat split; [| apply bo_both; assumption | exact B].
        rewrite <- !app_assoc. reflexivity.
      * exists ((c :: u) ++ b1 ++ "*"%char :: b2 ++ s), bl, a0. repeat split; [| apply bo_star; assumption | exact B].
        rewrite <- !app_assoc. cbn. rewrite <- !app_assoc. reflexivity.
  - rewrite (tail_nonnum var g c t G W D (proj1 (solid_inv c S))) in H.
    destruct (star_var var (c :: t)) as [[k'|]| | |] eqn:SV; cbn [bind] in H; try discriminate.
    injection H as <- <- <-.
    destruct (star_split var (c :: t) k' N SV) as (s & bl & B & P & [E|(b2 & B2 & E)]); rewrite E.
    + exists s, bl, 1. repeat split; [constructor; exact P | exact B | ring].
    + exists ("*"%char :: b2 ++ s), bl, 1. repeat split; [cbn; rewrite <- app_assoc; reflexivity | apply bo_only_star; auto | exact B | ring].
Qed.

(** ** The sum *)
Lemma term_step loose var sg g s a b k bl r : name var -> sign_run sg g -> body loose var s a b k -> blanks bl ->
  starts_with_sign r ->
  let '(z, rest) := next_term (skip_blanks (sg ++ s ++ bl ++ r)) in
  monomial zd var z = Val (Some (g * a, b, k)) /\ rest = r.
Proof.
  intros N R Bo Bl Sr.
  destruct (body_chars loose var s a b k N Bo) as [F (c & t & E & S)].
  assert (T : sg ++ s ++ bl ++ r = sg ++ c :: (t ++ bl) ++ r) by (rewrite E; cbn; rewrite <- app_assoc; reflexivity).
  rewrite T.
  destruct (run_skip sg g R c ((t ++ bl) ++ r) S) as (sg' & R' & ->).
  rewrite (next_term_app sg' g c (t ++ bl) r R' S); [split; [|reflexivity]| |exact Sr].
  - destruct (run_skip sg' g R' c (t ++ bl) S) as (sg2 & R2 & E2).
    rewrite (monomial_tail var _ sg2 g c (t ++ bl) E2 R2 S).
    change (c :: t ++ bl) with ((c :: t) ++ bl). rewrite <- E.
    apply (tail_read loose var s a b k bl g N (sign_run_unit sg g R) Bo Bl).
  - assert (F2 : Forall (fun c => termb c = true) (t ++ bl)).
    { apply Forall_app. split; [rewrite E in F; inversion F; assumption|].
      eapply Forall_impl; [|exact Bl]. intros x <-. reflexivity. }
    eapply Forall_impl; [|exact F2]. intros x Hx. apply term_nosign. exact Hx.
Qed.

Definition add_terms (p : elem) (ts : list (Z * Z * Z)) : elem :=
  fold_left (fun p t => let '(a, b, k) := t in add_term p a b k) ts p.

Lemma body_length loose var s a b k : name var -> body loose var s a b k -> (0 < length s)%nat.
Proof. intros N H. destruct (body_chars _ _ _ _ _ _ N H) as [_ (c & t & -> & _)]. cbn. lia. Qed.

Lemma loop_read loose var s ts : name var -> sum loose var s ts -> forall fuel p, (length s < fuel)%nat ->
  set_str_loop zd fuel var p s = Val (Some (add_terms p ts)).
Proof.
  intros N H. induction H as [sg g s a b k bl R Bo Bl|sg g s a b k bl r ts R Bo Bl Sr Su IH]; intros fuel p L.
  - destruct fuel as [|f]; [lia|].
    pose proof (term_step loose var sg g s a b k bl [] N R Bo Bl I) as T. rewrite app_nil_r in T.
    pose proof (body_length _ _ _ _ _ _ N Bo) as P. rewrite !app_length in L.
    cbn [set_str_loop]. destruct (sg ++ s ++ bl) as [|x y] eqn:E.
    { apply (f_equal (@length ascii)) in E. rewrite !app_length in E. cbn in E. lia. }
    destruct (next_term (skip_blanks (x :: y))) as [z rest]. destruct T as [T ->]. rewrite T. cbn [bind].
    destruct f as [|f]; [lia|]. reflexivity.
  - destruct fuel as [|f]; [lia|].
    pose proof (term_step loose var sg g s a b k bl r N R Bo Bl Sr) as T.
    pose proof (body_length _ _ _ _ _ _ N Bo) as P. rewrite !app_length in L.
    cbn [set_str_loop]. destruct (sg ++ s ++ bl ++ r) as [|x y] eqn:E.
    { apply (f_equal (@length ascii)) in E. rewrite !app_length in E. cbn in E. lia. }
    destruct (next_term (skip_blanks (x :: y))) as [z rest]. destruct T as [T ->]. rewrite T. cbn [bind].
    rewrite IH by lia. reflexivity.
Qed.

Lemma set_str_read loose var s ts : name var -> form loose var s ts ->
  set_str zd var s = Val (Some (add_terms {| e_num := []; e_den := 1 |} ts)).
Proof.
  intros N H. unfold set_str. rewrite (name_varname var N). cbn [bind].
  destruct H as [s ts H|_]; [|reflexivity]. apply (loop_read loose var s ts N H). lia.
Qed.

Lemma loop_split var fuel : name var -> zero_den_ok zd -> forall s p q,
  set_str_loop zd fuel var p s = Val (Some q) -> s = [] \/ exists ts, sum true var s ts.
Proof.
  intros N Z. induction fuel as [|f IH]; intros s p q H; [discriminate|].
  destruct s as [|x s]; [left; reflexivity|]. right. cbn [set_str_loop] in H.
  destruct (skip_blanks_split (x :: s)) as (b0 & B0 & E0 & _).
  destruct (next_term (skip_blanks (x :: s))) as [z rest] eqn:NT.
  apply next_term_split in NT. destruct NT as [Ez Sr].
  destruct (monomial zd var z) as [[[[a b] k]|]| | |] eqn:M; cbn [bind] in H; try discriminate.
  assert (T : exists sg g s0 bl a0, z = sg ++ s0 ++ bl /\ sign_run sg g /\ body true var s0 a0 b k /\ blanks bl /\ a = g * a0).
  { unfold monomial in M. destruct (skip_blanks_split z) as (b1 & B1 & E1 & _).
    destruct (skip_blanks z) as [|y w] eqn:SB; [discriminate|].
    destruct (signs 1 (y :: w)) as [[g t]|] eqn:Sg; [|discriminate].
    apply signs_split in Sg. destruct Sg as (sg & g' & R & E2 & -> & (c & u & -> & Sc)).
    rewrite Z.mul_1_l in M.
    assert (M' : tail_of var g' (c :: u) = Val (Some (a, b, k))) by exact M.
    destruct (tail_split var c u g' a b k N Z (sign_run_unit sg g' R) Sc M') as (s0 & bl & a0 & E3 & Bo & Bl & ->).
    exists (b1 ++ sg), g', s0, bl, a0. repeat split; auto.
    - rewrite E1, E2, E3. rewrite <- app_assoc. reflexivity.
    - apply run_blanks; assumption. }
  destruct T as (sg & g & s0 & bl & a0 & -> & R & Bo & Bl & ->).
  destruct (IH _ _ _ H) as [->|(ts & Su)].
  - exists [(g * a0, b, k)]. rewrite E0, Ez, app_nil_r, app_assoc. apply su_one; auto. apply run_blanks; assumption.
  - exists ((g * a0, b, k) :: ts). rewrite E0, Ez. rewrite <- !app_assoc, app_assoc.
    apply su_more; auto. apply run_blanks; assumption.
Qed.

Lemma set_str_split var s q : zero_den_ok zd -> set_str zd var s = Val (Some q) ->
  name var /\ exists ts, form true var s ts.
Proof.
  intros Z H. unfold set_str in H.
  destruct (is_varname var) as [[|]| | |] eqn:V; cbn [bind] in H; try discriminate.
  apply varname_name in V. split; [exact V|].
  destruct (loop_split var _ V Z s _ q H) as [->|(ts & Su)]; [exists []; constructor; reflexivity | exists ts; constructor; exact Su].
Qed.

(** ** The parser always answers on tame strings *)
Definition answers {A} (v : out A) : Prop := exists a, v = Val a.
Definition tame (s : str) : Prop := Forall (fun c => wild c = false) s.

Lemma bind_answers {A B} (v : out A) (f : A -> out B) : answers v -> (forall a, v = Val a -> answers (f a)) -> answers (bind v f).
Proof. intros [a ->] H. apply H. reflexivity. Qed.
Lemma val_answers {A} (a : A) : answers (Val a).
Proof. exists a. reflexivity. Qed.
Hint Resolve val_answers : core.

Lemma tame_app a b : tame (a ++ b) <-> tame a /\ tame b.
Proof. apply Forall_app. Qed.
Lemma tame_skip s : tame s -> tame (skip_blanks s).
Proof. intros T. destruct (skip_blanks_split s) as (b & _ & E & _). rewrite E in T. apply tame_app in T. apply T. Qed.
Lemma isdigit_answers c : wild c = false -> answers (isdigit c).
Proof. intros W. rewrite (isdigit_tame c W). auto. Qed.
Lemma head_answers s : tame s -> answers (match s with [] => Val false | c :: _ => isdigit c end).
Proof. destruct 1; [auto | apply isdigit_answers; assumption]. Qed.

Lemma exponent_answers s : tame s -> answers (exponent s).
Proof.
  destruct 1 as [|c s W T]; unfold exponent; [auto|]. apply bind_answers; [apply isdigit_answers; exact W|].
  intros d _. destruct d; [|auto]. destruct (span_digits (c :: s)) as [u v].
  destruct (long_max <? numval u); [auto|]. destruct (skip_blanks v); auto.
Qed.
Lemma after_var_answers s : tame s -> answers (after_var s).
Proof.
  intros T. unfold after_var. apply bind_answers; [apply head_answers; exact T|]. intros d _. destruct d.
  - apply exponent_answers; exact T.
  - pose proof (tame_skip s T) as T2. destruct (skip_blanks s) as [|c s']; [auto|].
    destruct (Ascii.eqb c "^"); [|auto]. inversion T2; subst. apply exponent_answers, tame_skip. assumption.
Qed.
Lemma prefix_answers var s : tame s -> answers (match prefix var s with None => Val None | Some r => after_var r end).
Proof.
  intros T. destruct (prefix var s) eqn:P; [|auto]. apply prefix_split in P. subst s. apply tame_app in T.
  apply after_var_answers. apply T.
Qed.
Lemma star_answers var s : tame s -> answers (star_var var s).
Proof.
  intros T. unfold star_var. destruct s as [|c s]; [apply prefix_answers; exact T|].
  destruct (Ascii.eqb c "*"); [|apply prefix_answers; exact T].
  inversion T; subst. pose proof (tame_skip s H2) as T2. destruct (skip_blanks s); [auto|]. apply prefix_answers; exact T2.
Qed.
Lemma coeff_chars_answers s : tame s -> answers (coeff_chars s).
Proof.
  induction 1 as [|c s W T IH]; cbn [coeff_chars]; [auto|]. apply bind_answers; [apply isdigit_answers; exact W|].
  intros d _. destruct (d || Ascii.eqb c "/"); [|auto]. apply bind_answers; [exact IH|]. intros [u v] _. auto.
Qed.
Lemma fmpq_answers s : (forall n, answers (zd n)) -> answers (fmpq_set_str zd s).
Proof.
  intros Z. unfold fmpq_set_str. destruct (cut_slash s) as [u [v|]]; [|auto]. destruct v; [auto|].
  destruct (forallb digitb (a :: v)); [|auto]. destruct (numval (a :: v) =? 0); auto.
Qed.
Lemma tail_answers var g x : (forall n, answers (zd n)) -> tame x -> answers (tail_of var g x).
Proof.
  intros Z T. unfold tail_of. apply bind_answers; [apply head_answers; exact T|]. intros d _. apply bind_answers.
  - destruct x as [|c x]; [auto|]. destruct d; [|auto]. inversion T; subst.
    apply bind_answers; [apply coeff_chars_answers; assumption|]. intros [u v] _.
    apply bind_answers; [apply fmpq_answers; exact Z|]. intros [q|] _; auto.
  - intros r E.
    assert (Tr : match r with None => True | Some (_, y) => tame y end).
    { destruct x as [|c x]; [injection E as <-; constructor|]. destruct d; [|injection E as <-; exact T].
      inversion T; subst. destruct (coeff_chars x) as [[u v]| | |] eqn:CC; cbn [bind] in E; try discriminate.
      destruct (fmpq_set_str zd (c :: u)) as [[q|]| | |]; cbn [bind] in E; try discriminate; injection E as <-; [|exact I].
      apply coeff_chars_split in CC. destruct CC as [-> _]. apply tame_app in H2. apply H2. }
    destruct r as [[[a b] y]|]; [|auto]. pose proof (tame_skip y Tr) as T2.
    destruct (skip_blanks y); [auto|]. apply bind_answers; [apply star_answers; exact T2|]. intros [k|] _; auto.
Qed.
Lemma monomial_answers var w : (forall n, answers (zd n)) -> tame w -> answers (monomial zd var w).
Proof.
  intros Z T. unfold monomial. pose proof (tame_skip w T) as T2. destruct (skip_blanks w) as [|c s]; [auto|].
  destruct (signs 1 (c :: s)) as [[g x]|] eqn:Sg; [|auto].
  apply signs_split in Sg. destruct Sg as (sg & g' & _ & E & _ & _). rewrite E in T2. apply tame_app in T2.
  apply (tail_answers var g x Z). apply T2.
Qed.
Lemma loop_answers var : (forall n, answers (zd n)) -> forall fuel s p, tame s -> (length s < fuel)%nat ->
  answers (set_str_loop zd fuel var p s).
Proof.
  intros Z. induction fuel as [|f IH]; intros s p T L; [lia|]. cbn [set_str_loop].
  destruct s as [|x s]; [auto|]. pose proof (tame_skip _ T) as T2.
  assert (L2 : (length (skip_blanks (x :: s)) <= length (x :: s))%nat).
  { destruct (skip_blanks_split (x :: s)) as (b & _ & E & _). rewrite E at 2. rewrite app_length. lia. }
  destruct (next_term (skip_blanks (x :: s))) as [z rest] eqn:NT.
  pose proof (next_term_split _ _ _ NT) as [E _]. rewrite E in T2. apply tame_app in T2.
  apply bind_answers; [apply monomial_answers; [exact Z | apply T2]|]. intros [[[a b] k]|] M; [|auto].
  apply IH; [apply T2|]. destruct (skip_blanks (x :: s)) as [|y w] eqn:Q.
  - cbn in NT. injection NT as <- <-. cbn in M. discriminate.
  - apply next_term_shorter in NT. cbn in *. lia.
Qed.
Lemma varname_answers var : tame var -> answers (is_varname var).
Proof.
  destruct 1 as [|c v W T]; cbn [is_varname]; [auto|]. unfold isalpha, ctype. rewrite W. cbn [bind].
  destruct (alphab c || Ascii.eqb c "_"); [|auto].
  induction T as [|a v Wa T IH]; cbn [all_alnum]; [auto|]. unfold isalnum, ctype. rewrite Wa. cbn [bind].
  destruct (negb (digitb a || alphab a) && negb (Ascii.eqb a "_")); auto.
Qed.
Lemma set_str_answers var s : (forall n, answers (zd n)) -> tame var -> tame s -> answers (set_str zd var s).
Proof.
  intros Z V T. unfold set_str. apply bind_answers; [apply varname_answers; exact V|]. intros [|] _; [|auto].
  apply loop_answers; [exact Z | exact T | lia].
Qed.
End Zero.

(** * Characters *)
Definition digit_list : str := String.list_ascii_of_string "0123456789".
Definition letter_list : str := String.list_ascii_of_string "abcdefghijklmnopqrstuvwxyzABCDEFGHIJKLMNOPQRSTUVWXYZ".
Lemma characters : forall c,
  (digitb c = true <-> In c digit_list) /\ (alphab c = true <-> In c letter_list) /\
  (isdigit c = Undef <-> (128 <= Z.of_N (N_of_ascii c) <= 254)%Z) /\
  (forall ds i, nth_error digit_list i = Some c -> numval (ds ++ [c]) = (10 * numval ds + Z.of_nat i)%Z) /\
  long_max = 9223372036854775807%Z /\
  (isspaceb c = true <-> In (N_of_ascii c) [9; 10; 11; 12; 13; 32]%N).
Proof.
  assert (Ex : forall l c, existsb (Ascii.eqb c) l = true <-> In c l).
  { intros l c. rewrite existsb_exists. split; [intros (d & I & E); apply Ascii.eqb_eq in E; subst d; exact I|intros I; exists c; split; [exact I|apply Ascii.eqb_refl]]. }
  intros c. split; [|split; [|split; [|split; [|split; [reflexivity|]]]]].
  - rewrite <- Ex. assert (E : digitb c = existsb (Ascii.eqb c) digit_list) by (destruct c as [[] [] [] [] [] [] [] []]; vm_compute; reflexivity). rewrite E. reflexivity.
  - rewrite <- Ex. assert (E : alphab c = existsb (Ascii.eqb c) letter_list) by (destruct c as [[] [] [] [] [] [] [] []]; vm_compute; reflexivity). rewrite E. reflexivity.
  - unfold isdigit, ctype, wild, code. destruct (Z.leb_spec 128 (Z.of_N (N_of_ascii c))), (Z.leb_spec (Z.of_N (N_of_ascii c)) 254); cbn [andb]; split; intros A; try discriminate A; try lia; reflexivity.
  - intros ds i E. unfold numval. rewrite fold_left_app. cbn [fold_left]. unfold num_step at 1. f_equal.
    do 10 (destruct i as [|i]; [injection E as <-; reflexivity|]). destruct i; discriminate E.
  - destruct c as [[] [] [] [] [] [] [] []]; vm_compute; split; intros A; try reflexivity; try discriminate A; try (decompose [or] A; (discriminate || contradiction)); tauto.
Qed.
