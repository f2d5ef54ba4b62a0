(** Reading polynomials from arrays of characters, see PropertiesPtr.v. *)
Require Import List ZArith Bool Ascii Arith Lia.
From Verif Require Import RootModel ArbModel ElemModel StrModel ArrModel ArrProofs PtrModel.
Import ListNotations.
Open Scope Z_scope.

(** At index [i] of [a] there is the string [s]. *)
Definition here (a : buf) (i : nat) (s : str) : Prop := exists u r, a = u ++ s ++ nul :: r /\ length u = i /\ ~ In nul s.

Lemma here_rd : forall a i s, here a i s -> rd a i = Val (hd nul s).
Proof. intros a i s (u & r & -> & <- & _). destruct s as [|c s]; cbn [app hd]; apply rd_mid. Qed.
Lemma here_next : forall a i c s, here a i (c :: s) -> here a (S i) s /\ Ascii.eqb c nul = false.
Proof.
  intros a i c s (u & r & E & L & N). split.
  - exists (u ++ [c]), r. split; [rewrite E, <- app_assoc; reflexivity|]. split; [rewrite app_length; cbn; lia|]. intros H. apply N. right. exact H.
  - apply Ascii.eqb_neq. intros ->. apply N. left. reflexivity.
Qed.
Lemma here_drop : forall u a i v, here a i (u ++ v) -> here a (i + length u) v.
Proof.
  induction u as [|c u IH]; intros a i v H; [cbn; rewrite Nat.add_0_r; exact H|]. cbn [app] in H. apply here_next in H. destruct H as [H _].
  cbn [length]. replace (i + S (length u))%nat with (S i + length u)%nat by lia. apply IH, H.
Qed.
Lemma here_len : forall a i s, here a i s -> (i + length s < length a)%nat.
Proof. intros a i s (u & r & -> & <- & _). rewrite !app_length. cbn. lia. Qed.
Lemma here_clean : forall a i s, here a i s -> ~ In nul s.
Proof. intros a i s (u & r & _ & _ & H). exact H. Qed.

(** * Loops *)
Fixpoint span (f : ascii -> out bool) (s : str) : out (str * str) :=
  match s with
  | [] => Val ([], [])
  | c :: s' => bind (f c) (fun b => if b then bind (span f s') (fun '(u, v) => Val (c :: u, v)) else Val ([], s))
  end.
Lemma span_app : forall f s u v, span f s = Val (u, v) -> s = u ++ v.
Proof.
  intros f. induction s as [|c s IH]; intros u v E; [injection E as <- <-; reflexivity|]. cbn [span] in E. destruct (f c) as [b| | |]; try discriminate. cbn [bind] in E.
  destruct b; [|injection E as <- <-; reflexivity]. destruct (span f s) as [[u' v']| | |]; try discriminate. injection E as <- <-. cbn. f_equal. apply IH. reflexivity.
Qed.
Lemma while_ok : forall f a, f nul = Val false -> forall s fuel i, here a i s -> (length s < fuel)%nat ->
  while fuel f a i = bind (span f s) (fun '(u, _) => Val (i + length u)%nat).
Proof.
  intros f a Fn. induction s as [|c s IH]; intros fuel i H L; (destruct fuel as [|fuel]; [cbn in L; lia|]); cbn [while span]; rewrite (here_rd _ _ _ H); cbn [hd bind].
  - rewrite Fn. cbn [bind length]. rewrite Nat.add_0_r. reflexivity.
  - destruct (f c) as [b| | |]; try reflexivity. cbn [bind]. destruct b; [|cbn [length bind]; rewrite Nat.add_0_r; reflexivity].
    apply here_next in H. rewrite (IH fuel (S i) (proj1 H)) by (cbn in L; lia). destruct (span f s) as [[u v]| | |]; try reflexivity. cbn [bind length]. f_equal. lia.
Qed.
Lemma scan_ok : forall f a s i, f nul = Val false -> here a i s -> scan f a i = bind (span f s) (fun '(u, _) => Val (i + length u)%nat).
Proof. intros f a s i Fn H. unfold scan. apply while_ok; [exact Fn|exact H|]. apply here_len in H. lia. Qed.

Lemma span_blank : forall s, exists u, span blank s = Val (u, skip_blanks s).
Proof.
  induction s as [|c s [u IH]]; [exists []; reflexivity|]. cbn [span skip_blanks]. change (blank c) with (Val (Ascii.eqb c cblank)). cbn [bind].
  destruct (Ascii.eqb c cblank); [|exists []; reflexivity]. rewrite IH. exists (c :: u). reflexivity.
Qed.
Lemma scan_blank : forall a i s, here a i s -> exists j, scan blank a i = Val j /\ here a j (skip_blanks s).
Proof.
  intros a i s H. destruct (span_blank s) as [u E]. rewrite (scan_ok blank a s i eq_refl H), E. cbn [bind]. eexists. split; [reflexivity|].
  apply span_app in E. rewrite E in H. apply here_drop in H. exact H.
Qed.

Lemma signs_ok : forall a s fuel sign i, here a i s -> (length s < fuel)%nat ->
  match signs sign s with
  | None => signs_buf fuel sign a i = Val None
  | Some (g, v) => exists j, signs_buf fuel sign a i = Val (Some (g, j)) /\ here a j v
  end.
Proof.
  intros a. induction s as [|c s IH]; intros fuel sign i H L; (destruct fuel as [|fuel]; [cbn in L; lia|]); cbn [signs signs_buf]; rewrite (here_rd _ _ _ H); cbn [hd bind].
  - reflexivity.
  - destruct (here_next _ _ _ _ H) as [H' N]. rewrite N. cbn [length] in L. destruct (Ascii.eqb c "-"); [apply IH; [exact H'|lia]|].
    destruct (Ascii.eqb c cblank) eqn:E1; cbn [orb negb andb]; [apply IH; [exact H'|lia]|].
    destruct (Ascii.eqb c "+") eqn:E2; cbn [orb negb andb]; [apply IH; [exact H'|lia]|]. exists i. split; [reflexivity|exact H].
Qed.

Lemma cstr_ok : forall a i s, here a i s -> cstr a i = Val s.
Proof.
  intros a i s H. unfold cstr. assert (L : (length s < S (length a))%nat) by (apply here_len in H; lia). revert i H L. generalize (S (length a)) as fuel. induction s as [|c s IH].
  - intros [|fuel] i H L; [lia|]. cbn [cstr_go]. rewrite (here_rd _ _ _ H). reflexivity.
  - intros [|fuel] i H L; [lia|]. cbn [cstr_go]. rewrite (here_rd _ _ _ H). cbn [hd bind]. apply here_next in H. destruct H as [H N]. rewrite N.
    rewrite (IH fuel (S i) H) by (cbn in L; lia). reflexivity.
Qed.

Lemma prefix_ok : forall a var s i, here a i s -> ~ In nul var ->
  match prefix var s with
  | None => prefix_buf var a i = Val None
  | Some v => exists j, prefix_buf var a i = Val (Some j) /\ here a j v
  end.
Proof.
  intros a. induction var as [|v var IH]; intros s i H N; cbn [prefix prefix_buf]; [exists i; split; [destruct s; reflexivity|destruct s; exact H]|].
  rewrite (here_rd _ _ _ H). cbn [bind]. destruct s as [|c s]; cbn [hd].
  - destruct (Ascii.eqb_spec v nul) as [->|_]; [|reflexivity]. exfalso. apply N. left. reflexivity.
  - destruct (Ascii.eqb v c); [|reflexivity]. apply here_next in H. apply IH; [apply H|]. intros X. apply N. right. exact X.
Qed.

(** * The exponent *)
Lemma digits_app : forall s u v, span_digits s = (u, v) -> s = u ++ v.
Proof.
  induction s as [|c s IH]; intros u v E; cbn [span_digits] in E; [injection E as <- <-; reflexivity|]. destruct (digitb c); [|injection E as <- <-; reflexivity].
  destruct (span_digits s) as [u' v']. injection E as <- <-. cbn. f_equal. apply IH. reflexivity.
Qed.
Lemma exponent_ok : forall a i s, here a i s -> exponent_buf a i = exponent s.
Proof.
  intros a i s H. unfold exponent_buf. rewrite (here_rd _ _ _ H). cbn [bind]. destruct s as [|c s']; [reflexivity|]. cbn [hd exponent].
  destruct (here_next _ _ _ _ H) as [_ N]. rewrite N. destruct (isdigit c) as [d| | |]; try reflexivity. cbn [bind]. destruct d; cbn [negb]; [|reflexivity].
  rewrite (cstr_ok _ _ _ H). cbn [bind]. destruct (span_digits (c :: s')) as [u v] eqn:E. destruct (long_max <? numval u); [reflexivity|].
  rewrite (digits_app _ _ _ E) in H. apply here_drop in H. destruct (scan_blank _ _ _ H) as [j [-> Hj]]. cbn [bind]. rewrite (here_rd _ _ _ Hj). cbn [bind].
  destruct (skip_blanks v) as [|b w]; [reflexivity|]. cbn [hd]. destruct (here_next _ _ _ _ Hj) as [_ N']. rewrite N'. reflexivity.
Qed.
Lemma isdigit_hd : forall s, isdigit (hd nul s) = match s with [] => Val false | c :: _ => isdigit c end.
Proof. intros [|c s]; reflexivity. Qed.
Lemma after_var_ok : forall a i s, here a i s -> after_var_buf a i = after_var s.
Proof.
  intros a i s H. unfold after_var_buf, after_var. rewrite (here_rd _ _ _ H). cbn [bind]. rewrite isdigit_hd.
  destruct (match s with [] => Val false | c :: _ => isdigit c end) as [d| | |]; try reflexivity. cbn [bind]. destruct d; [apply exponent_ok, H|].
  destruct (scan_blank _ _ _ H) as [j [-> Hj]]. cbn [bind]. rewrite (here_rd _ _ _ Hj). cbn [bind]. destruct (skip_blanks s) as [|c w]; [reflexivity|]. cbn [hd].
  destruct (here_next _ _ _ _ Hj) as [H' N]. rewrite N. destruct (Ascii.eqb c "^"); cbn [negb]; [|reflexivity].
  destruct (scan_blank _ _ _ H') as [k [-> Hk]]. cbn [bind]. apply exponent_ok, Hk.
Qed.
Lemma star_var_ok : forall var a i s, here a i s -> ~ In nul var -> star_var_buf var a i = star_var var s.
Proof.
  intros var a i s H V. unfold star_var_buf, star_var.
  assert (G : forall j t, here a j t ->
    bind (prefix_buf var a j) (fun r => match r with None => Val None | Some x => after_var_buf a x end) = match prefix var t with None => Val None | Some r => after_var r end).
  { intros j t Ht. pose proof (prefix_ok a var t j Ht V) as P. destruct (prefix var t) as [v|]; [|rewrite P; reflexivity]. destruct P as [k [-> Hk]]. cbn [bind]. apply after_var_ok, Hk. }
  rewrite (here_rd _ _ _ H). cbn [bind]. destruct s as [|c s']; cbn [hd].
  - change (Ascii.eqb nul "*") with false. cbn match. apply G, H.
  - destruct (Ascii.eqb c "*"); [|apply G, H]. destruct (here_next _ _ _ _ H) as [H' _]. destruct (scan_blank _ _ _ H') as [j [-> Hj]]. cbn [bind].
    rewrite (here_rd _ _ _ Hj). cbn [bind]. destruct (skip_blanks s') as [|d w] eqn:E; [reflexivity|]. cbn [hd]. destruct (here_next _ _ _ _ Hj) as [_ N]. rewrite N. apply G, Hj.
Qed.

(** * Terms *)
Lemma coeff_span : forall s, coeff_chars s = span (fun c => bind (isdigit c) (fun d => Val (d || Ascii.eqb c "/"))) s.
Proof.
  induction s as [|c s IH]; [reflexivity|]. cbn [coeff_chars span]. destruct (isdigit c) as [d| | |]; try reflexivity. cbn [bind]. destruct (d || Ascii.eqb c "/"); [|reflexivity].
  rewrite IH. reflexivity.
Qed.

Section Parser.
Variable zero_den : Z -> out (option (Z * Z)).

Lemma monomial_ok : forall var w s, here w 0 s -> ~ In nul var ->
  monomial_buf zero_den var w = bind (monomial zero_den var s) (fun r => Val (r, w)).
Proof.
  intros var w s H V. unfold monomial_buf, monomial. destruct (scan_blank _ _ _ H) as [x [-> Hx]]. cbn [bind]. rewrite (here_rd _ _ _ Hx). cbn [bind].
  destruct (skip_blanks s) as [|c0 s0] eqn:ES; [reflexivity|]. cbn [hd]. destruct (here_next _ _ _ _ Hx) as [_ N0]. rewrite N0.
  assert (L : (length (c0 :: s0) < S (length w))%nat) by (apply here_len in Hx; lia). pose proof (signs_ok w (c0 :: s0) (S (length w)) 1 x Hx L) as SG.
  destruct (signs 1 (c0 :: s0)) as [[sign t]|]; [|rewrite SG; reflexivity]. destruct SG as [j [-> Hj]]. cbn [bind]. rewrite (here_rd _ _ _ Hj). cbn [bind].
  rewrite isdigit_hd. clear x Hx ES N0 L s0 c0.
  assert (TAIL : forall (p q : Z) (k : nat) (t : str), here w k t ->
    bind (scan blank w k) (fun x => bind (rd w x) (fun c => if Ascii.eqb c nul then Val (Some (if sign =? -1 then - p else p, q, 0), w)
      else bind (star_var_buf var w x) (fun k => Val (match k with None => None | Some k => Some (if sign =? -1 then - p else p, q, k) end, w)))) =
    bind (match skip_blanks t return out (option (Z * Z * Z)) with
      | [] => Val (Some (if sign =? -1 then - p else p, q, 0))
      | x => bind (star_var var x) (fun k => match k with None => Val None | Some k => Val (Some (if sign =? -1 then - p else p, q, k)) end)
      end) (fun r => Val (r, w))).
  { intros p q k t' Hk. destruct (scan_blank _ _ _ Hk) as [l [-> Hl]]. cbn [bind]. rewrite (here_rd _ _ _ Hl). cbn [bind]. destruct (skip_blanks t') as [|b v] eqn:E; [reflexivity|].
    cbn [hd]. destruct (here_next _ _ _ _ Hl) as [_ N]. rewrite N. rewrite (star_var_ok var w l (b :: v) Hl V). destruct (star_var var (b :: v)) as [[e|]| | |]; reflexivity. }
  destruct t as [|c t]; [cbn [bind]; apply TAIL, Hj|]. destruct (isdigit c) as [d| | |]; try reflexivity. cbn [bind]. destruct d; [|cbn [bind]; apply TAIL, Hj].
  destruct (here_next _ _ _ _ Hj) as [Hj' NC].
  rewrite (scan_ok (fun c => bind (isdigit c) (fun d => Val (d || Ascii.eqb c "/"))) w t (S j) eq_refl Hj'), <- coeff_span.
  destruct (coeff_chars t) as [[u v]| | |] eqn:EC; try reflexivity. cbn [bind]. rewrite coeff_span in EC. apply span_app in EC.
  rewrite EC in Hj'. pose proof (here_drop _ _ _ _ Hj') as Hv. rewrite (here_rd _ _ _ Hv). cbn [bind].
  destruct Hj as (U & r & EW & LU & NN). rewrite EC in EW, NN.
  assert (EV : exists R, v ++ nul :: r = hd nul v :: R) by (destruct v as [|b v]; [exists r; reflexivity|exists (v ++ nul :: r); reflexivity]). destruct EV as [R EV].
  assert (EW' : w = (U ++ c :: u) ++ hd nul v :: R) by (rewrite EW, <- EV, <- !app_assoc; cbn [app]; rewrite <- app_assoc; reflexivity).
  assert (LY : (S j + length u)%nat = length (U ++ c :: u)) by (rewrite app_length; cbn [length]; lia).
  rewrite LY. rewrite EW' at 1. rewrite wr_mid. cbn [bind].
  assert (HC : here ((U ++ c :: u) ++ nul :: R) j (c :: u)).
  { exists U, R. split; [rewrite <- app_assoc; reflexivity|]. split; [exact LU|]. intros X. apply NN. change (c :: u ++ v) with ((c :: u) ++ v). apply in_or_app. left. exact X. }
  rewrite (cstr_ok _ _ _ HC). cbn [bind]. destruct (fmpq_set_str zero_den (c :: u)) as [ans| | |]; try reflexivity. cbn [bind]. rewrite wr_mid. cbn [bind]. rewrite <- EW'.
  destruct ans as [[p q]|]; [|reflexivity]. cbn [bind]. rewrite <- LY. apply TAIL, Hv.
Qed.

Lemma alnum_ok : forall a s fuel i, here a i s -> (length s < fuel)%nat -> alnum_buf fuel a i = all_alnum s.
Proof.
  intros a. induction s as [|c s IH]; intros fuel i H L; (destruct fuel as [|fuel]; [cbn in L; lia|]); cbn [alnum_buf all_alnum]; rewrite (here_rd _ _ _ H); cbn [hd bind]; [reflexivity|].
  destruct (here_next _ _ _ _ H) as [H' N]. rewrite N. destruct (isalnum c) as [b| | |]; try reflexivity. cbn [bind]. destruct (negb b && negb (Ascii.eqb c "_")); [reflexivity|].
  apply IH; [exact H'|cbn in L; lia].
Qed.
Lemma varname_ok : forall v s, here v 0 s -> varname_buf v = is_varname s.
Proof.
  intros v s H. unfold varname_buf. rewrite (here_rd _ _ _ H). cbn [bind]. destruct s as [|c s]; [reflexivity|]. cbn [hd is_varname]. destruct (isalpha c) as [b| | |]; try reflexivity.
  cbn [bind]. destruct (b || Ascii.eqb c "_"); [|reflexivity]. destruct (here_next _ _ _ _ H) as [H' _]. apply alnum_ok; [exact H'|]. apply here_len in H'. lia.
Qed.

Lemma strncpy_ok : forall a u v i zu zr, here a i (u ++ v) -> (length u <= length zr)%nat ->
  strncpy (length u) a i (length zu) (zu ++ zr) = Val (zu ++ u ++ skipn (length u) zr).
Proof.
  intros a. induction u as [|c u IH]; intros v i zu zr H L; [reflexivity|]. cbn [length strncpy]. rewrite (here_rd _ _ _ H). cbn [app hd bind].
  cbn [app] in H. destruct (here_next _ _ _ _ H) as [H' N]. rewrite N. destruct zr as [|y zr]; [cbn in L; lia|]. rewrite wr_mid. cbn [bind].
  specialize (IH v (S i) (zu ++ [c]) zr H' ltac:(cbn in L; lia)). rewrite app_length, Nat.add_1_r in IH. rewrite <- !app_assoc in IH. exact IH.
Qed.

Definition f1 (c : ascii) : out bool := Val (Ascii.eqb c "+" || Ascii.eqb c cblank || Ascii.eqb c "-").
Definition f2 (c : ascii) : out bool := Val (negb (Ascii.eqb c nul) && negb (Ascii.eqb c "+") && negb (Ascii.eqb c "-")).
Lemma jump_span : forall s, ~ In nul s -> span f2 s = Val (jump_rest s).
Proof.
  induction s as [|c s IH]; intros N; [reflexivity|]. cbn [span jump_rest]. unfold f2 at 1. cbn [bind]. destruct (Ascii.eqb_spec c nul) as [->|_]; [exfalso; apply N; left; reflexivity|].
  cbn [negb andb]. unfold signb. destruct (Ascii.eqb c "+"); [reflexivity|]. destruct (Ascii.eqb c "-"); [reflexivity|]. cbn [negb andb orb]. rewrite IH by (intros X; apply N; right; exact X).
  cbn [bind]. destruct (jump_rest s). reflexivity.
Qed.
Lemma term_span : forall s, ~ In nul s -> exists u1 v1 u2 v2, span f1 s = Val (u1, v1) /\ span f2 v1 = Val (u2, v2) /\ next_term s = (u1 ++ u2, v2).
Proof.
  induction s as [|c s IH]; intros N; [exists [], [], [], []; repeat split|]. cbn [next_term]. cbn [span]. unfold f1 at 1. cbn [bind].
  replace (Ascii.eqb c "+" || Ascii.eqb c cblank || Ascii.eqb c "-") with (signb c || Ascii.eqb c cblank) by (unfold signb; destruct (Ascii.eqb c "+"), (Ascii.eqb c cblank), (Ascii.eqb c "-"); reflexivity).
  destruct (signb c || Ascii.eqb c cblank).
  - destruct IH as (u1 & v1 & u2 & v2 & E1 & E2 & E3); [intros X; apply N; right; exact X|]. rewrite E1. cbn [bind]. exists (c :: u1), v1, u2, v2. rewrite E3. auto.
  - pose proof (jump_span (c :: s) N) as J. destruct (jump_rest (c :: s)) as [u2 v2]. exists [], (c :: s), u2, v2. auto.
Qed.

Lemma loop_ok : forall var a, ~ In nul var -> forall fuel p i s z, here a i s -> (length s < length z)%nat ->
  set_str_buf_loop zero_den fuel var p a i z = set_str_loop zero_den fuel var p s.
Proof.
  intros var a V. induction fuel as [|fuel IH]; intros p i s z H L; [reflexivity|]. cbn [set_str_buf_loop set_str_loop]. rewrite (here_rd _ _ _ H). cbn [bind].
  destruct s as [|c s']; [reflexivity|]. cbn [hd]. destruct (here_next _ _ _ _ H) as [_ N]. rewrite N. set (s := c :: s') in *.
  destruct (span_blank s) as [b EB]. assert (LB : (length (skip_blanks s) <= length s)%nat) by (apply span_app in EB; rewrite EB at 2; rewrite app_length; lia).
  destruct (scan_blank _ _ _ H) as [j [-> Hj]]. cbn [bind]. destruct (term_span _ (here_clean _ _ _ Hj)) as (u1 & v1 & u2 & v2 & E1 & E2 & E3).
  rewrite E3. fold f1. fold f2. rewrite (scan_ok f1 a _ j eq_refl Hj), E1. cbn [bind].
  pose proof (span_app _ _ _ _ E1) as A1. pose proof (span_app _ _ _ _ E2) as A2. rewrite A1 in Hj. pose proof (here_drop _ _ _ _ Hj) as H1.
  rewrite (scan_ok f2 a _ _ eq_refl H1), E2. cbn [bind]. rewrite A2 in Hj, H1. pose proof (here_drop _ _ _ _ H1) as H2.
  replace (j + length u1 + length u2 - j)%nat with (length (u1 ++ u2)) by (rewrite app_length; lia).
  assert (LT : (length (u1 ++ u2) + length v2 = length (skip_blanks s))%nat) by (rewrite A1, A2, !app_length; lia).
  rewrite app_assoc in Hj. pose proof (strncpy_ok a (u1 ++ u2) v2 j [] z Hj ltac:(lia)) as C. cbn [length app] in C. rewrite C. cbn [bind].
  destruct (skipn (length (u1 ++ u2)) z) as [|y zr] eqn:EZ.
  { exfalso. assert (X : length (skipn (length (u1 ++ u2)) z) = 0%nat) by (rewrite EZ; reflexivity). rewrite skipn_length in X. lia. }
  rewrite wr_mid. cbn [bind].
  assert (HZ : here ((u1 ++ u2) ++ nul :: zr) 0 (u1 ++ u2)).
  { exists [], zr. split; [reflexivity|]. split; [reflexivity|]. apply here_clean in Hj. intros X. apply Hj, in_or_app. left. exact X. }
  rewrite (monomial_ok var _ _ HZ V). destruct (monomial zero_den var (u1 ++ u2)) as [[[[x w] k]|]| | |]; try reflexivity. cbn [bind]. apply IH; [exact H2|].
  assert (LZ : length z = (length (u1 ++ u2) + S (length zr))%nat).
  { pose proof (skipn_length (length (u1 ++ u2)) z) as X. rewrite EZ in X. cbn [length] in X. lia. }
  rewrite (app_length (u1 ++ u2) (nul :: zr)). cbn [length]. lia.
Qed.

Lemma set_str_ok : forall fresh var s rv rs, (forall n, length (fresh n) = n) -> ~ In nul var -> ~ In nul s ->
  set_str_buf zero_den fresh (var ++ nul :: rv) (s ++ nul :: rs) = set_str zero_den var s.
Proof.
  intros fresh var s rv rs F V N. unfold set_str_buf, set_str.
  assert (HV : here (var ++ nul :: rv) 0 var) by (exists [], rv; split; [reflexivity|]; split; [reflexivity|exact V]).
  assert (HS : here (s ++ nul :: rs) 0 s) by (exists [], rs; split; [reflexivity|]; split; [reflexivity|exact N]).
  rewrite (varname_ok _ _ HV). destruct (is_varname var) as [b| | |]; try reflexivity. cbn [bind]. destruct b; [|reflexivity]. unfold strlen. rewrite (cstr_ok _ _ _ HS), (cstr_ok _ _ _ HV). cbn [bind].
  apply loop_ok; [exact V|exact HS|]. rewrite F. lia.
Qed.
End Parser.

Lemma monomial_buf_ok : forall zero_den var s r, ~ In nul var -> ~ In nul s ->
  monomial_buf zero_den var (s ++ nul :: r) = bind (monomial zero_den var s) (fun q => Val (q, s ++ nul :: r)).
Proof. intros zero_den var s r V N. apply monomial_ok; [|exact V]. exists [], r. split; [reflexivity|]. split; [reflexivity|exact N]. Qed.
