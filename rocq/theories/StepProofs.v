(** The steps of Newton and of bisection on objects, see PropertiesStep.v. *)
Require Import Reals List ZArith Bool Arith Lia Lra.
From Verif Require Import PolyR RootSpec RootModel ExtraModel VcaProofs Dyadic DyadicProofs ArbModel ArbSpec ArbProofs EvalModel EvalProofs StepModel ArbRefute FlSpec FlProofs.
Import ListNotations.
Open Scope R_scope.

Section Steps.
Variable o : arbops.
Variable prec : Z.

Lemma eval_at_spec : forall res a p m, a <> res -> eval_at o prec res a p m res = eval_arb o p (m a) prec /\
  forall j, j <> res -> eval_at o prec res a p m j = m j.
Proof.
  intros res a p m N. unfold eval_at.
  destruct (eval_in_spec ball bzero (fun x y => o_mul o x y prec) (fun x c => o_add_z o x c prec) res a N p m) as [A B].
  split; [rewrite A; apply hval_arb|exact B].
Qed.
Lemma set_here : forall m i v, set_at m i v i = v.
Proof. intros. apply put_at. Qed.
Lemma set_other : forall m i j v, j <> i -> set_at m i v j = m j.
Proof. intros. apply put_other. assumption. Qed.

Lemma newton_in_spec : forall pol der tm ty res a m, (2 <= prec)%Z -> a <> res -> ~ In tm [ty; res; a] -> ~ In ty [res; a] ->
  exists m' b t, newton_in o prec pol der tm ty res a m = Val (m', b) /\ newton_step o pol der (m a) prec = Val (b, t) /\
  (forall v, t = Some v -> m' res = v) /\ (t = None -> b = false) /\ forall j, ~ In j [res; tm; ty] -> m' j = m j.
Proof.
  intros pol der tm ty res a m Hp N Htm Hty. cbn [In] in Htm, Hty. unfold newton_in, newton_step.
  destruct (Z.leb_spec prec 0) as [?|_]; [lia|]. destruct (Z.ltb_spec prec 2) as [?|_]; [lia|]. cbv zeta.
  destruct (eval_at_spec res a der m N) as [A B]. set (m1 := eval_at o prec res a der m) in *. rewrite A.
  destruct (contains_zero (eval_arb o der (m a) prec)).
  - exists m1, false, None. repeat split; try discriminate; auto. intros j Hj. apply B. intros ->. apply Hj. left. reflexivity.
  - set (m2 := set_at m1 tm (bmid (m1 a))). assert (E2 : m2 tm = bmid (m a)) by (unfold m2; rewrite set_here, (B a N); reflexivity).
    destruct (eval_at_spec ty tm pol m2 ltac:(intros ->; apply Htm; auto)) as [C D]. set (m3 := eval_at o prec ty tm pol m2) in *.
    assert (F : m3 res = eval_arb o der (m a) prec).
    { rewrite D by (intros ->; apply Hty; auto). unfold m2. rewrite set_other by (intros ->; apply Htm; auto). exact A. }
    assert (G : m3 tm = bmid (m a)) by (rewrite D by (intros ->; apply Htm; auto); exact E2).
    assert (H : m3 a = m a).
    { rewrite D by (intros ->; apply Hty; auto). unfold m2. rewrite set_other by (intros ->; apply Htm; auto). apply B, N. }
    assert (T : tm <> res) by (intros ->; apply Htm; auto).
    rewrite !set_here. rewrite !(set_other _ res a) by exact N. rewrite !(set_other _ res tm) by exact T.
    rewrite H, G, F, C, E2. do 3 eexists. split; [reflexivity|]. split; [reflexivity|]. split; [|split].
    + intros v Hv. injection Hv as <-. apply set_here.
    + discriminate.
    + intros j Hj. cbn [In] in Hj. rewrite !(set_other _ res j) by (intros ->; apply Hj; auto). rewrite D by (intros ->; apply Hj; auto).
      unfold m2. rewrite set_other by (intros ->; apply Hj; auto). apply B. intros ->. apply Hj. auto.
Qed.

Lemma bequal_refl : forall b, bequal b b = true.
Proof. intros [m r|]; [|reflexivity]. cbn [bequal]. rewrite !(proj2 (deqb_spec _ _) eq_refl). reflexivity. Qed.

Lemma newton_in_place : forall pol der tm ty i m m' b, newton_in o prec pol der tm ty i i m = Val (m', b) -> b = false.
Proof.
  intros pol der tm ty i m m' b. unfold newton_in. destruct (prec <=? 0)%Z; [discriminate|]. destruct (prec <? 2)%Z; [discriminate|].
  cbv zeta. destruct (contains_zero _); intros E; injection E as _ <-; [reflexivity|]. rewrite bequal_refl, andb_false_r. reflexivity.
Qed.

Lemma bisection_in_spec : forall pol tb tc tr res a m, (2 <= prec)%Z -> ~ In tb [tc; tr; res; a] -> ~ In tc [tr; res; a] -> ~ In tr [res; a] ->
  exists m' b t, bisection_in o prec pol tb tc tr res a m = Val (m', b) /\ bisection_step o pol (m a) prec = Val (b, t) /\
  (forall v, t = Some v -> b = true /\ m' res = v) /\ (t = None -> b = false /\ m' res = m res) /\ forall j, ~ In j [res; tb; tc; tr] -> m' j = m j.
Proof.
  intros pol tb tc tr res a m Hp Hb Hc Hr. cbn [In] in Hb, Hc, Hr. unfold bisection_in, bisection_step.
  destruct (Z.ltb_spec prec 2) as [?|_]; [lia|]. destruct (interval (m a) prec) as [[l r]|].
  2:{ exists m, false, None. repeat split; try discriminate; auto. }
  cbv zeta. set (m1 := set_at m tb (bexact l)).
  assert (Nc : tb <> tc) by (intros ->; apply Hb; auto).
  destruct (eval_at_spec tc tb pol m1 Nc) as [A B]. set (m2 := eval_at o prec tc tb pol m1) in *.
  assert (A' : m2 tc = eval_arb o pol (bexact l) prec) by (rewrite A; unfold m1; rewrite set_here; reflexivity).
  rewrite A'.
  assert (K2 : forall j, ~ In j [tb; tc] -> m2 j = m j).
  { intros j Hj. cbn [In] in Hj. rewrite B by (intros ->; apply Hj; auto). apply set_other. intros ->. apply Hj. auto. }
  destruct (contains_zero (eval_arb o pol (bexact l) prec)).
  { exists m2, false, None. repeat split; try discriminate; auto; intros; apply K2; cbn [In] in *; intuition (subst; auto). }
  set (m3 := set_at m2 tb (bexact r)). destruct (eval_at_spec tc tb pol m3 Nc) as [C D]. set (m4 := eval_at o prec tc tb pol m3) in *.
  assert (C' : m4 tc = eval_arb o pol (bexact r) prec) by (rewrite C; unfold m3; rewrite set_here; reflexivity).
  rewrite C'.
  assert (K4 : forall j, ~ In j [tb; tc] -> m4 j = m j).
  { intros j Hj. rewrite D by (intros ->; apply Hj; cbn; auto). unfold m3. rewrite set_other by (intros ->; apply Hj; cbn; auto). apply K2, Hj. }
  destruct (contains_zero (eval_arb o pol (bexact r) prec)).
  { exists m4, false, None. repeat split; try discriminate; auto; intros; apply K4; cbn [In] in *; intuition (subst; auto). }
  destruct (bisection_arf o l r pol (msgn (eval_arb o pol (bexact l) prec)) prec) as [l' r'].
  do 3 eexists. split; [reflexivity|]. split; [reflexivity|]. split; [|split; [discriminate|]].
  - intros v Hv. injection Hv as <-. split; [reflexivity|]. rewrite !set_here. rewrite set_other by (intros ->; apply Hr; auto).
    rewrite K4 by (cbn [In]; intuition (subst; auto)). reflexivity.
  - intros j Hj. cbn [In] in Hj. rewrite !set_other by (intros ->; apply Hj; auto). apply K4. cbn [In]. intuition.
Qed.
End Steps.

(** * What is stated *)
Lemma newton_objects : forall o, arb_ok o -> forall prec pol tm ty res a m, (2 <= prec)%Z -> a <> res -> ~ In tm [ty; res; a] -> ~ In ty [res; a] ->
  exists m' b, newton_in o prec pol (zderiv pol) tm ty res a m = Val (m', b) /\ (forall j, ~ In j [res; tm; ty] -> m' j = m j) /\
  (b = true -> subset (m' res) (m a) /\ m' res <> m a /\ forall x, inb x (m a) -> zeval pol x = 0 -> inb x (m' res)).
Proof.
  intros o Ho prec pol tm ty res a m Hp N H1 H2.
  destruct (newton_in_spec o prec pol (zderiv pol) tm ty res a m Hp N H1 H2) as [m' [b [t [E [V [T1 [T2 K]]]]]]].
  exists m', b. split; [exact E|]. split; [exact K|]. intros ->. destruct t as [v|]; [|discriminate (T2 eq_refl)].
  rewrite (T1 v eq_refl). destruct (newton_success _ _ _ _ _ _ V) as [S1 S2]. split; [exact S1|]. split; [exact S2|].
  intros x Hx Hr. exact (newton_encloses o Ho pol (m a) x prec true v V Hx Hr).
Qed.

Lemma bisection_objects : forall o, forall prec pol tb tc tr res a m, (2 <= prec)%Z ->
  ~ In tb [tc; tr; res; a] -> ~ In tc [tr; res; a] -> ~ In tr [res; a] ->
  exists m' b, bisection_in o prec pol tb tc tr res a m = Val (m', b) /\ (forall j, ~ In j [res; tb; tc; tr] -> m' j = m j) /\
  (b = false -> m' res = m res) /\
  forall tb' tc' tr' i j n, n i = m a -> ~ In tb' [tc'; tr'; j; i] -> ~ In tc' [tr'; j; i] -> ~ In tr' [j; i] ->
    exists n', bisection_in o prec pol tb' tc' tr' j i n = Val (n', b) /\ (b = true -> n' j = m' res).
Proof.
  intros o prec pol tb tc tr res a m Hp H1 H2 H3.
  destruct (bisection_in_spec o prec pol tb tc tr res a m Hp H1 H2 H3) as [m' [b [t [E [V [T1 [T2 K]]]]]]].
  exists m', b. split; [exact E|]. split; [exact K|]. split.
  - intros ->. destruct t as [v|]; [destruct (T1 v eq_refl); discriminate|]. apply T2. reflexivity.
  - intros tb' tc' tr' i j n Hn G1 G2 G3.
    destruct (bisection_in_spec o prec pol tb' tc' tr' j i n Hp G1 G2 G3) as [n' [b' [t' [E' [V' [T1' [T2' _]]]]]]].
    rewrite Hn, V in V'. injection V' as <- <-. exists n'. split; [exact E'|]. intros ->.
    destruct t as [v|]; [|destruct (T2 eq_refl); discriminate]. rewrite (proj2 (T1 v eq_refl)). apply (T1' v eq_refl).
Qed.

Lemma bisection_root : forall o, arb_ok o -> forall prec pol tb tc tr res a m m' x l r, 
  ~ In tb [tc; tr; res; a] -> ~ In tc [tr; res; a] -> ~ In tr [res; a] ->
  bisection_in o prec pol tb tc tr res a m = Val (m', true) -> interval (m a) prec = Some (l, r) ->
  only_root pol (dyv l) (dyv r) x -> simple_root pol x -> inb x (m a) -> inb x (m' res).
Proof.
  intros o Ho prec pol tb tc tr res a m m' x l r H1 H2 H3 E Hi Hu Hs Hx.
  assert (Hp : (2 <= prec)%Z) by (unfold bisection_in in E; destruct (Z.ltb_spec prec 2); [discriminate|assumption]).
  destruct (bisection_in_spec o prec pol tb tc tr res a m Hp H1 H2 H3) as [n' [b [t [E' [V [T1 [T2 _]]]]]]].
  rewrite E in E'. injection E' as <- <-. destruct t as [v|]; [|destruct (T2 eq_refl); discriminate].
  rewrite (proj2 (T1 v eq_refl)). exact (bisection_encloses o Ho pol (m a) x prec l r v V Hi Hu Hs Hx).
Qed.

(** x^2 - 4x + 2: the derivative 2x - 4 in place is 2 * 2 - 4. *)
Definition step_pol : list Z := [2; -4; 1]%Z.
Definition step_ball : ball := Fin (600, -10)%Z (1, -4)%Z.
Lemma step_root : exists x, inb x step_ball /\ zeval step_pol x = 0 /\ 1 / 2 < x /\ simple_root step_pol x.
Proof.
  exists (2 - sqrt 2). assert (S : sqrt 2 * sqrt 2 = 2) by (apply sqrt_sqrt; lra). pose proof (sqrt_pos 2).
  assert (1414 / 1000 < sqrt 2 < 1415 / 1000) by (split; nra).
  assert (Hz : zeval step_pol (2 - sqrt 2) = 0) by (unfold step_pol; cbn; nra).
  split; [|split; [exact Hz|split; [lra|]]].
  - unfold step_ball. cbn [inb]. apply Rabs_le. unfold dyv. cbn [fst snd]. change (-10)%Z with (- (10))%Z. change (-4)%Z with (- (4))%Z.
    rewrite !pw2_neg_IZR by lia. change (2 ^ 10)%Z with 1024%Z. change (2 ^ 4)%Z with 16%Z. lra.
  - split; [exact Hz|]. unfold step_pol. cbn. nra.
Qed.

Definition is_int (n : Z) (b : ball) : Prop := exists m r, b = Fin m r /\ dyv m = IZR n /\ dyv r = 0.
Definition short (p n : Z) : Prop := exists d, dyv d = IZR n /\ (zbits (fst d) <= p)%Z.
Lemma made_int : forall p v e b n, (1 <= p)%Z -> made p v e b -> dyv v = IZR n -> short p n -> e = 0 -> is_int n b.
Proof.
  intros p v e b n Hp [m [r [-> [M [R0 [_ R1]]]]]] V [d [E N]] ->. exists m, r.
  assert (D : dyv m = IZR n).
  { rewrite M, (dround_value p v d Hp) by (rewrite V, E; reflexivity). rewrite dround_wide by exact N. exact E. }
  split; [reflexivity|]. split; [exact D|]. specialize (R1 ltac:(rewrite D, V; reflexivity)). lra.
Qed.
Lemma int_mul : forall o, arb_fl o -> forall p a b x y, (2 <= p)%Z -> is_int x a -> is_int y b -> short p (x * y) -> is_int (x * y) (o_mul o a b p).
Proof.
  intros o Ho p a b x y Hp [m [r [-> [M R]]]] [n [s [-> [N S]]]] B.
  eapply made_int; [|exact (fl_mul o Ho m r n s p Hp ltac:(lra) ltac:(lra))| |exact B|]; [lia| |rewrite R, S; ring].
  rewrite dyv_mul, M, N, mult_IZR. reflexivity.
Qed.
Lemma int_add : forall o, arb_fl o -> forall p a x c, (2 <= p)%Z -> is_int x a -> short p (x + c) -> is_int (x + c) (o_add_z o a c p).
Proof.
  intros o Ho p a x c Hp [m [r [-> [M R]]]] B.
  eapply made_int; [|exact (fl_add_z o Ho m r c p Hp ltac:(lra))| |exact B|exact R]; [lia|].
  rewrite dyv_add, M, plus_IZR. f_equal. unfold dz, dyv, pw2. cbn [fst snd Z.leb Z.compare powerRZ]. cbn. lra.
Qed.
Lemma int_zero : forall b, is_int 0 b -> contains_zero b = true /\ forall x, inb x b -> x = 0.
Proof.
  intros b [m [r [-> [M R]]]]. split.
  - apply contains_zero_true. cbn [inb]. rewrite M, R, Rminus_0_r, Rabs_R0. lra.
  - intros x Hx. cbn [inb] in Hx. rewrite M, R in Hx. unfold Rabs in Hx. destruct (Rcase_abs _) in Hx; lra.
Qed.

Lemma newton_in_place_lost : exists pol a x, simple_root pol x /\ inb x a /\
  forall o, arb_fl o -> forall prec tm ty i m, (2 <= prec)%Z -> m i = a ->
  exists m', newton_in o prec pol (zderiv pol) tm ty i i m = Val (m', false) /\ ~ inb x (m' i).
Proof.
  destruct step_root as [x [Hx [Hr [Hlow Hs]]]]. exists step_pol, step_ball, x. split; [exact Hs|]. split; [exact Hx|].
  intros o Ho prec tm ty i m Hp Hm. unfold newton_in. destruct (Z.leb_spec prec 0) as [?|_]; [lia|]. destruct (Z.ltb_spec prec 2) as [?|_]; [lia|].
  cbv zeta. set (m1 := eval_at o prec i i (zderiv step_pol) m).
  assert (E : is_int 0 (m1 i)).
  { unfold m1, eval_at, eval_in. change (rev (zderiv step_pol)) with [2; -4]%Z. cbn [fold_left]. unfold eval_step. rewrite !put_at.
    assert (Z0 : is_int 0 bzero) by (exists (0, 0)%Z, (0, 0)%Z; repeat split; unfold dyv; cbn; lra).
    assert (S0 : short prec 0) by (exists (0, 0)%Z; split; [unfold dyv; cbn; lra|cbn; lia]).
    assert (S2 : short prec 2) by (exists (2, 0)%Z; split; [unfold dyv; cbn; lra|cbn; lia]).
    assert (S4 : short prec 4) by (exists (1, 2)%Z; split; [change (1 * (2 ^ 2) = 4); lra|cbn; lia]).
    apply (int_add o Ho prec _ 4 (-4) Hp); [|exact S0]. apply (int_mul o Ho prec _ _ 2 2 Hp); [| |exact S4];
    (apply (int_add o Ho prec _ 0 2 Hp); [|exact S2]; apply (int_mul o Ho prec _ _ 0 0 Hp); [exact Z0|exact Z0|exact S0]). }
  destruct (int_zero _ E) as [Z N]. rewrite Z. exists m1. split; [reflexivity|]. intros K. specialize (N x K). lra.
Qed.
