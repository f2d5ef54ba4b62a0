(** Checking enclosures and fields of n-th roots. *)
Require Import Reals List ZArith Bool Lia Lra.
From Verif Require Import PolyR RootSpec RootModel ExtraModel Dyadic DyadicProofs ArbModel ArbSpec ArbProofs RefineProofs
  ElemModel ElemSpec ElemProofs RateSpec EndsSpec EndsProofs RefineEnds ElemRefute ToolsModel ToolsSpec ToolsRoot.
Import ListNotations.
Open Scope R_scope.

(** * check_embedding *)
Lemma check_accepts : forall o pol x N, arb_ok o -> minimal pol x -> forall nf y prec, field_ok pol x N nf -> elem_ok pol x y -> (2 <= prec)%Z ->
  check_embedding o nf y prec = Val tt.
Proof.
  intros o pol x N Ho Hm nf y prec Hf [Hc Hy] Hp. unfold check_embedding.
  destruct (set_evaluation o nf (r_elem y) prec) as [b| | |] eqn:E.
  - pose proof (set_eval_ok o pol x (on_ball N) Ho Hm nf (r_elem y) prec b Hf Hc E) as Hb. cbn [bind]. rewrite (boverlaps_common _ _ _ Hy Hb). reflexivity.
  - exfalso. unfold set_evaluation in E. destruct (Z.ltb_spec prec 2); [lia|]. destruct (linear _); [discriminate|destruct (quadratic _); discriminate].
  - exfalso. unfold set_evaluation in E. destruct (prec <? 2)%Z; [discriminate|]. destruct (linear _); [discriminate|destruct (quadratic _); discriminate].
  - exfalso. unfold set_evaluation in E. destruct (prec <? 2)%Z; [discriminate|]. destruct (linear _); [discriminate|destruct (quadratic _); discriminate].
Qed.

Lemma check_rejects : forall o pol x, arb_ok o -> arb_conv o -> minimal pol x -> forall y, canon pol (r_elem y) -> ~ inb (ev x (r_elem y)) (r_emb y) ->
  exists d P, 0 < d /\ forall nf prec, field_ok pol x (fun a => rad_le a d) nf -> (P <= prec)%Z -> check_embedding o nf y prec = Abort.
Proof.
  intros o pol x Ho Hc Hm [e [m r|]] He Hy; cbn [r_elem r_emb] in *; [|exfalso; apply Hy; exact I].
  set (v := ev x e) in *. assert (G : dyv r < Rabs (v - dyv m)) by (apply Rnot_le_lt; exact Hy).
  set (eps := (Rabs (v - dyv m) - dyv r) / 3). assert (Heps : 0 < eps) by (unfold eps; lra).
  destruct (set_eval_conv o pol x (fun _ => True) Ho Hc e He eps Heps) as (d & P & D0 & H).
  exists d, P. split; [exact D0|]. intros nf prec (F1 & F2 & F3 & F4) HP.
  assert (Gd : good pol x (fun _ => True) nf) by (repeat split; assumption).
  destruct (H nf prec Gd HP F3) as (b & E & R). unfold check_embedding. cbn [r_elem]. rewrite E. cbn [bind r_emb].
  pose proof (set_eval_ok o pol x (fun _ => True) Ho Hm nf e prec b Gd He E) as Hb. destruct b as [n s|]; [|contradiction].
  cbn in Hb, R. cbn [boverlaps]. destruct (dleb _ _) eqn:Eb; [|reflexivity]. exfalso. apply dleb_spec in Eb.
  rewrite dyv_abs, dyv_sub, dyv_add in Eb. fold v in Hb. unfold eps in R.
  assert (Rabs (v - dyv m) <= Rabs (v - dyv n) + Rabs (dyv n - dyv m)).
  { replace (v - dyv m) with ((v - dyv n) + (dyv n - dyv m)) by ring. apply Rabs_triang. }
  rewrite (Rabs_minus_sym (dyv n)) in H0. lra.
Qed.

(** * init_nth_root *)
Lemma root_pol_len : forall p q n, (1 <= n)%nat -> length (root_pol p q n) = S n.
Proof. intros p q [|n] Hn; [lia|]. cbn. rewrite app_length, repeat_length. cbn. lia. Qed.
Lemma root_pol_val : forall p q n y, (1 <= n)%nat -> zeval (root_pol p q n) y = IZR q * y ^ n - IZR p.
Proof.
  intros p q [|n] y Hn; [lia|]. unfold zeval, root_pol. cbn [map]. rewrite map_app. cbn [peval]. rewrite peval_app. rewrite map_length, repeat_length.
  assert (Z0 : peval (map IZR (repeat 0%Z n)) y = 0) by (clear; induction n as [|n IH]; [reflexivity|cbn; rewrite IH; ring]).
  rewrite Z0, opp_IZR. cbn. ring.
Qed.
Lemma odd_pow_inj : forall n x y, Nat.Odd n -> x ^ n = y ^ n -> x = y.
Proof.
  intros n x y (k & ->) H. assert (P : forall z, z ^ (2 * k + 1) = (z ^ k) ^ 2 * z) by (intros z; rewrite pow_add, (Nat.mul_comm 2), pow_mult; ring).
  assert (pos : forall u v, 0 <= u -> 0 <= v -> u ^ (2 * k + 1) = v ^ (2 * k + 1) -> u = v).
  { intros u v Hu Hv E. apply Rle_antisym; apply (pow_le_inv _ _ (2 * k + 1)); try lia; try assumption; lra. }
  assert (opp : forall z, (- z) ^ (2 * k + 1) = - z ^ (2 * k + 1)).
  { intros z. rewrite !P. replace (- z) with (-1 * z) by ring. rewrite !Rpow_mult_distr.
    assert (S : ((-1) ^ k) ^ 2 = 1) by (rewrite <- pow_mult, Nat.mul_comm; apply pow_1_even). rewrite S. ring. }
  assert (sg : forall z, 0 <= z -> 0 <= z ^ (2 * k + 1)) by (intros z Hz; apply pow_le; exact Hz).
  assert (sg' : forall z, 0 < z -> 0 < z ^ (2 * k + 1)) by (intros z Hz; apply pow_lt; exact Hz).
  destruct (Rle_or_lt 0 x) as [X|X], (Rle_or_lt 0 y) as [Y|Y].
  - apply pos; assumption.
  - exfalso. pose proof (sg' (- y) ltac:(lra)) as A. rewrite opp in A. pose proof (sg x X). lra.
  - exfalso. pose proof (sg' (- x) ltac:(lra)) as A. rewrite opp in A. pose proof (sg y Y). lra.
  - assert (- x = - y); [|lra]. apply pos; [lra|lra|]. rewrite !opp, H. reflexivity.
Qed.

Lemma init_keeps : forall o pol x N, arb_ok o -> minimal pol x -> safe_balls o pol x N ->
  forall debug fuel den a prec nf, inb x a -> N a -> (2 <= prec)%Z -> renf_init o debug fuel pol den a prec = Val nf ->
  field_ok pol x N nf /\ f_den nf = den /\ f_prec nf = prec /\ f_imm nf = 0%Z.
Proof.
  intros o pol x N Ho Hm HN debug fuel den a prec nf Hx Ha Hp E. unfold renf_init in E.
  destruct (check_unique o fuel pol a prec) as [[|]| | |]; try discriminate. cbn [bind] in E.
  destruct (Nat.eqb (length pol) 2).
  - injection E as <-. repeat split; assumption.
  - destruct (refine_spec o Ho pol x N HN (minimal_simple pol x Hm) debug fuel {| f_pol := pol; f_den := den; f_emb := a; f_prec := prec; f_imm := 0 |} prec nf eq_refl Hx Ha E) as (A & B & _ & (D1 & D2 & D3) & F).
    cbn in *. split; [repeat split; [exact D1|exact A|exact B|rewrite D3; exact Hp]|]. split; [exact D2|]. split; [exact D3|exact F].
Qed.

Section Root.
Variables (o : arbops) (root : ball -> nat -> Z -> ball) (p q : Z) (n : nat) (x : R).
Hypothesis Ho : arb_ok o.
Hypothesis Hroot : root_ok root.
Hypothesis Hq : (0 < q)%Z.
Hypothesis Hn : (1 <= n)%nat.
Hypothesis Hx0 : 0 <= x.
Hypothesis Hx : x ^ n = IZR p / IZR q.
Hypothesis Hm : minimal (root_pol p q n) x.

Lemma root_ball : forall prec, (2 <= prec)%Z -> inb x (root (o_set_q o p q prec) n prec).
Proof. intros prec Hp. apply Hroot; [exact Hn|exact Hp|exact Hx0|]. rewrite Hx. apply (ok_set_q o Ho); [exact Hp|lia]. Qed.

Lemma root_keeps : forall N, safe_balls o (root_pol p q n) x N -> forall debug fuel prec nf,
  N (root (o_set_q o p q prec) n prec) -> init_nth_root o root debug fuel p q n prec = Val nf ->
  field_ok (root_pol p q n) x N nf /\ f_den nf = q /\ f_prec nf = prec /\ f_imm nf = 0%Z.
Proof.
  intros N HN debug fuel prec nf Ha E. unfold init_nth_root in E. destruct (p <? 0)%Z; [discriminate|].
  destruct (Z.ltb_spec prec 2) as [|Hp]; [discriminate|].
  replace (root_den q n) with q in E by (destruct n; [lia|reflexivity]).
  apply (init_keeps o _ x N Ho Hm HN debug fuel q _ prec nf (root_ball prec Hp) Ha Hp E).
Qed.

Lemma root_odd : Nat.Odd n -> forall debug fuel prec nf, init_nth_root o root debug fuel p q n prec = Val nf ->
  field_ok (root_pol p q n) x (fun _ => True) nf /\ f_den nf = q /\ f_prec nf = prec /\ f_imm nf = 0%Z.
Proof.
  intros Hodd debug fuel prec nf E. apply (root_keeps (fun _ => True)) with debug fuel; [|exact I|exact E].
  apply single_root_safe; [apply Hm|]. intros y Hy. rewrite root_pol_val in Hy by exact Hn.
  apply (odd_pow_inj n); [exact Hodd|]. rewrite Hx. assert (0 < IZR q) by (apply (IZR_lt 0); exact Hq). field_simplify_eq; [|lra]. lra.
Qed.

Lemma root_sharp : arb_conv o -> arb_rate o -> root_conv root -> (2 <= n)%nat -> 0 < x ->
  exists P r0, 0 < r0 /\ forall debug fuel prec nf, (P <= prec)%Z -> init_nth_root o root debug fuel p q n prec = Val nf ->
  field_ok (root_pol p q n) x (fun a => rad_le a r0) nf /\ f_den nf = q /\ f_prec nf = prec /\ f_imm nf = 0%Z /\
  (forall y, inb y (f_emb nf) -> zeval (root_pol p q n) y = 0 -> y = x).
Proof.
  intros Hc Hr Hrc Hn2 Hx1. pose proof (root_pol_len p q n Hn) as L.
  destruct (small_balls o (root_pol p q n) x Ho Hr Hm ltac:(lia)) as (r0 & R0 & Hs & _).
  set (r1 := Rmin r0 (x / 2)). assert (R1 : 0 < r1) by (apply Rmin_glb_lt; lra).
  destruct (Hrc n x Hn Hx1 r1 R1) as (d & P1 & D0 & H1). destruct (cv_set_q o Hc p q ltac:(lia) d D0) as (P2 & H2).
  exists (Z.max 2 (Z.max P1 P2)), r0. split; [exact R0|]. intros debug fuel prec nf HP E.
  assert (Ra : rad_le (root (o_set_q o p q prec) n prec) r1).
  { apply H1; [lia| |apply H2; lia]. rewrite Hx. apply (ok_set_q o Ho); lia. }
  assert (Rb : rad_le (root (o_set_q o p q prec) n prec) r0) by (apply (rad_le_mono _ r1); [apply Rmin_l|exact Ra]).
  destruct (root_keeps _ Hs debug fuel prec nf Rb E) as (A & B & C & D). split; [exact A|]. split; [exact B|]. split; [exact C|]. split; [exact D|].
  intros y Hy Zy. destruct A as (_ & A2 & A3 & _). apply (safe_here _ _ _ _ Hs (f_emb nf) y); try assumption. destruct (f_emb nf); [reflexivity|contradiction].
Qed.
End Root.

Lemma neg_cube_minimal : forall z, z * z * z = 2 -> minimal (root_pol (-2) 1 3) (- z).
Proof.
  intros z Hz. pose proof (cube_minimal z Hz) as [A B C D]. split.
  - unfold zeval. cbn. lra.
  - cbn. lia.
  - cbn. lia.
  - intros g Lg Hg. destruct g as [|g0 [|g1 [|g2 [|g3 g]]]]; cbn in Lg; try lia.
    + constructor.
    + specialize (D [g0] ltac:(cbn; lia)). apply D. unfold zeval in *. cbn in *. lra.
    + specialize (D [g0; - g1]%Z ltac:(cbn; lia)). assert (F : Forall (fun c => c = 0%Z) [g0; - g1]%Z).
      { apply D. unfold zeval in *. cbn in *. rewrite opp_IZR. lra. }
      inversion_clear F as [|? ? E0 F']. inversion_clear F' as [|? ? E1 _]. repeat constructor; lia.
    + specialize (D [g0; - g1; g2]%Z ltac:(cbn; lia)). assert (F : Forall (fun c => c = 0%Z) [g0; - g1; g2]%Z).
      { apply D. unfold zeval in *. cbn in *. rewrite opp_IZR. lra. }
      inversion_clear F as [|? ? E0 F']. inversion_clear F' as [|? ? E1 F'']. inversion_clear F'' as [|? ? E2 _]. repeat constructor; lia.
Qed.
Lemma root_negative : exists p q n x, (0 < q)%Z /\ x ^ n = IZR p / IZR q /\ minimal (root_pol p q n) x /\
  forall o root debug fuel prec, init_nth_root o root debug fuel p q n prec = Abort.
Proof.
  destruct cube_root as (z & _ & E). exists (-2)%Z, 1%Z, 3%nat, (- z). split; [lia|]. split; [cbn; lra|].
  split; [apply neg_cube_minimal, E|]. intros. reflexivity.
Qed.
