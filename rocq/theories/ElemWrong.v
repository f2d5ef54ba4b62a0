(** What the generator in degree one and the quotient of a rational number by an
    element are, with every arithmetic. *)
Require Import Reals List ZArith Bool Lia Lra Psatz.
From Verif Require Import PolyR RootSpec RootModel ExtraModel Dyadic DyadicProofs ArbModel ElemModel ElemSpec ElemProofs ElemHist ElemExact.
Import ListNotations.
Open Scope R_scope.

Lemma gen_inverse : forall o n nf c0 c1 x, f_pol nf = [c0; c1]%Z -> c1 <> 0%Z -> zeval [c0; c1]%Z x = 0 -> x <> 0 ->
  exists y, gen o n nf = Val y /\ ev x (r_elem y) = / x /\ (ev x (r_elem y) = x <-> x = 1 \/ x = -1).
Proof.
  intros o n nf c0 c1 x Ep C1 Zx X0. rewrite !zeval_cons, zeval_nil in Zx.
  assert (N1 : IZR c1 <> 0) by (apply not_0_IZR; exact C1).
  assert (N0 : IZR c0 <> 0) by (intros N; rewrite N in Zx; assert (IZR c1 * x = 0) by lra; apply Rmult_integral in H; tauto).
  assert (C0 : c0 <> 0%Z) by (intros ->; apply N0; reflexivity).
  assert (H : exists y, gen o n nf = Val y /\ ev x (r_elem y) = / x).
  { unfold gen. rewrite Ep. unfold canonicalise. destruct (Z.eqb_spec c0 0) as [|_]; [contradiction|]. cbn [bind].
    assert (Hg : (0 < Z.gcd (- c1) c0)%Z).
    { pose proof (Z.gcd_nonneg (- c1) c0). assert (Z.gcd (- c1) c0 <> 0)%Z; [|lia]. intros W. apply Z.gcd_eq_0_r in W. lia. }
    set (g := Z.gcd (- c1) c0) in *.
    destruct (Z.gcd_divide_l (- c1) c0) as (u & Eu). fold g in Eu. destruct (Z.gcd_divide_r (- c1) c0) as (w & Ew). fold g in Ew.
    assert (U : (- c1 / g = u)%Z) by (rewrite Eu; apply Z.div_mul; lia).
    assert (W : (c0 / g = w)%Z) by (rewrite Ew; apply Z.div_mul; lia).
    rewrite U, W. clearbody g. assert (u <> 0)%Z by nia. assert (Wn : w <> 0%Z) by nia.
    assert (Na : (Z.sgn c0 * u <> 0)%Z) by (destruct c0; cbn [Z.sgn]; lia).
    destruct (Z.eqb_spec (Z.sgn c0 * u) 0) as [|_]; [contradiction|]. eexists. split; [reflexivity|].
    unfold ev. cbn [r_elem e_num e_den]. rewrite zeval_cons, zeval_nil, Rmult_0_r, Rplus_0_r.
    assert (S : IZR (Z.sgn c0 * u) / IZR (Z.abs w) = IZR u / IZR w).
    { assert (IZR w <> 0) by (apply not_0_IZR; exact Wn). destruct (Z_lt_le_dec 0 c0) as [P|P].
      - rewrite (Z.sgn_pos c0 P), Z.mul_1_l. assert (0 < w)%Z by nia. rewrite Z.abs_eq by lia. reflexivity.
      - rewrite (Z.sgn_neg c0) by lia. assert (w < 0)%Z by nia. rewrite Z.abs_neq by lia. rewrite mult_IZR, opp_IZR. field. assumption. }
    rewrite S. assert (G : IZR g <> 0) by (apply not_0_IZR; lia). assert (Iw : IZR w <> 0) by (apply not_0_IZR; exact Wn).
    assert (E1 : - IZR c1 = IZR u * IZR g) by (rewrite <- opp_IZR, <- mult_IZR; f_equal; exact Eu).
    assert (E0 : IZR c0 = IZR w * IZR g) by (rewrite <- mult_IZR; f_equal; exact Ew).
    apply (Rmult_eq_reg_r (x * (IZR w * IZR g))); [|apply Rmult_integral_contrapositive_currified; [exact X0|apply Rmult_integral_contrapositive_currified; assumption]].
    replace (IZR u / IZR w * (x * (IZR w * IZR g))) with (IZR u * IZR g * x) by (field; exact Iw).
    replace (/ x * (x * (IZR w * IZR g))) with (IZR w * IZR g) by (field; exact X0). rewrite <- E0, <- E1. lra. }
  destruct H as (y & E & V). exists y. split; [exact E|]. split; [exact V|]. rewrite V. split.
  - intros Q. assert (x * x = 1) by (rewrite <- Q at 1; field; exact X0). assert (P : (x - 1) * (x + 1) = 0) by lra. apply Rmult_integral in P. destruct P; [left|right]; lra.
  - intros [-> | ->]; field.
Qed.

Lemma q_div_product : forall o n debug pol x, minimal pol x -> nf_ok pol x n -> forall fuel nf m a qn qd c, exact_mem pol m -> (0 < qd)%Z -> a <> c ->
  values x m c <> 0 -> exists m', run o n debug fuel nf m (KQDiv a qn qd c) = Val (nf, m') /\ exact_mem pol m' /\
    values x m' = vset (values x m) a (values x m c * (IZR qn / IZR qd)) /\
    (values x m' a = IZR qn / IZR qd / values x m c <-> qn = 0%Z \/ values x m c = 1 \/ values x m c = -1).
Proof.
  intros o n debug pol x Hm Hn fuel nf m a qn qd c G Hd Ac V0. cbn [run].
  assert (Q : IZR qd <> 0) by (apply not_0_IZR; lia).
  destruct (put_exact pol x m a (r_elem (m c)) (r_emb (upd_elem m a (r_elem (m c)) c)) (values x m c) G ltac:(split; [apply G|reflexivity])) as (A1 & V1).
  change (upd_emb (upd_elem m a (r_elem (m c))) a (r_emb (upd_elem m a (r_elem (m c)) c))) with (do_set m a c) in A1, V1.
  set (m0 := do_set m a c) in *.
  assert (Ea : r_elem (m0 a) = r_elem (m c)) by (unfold m0, do_set, upd_emb, upd_elem; rewrite Nat.eqb_refl; reflexivity).
  assert (Nz : is_zero (r_elem (m0 a)) = false).
  { rewrite Ea. destruct (is_zero (r_elem (m c))) eqn:Z; [|reflexivity]. apply (is_zero_spec pol x Hm _ (G c)) in Z. contradiction. }
  destruct (do_inv o n (f_prec nf) m0 a a) as [m1| | |] eqn:Ei; try (unfold do_inv in Ei; rewrite Nz in Ei; discriminate).
  destruct (inv_exact o n pol x Hm Hn _ m0 a a m1 A1 Ei) as (A2 & V2). cbn [bind]. eexists. split; [reflexivity|].
  unfold do_mul_q. cbv zeta.
  destruct (put_exact pol x m1 a (n_mul_q n (r_elem (m1 c)) qn qd) (o_mul o (r_emb (upd_elem m1 a (n_mul_q n (r_elem (m1 c)) qn qd) c)) (o_set_q o qn qd (f_prec nf)) (f_prec nf))
    (values x m1 c * (IZR qn / IZR qd)) A2) as [A4 V4]; [apply (nk_mul_q _ _ _ Hn); [apply A2|exact Hd]|].
  assert (Vc : values x m1 c = values x m c).
  { rewrite V2, V1. unfold vset. destruct (Nat.eqb_spec c a) as [|_]; [congruence|]. reflexivity. }
  split; [exact A4|]. rewrite V4, Vc, V2, V1. split; [rewrite !vset_same; reflexivity|].
  rewrite vset_get. set (v := values x m c) in *. set (k := IZR qn) in *. split.
  - intros E. assert (P : k * ((v - 1) * (v + 1)) = 0).
    { replace (k * ((v - 1) * (v + 1))) with ((v * (k / IZR qd) - k / IZR qd / v) * (v * IZR qd)) by (field; split; assumption). rewrite E. ring. }
    apply Rmult_integral in P. destruct P as [P|P]; [left; apply eq_IZR; exact P|right]. apply Rmult_integral in P. destruct P; [left|right]; lra.
  - intros [P|[P|P]]; [unfold k; rewrite P|rewrite P|rewrite P]; field; auto.
Qed.

(** The bits in which both bounds of a rounding fit. *)
Lemma zbits_fits : forall m s, (1 <= s)%Z -> (zbits m + 1 <= s)%Z <-> (Z.abs m < 2 ^ (s - 1))%Z.
Proof.
  intros m s Hs. destruct (Z.eq_dec m 0) as [->|N].
  - split; [intros _; apply Z.pow_pos_nonneg; lia|intros _; exact Hs].
  - destruct (zbits_spec m N) as [[A B] C]. split; intros H.
    + apply (Z.lt_le_trans _ _ _ B). apply Z.pow_le_mono_r; lia.
    + assert (L : (2 ^ (zbits m - 1) < 2 ^ (s - 1))%Z) by lia. apply Z.pow_lt_mono_r_iff in L; lia.
Qed.
Lemma rd_size_spec : forall l r s, (rd_size l r <= s)%Z <-> (1 <= s /\ Z.abs l < 2 ^ (s - 1) /\ Z.abs r < 2 ^ (s - 1))%Z.
Proof.
  intros l r s. unfold rd_size. split.
  - intros H. assert (1 <= s)%Z by lia. split; [assumption|]. split; apply zbits_fits; lia.
  - intros (H & A & B). apply zbits_fits in A, B; lia.
Qed.
