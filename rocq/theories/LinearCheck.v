(** The check of the embedding of a field of degree 1. *)
Require Import Reals List ZArith Bool Lia Lra.
From Verif Require Import PolyR RootSpec RootModel ExtraModel Dyadic DyadicProofs ArbModel ArbSpec ArbProofs FieldProofs.
Import ListNotations.
Open Scope R_scope.

Lemma bcontains_q_ok : forall b n d, (0 < d)%Z -> bcontains_q b n d = true <-> inb (IZR n / IZR d) b.
Proof.
  intros [m r|] n d D; [|split; intros _; [exact I|reflexivity]]. apply IZR_lt in D. unfold bcontains_q, inb. rewrite dleb_spec, dyv_abs, dyv_sub, !dyv_mul, !dyv_dz.
  replace (dyv m * IZR d - IZR n) with (- ((IZR n / IZR d - dyv m) * IZR d)) by (field; lra). rewrite Rabs_Ropp, Rabs_mult, (Rabs_pos_eq (IZR d)) by lra.
  split; intros H; [exact (Rmult_le_reg_r _ _ _ D H)|apply Rmult_le_compat_r; lra].
Qed.

Lemma check_unique_linear_iff : forall o fuel c0 c1 a prec, c1 <> 0%Z -> exists b,
  check_unique o fuel [c0; c1] a prec = Val b /\ (b = true <-> unique_root [c0; c1] a).
Proof.
  intros o fuel c0 c1 a prec Hc. eexists. split; [reflexivity|]. split; [intros E; apply (check_unique_linear o fuel c0 c1 a prec Hc); cbn [check_unique]; rewrite E; reflexivity|].
  intros (x & [Hx Zx] & _). apply bcontains_q_ok; [lia|]. pose proof (IZR_neq _ _ Hc) as Hc'.
  replace (IZR (- c0 * Z.sgn c1) / IZR (Z.abs c1)) with x; [exact Hx|].
  unfold zeval in Zx. cbn [map peval] in Zx. assert (E : x * IZR c1 = - IZR c0) by lra.
  rewrite mult_IZR, opp_IZR, <- E. assert (S : (Z.sgn c1 * c1)%Z = Z.abs c1) by lia. rewrite <- S, mult_IZR.
  assert (IZR (Z.sgn c1) <> 0) by (apply IZR_neq; lia). assert (S2 : IZR (Z.sgn c1) * IZR (Z.sgn c1) = 1) by (rewrite <- mult_IZR; f_equal; lia). field. split; assumption.
Qed.
