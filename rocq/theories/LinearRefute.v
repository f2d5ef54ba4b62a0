(** Balls of rational numbers in the field of the polynomial x. *)
Require Import Reals List ZArith Bool Lia Lra.
From Verif Require Import PolyR RootSpec RootModel ExtraModel VcaProofs Dyadic DyadicProofs ArbModel ArbSpec ArbProofs RefineProofs
  ElemModel ElemSpec ElemProofs LinearCheck.
Import ListNotations.
Open Scope R_scope.

Lemma zero_minimal : minimal [0; 1]%Z 0.
Proof.
  constructor; [unfold zeval; cbn; lra|cbn; lia|cbn; lia|]. intros p Hp Hz. destruct p as [|c [|]]; [constructor| |cbn in Hp; lia].
  constructor; [|constructor]. unfold zeval in Hz. cbn in Hz. apply eq_IZR. lra.
Qed.

Lemma third_not_dyadic : forall d, dyv d <> 1 / 3.
Proof.
  intros [a e] H. unfold dyv in H. cbn [fst snd] in H. assert (E : 3 * (IZR a * pw2 e) = 1) by lra.
  destruct (Z_le_gt_dec 0 e) as [G|G].
  - rewrite <- pw2_IZR in E by exact G. rewrite <- !mult_IZR in E. apply eq_IZR in E. lia.
  - assert (P : IZR a * pw2 e * pw2 (- e) = IZR a) by (rewrite Rmult_assoc, <- pw2_add; replace (e + - e)%Z with 0%Z by lia; change (pw2 0) with 1; ring).
    assert (Q : 3 * IZR a = pw2 (- e)) by (rewrite <- P; replace (3 * (IZR a * pw2 e * pw2 (- e))) with (3 * (IZR a * pw2 e) * pw2 (- e)) by ring; rewrite E; ring).
    rewrite <- pw2_IZR in Q by lia. rewrite <- mult_IZR in Q. apply eq_IZR in Q.
    assert (D : (3 | 2 ^ (- e))%Z) by (exists a; lia).
    assert (W : forall k, (0 <= k)%Z -> (3 | 2 ^ k)%Z -> False).
    { intros k Hk. pattern k. apply natlike_ind; [intros D0; apply Z.divide_1_r in D0; lia| |exact Hk].
      intros j Hj IH D0. apply IH. rewrite Z.pow_succ_r in D0 by exact Hj. apply Z.gauss with 2%Z; [exact D0|reflexivity]. }
    apply (W (- e)%Z); [lia|exact D].
Qed.

Lemma third_elem : forall n, nf_ok [0; 1]%Z 0 n -> canon [0; 1]%Z (n_set_q n 1 3) /\ ev 0 (n_set_q n 1 3) = 1 / 3.
Proof. intros n Hn. apply (nk_set_q _ _ _ Hn 1%Z 3%Z). lia. Qed.

Definition zero_ball : ball := Fin (0, 0)%Z (1, 0)%Z.
Definition zero_field : renf := {| f_pol := [0; 1]; f_den := 1; f_emb := zero_ball; f_prec := 64; f_imm := 0 |}%Z.

Lemma zero_init : forall o debug fuel, renf_init o debug fuel [0; 1]%Z 1 zero_ball 64 = Val zero_field.
Proof. intros. reflexivity. Qed.

Lemma zero_refine : forall o debug fuel prec, refine o debug fuel zero_field prec = Undef.
Proof. intros o debug fuel prec. destruct debug; reflexivity. Qed.

Lemma zero_get_arb : forall o n, arb_ok o -> nf_ok [0; 1]%Z 0 n -> exists prec, (0 <= prec)%Z /\ forall debug fuel el, exists el',
  renf_init o debug fuel [0; 1]%Z 1 zero_ball 64 = Val zero_field /\ run o n debug fuel zero_field el (KSetQ 0 1 3) = Val (zero_field, el') /\
  elem_ok [0; 1]%Z 0 (el' 0%nat) /\ ev 0 (r_elem (el' 0%nat)) = 1 / 3 /\ get_arb o debug (S fuel) zero_field (el' 0%nat) prec = Undef.
Proof.
  intros o n Ho Hn. destruct (third_elem n Hn) as [C V]. set (e := n_set_q n 1 3) in *.
  set (b1 := o_set_q o 1 3 64). set (b2 := o_set_q o (nth 0 (e_num e) 0%Z) (e_den e) 64).
  exists (Z.max 0 (Z.max (- rel_error b1) (- rel_error b2))). set (prec := Z.max 0 _). split; [lia|]. intros debug fuel el.
  eexists. split; [reflexivity|]. split; [reflexivity|]. cbn [upd_elem upd_emb Nat.eqb r_elem r_emb f_prec zero_field]. fold e. fold b1.
  assert (I1 : inb (1 / 3) b1) by (apply (ok_set_q o Ho); lia).
  split; [split; cbn [r_elem r_emb]; [exact C|rewrite V; exact I1]|]. split; [exact V|].
  unfold get_arb. cbv zeta. cbn [r_elem r_emb].
  destruct (is_zero e) eqn:Z0; [apply (is_zero_spec _ _ zero_minimal _ C) in Z0; rewrite V in Z0; lra|].
  assert (H1 : (rel_error b1 <? - prec - 2)%Z = false) by (apply Z.ltb_ge; lia). rewrite H1.
  assert (Rt : is_rational e = true).
  { pose proof (can_len _ _ C) as W. unfold is_rational. destruct (e_num e) as [|? [|]]; cbn in W; try reflexivity. lia. }
  cbn [get_arb_loop]. unfold elem_cond. rewrite Rt. change (start_prec zero_field) with 64%Z. rewrite Z.add_0_r.
  change (set_evaluation o zero_field e 64) with (Val b2). cbn [bind].
  assert (H2 : (rel_error b2 <? - prec - 2)%Z = false) by (apply Z.ltb_ge; lia). rewrite H2, zero_refine. reflexivity.
Qed.

(** With an exact enclosure of the generator the quotient is asked for with as many bits as a word can hold. *)
Definition exact_field : renf := {| f_pol := [0; 1]; f_den := 1; f_emb := bzero; f_prec := 64; f_imm := 0 |}%Z.
Definition third : elem := {| e_num := [1]; e_den := 3 |}%Z.

Lemma exact_get_arb : forall o debug fuel prec b, inb (1 / 3) b -> (- prec - 2 <= rel_error b)%Z ->
  renf_init o debug fuel [0; 1]%Z 1 bzero 64 = Val exact_field /\
  get_arb o debug (S fuel) exact_field {| r_elem := third; r_emb := b |} prec =
    (let c := o_set_q o 1 3 WORD_MAX in
     if (rel_error c <? - prec - 2)%Z then Val (exact_field, c, o_round o c (prec + 2))
     else bind (refine o debug fuel exact_field (2 * WORD_MAX)) (fun nf => get_arb_loop o debug fuel nf third (2 * WORD_MAX) 0 prec)).
Proof.
  intros o debug fuel prec b Hb Hp. split; [reflexivity|]. unfold get_arb. cbv zeta. cbn [r_elem r_emb].
  change (is_zero third) with false. cbv iota. assert (H1 : (rel_error b <? - prec - 2)%Z = false) by (apply Z.ltb_ge; lia). rewrite H1.
  change (start_prec exact_field) with WORD_MAX. change (elem_cond exact_field third) with 0%Z. cbn [get_arb_loop].
  rewrite Z.add_0_r. change (set_evaluation o exact_field third WORD_MAX) with (Val (o_set_q o 1 3 WORD_MAX)). reflexivity.
Qed.
