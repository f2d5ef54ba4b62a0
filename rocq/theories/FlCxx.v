(** The tiny generator of FlTiny.v through the C++ interface: relations and floor
    division are undefined with every ball arithmetic that rounds like FLINT. *)
Require Import Reals List ZArith Bool Lia Lra Psatz.
From Verif Require Import PolyR RootSpec RootModel ExtraModel Dyadic DyadicProofs VcaProofs ArbModel ArbSpec ArbProofs FieldProofs
  ElemModel ElemSpec ElemProofs ElemRefute ElemEdge CxxModel CxxSpec CxxOpModel FlSpec FlRefute FlTiny.
Import ListNotations.
Open Scope R_scope.

Definition tprog : list xcall := [XGen 0 1; XBinInt Add 0 Int 1; XBinMpz Add 0 (-1); XMakeInt 1 1 UShort 1; XZero 2 1]%Z.

Lemma tprog_runs : forall o ops debug fuel strict w, w_fields w 1%nat = tfield -> exists w', xruns o ops debug fuel strict w tprog = Val w' /\
  w_fields w' 1%nat = tfield /\
  w_objs w' 0%nat = {| ob_field := 1; ob_val := {| r_elem := n_add_q (ops tpol) (n_add_q (ops tpol) (n_set_poly (ops tpol) [0; 1] 1) 1 1) (-1) 1;
    r_emb := o_add_z o (o_add_z o (eval_arb_q o [0; 1] 1 tsharp 64) 1 64) (-1) 64 |} |}%Z /\
  w_objs w' 1%nat = {| ob_field := 1; ob_val := {| r_elem := n_set_q (ops tpol) 1 1; r_emb := bint 1 |} |}%Z /\
  w_objs w' 2%nat = zero_in 1.
Proof.
  intros o ops debug fuel strict [fs os] Ef. cbn [w_fields] in Ef. eexists. split.
  { unfold tprog. cbn [xruns xrun]. unfold binop_int, binop_mpz, make_int, ret, op_z.
    replace (arg Int 1) with 1%Z by reflexivity. replace (arg UShort 1) with 1%Z by reflexivity.
    cbv beta iota zeta delta [call_on bind run upd upd_elem upd_emb set_val set_obj set_field fld val w_objs w_fields ob_field ob_val num_of zero_in Nat.eqb r_elem r_emb].
    rewrite !Ef. cbn [gen tfield f_pol tpol f_emb f_prec]. reflexivity. }
  cbn [w_fields w_objs]. repeat split.
Qed.

Lemma tiny_cxx : exists pol a x l, minimal pol x /\ inb x a /\ (forall z, inb z a -> zeval pol z = 0 -> z = x) /\ 0 < x < 1 /\ Forall xcall_ok l /\
  forall o ops, arb_ok o -> arb_fl o -> nf_ok pol x (ops pol) -> forall debug fuel, exists nf, renf_init o debug (S fuel) pol 1 a 64 = Val nf /\
  forall strict xs w, w_fields w 1%nat = nf -> xs 1%nat = x -> exists w', xruns o ops debug (S fuel) strict w l = Val w' /\
  value xs w' 0 = x /\ value xs w' 1 = 1 /\ value xs w' 2 = 0 /\ fld w' 0 = 1%nat /\ fld w' 1 = 1%nat /\ fld w' 2 = 1%nat /\
  (forall r, r <> REq -> r <> RNe -> rel_mpq o ops debug (S fuel) r w' 0 1 (2 ^ 200) = Undef /\
     rel_left o ops debug (S fuel) r w' (SMpq 1 (2 ^ 200)) 0 = Undef) /\
  rel_objs o ops debug (S fuel) RLt w' 0 2 = Undef /\ rel_objs o ops debug (S fuel) RGe w' 0 2 = Undef /\
  sgn_obj o debug (S fuel) w' 0 = Undef /\ floor_obj o debug (S fuel) rd_floor w' 0 = Undef /\ floor_obj o debug (S fuel) rd_ceil w' 0 = Undef /\
  floordiv o ops debug (S fuel) strict w' 1 0 = Undef.
Proof.
  destruct troot as (x & _ & Zx). exists tpol, tsharp, x, tprog. split; [apply tminimal, Zx|]. split; [apply tsharp_in, Zx|].
  split; [intros z _; apply tunique, Zx|]. split; [apply tiny_between, Zx|]. split; [unfold tprog; repeat constructor; discriminate|].
  intros o ops Ho Hf Hn debug fuel. exists tfield. split; [apply tiny_made, Hf|]. intros strict xs w Ef Ex.
  destruct (tprog_runs o ops debug (S fuel) strict w Ef) as (w' & Run & Ef' & O0 & O1 & O2). exists w'. split; [exact Run|]. clear Run.
  destruct (tiny_state o Ho Hf x Zx (ops tpol) Hn debug (S fuel)) as (m & mid & rad & E & E0 & Eb & Em & Er & Ix & _ & _).
  cbn [runs tcalls run bind gen tfield f_pol tpol] in E. injection E as <-.
  cbn [upd upd_elem upd_emb r_elem r_emb Nat.eqb f_emb f_prec tfield] in E0, Eb, Ix. rewrite E0 in O0.
  set (b := o_add_z o (o_add_z o (eval_arb_q o [0; 1]%Z 1 tsharp 64) 1 64) (-1) 64) in *. clearbody b. subst b. clear E0.
  assert (A1 : n_set_q (ops tpol) 1 1 = {| e_num := [1]; e_den := 1 |}%Z).
  { destruct (nk_set_q _ _ _ Hn 1 1 ltac:(lia)) as [C V].
    apply (canon_unique tpol x (tminimal x Zx) _ _ C); [apply canon_intro; cbn; lia || (try discriminate); reflexivity|].
    rewrite V. unfold ev. cbn [e_num e_den]. rewrite zeval_cons, zeval_nil. lra. }
  rewrite A1 in O1. clear A1.
  set (y := {| r_elem := jg; r_emb := Fin mid rad |}) in *.
  assert (Cq : cmp_num o ops debug (S fuel) w' 0 1 (2 ^ 200) = Undef).
  { unfold cmp_num, fld, val. rewrite O0. cbn [ob_field ob_val]. rewrite Ef'. change (f_pol tfield) with tpol.
    rewrite (tiny_cmp_q o Ho x Zx (ops tpol) y mid rad eq_refl eq_refl Em Er Ix). reflexivity. }
  assert (Cc : cmp_objs o ops debug (S fuel) w' 0 2 = Undef).
  { unfold cmp_objs, fld, val. rewrite O0, O2. cbn [ob_field ob_val zero_in]. rewrite Ef'. change (f_pol tfield) with tpol.
    rewrite (tiny_cmp o (ops tpol) y mid rad eq_refl eq_refl Em Er). reflexivity. }
  unfold value, num_of, val, fld. rewrite O0, O1, O2. cbn [ob_field ob_val zero_in r_elem y]. rewrite Ex.
  split; [apply jg_val|]. split; [unfold ev; cbn [e_num e_den]; rewrite zeval_cons, zeval_nil; lra|].
  split; [unfold ev; cbn [e_num e_den]; rewrite zeval_nil; lra|]. split; [reflexivity|]. split; [reflexivity|]. split; [reflexivity|].
  split.
  { intros r N1 N2. destruct r; try congruence; cbn [rel_mpq rel_left rel_right]; unfold relop_mpq; rewrite Cq; split; reflexivity. }
  assert (Fe : Nat.eqb (fld w' 0) (fld w' 2) = true) by (unfold fld; rewrite O0, O2; reflexivity).
  split; [cbn [rel_objs]; unfold lt_objs; rewrite Fe, Cc; reflexivity|]. split; [cbn [rel_objs]; unfold lt_objs; rewrite Fe, Cc; reflexivity|].
  split; [unfold sgn_obj, fld, val; rewrite O0; cbn [ob_field ob_val]; rewrite Ef', (tiny_sgn o y mid rad eq_refl eq_refl Em Er); reflexivity|].
  assert (Fl : forall rd, rd = rd_floor \/ rd = rd_ceil -> floor_obj o debug (S fuel) rd w' 0 = Undef).
  { intros rd Hrd. unfold floor_obj, fld, val. rewrite O0. cbn [ob_field ob_val]. rewrite Ef', (tiny_round o y mid rad eq_refl eq_refl Em Er debug fuel rd Hrd). reflexivity. }
  split; [apply Fl; left; reflexivity|]. split; [apply Fl; right; reflexivity|].
  unfold floordiv, fdiv_objs, fld, val. rewrite O0, O1. cbn [ob_field ob_val Nat.eqb]. rewrite Ef'. change (f_pol tfield) with tpol. cbv zeta. rewrite Nat.eqb_refl.
  cbn [negb]. rewrite (tiny_fdiv o Hf (ops tpol) y eq_refl debug fuel). reflexivity.
Qed.
