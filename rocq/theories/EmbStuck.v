(** Embeddings that are never created, whatever the precision. *)
Require Import Reals List ZArith Bool Lia Lra Psatz.
From Verif Require Import PolyR RootSpec RootModel VcaProofs ExtraModel Dyadic DyadicProofs ArbModel ArbSpec ArbProofs DyBall DyBallProofs
  EmbModel RateSpec DyRate ToolsSpec ElemProofs IsoAll CreateMain RefineEnds.
Import ListNotations.
Open Scope R_scope.

(** The roots are about 2^-11 and 4/3 2^-10. *)
Definition slow_pol : list Z := [4; -11264; 6291455]%Z.

(** ** It is irreducible: its discriminant is 2 modulo 3 *)
Lemma slow_descent : forall u v, (u * u = 26214416 * (v * v))%Z -> v = 0%Z.
Proof.
  intros u v. remember (Z.abs_nat v) as k eqn:Ek. revert u v Ek. induction k as [k IH] using lt_wf_ind. intros u v Ek E.
  destruct (Z.eq_dec v 0) as [|Nv]; [assumption|exfalso].
  pose proof (Z.div_mod u 3 ltac:(lia)) as Du. pose proof (Z.div_mod v 3 ltac:(lia)) as Dv.
  pose proof (Z.mod_pos_bound u 3 ltac:(lia)) as Bu. pose proof (Z.mod_pos_bound v 3 ltac:(lia)) as Bv.
  set (u1 := (u / 3)%Z) in *. set (v1 := (v / 3)%Z) in *. set (u0 := (u mod 3)%Z) in *. set (v0 := (v mod 3)%Z) in *.
  rewrite Du, Dv in E.
  assert (Hm : exists t, (u0 * u0 - 2 * (v0 * v0) = 3 * t)%Z).
  { exists (26214416 * (3 * v1 * v1 + 2 * v1 * v0) + 8738138 * (v0 * v0) - 3 * u1 * u1 - 2 * u1 * u0)%Z. lia. }
  destruct Hm as (t & Ht).
  assert (Hz : u0 = 0%Z /\ v0 = 0%Z).
  { assert (C1 : (u0 = 0 \/ u0 = 1 \/ u0 = 2)%Z) by lia. assert (C2 : (v0 = 0 \/ v0 = 1 \/ v0 = 2)%Z) by lia.
    destruct C1 as [->|[->| ->]], C2 as [->|[->| ->]]; lia. }
  destruct Hz as [Z1 Z2]. rewrite Z1, Z2 in *.
  assert (v1 = 0%Z); [|lia]. apply (IH (Z.abs_nat v1)) with (u := u1); [lia|reflexivity|lia].
Qed.

Lemma slow_irreducible : irreducible slow_pol.
Proof.
  intros k a b Nk La Lb L H. cbn in L. destruct a as [|a0 [|a1 [|]]]; cbn in La, L; try lia. destruct b as [|b0 [|b1 [|]]]; cbn in Lb, L; try lia.
  pose proof (H 0%nat) as H0. pose proof (H 1%nat) as H1. pose proof (H 2%nat) as H2. unfold conv_coeff in H0, H1, H2. cbn in H0, H1, H2.
  apply Nk. apply (slow_descent (a0 * b1 - a1 * b0) k). nia.
Qed.

(** ** Its smaller root, in the interval from 0 to 2^-10 *)
Lemma slow_eval : forall y, zeval slow_pol y = 6291455 * y * y - 11264 * y + 4.
Proof. intros y. unfold slow_pol. rewrite !zeval_cons, zeval_nil. ring. Qed.

Definition slow_ball : ball := Fin (1, -11)%Z (1, -11)%Z.
Lemma slow_inb : forall y, inb y slow_ball <-> 0 <= y <= / 1024.
Proof.
  intros y. unfold inb, slow_ball, dyv. cbn [fst snd]. assert (E : pw2 (-11) = / 2048) by (unfold pw2; cbn [powerRZ]; f_equal; change (Pos.to_nat 11) with 11%nat; simpl; lra).
  rewrite E. split; intros H; [apply Rabs_le_inv2 in H|apply Rabs_le]; lra.
Qed.
Lemma slow_root : exists x, inb x slow_ball /\ zeval slow_pol x = 0 /\ forall y, inb y slow_ball -> zeval slow_pol y = 0 -> y = x.
Proof.
  destruct (peval_ivt (map IZR slow_pol) 0 (/ 1024)) as (x & Hx & E); [lra|simpl; lra|]. exists x.
  assert (Ex : zeval slow_pol x = 0) by exact E. split; [apply slow_inb; lra|]. split; [exact Ex|].
  intros y Hy Ey. apply slow_inb in Hy. rewrite slow_eval in Ex, Ey.
  assert (Q : (y - x) * (6291455 * (x + y) - 11264) = 0) by lra. apply Rmult_integral in Q. destruct Q as [Q|Q]; [lra|exfalso].
  assert (S : x + y = 11264 / 6291455) by lra. assert (y = 11264 / 6291455 - x) by lra. nra.
Qed.

(** ** The refinement comes back to the same enclosure *)
Definition slow (prec i : Z) (b : ball) : renf := {| f_pol := slow_pol; f_den := 1; f_emb := b; f_prec := prec; f_imm := i |}%Z.

(** One pass of the loop with 17 bits: the next enclosure, if 17 bits are asked for again. *)
Definition next (b : ball) : option ball :=
  match newton_step dyops slow_pol (zderiv slow_pol) b 17, bisection_step dyops slow_pol b 17 with
  | Val (false, None), Val (true, Some t) =>
      match comp_prec (slow 64 0 t) 32 with Val cp => if (cp =? 17)%Z && (rel_accuracy b <? 2)%Z then Some t else None | _ => None end
  | _, _ => None
  end.
Fixpoint circles (n : nat) (b : ball) : Prop :=
  match n with O => next b = Some b | S n => exists t, next b = Some t /\ circles n t end.

Lemma next_pass : forall fuel prec i b t, (2 <= prec)%Z -> next b = Some t ->
  refine_loop dyops (S fuel) (slow prec i b) prec 17 = refine_loop dyops fuel (slow prec i t) prec 17.
Proof.
  intros fuel prec i b t Hp H. unfold next in H. cbn [refine_loop]. change (f_pol (slow prec i b)) with slow_pol. change (f_emb (slow prec i b)) with b.
  destruct (newton_step dyops slow_pol (zderiv slow_pol) b 17) as [[[|] [|]]| | |]; try discriminate H.
  destruct (bisection_step dyops slow_pol b 17) as [[[|] [t'|]]| | |]; try discriminate H.
  change (comp_prec (slow 64 0 t') 32) with (comp_prec (slow prec i t') 32) in H. cbn [bind]. change (with_emb (slow prec i b) t') with (slow prec i t').
  destruct (comp_prec (slow prec i t') 32) as [cp| | |]; try discriminate H. cbn [bind].
  destruct (Z.eqb_spec cp 17) as [Ec|Ec]; [subst cp|discriminate H]. destruct (Z.ltb_spec (rel_accuracy b) 2) as [L|]; [|discriminate H]. injection H as ->.
  rewrite (proj2 (Z.ltb_lt _ _)) by lia. reflexivity.
Qed.

Lemma circles_loop : forall fuel prec i n b, (2 <= prec)%Z -> circles n b -> refine_loop dyops fuel (slow prec i b) prec 17 = Fuel.
Proof.
  induction fuel as [|fuel IH]; intros prec i n b Hp H; [reflexivity|]. destruct n as [|n]; cbn [circles] in H.
  - rewrite (next_pass fuel prec i b b Hp H). apply (IH prec i 0%nat b Hp H).
  - destruct H as (t & E & H). rewrite (next_pass fuel prec i b t Hp E). apply (IH prec i n t Hp H).
Qed.

Lemma slow_circles : circles 15 slow_ball.
Proof. cbn [circles]. repeat (eexists; split; [vm_compute; reflexivity|]). vm_compute. reflexivity. Qed.

Lemma dround_id : forall md prec d, (zbits (fst d) <= prec)%Z -> dround md prec d = d.
Proof. intros md prec d H. unfold dround. rewrite (proj2 (Z.leb_le _ _)) by lia. reflexivity. Qed.

Lemma slow_start : forall prec i, comp_prec (slow prec i slow_ball) (Z.max prec 64) = Val 17%Z.
Proof.
  intros prec i. set (q := Z.max prec 64). assert (Hq : (64 <= q)%Z) by lia. clearbody q.
  assert (E : cond_2exp slow_pol slow_ball q = cond_2exp slow_pol slow_ball 64).
  { unfold cond_2exp, abs_ubound, slow_ball.
    assert (R : forall md d, (zbits (fst d) <= 64)%Z -> dround md q d = dround md 64 d) by (intros md d Hd; rewrite !dround_id by lia; reflexivity).
    rewrite (R RUp (dadd (dabs (1, -11)%Z) (1, -11)%Z)) by (vm_compute; discriminate).
    set (a := dround RUp 64 _). vm_compute in a. unfold slow_pol. cbn [cond_sum].
    change (0 <? 6291455)%Z with true. change (0 <? -11264)%Z with false. change (-11264 <? 0)%Z with true. change (0 <? 4)%Z with true. cbv iota zeta.
    rewrite (R RUp (dz 6291455)) by (vm_compute; discriminate). set (a1 := dround RUp 64 (dz 6291455)). vm_compute in a1.
    rewrite (R RUp (dmul a1 a)) by (vm_compute; discriminate). set (a2 := dround RUp 64 (dmul a1 a)). vm_compute in a2.
    rewrite (R RUp (dsub a2 (dz (-11264)))) by (vm_compute; discriminate). set (a3 := dround RUp 64 (dsub a2 _)). vm_compute in a3.
    rewrite (R RUp (dmul a3 a)) by (vm_compute; discriminate). set (a4 := dround RUp 64 (dmul a3 a)). vm_compute in a4.
    rewrite (R RUp (dadd a4 (dz 4))) by (vm_compute; discriminate). reflexivity. }
  unfold comp_prec. change (f_pol (slow prec i slow_ball)) with slow_pol. change (f_emb (slow prec i slow_ball)) with slow_ball. rewrite E. vm_compute. reflexivity.
Qed.

Lemma slow_refine : forall debug fuel prec, (2 <= prec)%Z -> refine dyops debug fuel (slow prec 0 slow_ball) prec = Fuel.
Proof.
  intros debug fuel prec Hp. unfold refine. destruct debug.
  - unfold set_immutable. change (with_imm (slow prec 0 slow_ball) 1) with (slow prec 1 slow_ball). change (f_imm (slow prec 0 slow_ball) =? 0)%Z with true. cbv iota beta.
    change (f_prec (slow prec 1 slow_ball)) with prec. rewrite slow_start. cbn [bind]. rewrite (circles_loop fuel prec 1 _ _ Hp slow_circles). reflexivity.
  - change (f_prec (slow prec 0 slow_ball)) with prec. rewrite slow_start. cbn [bind]. apply (circles_loop fuel prec 0 _ _ Hp slow_circles).
Qed.

(** ** The whole call *)
Lemma slow_isolate : forall fuel, isolate 0 (20 + fuel) slow_pol = VDone [] [(0, -10); (1, -10)]%Z.
Proof. intros fuel. vm_compute. reflexivity. Qed.

Lemma slow_embeddings : forall debug fuel lim prec, (20 <= fuel)%nat -> (1 <= lim)%Z -> (2 <= prec)%Z -> check_unique dyops fuel slow_pol slow_ball prec = Val true ->
  set_embeddings dyops debug 0 fuel slow_pol lim prec = Fuel.
Proof.
  intros debug fuel lim prec Hf Hl Hp Hc. unfold set_embeddings. replace (num_real_roots_upper_bound 0 slow_pol) with (CVal 2) by (vm_compute; reflexivity).
  replace fuel with (20 + (fuel - 20))%nat at 1 by lia. rewrite slow_isolate. destruct (Z.to_nat lim) as [|l] eqn:El; [lia|].
  cbn [firstn embed_all]. replace (embed_ball prec (0, -10)%Z) with slow_ball.
  2:{ unfold embed_ball. cbn [fst snd]. rewrite dround_id by (change (zbits (fst (dz (2 * 0 + 1)))) with 1%Z; lia). reflexivity. }
  unfold renf_init. rewrite Hc. cbn [bind]. change (Nat.eqb (length slow_pol) 2) with false. cbv iota. fold (slow prec 0 slow_ball).
  rewrite (slow_refine debug fuel prec Hp). reflexivity.
Qed.

Lemma embeddings_endless : exists p ints, irreducible p /\ (3 <= length p)%nat /\ last p 0%Z <> 0%Z /\ isolates p reals [] ints /\ length ints = 2%nat /\
  (exists P, forall prec, (P <= prec)%Z -> exists f0, forall debug fuel lim, (f0 <= fuel)%nat -> (1 <= lim)%Z ->
     isolate 0 fuel p = VDone [] ints /\ set_embeddings dyops debug 0 fuel p lim prec = Fuel) /\
  forall debug fuel lim, (60 <= fuel)%nat -> (1 <= lim)%Z -> set_embeddings dyops debug 0 fuel p lim 64 = Fuel.
Proof.
  exists slow_pol, [(0, -10); (1, -10)]%Z. split; [exact slow_irreducible|]. split; [cbn; lia|]. split; [discriminate|]. split; [|split; [reflexivity|split]].
  - destruct (isolation_open 0 slow_pol slow_irreducible ltac:(discriminate) ltac:(cbn; lia)) as (f0 & ints & I & F).
    + change (snd (low_zeros slow_pol)) with slow_pol. unfold good_bound. replace (root_bound 0 slow_pol) with (Some (-7)%Z) by (vm_compute; reflexivity).
      intros x Hx Ex. rewrite slow_eval in Ex. assert (E : pw2 (-7) = / 128) by (unfold pw2; cbn [powerRZ]; f_equal; change (Pos.to_nat 7) with 7%nat; simpl; lra).
      rewrite E. destruct (Rlt_le_dec x (/ 128)) as [L|L]; [exact L|exfalso]. nra.
    + change (snd (low_zeros slow_pol)) with slow_pol. change (RootModel.flip slow_pol) with [4; 11264; 6291455]%Z. unfold good_bound.
      replace (root_bound 0 [4; 11264; 6291455]%Z) with (@None Z) by (vm_compute; reflexivity).
      intros x Hx Ex. rewrite !zeval_cons, zeval_nil in Ex. nra.
    + specialize (F (20 + f0)%nat ltac:(lia)). rewrite slow_isolate in F. injection F as <-. exact I.
  - destruct slow_root as (x & Hx & Ex & Ux).
    destruct (check_accepts dyops dyops_ok dyops_rate slow_pol x (1, -11)%Z (1, -11)%Z slow_irreducible ltac:(discriminate) ltac:(cbn; lia) Hx Ex Ux) as (P & HP).
    exists (Z.max P 2). intros prec Hp. destruct (HP prec ltac:(lia)) as (f0 & Hf0). exists (Nat.max f0 20). intros debug fuel lim Hf Hl. split.
    + replace fuel with (20 + (fuel - 20))%nat by lia. apply slow_isolate.
    + apply slow_embeddings; [lia|exact Hl|lia|]. apply Hf0. lia.
  - intros debug fuel lim Hf Hl. apply slow_embeddings; [lia|exact Hl|lia|]. replace fuel with (60 + (fuel - 60))%nat by lia. vm_compute. reflexivity.
Qed.
