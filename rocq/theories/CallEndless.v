(** A callback with which making a field does not end. *)
Require Import Reals List ZArith Bool Lia Lra Ascii String.
From Verif Require Import PolyR RootSpec RootModel ExtraModel Dyadic ArbModel ArbSpec DyBall ElemModel StrModel CxxModel MakeModel MakeSpec MakeText StrRefute EndsRefute
  CreateEx.
Import ListNotations.
Open Scope R_scope.

Definition stuck_text : str := lit "1.414215087890625 +/- 2.24996948".
Definition stuck_start (i : Z) : renf :=
  {| f_pol := sq_pol; f_den := 1; f_emb := Fin (13043831895748509696, -63) (603971584, -28); f_prec := 64; f_imm := i |}%Z.

Lemma start_read : dec_read stuck_text 64 = Some (f_emb (stuck_start 0)).
Proof. vm_compute. reflexivity. Qed.

Lemma start_loop : forall fuel i, refine_loop dyops fuel (stuck_start i) 64 16 = Fuel.
Proof.
  intros [|fuel] i; [reflexivity|]. cbn [refine_loop]. change (rel_accuracy (f_emb (stuck_start i)) <? 64)%Z with true. cbv iota.
  assert (En : newton_step dyops sq_pol (zderiv sq_pol) (f_emb (stuck_start i)) 16 = Val (false, None)) by (vm_compute; reflexivity).
  assert (Eb : bisection_step dyops sq_pol (f_emb (stuck_start i)) 16 = Val (true, Some stuck_ball)) by (vm_compute; reflexivity).
  change (f_pol (stuck_start i)) with sq_pol. rewrite En. cbn [bind]. rewrite Eb. cbn [bind]. change (with_emb (stuck_start i) stuck_ball) with (stuck i).
  assert (Ec : comp_prec (stuck i) 32 = Val 16%Z) by (vm_compute; reflexivity). rewrite Ec. cbn [bind]. apply stuck_loop.
Qed.

Lemma start_refine : forall debug fuel, refine dyops debug fuel (stuck_start 0) 64 = Fuel.
Proof.
  intros debug fuel. assert (Ec : forall i, comp_prec (stuck_start i) (Z.max (f_prec (stuck_start i)) 64) = Val 16%Z) by (intros i; vm_compute; reflexivity).
  unfold refine. destruct debug.
  - unfold set_immutable. change (with_imm (stuck_start 0) 1) with (stuck_start 1). change (f_imm (stuck_start 0) =? 0)%Z with true. cbv iota beta.
    rewrite Ec. cbn [bind]. rewrite start_loop. reflexivity.
  - rewrite Ec. cbn [bind]. apply start_loop.
Qed.

Lemma start_unique : forall fuel, check_unique dyops (8 + fuel) sq_pol (f_emb (stuck_start 0)) 64 = Val true.
Proof. intros fuel. vm_compute. reflexivity. Qed.

Lemma callback_endless : exists s q x, ball_text s = Some q /\ in_text x q /\ zeval [-2; 0; 1]%Z x = 0 /\
  (forall y, in_text y q -> zeval [-2; 0; 1]%Z y = 0 -> y = x) /\
  forall zd emb, emb 64%Z = Ret s -> forall debug fuel n, (8 <= fuel)%nat ->
  make_loop dyops debug zd dec_read fuel n (lit "x^2 - 2") (lit "x") emb 64 = Fuel.
Proof.
  destruct sq_root as (z & Hz & E). exists stuck_text. eexists. exists z. split; [vm_compute; reflexivity|].
  match goal with |- in_text _ ?q /\ _ => assert (Hin : forall y, in_text y q <-> -1 * 0.835754392109375 <= y <= 3.664184567890625) end.
  { intros y. unfold in_text, dec10. cbn [fst snd]. cbn [powerRZ].
    change (Pos.to_nat 15) with 15%nat. change (Pos.to_nat 8) with 8%nat. cbn [pow].
    split; intros H; [unfold Rabs in H; destruct (Rcase_abs _) in H|apply Rabs_le]; lra. }
  split; [apply Hin; lra|]. split; [unfold zeval; cbn [map peval]; lra|]. split.
  - intros y Hy Zy. apply Hin in Hy. unfold zeval in Zy. cbn [map peval] in Zy.
    assert (Q : (y - z) * (y + z) = 0) by lra. apply Rmult_integral in Q. destruct Q; lra.
  - intros zd emb He debug fuel n Hf. destruct n as [|n]; [reflexivity|]. cbn [make_loop].
    assert (Es : set_str zd (lit "x") (lit "x^2 - 2") = Val (Some {| e_num := sq_pol; e_den := 1 |}%Z)) by (vm_compute; reflexivity).
    rewrite Es. cbn [bind]. rewrite He. change (64 <? 2)%Z with false. cbv iota. rewrite start_read. cbn [e_num e_den].
    replace fuel with (8 + (fuel - 8))%nat by lia. rewrite start_unique. cbn [bind]. unfold renf_init. rewrite start_unique. cbn [bind].
    change (Nat.eqb (List.length sq_pol) 2) with false. cbv iota. fold (stuck_start 0).
    change {| f_pol := sq_pol; f_den := 1; f_emb := f_emb (stuck_start 0); f_prec := 64; f_imm := 0 |}%Z with (stuck_start 0). rewrite start_refine. reflexivity.
Qed.
