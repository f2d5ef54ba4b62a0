(** Fields that are not converted to SageMath, and an instance of the contracts. *)
Require Import Reals List ZArith Bool Lia Lra Ascii String.
From Verif Require Import PolyR RootSpec Dyadic ArbModel ArbSpec ArbProofs VcaProofs DyRate DyBall DyBallProofs ElemModel ElemSpec
  StrModel StrSpec StrProofs StrMore StrRefute CxxModel MakeModel MakeSpec MakeText ArchiveRefute PyModel PySpec PyField.
Import ListNotations.
Open Scope R_scope.

(** ** Fields as they are made *)
Definition sqrt2_ball : ball := Fin (458938539825448058214252037959337, -108)%Z (653002899, -136)%Z.
Definition neg_nf : renf := {| f_pol := [2; 0; -1]; f_den := 1; f_emb := sqrt2_ball; f_prec := 64; f_imm := 0 |}%Z.
Definition half_nf : renf := {| f_pol := [-2; 0; 1]; f_den := 2; f_emb := sqrt2_ball; f_prec := 64; f_imm := 0 |}%Z.
Definition zero_nf : renf := {| f_pol := [0; 1]; f_den := 1; f_emb := Fin (0, -129) (536870913, -29); f_prec := 64; f_imm := 0 |}%Z.
Definition sqrt2_nf : renf := {| f_pol := [-2; 0; 1]; f_den := 1; f_emb := sqrt2_ball; f_prec := 64; f_imm := 0 |}%Z.

Definition made (pol emb : str) (nf : renf) : Prop := make_str dyops true zd0 dec_read 50 2 pol (lit "x") emb 64 = Val (Ret nf, O).
Lemma neg_made : made (lit "-x^2 + 2") (lit "1.4 +/- 0.1") neg_nf.
Proof. vm_compute. reflexivity. Qed.
Lemma half_made : made (lit "1/2*x^2 - 1") (lit "1.4 +/- 0.1") half_nf.
Proof. vm_compute. reflexivity. Qed.
Lemma zero_made : made (lit "x") (lit "0 +/- 1") zero_nf.
Proof. vm_compute. reflexivity. Qed.
Lemma sqrt2_made : made (lit "x^2 - 2") (lit "1.4 +/- 0.1") sqrt2_nf.
Proof. vm_compute. reflexivity. Qed.

(** ** They are not converted *)
Lemma not_converted : forall print_ball read_ball poly_ring roots enclose, sage_ok print_ball read_ball poly_ring enclose ->
  normalize print_ball read_ball poly_ring roots enclose (lit "x") neg_nf = Throw /\
  normalize print_ball read_ball poly_ring roots enclose (lit "x") half_nf = Throw /\
  normalize print_ball read_ball poly_ring roots enclose (lit "x") zero_nf = Throw.
Proof.
  intros pb rb pr rs en H. unfold normalize, field_text.
  destruct (sg_plain _ _ _ _ H (f_emb neg_nf) 64%Z eq_refl) as [N1 N2]. destruct (sg_plain _ _ _ _ H (f_emb half_nf) 64%Z eq_refl) as [H1 H2].
  destruct (sg_plain _ _ _ _ H (f_emb zero_nf) 64%Z eq_refl) as [Z1 Z2].
  assert (P : forall nf, pretty (lit "x") {| e_num := f_pol nf; e_den := f_den nf |} <> [] /\ ~ In ","%char (pretty (lit "x") {| e_num := f_pol nf; e_den := f_den nf |}) ->
    pb (f_emb nf) 64%Z <> [] -> ~ In ")"%char (pb (f_emb nf) 64%Z) ->
    match_field (number_field ++ pretty (lit "x") {| e_num := f_pol nf; e_den := f_den nf |} ++ [","%char; cblank] ++ pb (f_emb nf) 64%Z ++ [")"%char]) =
    Some (pretty (lit "x") {| e_num := f_pol nf; e_den := f_den nf |}, pb (f_emb nf) 64%Z)) by (intros nf [A B] C D; apply match_field_ok; assumption).
  rewrite !P; try assumption; try (vm_compute; split; [discriminate|intuition discriminate]).
  replace (match_lead (pretty (lit "x") {| e_num := f_pol neg_nf; e_den := f_den neg_nf |})) with (Some (lit "-x")) by reflexivity.
  replace (match_lead (pretty (lit "x") {| e_num := f_pol half_nf; e_den := f_den half_nf |})) with (@None str) by reflexivity.
  replace (match_lead (pretty (lit "x") {| e_num := f_pol zero_nf; e_den := f_den zero_nf |})) with (@None str) by reflexivity.
  rewrite (sg_name _ _ _ _ H); [auto|]. intros [[B|B] _]; discriminate.
Qed.

(** ** An instance of the contracts *)
Definition read_poly (v s : str) : exc elem := match set_str zd0 v s with Val (Some p) => Ret p | _ => Throw end.
Definition unit_ball (a : R) (prec : Z) : ball := Fin (2 * up a - 1, -1)%Z (1, -1)%Z.
Definition both_roots (p : elem) : list R := [sqrt 2; - sqrt 2].

Lemma sdec_plain : forall z, Forall (fun c => c <> ")"%char) (sdec z).
Proof.
  assert (D : forall z, (0 <= z)%Z -> Forall (fun c => c <> ")"%char) (dec z)).
  { intros z Hz. destruct (dec_ok z Hz) as [[_ F] _]. eapply Forall_impl; [|exact F]. intros c Hc ->. discriminate. }
  intros z. unfold sdec. destruct (Z.ltb_spec z 0); [constructor; [discriminate|]|]; apply D; lia.
Qed.
Lemma show_plain : forall b n, is_finite b = true -> dec_show b n <> [] /\ ~ In ")"%char (dec_show b n).
Proof.
  intros [m r|] n E; [|discriminate]. unfold dec_show. destruct (dec_of m) as [a k]. destruct (dec_of r) as [q j].
  split; [discriminate|]. intros B.
  assert (T : forall a b, Forall (fun c => c <> ")"%char) (text10 a b)).
  { intros a' b'. unfold text10. apply Forall_app. split; [apply sdec_plain|]. constructor; [discriminate|apply sdec_plain]. }
  destruct B as [B|B]; [discriminate|]. revert B. match goal with |- In _ ?l -> _ => assert (F : Forall (fun c => c <> ")"%char) l) end.
  { apply Forall_app. split; [|repeat constructor; discriminate]. apply Forall_app. split; [apply T|]. apply Forall_app. split; [unfold pm; repeat constructor; discriminate|apply T]. }
  rewrite Forall_forall in F. intros B. exact (F _ B eq_refl).
Qed.
Lemma sage_met : sage_ok dec_show dec_read read_poly unit_ball.
Proof.
  assert (Zd : zero_den_ok zd0) by (intros m q E; discriminate E). constructor.
  - exact show_plain.
  - exact dec_show_ok.
  - exact dec_read_ok.
  - intros v s ts [N _] F. destruct (set_str_value zd0 false v s ts N F) as (p & E & Ip). exists p. unfold read_poly. rewrite E. split; [reflexivity|exact Ip].
  - intros v s N. unfold read_poly. destruct (set_str zd0 v s) as [[p|]| | |] eqn:E; try reflexivity. exfalso. apply N. apply (set_str_accepts _ _ _ _ Zd E).
  - intros a prec _. unfold unit_ball, inb, dyv. cbn [fst snd]. destruct (archimed a) as [A B]. rewrite minus_IZR, mult_IZR.
    rewrite pw2_m1. unfold Rabs. destruct (Rcase_abs _); lra.
Qed.

Lemma sqrt2_bounds : 1 < sqrt 2 < 2 /\ sqrt 2 * sqrt 2 = 2.
Proof. assert (S : sqrt 2 * sqrt 2 = 2) by (apply sqrt_sqrt; lra). pose proof (sqrt_pos 2). split; [|exact S]. split; nra. Qed.
Lemma sqrt2_zero : forall y, zeval [-2; 0; 1]%Z y = 0 <-> y = sqrt 2 \/ y = - sqrt 2.
Proof.
  intros y. destruct sqrt2_bounds as [_ S]. unfold zeval. cbn [map peval]. split.
  - intros E. assert (K : (y - sqrt 2) * (y + sqrt 2) = 0) by nra. apply Rmult_integral in K. destruct K; [left|right]; lra.
  - intros [-> | ->]; nra.
Qed.
Lemma sqrt2_roots : roots_ok (pol_of sqrt2_nf) (both_roots (pol_of sqrt2_nf)).
Proof.
  destruct sqrt2_bounds as [B _]. split.
  - constructor; [intros [E|[]]; lra|]. constructor; [intros []|constructor].
  - intros y. unfold ev. cbn [pol_of sqrt2_nf e_num e_den f_pol f_den]. split.
    + intros [<-|[<-|[]]]; replace (zeval [-2; 0; 1]%Z _) with 0 by (symmetry; apply sqrt2_zero; auto); lra.
    + intros E. assert (K : zeval [-2; 0; 1]%Z y = 0) by lra. apply sqrt2_zero in K. cbn. destruct K as [-> | ->]; auto.
Qed.
Lemma sqrt2_in : inb (sqrt 2) sqrt2_ball.
Proof.
  destruct sqrt2_bounds as [B S]. unfold sqrt2_ball, inb, dyv. cbn [fst snd].
  assert (P : pw2 (-108) = pw2 28 * pw2 (-136)) by (rewrite <- pw2_add; reflexivity).
  assert (Q : pw2 136 * pw2 (-136) = 1) by (rewrite <- pw2_add; reflexivity).
  assert (E1 : pw2 28 = 268435456) by (rewrite <- pw2_IZR by lia; reflexivity).
  assert (E2 : pw2 136 = 87112285931760246646623899502532662132736) by (rewrite <- pw2_IZR by lia; reflexivity).
  rewrite P, E1. rewrite E2 in Q. set (u := pw2 (-136)) in *. assert (U : 0 < u) by apply pw2_pos.
  apply Rabs_le. split; apply Rnot_lt_le; intros K; nra.
Qed.
Lemma sqrt2_told : told_apart dec_show dec_read unit_ball sqrt2_nf (sqrt 2).
Proof.
  intros b y E Zy Ny. vm_compute in E. injection E as <-. apply sqrt2_zero in Zy. destruct Zy as [-> | ->]; [contradiction|].
  assert (U : up (- sqrt 2) = (-1)%Z) by (symmetry; apply tech_up; destruct sqrt2_bounds; lra).
  unfold unit_ball. rewrite U. vm_compute. reflexivity.
Qed.
