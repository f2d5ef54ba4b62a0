(** The fields created for all the real roots of a polynomial. *)
Require Import Reals List ZArith Bool Sorting Lia Lra.
From Verif Require Import PolyR RootSpec RootModel ExtraModel VcaProofs VcaTerm IsoAll CountAll Dyadic DyadicProofs ArbModel ArbSpec
  ArbProofs FieldProofs RefineProofs EmbModel DyBall DyBallProofs ArbRefute.
Import ListNotations.
Open Scope R_scope.

(** The ball is the closed interval when nothing is rounded. *)
Lemma embed_ball_in : forall prec d x, (1 <= prec)%Z -> (zbits (2 * fst d + 1) <= prec)%Z ->
  inb x (embed_ball prec d) <-> ilo d <= x <= ihi d.
Proof.
  intros prec d x Hp Hb. unfold embed_ball. rewrite inb_bounds.
  assert (E : dround RDown prec (dz (2 * fst d + 1)) = dz (2 * fst d + 1)).
  { unfold dround. cbn [dz fst snd]. destruct (Z.leb_spec (zbits (2 * fst d + 1) - prec) 0); [reflexivity|lia]. }
  rewrite E, dyv_2exp, dyv_dz. unfold ilo, ihi, dyv. cbn [fst snd].
  rewrite plus_IZR, mult_IZR.
  assert (EP : pw2 (snd d) = 2 * pw2 (snd d - 1)).
  { replace (snd d) with (1 + (snd d - 1))%Z at 1 by lia. rewrite pw2_add, pw2_1. reflexivity. }
  rewrite EP. pose proof (pw2_pos (snd d - 1)). split; intros; lra.
Qed.

Lemma int_roots : forall p ints, (forall d, In d ints -> exists! x, in_int d x /\ zeval p x = 0) ->
  exists xs, Forall2 (fun d x => in_int d x /\ zeval p x = 0) ints xs.
Proof.
  intros p. induction ints as [|d l IH]; intros H; [exists []; constructor|].
  destruct (H d ltac:(left; reflexivity)) as (x & Hx & _).
  destruct IH as (xs & Hxs); [intros e He; apply H; right; exact He|].
  exists (x :: xs). constructor; assumption.
Qed.

Lemma int_roots_sorted : forall p ints xs, Forall2 (fun d x => in_int d x /\ zeval p x = 0) ints xs ->
  StronglySorted (fun d e => ihi d <= ilo e) ints -> StronglySorted Rlt xs.
Proof.
  intros p ints xs H. induction H as [|d x l xs [Hd Zx] Hl IH]; intros S; [constructor|].
  inversion S as [|? ? S1 S2]; subst. constructor; [apply IH; exact S1|].
  clear IH S S1. induction Hl as [|e y l xs [He Zy] Hl IH]; [constructor|].
  inversion S2; subst. constructor; [|apply IH; assumption].
  unfold in_int in *. lra.
Qed.

(** Ends of the isolating intervals are no roots when there is no exact root. *)
Lemma closed_unique : forall p ints d x, isolates p reals [] ints -> In d ints -> in_int d x -> zeval p x = 0 ->
  forall y, ilo d <= y <= ihi d -> zeval p y = 0 -> y = x.
Proof.
  intros p ints d x I Hd Hx Zx y Hy Zy.
  destruct (iso_complete _ _ _ _ I y Logic.I Zy) as [(e & [] & _)|(e & He & Hye)].
  assert (E : e = d \/ (ihi d <= ilo e) \/ (ihi e <= ilo d)).
  { clear - Hd He I. pose proof (iso_int_sorted _ _ _ _ I) as S. clear I.
    induction S as [|a l S IH F]; [contradiction|].
    rewrite Forall_forall in F. destruct Hd as [<-|Hd], He as [<-|He]; auto. }
  destruct (iso_int_root _ _ _ _ I d Hd) as (z & _ & Hz). unfold in_int in *.
  destruct E as [->|[E|E]]; [|lra|lra].
  rewrite <- (Hz x), <- (Hz y); [reflexivity| |]; split; assumption.
Qed.

Lemma embed_all_spec : forall o debug fuel pol prec ints nfs, embed_all o debug fuel pol prec ints = Val nfs ->
  Forall2 (fun d nf => renf_init o debug fuel pol 1 (embed_ball prec d) prec = Val nf) ints nfs.
Proof.
  intros o debug fuel pol prec. induction ints as [|d l IH]; intros nfs E; cbn [embed_all] in E.
  - injection E as <-. constructor.
  - destruct (renf_init o debug fuel pol 1 (embed_ball prec d) prec) as [nf| | |] eqn:E1; try discriminate.
    cbn [bind] in E. destruct (embed_all o debug fuel pol prec l) as [ns| | |] eqn:E2; try discriminate.
    injection E as <-. constructor; [exact E1|]. apply IH. reflexivity.
Qed.

Lemma Forall2_firstn : forall A B (P : A -> B -> Prop) n l m, Forall2 P l m -> Forall2 P (firstn n l) (firstn n m).
Proof.
  intros A B P. induction n as [|n IH]; intros l m H; [constructor|].
  inversion H; subst; cbn [firstn]; constructor; auto.
Qed.

Lemma Forall2_join : forall A B C (P : A -> B -> Prop) (Q : A -> C -> Prop) (R : B -> C -> Prop) l m n,
  Forall2 P l m -> Forall2 Q l n -> (forall a b c, In a l -> P a b -> Q a c -> R b c) -> Forall2 R m n.
Proof.
  intros A B C P Q R l m n H. revert n. induction H as [|a b l m Hab Hl IH]; intros n Hn HR.
  - inversion Hn. constructor.
  - inversion Hn; subst. constructor; [eapply HR; eauto; left; reflexivity|].
    apply IH; [assumption|]. intros a' b' c' Ha. apply HR. right. exact Ha.
Qed.

Lemma firstn_In : forall A n (l : list A) a, In a (firstn n l) -> In a l.
Proof. intros A n l a H. rewrite <- (firstn_skipn n l). apply in_or_app. left. exact H. Qed.

(** All the real roots in increasing order, and one field for each of the first
    [lim] of them, started from a ball isolating that root. *)
Lemma embeddings_spec : forall o debug flog0 fuel p lim prec nfs n, nonzero p -> (1 <= prec)%Z ->
  good_bound flog0 (snd (low_zeros p)) -> good_bound flog0 (flip (snd (low_zeros p))) ->
  set_embeddings o debug flog0 fuel p lim prec = Val (nfs, n) ->
  exists xs, StronglySorted Rlt xs /\ (forall x, zeval p x = 0 <-> In x xs) /\ n = Z.of_nat (length xs) /\
    ((forall ex ints, isolate flog0 fuel p = VDone ex ints -> forall d, In d ints -> (zbits (2 * fst d + 1) <= prec)%Z) ->
     Forall2 (fun x nf => exists b, unique_root p b /\ inb x b /\ zeval p x = 0 /\
                renf_init o debug fuel p 1 b prec = Val nf) (firstn (Z.to_nat lim) xs) nfs).
Proof.
  intros o debug flog0 fuel p lim prec nfs n Hp Hprec G1 G2 E. unfold set_embeddings in E.
  destruct (num_real_roots_upper_bound flog0 p); try discriminate.
  pose proof (isolate_correct flog0 fuel p Hp G1 G2) as I.
  destruct (isolate flog0 fuel p) as [[|? ?] ints| | |] eqn:Ei; try discriminate.
  destruct (embed_all o debug fuel p prec (firstn (Z.to_nat lim) ints)) as [ns| | |] eqn:Ea; try discriminate.
  cbn [bind] in E. injection E as -> <-.
  destruct (int_roots p ints (iso_int_root _ _ _ _ I)) as (xs & Hxs).
  exists xs. split; [eapply int_roots_sorted; [exact Hxs|apply (iso_int_sorted _ _ _ _ I)]|].
  split; [|split].
  - intros x. split.
    + intros Zx. destruct (iso_complete _ _ _ _ I x Logic.I Zx) as [(e & [] & _)|(d & Hd & Hxd)].
      destruct (iso_int_root _ _ _ _ I d Hd) as (z & _ & Hz).
      assert (exists y, In y xs /\ in_int d y /\ zeval p y = 0) as (y & Hy & Hyd & Zy).
      { clear - Hxs Hd. induction Hxs as [|d' y l xs H Hl IH]; [contradiction|].
        destruct Hd as [->|Hd]; [exists y; split; [left; reflexivity|exact H]|].
        destruct (IH Hd) as (z & Hz & H'). exists z. split; [right; exact Hz|exact H']. }
      rewrite <- (Hz x) by (split; assumption). rewrite (Hz y) by (split; assumption). exact Hy.
    + intros Hx. clear - Hxs Hx. induction Hxs as [|d' y l xs H Hl IH]; [contradiction|].
      destruct Hx as [->|Hx]; [apply H|apply IH; exact Hx].
  - f_equal. clear - Hxs; induction Hxs; simpl; congruence.
  - intros Hbits. specialize (Hbits [] ints eq_refl).
    apply embed_all_spec in Ea.
    refine (Forall2_join _ _ _ _ _ _ _ _ _ (Forall2_firstn _ _ _ (Z.to_nat lim) _ _ Hxs) Ea _).
    intros d x nf Hd [Hdx Zx] Hnf. apply firstn_In in Hd. exists (embed_ball prec d).
    assert (Hin : inb x (embed_ball prec d)).
    { apply embed_ball_in; [exact Hprec|apply Hbits; exact Hd|]. unfold in_int in Hdx. lra. }
    split; [|split; [exact Hin|split; [exact Zx|exact Hnf]]].
    exists x. split; [split; assumption|]. intros y [Hy Zy]. symmetry.
    apply (closed_unique p ints d x I Hd Hdx Zx); [|exact Zy].
    apply embed_ball_in in Hy; [exact Hy|exact Hprec|apply Hbits; exact Hd].
Qed.

(** x^3 - 2 (2^60 x - 1)^2: irreducible by Eisenstein's criterion. *)
Definition close_pol : list Z := [-2; 2 ^ 62; - 2 ^ 121; 1]%Z.

Lemma close_eval : forall x, zeval close_pol x = x * x * x - 2 * (IZR (2 ^ 60) * x - 1) * (IZR (2 ^ 60) * x - 1).
Proof.
  intros x. unfold zeval, close_pol. cbn [map peval].
  replace (IZR (2 ^ 62)) with (4 * IZR (2 ^ 60)) by (rewrite <- mult_IZR; reflexivity).
  replace (IZR (- 2 ^ 121)) with (- (2 * (IZR (2 ^ 60) * IZR (2 ^ 60)))) by (rewrite <- !mult_IZR, <- opp_IZR; reflexivity).
  ring.
Qed.

Lemma close_irrational : forall n d, (0 < d)%Z -> Z.gcd n d = 1%Z -> zeval close_pol (IZR n / IZR d) <> 0.
Proof.
  intros n d Hd Hg E. rewrite close_eval in E. pose proof (IZR_lt _ _ Hd) as Hd'. simpl in Hd'.
  assert (E' : IZR (n * n * n) = IZR (2 * (2 ^ 60 * n - d) * (2 ^ 60 * n - d) * d)).
  { rewrite !mult_IZR, !minus_IZR, !mult_IZR.
    apply (Rmult_eq_reg_r (/ (IZR d * IZR d * IZR d))).
    2:{ apply Rinv_neq_0_compat. repeat apply Rmult_integral_contrapositive_currified; lra. }
    set (P := IZR (2 ^ 60)) in *.
    replace (IZR n * IZR n * IZR n * / (IZR d * IZR d * IZR d)) with (IZR n / IZR d * (IZR n / IZR d) * (IZR n / IZR d)) by (field; lra).
    replace (2 * (P * IZR n - IZR d) * (P * IZR n - IZR d) * IZR d * / (IZR d * IZR d * IZR d)) with
      (2 * (P * (IZR n / IZR d) - 1) * (P * (IZR n / IZR d) - 1)) by (field; lra).
    lra. }
  apply eq_IZR in E'. change (2 ^ 60)%Z with (2 * 2 ^ 59)%Z in E'. set (Q := (2 ^ 59)%Z) in *. clearbody Q.
  assert (Hn : Z.even n = true).
  { assert (X : Z.even (n * n * n) = true) by (rewrite E', <- !Z.mul_assoc, Z.even_mul; reflexivity).
    rewrite !Z.even_mul in X. destruct (Z.even n); [reflexivity|discriminate]. }
  apply Z.even_spec in Hn. destruct Hn as [m ->].
  assert (Hdd : Z.even d = true).
  { assert (X : ((2 * Q * (2 * m) - d) * (2 * Q * (2 * m) - d) * d = 2 * (2 * m * m * m))%Z) by lia.
    assert (Y : Z.even ((2 * Q * (2 * m) - d) * (2 * Q * (2 * m) - d) * d) = true) by (rewrite X, Z.even_mul; reflexivity).
    rewrite !Z.even_mul, Z.even_sub, !Z.even_mul in Y. cbn [Z.even orb] in Y. destruct (Z.even d); [reflexivity|discriminate]. }
  apply Z.even_spec in Hdd. destruct Hdd as [e ->].
  assert (D : (2 | Z.gcd (2 * m) (2 * e))%Z) by (apply Z.gcd_greatest; [exists m|exists e]; ring).
  rewrite Hg in D. destruct D as [z Hz]. lia.
Qed.

Lemma embeddings_abort : exists p fuel, (forall n d, (0 < d)%Z -> Z.gcd n d = 1%Z -> zeval p (IZR n / IZR d) <> 0) /\
  length p = 4%nat /\ (exists ints, isolate 0 fuel p = VDone [] ints /\ length ints = 3%nat) /\
  set_embeddings dyops true 0 fuel p 3 64 = Abort.
Proof.
  exists close_pol, 900%nat. split; [exact close_irrational|]. split; [reflexivity|].
  split; [eexists; split; vm_compute; reflexivity|]. vm_compute. reflexivity.
Qed.
