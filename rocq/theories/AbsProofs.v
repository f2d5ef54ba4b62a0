(** Absolute values of coefficients (C85). *)
Require Import Reals List ZArith Bool Arith Lia Lra.
From Verif Require Import PolyR RootSpec ArbModel AbsModel AbsSpec.
Import ListNotations.
Open Scope R_scope.

Lemma nth_set : forall (l : list Z) i z j, (i < length l)%nat ->
  nth j (firstn i l ++ z :: skipn (S i) l) 0%Z = (if Nat.eqb j i then z else nth j l 0%Z).
Proof.
  induction l as [|a l IH]; intros i z j H; [cbn in H; lia|]. destruct i as [|i]; [destruct j; reflexivity|].
  destruct j as [|j]; [reflexivity|]. cbn [firstn skipn app nth Nat.eqb]. apply (IH i z j). cbn in H. lia.
Qed.
Lemma length_set : forall (l : list Z) i z, (i < length l)%nat -> length (firstn i l ++ z :: skipn (S i) l) = length l.
Proof. intros l i z H. rewrite app_length, firstn_length. cbn [length]. rewrite skipn_length. lia. Qed.

(** The loop: coefficients from [i] on become absolute values. *)
Lemma vec_abs_ok : forall k h r p i, (i + k <= length (p_cells (h p)))%nat -> (i + k <= length (p_cells (h r)))%nat ->
  exists h', vec_abs h r p i k = Val h' /\ (forall j, j <> r -> h' j = h j) /\ p_len (h' r) = p_len (h r) /\
  length (p_cells (h' r)) = length (p_cells (h r)) /\
  forall j, nth j (p_cells (h' r)) 0%Z =
    (if Nat.leb i j && Nat.ltb j (i + k) then Z.abs (nth j (p_cells (h p)) 0%Z) else nth j (p_cells (h r)) 0%Z).
Proof.
  induction k as [|k IH]; intros h r p i Hp Hr.
  - exists h. repeat split; try reflexivity. intros j. destruct (Nat.leb_spec i j), (Nat.ltb_spec j (i + 0)); try reflexivity. lia.
  - cbn [vec_abs]. unfold abs_at. rewrite (nth_error_nth' (p_cells (h p)) 0%Z) by lia.
    destruct (Nat.ltb_spec i (length (p_cells (h r)))) as [L|L]; [|lia]. cbn [bind].
    set (z := nth i (p_cells (h p)) 0%Z). set (h1 := upd_poly h r _).
    assert (R1 : h1 r = {| p_cells := firstn i (p_cells (h r)) ++ Z.abs z :: skipn (S i) (p_cells (h r)); p_len := p_len (h r) |})
      by (unfold h1, upd_poly; rewrite Nat.eqb_refl; reflexivity).
    assert (O1 : forall j, j <> r -> h1 j = h j) by (intros j N; unfold h1, upd_poly; destruct (Nat.eqb_spec j r); [contradiction|reflexivity]).
    assert (P1 : length (p_cells (h1 p)) = length (p_cells (h p)) /\ forall j, (i < j)%nat -> nth j (p_cells (h1 p)) 0%Z = nth j (p_cells (h p)) 0%Z).
    { destruct (Nat.eq_dec p r) as [->|N]; [|rewrite O1 by exact N; split; reflexivity]. rewrite R1. cbn [p_cells].
      split; [apply length_set, L|]. intros j J. rewrite nth_set by exact L. destruct (Nat.eqb_spec j i); [lia|reflexivity]. }
    destruct P1 as [P1 P2].
    destruct (IH h1 r p (S i)) as (h' & E & A & B & C & D); [rewrite P1; lia|rewrite R1; cbn [p_cells]; rewrite length_set by exact L; lia|].
    exists h'. split; [exact E|]. split; [intros j N; rewrite A by exact N; apply O1, N|]. split; [rewrite B, R1; reflexivity|].
    split; [rewrite C, R1; apply length_set, L|]. intros j. rewrite D.
    destruct (Nat.leb_spec (S i) j) as [J|J], (Nat.ltb_spec j (S i + k)) as [K|K]; cbn [andb].
    + rewrite P2 by lia. destruct (Nat.leb_spec i j), (Nat.ltb_spec j (i + S k)); cbn [andb]; first [reflexivity | lia].
    + rewrite R1. cbn [p_cells]. rewrite nth_set by exact L. destruct (Nat.eqb_spec j i); [lia|].
      destruct (Nat.leb_spec i j), (Nat.ltb_spec j (i + S k)); cbn [andb]; first [reflexivity | lia].
    + rewrite R1. cbn [p_cells]. rewrite nth_set by exact L. destruct (Nat.eqb_spec j i) as [->|N].
      * destruct (Nat.leb_spec i i), (Nat.ltb_spec i (i + S k)); cbn [andb]; first [reflexivity | lia].
      * destruct (Nat.leb_spec i j), (Nat.ltb_spec j (i + S k)); cbn [andb]; first [reflexivity | lia].
    + lia.
Qed.

Lemma fit_enough : forall more q n, (n <= length (p_cells (fit_length more q n)))%nat /\
  (length (p_cells q) <= length (p_cells (fit_length more q n)))%nat /\ p_len (fit_length more q n) = p_len q.
Proof.
  intros more q n. unfold fit_length. destruct (Nat.leb_spec n (length (p_cells q))) as [L|L]; [split; [exact L|split; [lia|reflexivity]]|].
  cbn [p_cells p_len]. rewrite !app_length, repeat_length. split; [lia|split; [lia|reflexivity]].
Qed.
Lemma set_length_cells : forall q n, (p_len q <= length (p_cells q))%nat -> (n <= length (p_cells q))%nat ->
  length (p_cells (set_length q n)) = length (p_cells q).
Proof.
  intros q n A B. unfold set_length. cbn [p_cells]. rewrite !app_length, map_length, !firstn_length, !skipn_length. lia.
Qed.

Lemma nth_coeffs : forall q i, nth i (coeffs q) 0%Z = (if Nat.ltb i (p_len q) then nth i (p_cells q) 0%Z else 0%Z).
Proof.
  intros q i. unfold coeffs. destruct (Nat.ltb_spec i (p_len q)) as [L|L].
  - rewrite <- (firstn_skipn (p_len q) (p_cells q)) at 2. destruct (Nat.lt_ge_cases i (length (firstn (p_len q) (p_cells q)))) as [M|M].
    + rewrite app_nth1 by exact M. reflexivity.
    + rewrite firstn_length in M. rewrite (nth_overflow (firstn _ _)) by (rewrite firstn_length; exact M).
      rewrite firstn_skipn. symmetry. apply nth_overflow. lia.
  - apply nth_overflow. rewrite firstn_length. lia.
Qed.

Lemma poly_abs_ok : forall more h r p, poly_ok (h p) -> poly_ok (h r) ->
  exists h', poly_abs more h r p = Val h' /\ poly_ok (h' r) /\ (forall j, j <> r -> h' j = h j) /\
  length (coeffs (h' r)) = length (coeffs (h p)) /\ forall i, nth i (coeffs (h' r)) 0%Z = Z.abs (nth i (coeffs (h p)) 0%Z).
Proof.
  intros more h r p [P1 P2] [R1 _]. unfold poly_abs. set (len := p_len (h p)) in *.
  set (h1 := if Nat.eqb r p then h else upd_poly h r (set_length (fit_length more (h r) len) len)).
  assert (H1 : h1 p = h p /\ p_len (h1 r) = len /\ (len <= length (p_cells (h1 r)))%nat /\ forall j, j <> r -> h1 j = h j).
  { unfold h1. destruct (Nat.eqb_spec r p) as [->|N]; [repeat split; exact P1|]. unfold upd_poly. rewrite Nat.eqb_refl.
    destruct (fit_enough more (h r) len) as (A & B & C). rewrite set_length_cells by lia.
    split; [destruct (Nat.eqb_spec p r); [congruence|reflexivity]|]. split; [reflexivity|]. split; [exact A|].
    intros j J. destruct (Nat.eqb_spec j r); [contradiction|reflexivity]. }
  destruct H1 as (Hp & Hl & Hc & Ho).
  destruct (vec_abs_ok len h1 r p 0) as (h' & E & A & B & C & D); [rewrite Hp; exact P1|exact Hc|].
  assert (V : forall j, (j < len)%nat -> nth j (p_cells (h' r)) 0%Z = Z.abs (nth j (p_cells (h p)) 0%Z)).
  { intros j J. rewrite D, Hp. destruct (Nat.ltb_spec j (0 + len)); [reflexivity|lia]. }
  exists h'. split; [exact E|]. split; [|split; [intros j J; rewrite A by exact J; apply Ho, J|split]].
  - split; [rewrite B, C, Hl; exact Hc|]. rewrite B, Hl. intros N. rewrite V by lia. intros Z0. apply (P2 N). lia.
  - unfold coeffs. rewrite !firstn_length, B, C, Hl. fold len. lia.
  - intros i. rewrite !nth_coeffs, B, Hl. fold len. destruct (Nat.ltb_spec i len) as [L|L]; [apply V, L|reflexivity].
Qed.

(** Absolute values bound the values. *)
Lemma abs_bound : forall a b y, length b = length a -> (forall i, nth i b 0%Z = Z.abs (nth i a 0%Z)) -> Rabs (zeval a y) <= zeval b (Rabs y).
Proof.
  induction a as [|c a IH]; intros [|d b] y L H; try discriminate L; unfold zeval in *; cbn [map peval]; [rewrite Rabs_R0; lra|].
  pose proof (H 0%nat) as H0. cbn [nth] in H0. subst d. specialize (IH b y ltac:(now injection L) (fun i => H (S i))).
  rewrite abs_IZR. eapply Rle_trans; [apply Rabs_triang|]. rewrite Rabs_mult. pose proof (Rabs_pos y) as Y.
  apply Rplus_le_compat_l. apply Rmult_le_compat_l; assumption.
Qed.
Lemma poly_abs_bound : forall more h r p h', poly_ok (h p) -> poly_ok (h r) -> poly_abs more h r p = Val h' ->
  forall y, Rabs (zeval (coeffs (h p)) y) <= zeval (coeffs (h' r)) (Rabs y).
Proof.
  intros more h r p h' Hp Hr E y. destruct (poly_abs_ok more h r p Hp Hr) as (h2 & E2 & _ & _ & L & V). rewrite E in E2. injection E2 as <-.
  apply abs_bound; assumption.
Qed.
