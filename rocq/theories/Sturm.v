(** Sturm's theorem on [0,1], for sequences without zeros at 0 and 1. *)
Require Import Reals List ZArith Lia Lra Sorted Classical.
From Verif Require Import PolyR RootSpec.
Import ListNotations.
Open Scope R_scope.

(** * The zeros of a polynomial in increasing order *)
Fixpoint ins (x : R) (l : list R) : list R :=
  match l with
  | [] => [x]
  | y :: t => if Rlt_dec x y then x :: y :: t else y :: ins x t
  end.

Lemma ins_in : forall x l y, In y (ins x l) <-> y = x \/ In y l.
Proof.
  intros x. induction l as [|z l IH]; intros y; cbn [ins].
  - cbn. intuition congruence.
  - destruct (Rlt_dec x z); cbn [In]; [intuition congruence|]. rewrite IH. intuition congruence.
Qed.

Lemma ins_length : forall x l, length (ins x l) = S (length l).
Proof. intros x. induction l as [|z l IH]; [reflexivity|]. cbn [ins]. destruct (Rlt_dec x z); cbn [length]; [reflexivity|]. rewrite IH. reflexivity. Qed.

Lemma ins_sorted : forall x l, ~ In x l -> StronglySorted Rlt l -> StronglySorted Rlt (ins x l).
Proof.
  intros x. induction l as [|z l IH]; intros N H; [constructor; constructor|].
  apply StronglySorted_inv in H. destruct H as [H F]. cbn [ins]. destruct (Rlt_dec x z) as [L|L].
  - constructor; [constructor; assumption|]. constructor; [exact L|]. eapply Forall_impl; [|exact F]. intros y Hy. cbn beta in Hy. lra.
  - constructor; [apply IH; [|exact H]; intros W; apply N; right; exact W|].
    apply Forall_forall. intros y Hy. apply ins_in in Hy. destruct Hy as [->|Hy].
    + destruct (Req_dec x z) as [->|]; [exfalso; apply N; left; reflexivity|lra].
    + rewrite Forall_forall in F. apply F, Hy.
Qed.

Lemma sorted_nodup : forall l, StronglySorted Rlt l -> NoDup l.
Proof.
  induction l as [|x l IH]; intros H; [constructor|]. apply StronglySorted_inv in H. destruct H as [H F].
  constructor; [|apply IH, H]. intros W. rewrite Forall_forall in F. specialize (F x W). lra.
Qed.

Lemma sorted_zeros : forall p (S : R -> Prop), ~ pzero p -> (forall x, S x -> peval p x = 0) ->
  exists l, StronglySorted Rlt l /\ forall x, In x l <-> S x.
Proof.
  intros p S Hp Hz.
  assert (G : forall m l, (length p - length l <= m)%nat -> StronglySorted Rlt l -> (forall x, In x l -> S x) ->
    exists l', StronglySorted Rlt l' /\ forall x, In x l' <-> S x).
  { induction m as [|m IH]; intros l Hm Hl Hs;
    pose proof (roots_lt_length _ p l eq_refl Hp (sorted_nodup l Hl) (fun x Hx => Hz x (Hs x Hx))) as L; [lia|].
    destruct (classic (forall x, S x -> In x l)) as [A|A].
    - exists l. split; [exact Hl|]. intros x. split; [apply Hs|apply A].
    - apply not_all_ex_not in A. destruct A as (x & A). apply imply_to_and in A. destruct A as [Sx Nx].
      apply (IH (ins x l)); [rewrite ins_length; lia|apply ins_sorted; assumption|].
      intros y Hy. apply ins_in in Hy. destruct Hy as [->|Hy]; [exact Sx|apply Hs, Hy]. }
  apply (G (length p) []); [cbn; lia|constructor|intros x []].
Qed.

(** * Sign changes *)
Definition change (a b : R) : Z := if Rlt_dec (a * b) 0 then 1 else 0.
Fixpoint var (L : list (list Z)) (x : R) : Z :=
  match L with
  | a :: ((b :: _) as t) => change (zeval a x) (zeval b x) + var t x
  | _ => 0
  end.

(** Neighbours of a zero have opposite signs and the last entry has no zero. *)
Fixpoint chain (L : list (list Z)) : Prop :=
  match L with
  | [] => False
  | a :: [] => forall x, unit_cc x -> zeval a x <> 0
  | a :: ((b :: l) as t) => chain t /\
      match l with
      | [] => True
      | c :: _ => forall x, unit_cc x -> zeval b x = 0 -> zeval a x * zeval c x < 0
      end
  end.

(** All zeros of members in [u, v] are at [c]. *)
Definition only_at (L : list (list Z)) (u v c : R) : Prop :=
  forall a x, In a L -> u <= x <= v -> zeval a x = 0 -> x = c.

Lemma same_sign : forall a u v, u <= v -> (forall x, u <= x <= v -> zeval a x <> 0) -> 0 < zeval a u * zeval a v.
Proof.
  intros a u v [L| ->] H; [|specialize (H v ltac:(lra)); destruct (Rdichotomy _ _ H); nra].
  destruct (Rtotal_order (zeval a u * zeval a v) 0) as [W|[W|W]]; [| |exact W].
  - destruct (peval_ivt (map IZR a) u v L W) as (x & Hx & E). exfalso. apply (H x); [lra|exact E].
  - exfalso. apply Rmult_integral in W. destruct W as [W|W]; [apply (H u)|apply (H v)]; [lra|exact W|lra|exact W].
Qed.

Lemma change_same : forall a b a' b', 0 < a * a' -> 0 < b * b' -> change a b = change a' b'.
Proof.
  intros a b a' b' H H0. assert (P : 0 < (a * b) * (a' * b')) by (replace ((a * b) * (a' * b')) with ((a * a') * (b * b')) by ring; apply Rmult_lt_0_compat; assumption).
  unfold change. revert P. generalize (a * b) (a' * b'). intros r s P. destruct (Rlt_dec r 0), (Rlt_dec s 0); try reflexivity; exfalso; nra.
Qed.

Lemma change_mid : forall a b c, a * c < 0 -> b <> 0 -> (change a b + change b c = 1)%Z.
Proof.
  intros a b c H Hb. assert (B : 0 < b * b) by (destruct (Rdichotomy _ _ Hb); nra).
  assert (P : (a * b) * (b * c) < 0) by (replace ((a * b) * (b * c)) with ((b * b) * (a * c)) by ring; nra).
  unfold change. revert P. generalize (a * b) (b * c). intros r s P. destruct (Rlt_dec r 0), (Rlt_dec s 0); try reflexivity; exfalso; nra.
Qed.

Section Piece.
Variables u v c : R.
Hypothesis Huv : 0 <= u /\ u < c < v /\ v <= 1.

Lemma no_zero : forall L a, only_at L u v c -> In a L -> zeval a c <> 0 -> forall x, u <= x <= v -> zeval a x <> 0.
Proof. intros L a H Ha Hc x Hx W. apply Hc. rewrite <- (H a x Ha Hx W). exact W. Qed.

Lemma piece : forall n L, (length L <= n)%nat -> chain L -> only_at L u v c ->
  (forall a, In a L -> zeval a u <> 0 /\ zeval a v <> 0) ->
  match L with a :: _ => zeval a c <> 0 | [] => True end -> var L u = var L v.
Proof.
  induction n as [|n IH]; intros L Ln HL HO HE Hh; [destruct L; [reflexivity|cbn in Ln; lia]|].
  destruct L as [|a [|b l]]; [reflexivity|reflexivity|].
  destruct HL as [Hb HL].
  assert (HO' : only_at (b :: l) u v c) by (intros d x Hd; apply HO; right; exact Hd).
  assert (HE' : forall d, In d (b :: l) -> zeval d u <> 0 /\ zeval d v <> 0) by (intros d Hd; apply HE; right; exact Hd).
  assert (Sa : 0 < zeval a u * zeval a v) by (apply same_sign; [lra|]; apply (no_zero (a :: b :: l)); [exact HO|left; reflexivity|exact Hh]).
  destruct (Req_dec (zeval b c) 0) as [Z|Z].
  - destruct l as [|d l]; [exfalso; apply (Hb c); [unfold unit_cc; lra|exact Z]|].
    assert (Dc : zeval a c * zeval d c < 0) by (apply HL; [unfold unit_cc; lra|exact Z]).
    assert (Hd : zeval d c <> 0) by (intros W; rewrite W in Dc; lra).
    assert (Sd : forall x y, u <= x -> x <= y -> y <= v -> 0 < zeval d x * zeval d y).
    { intros x y Hx Hxy Hy. apply same_sign; [exact Hxy|]. intros z Hz. apply (no_zero (a :: b :: d :: l)); [exact HO|right; right; left; reflexivity|exact Hd|lra]. }
    assert (Sa' : forall x y, u <= x -> x <= y -> y <= v -> 0 < zeval a x * zeval a y).
    { intros x y Hx Hxy Hy. apply same_sign; [exact Hxy|]. intros z Hz. apply (no_zero (a :: b :: d :: l)); [exact HO|left; reflexivity|exact Hh|lra]. }
    assert (Du : zeval a u * zeval d u < 0) by (pose proof (Sa' u c ltac:(lra) ltac:(lra) ltac:(lra)); pose proof (Sd u c ltac:(lra) ltac:(lra) ltac:(lra)); nra).
    assert (Dv : zeval a v * zeval d v < 0) by (pose proof (Sa' c v ltac:(lra) ltac:(lra) ltac:(lra)); pose proof (Sd c v ltac:(lra) ltac:(lra) ltac:(lra)); nra).
    destruct (HE b ltac:(right; left; reflexivity)) as [Bu Bv].
    change (change (zeval a u) (zeval b u) + (change (zeval b u) (zeval d u) + var (d :: l) u) =
            change (zeval a v) (zeval b v) + (change (zeval b v) (zeval d v) + var (d :: l) v))%Z.
    pose proof (change_mid _ _ _ Du Bu). pose proof (change_mid _ _ _ Dv Bv).
    assert (var (d :: l) u = var (d :: l) v); [|lia].
    apply IH; [cbn in Ln |- *; lia|apply Hb|intros e x He; apply HO; right; right; exact He|intros e He; apply HE; right; right; exact He|exact Hd].
  - change (change (zeval a u) (zeval b u) + var (b :: l) u = change (zeval a v) (zeval b v) + var (b :: l) v)%Z.
    rewrite (IH (b :: l)); [|cbn in Ln |- *; lia|exact Hb|exact HO'|exact HE'|exact Z]. f_equal.
    apply change_same; [exact Sa|]. apply same_sign; [lra|]. apply (no_zero (b :: l)); [exact HO'|left; reflexivity|exact Z].
Qed.

Lemma piece_root : forall p q l, chain (p :: q :: l) -> only_at (p :: q :: l) u v c ->
  (forall a, In a (p :: q :: l) -> zeval a u <> 0 /\ zeval a v <> 0) ->
  (forall x, zeval q x = peval (pderiv (map IZR p)) x) ->
  zeval p c = 0 -> zeval q c <> 0 -> (var (p :: q :: l) u = var (p :: q :: l) v + 1)%Z.
Proof.
  intros p q l [Hq HL] HO HE Hd Zp Zq.
  assert (HO' : only_at (q :: l) u v c) by (intros d x Hx; apply HO; right; exact Hx).
  assert (E : var (q :: l) u = var (q :: l) v).
  { apply (piece (length (q :: l))); [lia|exact Hq|exact HO'|intros a Ha; apply HE; right; exact Ha|exact Zq]. }
  change (change (zeval p u) (zeval q u) + var (q :: l) u = change (zeval p v) (zeval q v) + var (q :: l) v + 1)%Z.
  assert (Sq : forall x y, u <= x -> x <= y -> y <= v -> 0 < zeval q x * zeval q y).
  { intros x y Hx Hxy Hy. apply same_sign; [exact Hxy|]. intros z Hz. apply (no_zero (q :: l)); [exact HO'|left; reflexivity|exact Zq|lra]. }
  destruct (peval_mvt (map IZR p) u c ltac:(lra)) as (x & Hx & Ex).
  destruct (peval_mvt (map IZR p) c v ltac:(lra)) as (y & Hy & Ey).
  fold (zeval p u) (zeval p c) in Ex. fold (zeval p v) (zeval p c) in Ey. rewrite <- Hd in Ex. rewrite <- Hd in Ey.
  pose proof (Sq u x ltac:(lra) ltac:(lra) ltac:(lra)) as S1. pose proof (Sq y v ltac:(lra) ltac:(lra) ltac:(lra)) as S2.
  assert (A : zeval p u * zeval q u < 0) by (replace (zeval p u) with (- (zeval q x * (c - u))) by lra; nra).
  assert (B : 0 < zeval p v * zeval q v) by (replace (zeval p v) with (zeval q y * (v - c)) by lra; nra).
  unfold change. destruct (Rlt_dec (zeval p u * zeval q u) 0); [|contradiction]. destruct (Rlt_dec (zeval p v * zeval q v) 0); [lra|]. lia.
Qed.
End Piece.

(** * From piece to piece *)
Fixpoint count0 (p : list Z) (l : list R) : Z :=
  match l with [] => 0 | x :: t => (if Req_EM_T (zeval p x) 0 then 1 else 0) + count0 p t end.

Lemma march : forall p q l, chain (p :: q :: l) -> (forall x, zeval q x = peval (pderiv (map IZR p)) x) ->
  (forall x, unit_cc x -> zeval p x = 0 -> zeval q x <> 0) ->
  forall e, e <= 1 -> (forall a, In a (p :: q :: l) -> zeval a e <> 0) ->
  forall zs u, 0 <= u < e -> (forall a, In a (p :: q :: l) -> zeval a u <> 0) ->
  StronglySorted Rlt zs -> (forall x, In x zs -> u < x < e) ->
  (forall a x, In a (p :: q :: l) -> u <= x <= e -> zeval a x = 0 -> In x zs) ->
  (var (p :: q :: l) u - var (p :: q :: l) e = count0 p zs)%Z.
Proof.
  intros p q l HC Hd Hs e He H1. set (L := p :: q :: l) in *.
  assert (step : forall u c v, 0 <= u -> u < c < v -> v <= 1 -> only_at L u v c ->
    (forall a, In a L -> zeval a u <> 0 /\ zeval a v <> 0) ->
    (var L u - var L v = if Req_EM_T (zeval p c) 0 then 1 else 0)%Z).
  { intros u c v H0 Hc Hv HO HE. destruct (Req_EM_T (zeval p c) 0) as [Z|Z].
    - unfold L. rewrite (piece_root u v c) by (try assumption; try (unfold L in HC; exact HC); try (apply Hs; [unfold unit_cc; lra|exact Z]); lra). lia.
    - rewrite (piece u v c ltac:(lra) (length L) L); [lia|lia|exact HC|exact HO|exact HE|exact Z]. }
  induction zs as [|z zs IH]; intros u Hu HE Hz HI HA.
  - assert (S := step u ((u + e) / 2) e ltac:(lra) ltac:(lra) ltac:(lra)). cbn [count0].
    rewrite S; [|intros a x Ha Hx W; exfalso; apply (HA a x Ha Hx W)|intros a Ha; split; [apply HE, Ha|apply H1, Ha]].
    destruct (Req_EM_T (zeval p ((u + e) / 2)) 0) as [Z|Z]; [|reflexivity].
    exfalso. apply (HA p ((u + e) / 2)); [left; reflexivity|lra|exact Z].
  - apply StronglySorted_inv in Hz. destruct Hz as [Hz F]. rewrite Forall_forall in F.
    destruct (HI z (or_introl eq_refl)) as [Z1 Z2].
    set (w := match zs with [] => e | y :: _ => y end).
    assert (Hw : z < w <= e /\ forall y, In y zs -> w <= y).
    { unfold w. destruct zs as [|y t]; [split; [lra|intros y []]|]. split.
      - split; [apply F; left; reflexivity|]. destruct (HI y) as [_ Q]; [right; left; reflexivity|lra].
      - intros y' [->|Hy]; [lra|]. apply StronglySorted_inv in Hz. destruct Hz as [_ G]. rewrite Forall_forall in G. specialize (G y' Hy). lra. }
    destruct Hw as [Hw Hmin]. set (v := (z + w) / 2). assert (Hv : z < v < w) by (unfold v; lra).
    assert (Nv : forall a x, In a L -> z < x -> x < w -> zeval a x <> 0).
    { intros a x Ha Hx1 Hx2 W. destruct (HA a x Ha ltac:(lra) W) as [<-|Q]; [lra|]. specialize (Hmin x Q). lra. }
    pose proof (step u z v ltac:(lra) ltac:(lra) ltac:(lra)) as S.
    assert (T : (var L v - var L e = count0 p zs)%Z).
    { apply IH; [lra|intros a Ha; apply Nv; [exact Ha|lra|lra]|exact Hz| |].
      - intros x Hx. split; [specialize (Hmin x Hx); lra|]. apply HI. right. exact Hx.
      - intros a x Ha Hx W. destruct (HA a x Ha ltac:(lra) W) as [<-|Q]; [lra|exact Q]. }
    cbn [count0]. rewrite <- T. rewrite <- S; [lia| |].
    + intros a x Ha Hx W. destruct (HA a x Ha ltac:(lra) W) as [<-|Q]; [reflexivity|]. specialize (Hmin x Q). lra.
    + intros a Ha. split; [apply HE, Ha|apply Nv; [exact Ha|lra|lra]].
Qed.

Lemma count0_roots : forall p zs rl, StronglySorted Rlt zs -> NoDup rl ->
  (forall x, In x rl <-> In x zs /\ zeval p x = 0) -> count0 p zs = Z.of_nat (length rl).
Proof.
  intros p zs rl Hz Hr H. set (f := fun x => if Req_EM_T (zeval p x) 0 then true else false).
  assert (E : count0 p zs = Z.of_nat (length (filter f zs))).
  { clear. induction zs as [|x zs IH]; [reflexivity|]. cbn [count0 filter]. unfold f at 1. destruct (Req_EM_T (zeval p x) 0); cbn [length]; lia. }
  rewrite E. f_equal. apply Nat.le_antisymm; apply NoDup_incl_length.
  - apply NoDup_filter, sorted_nodup, Hz.
  - intros x Hx. apply filter_In in Hx. destruct Hx as [Hx Fx]. apply H. split; [exact Hx|]. unfold f in Fx. destruct (Req_EM_T (zeval p x) 0); [assumption|discriminate].
  - exact Hr.
  - intros x Hx. apply H in Hx. apply filter_In. split; [apply Hx|]. unfold f. destruct (Req_EM_T (zeval p x) 0); [reflexivity|]. exfalso. tauto.
Qed.

Fixpoint product (L : list (list Z)) : list R :=
  match L with [] => [1] | a :: t => pmul (map IZR a) (product t) end.

Lemma product_zero : forall L x, peval (product L) x = 0 <-> exists a, In a L /\ zeval a x = 0.
Proof.
  induction L as [|a L IH]; intros x; cbn [product].
  - cbn. split; [intros H; exfalso; lra|intros (a & [] & _)].
  - rewrite peval_pmul. fold (zeval a x). split.
    + intros H. apply Rmult_integral in H. destruct H as [H|H]; [exists a; split; [left; reflexivity|exact H]|].
      apply IH in H. destruct H as (b & Hb & E). exists b. split; [right; exact Hb|exact E].
    + intros (b & [<-|Hb] & E); [rewrite E; ring|]. replace (peval (product L) x) with 0; [ring|]. symmetry. apply IH. exists b. split; assumption.
Qed.
