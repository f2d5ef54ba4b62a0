(** Loops over indices, see PropertiesIdx.v. *)
Require Import List ZArith Bool Arith Lia.
From Verif Require Import RootModel ExtraModel DescartesProofs VcaTerm ArbModel ArrModel ArrProofs IdxModel.
Import ListNotations.
Open Scope Z_scope.

(** * descartes_bound_0_1.c *)
Lemma down_ok : forall t act rest, exists k, down t (act ++ rest) (length act) = Val k /\ Nat.eqb k 0 = same_or_zero t act.
Proof.
  intros t act. induction act as [|x act IH] using rev_ind; intros rest; [exists 0%nat; split; reflexivity|].
  rewrite app_length, Nat.add_1_r, <- app_assoc. cbn [down app]. rewrite rd_mid. cbn [bind].
  unfold same_or_zero in *. rewrite forallb_app. cbn [forallb]. rewrite andb_true_r.
  destruct ((Z.sgn x =? t) || (Z.sgn x =? 0)).
  - rewrite andb_true_r. apply IH.
  - exists (S (length act)). rewrite andb_false_r. split; reflexivity.
Qed.

Lemma same_or_zero_rev : forall t l, same_or_zero t (rev l) = same_or_zero t l.
Proof.
  intros t l. unfold same_or_zero. induction l as [|a l IH]; [reflexivity|]. cbn [rev]. rewrite forallb_app, IH. cbn [forallb]. rewrite andb_true_r. apply andb_comm.
Qed.

Lemma tail_ok : forall act s rest, exists t j k, first_sgn s (act ++ rest) (length act) = Val (t, j) /\
  down t (act ++ rest) j = Val k /\ Nat.eqb k 0 = tail_same s (rev act).
Proof.
  intros act. induction act as [|x act IH] using rev_ind; intros s rest.
  { exists s, 0%nat, 0%nat. split; [reflexivity|]. split; reflexivity. }
  rewrite rev_app_distr. cbn [rev app tail_same]. destruct (s =? 0) eqn:S0.
  - rewrite app_length, Nat.add_1_r, <- app_assoc. cbn [first_sgn app]. rewrite S0, rd_mid. cbn [bind]. apply IH.
  - destruct (down_ok s (act ++ [x]) rest) as [k [D E]]. exists s, (length (act ++ [x])), k.
    split; [|split; [exact D|]].
    + rewrite app_length, Nat.add_1_r. cbn [first_sgn]. rewrite S0. reflexivity.
    + rewrite E. unfold same_or_zero. rewrite forallb_app. cbn [forallb]. rewrite andb_true_r, andb_comm. fold (same_or_zero s (rev act)). rewrite same_or_zero_rev. reflexivity.
Qed.

Lemma sums_go : forall v u a rest, times (length v) (length u) add_prev (u ++ a :: v ++ rest) = Val (u ++ a :: psums_go a v ++ rest).
Proof.
  induction v as [|b v IH]; intros u a rest; [reflexivity|]. cbn [length times psums_go app]. unfold add_prev at 1. rewrite rd_mid. cbn [bind].
  pose proof (upd_mid (fun c => c + a) (u ++ [a]) b (v ++ rest)) as U. rewrite app_length, Nat.add_1_r, <- !app_assoc in U. cbn [app] in U. rewrite U. cbn [bind].
  specialize (IH (u ++ [a]) (b + a) rest). rewrite app_length, Nat.add_1_r, <- !app_assoc in IH. cbn [app] in IH. rewrite IH.
  rewrite (Z.add_comm a b). reflexivity.
Qed.
Lemma sums_ok : forall act rest n, length act = S n -> times n 0 add_prev (act ++ rest) = Val (psums act ++ rest).
Proof.
  intros [|a v] rest n L; [discriminate|]. injection L as <-. pose proof (sums_go v [] a rest) as S0. cbn [length app] in S0. cbn [app]. rewrite S0. reflexivity.
Qed.

Lemma split_last : forall (l : list Z) n, length l = S n -> l = removelast l ++ [last l 0] /\ length (removelast l) = n.
Proof.
  intros l n L. assert (N : l <> []) by (intros ->; discriminate). split; [apply app_removelast_last; exact N|].
  rewrite removelast_length, L. reflexivity.
Qed.

Definition dopt (d : dres) : out (option nat) := match d with DCount v => Val (Some v) | DTooMany => Val None | DUndef => Undef end.

Lemma desc_loop_idx : forall n i deg act rest s V bound, (n + i = deg)%nat -> length act = S n ->
  desc_idx_loop n i deg (act ++ rest) s V bound = dopt (desc_loop n act s V bound).
Proof.
  induction n as [|n IH]; intros i deg act rest s V bound D L.
  - destruct act as [|a [|b act]]; try discriminate. cbn [app desc_idx_loop desc_loop hd rd nth_error bind].
    destruct (s =? - Z.sgn a); [|reflexivity]. destruct (Z.of_nat V =? bound); reflexivity.
  - cbn [desc_idx_loop desc_loop]. replace (deg - i)%nat with (S n) by lia. rewrite <- L.
    destruct (tail_ok act s rest) as [t [j [k [E1 [E2 E3]]]]]. rewrite E1. cbn [bind]. rewrite E2. cbn [bind]. rewrite E3.
    destruct (tail_same s (rev act)); [reflexivity|]. rewrite (sums_ok act rest (S n) L). cbn [bind].
    pose proof (psums_length act) as PL. rewrite L in PL. destruct (split_last (psums act) (S n) PL) as [S1 S2].
    set (r := removelast (psums act)) in *. set (x := last (psums act) 0) in *. rewrite S1, <- app_assoc. cbn [app]. rewrite <- S2 at 1. rewrite rd_mid. cbn [bind].
    destruct (s =? 0); [apply IH; [lia|exact S2]|]. destruct (s =? - Z.sgn x); [|apply IH; [lia|exact S2]].
    destruct (Z.of_nat V =? bound); [reflexivity|]. apply IH; [lia|exact S2].
Qed.

Lemma init_go : forall v (p pu : list Z) u px a z prest, p = pu ++ px :: v ++ prest -> length pu = length u -> length z = length v ->
  times (length v) (length u) (fun j q => bind (rd p (S j)) (fun b => bind (wr q (S j) b) (add_prev j))) (u ++ a :: z) = Val (u ++ a :: psums_go a v).
Proof.
  induction v as [|b v IH]; intros p pu u px a z prest P Lu Lz; [destruct z; [reflexivity|discriminate]|].
  destruct z as [|y z]; [discriminate|]. injection Lz as Lz. cbn [length times psums_go].
  assert (R : rd p (S (length u)) = Val b).
  { rewrite P, <- Lu. pose proof (rd_mid (pu ++ [px]) b (v ++ prest)) as R. rewrite app_length, Nat.add_1_r, <- !app_assoc in R. exact R. }
  rewrite R. cbn [bind].
  pose proof (wr_mid (u ++ [a]) y b z) as W. rewrite app_length, Nat.add_1_r, <- !app_assoc in W. cbn [app] in W. rewrite W. cbn [bind].
  unfold add_prev at 1. rewrite rd_mid. cbn [bind].
  pose proof (upd_mid (fun c => c + a) (u ++ [a]) b z) as U. rewrite app_length, Nat.add_1_r, <- !app_assoc in U. cbn [app] in U. rewrite U. cbn [bind].
  specialize (IH p (pu ++ [px]) (u ++ [a]) b (b + a) z prest). rewrite !app_length, !Nat.add_1_r, <- !app_assoc in IH. cbn [app] in IH. rewrite IH; [|exact P|lia|exact Lz].
  rewrite (Z.add_comm a b). reflexivity.
Qed.

Lemma desc_idx_ok : forall p rest bound, desc_idx (p ++ rest) (length p) bound = dopt (descartes01 p bound).
Proof.
  intros p rest bound. destruct p as [|p0 v]; [reflexivity|]. set (p := p0 :: v). unfold desc_idx. change (length p) with (S (length v)).
  destruct (split_last p (length v) eq_refl) as [S1 S2].
  assert (R : rd (p ++ rest) (length v) = Val (last p 0)).
  { rewrite S1 at 1. rewrite <- app_assoc, <- S2 at 1. apply rd_mid. }
  rewrite R. cbn [bind]. destruct (down_ok (Z.sgn (last p 0)) p rest) as [k [D E]]. change (length p) with (S (length v)) in D. rewrite D. cbn [bind]. rewrite E.
  unfold descartes01. change (p0 :: v) with p. change (match p with [] => DUndef | _ :: _ => _ end) with
    (if same_or_zero (Z.sgn (last p 0)) p then DCount 0 else desc_loop (length p - 2) (removelast (psums p)) (Z.sgn (last (psums p) 0)) 0 bound).
  destruct (same_or_zero (Z.sgn (last p 0)) p) eqn:SZ; [reflexivity|].
  change (rd (p ++ rest) 0) with (Val p0). cbn [bind]. change (repeat 0 (S (length v))) with (0 :: repeat 0 (length v)).
  change (wr (0 :: repeat 0 (length v)) 0 p0) with (wr ([] ++ 0 :: repeat 0 (length v)) (@length Z []) p0). rewrite wr_mid. cbn [bind app].
  pose proof (init_go v (p ++ rest) [] [] p0 p0 (repeat 0 (length v)) rest eq_refl eq_refl (repeat_length _ _)) as I0. cbn [length app] in I0. rewrite I0. cbn [bind].
  change (p0 :: psums_go p0 v) with (psums p).
  pose proof (psums_length p) as PL. change (length p) with (S (length v)) in PL. destruct (split_last (psums p) (length v) PL) as [T1 T2].
  assert (Rq : rd (psums p) (length v) = Val (last (psums p) 0)).
  { rewrite T1 at 1. rewrite <- T2 at 1. apply rd_mid. }
  rewrite Rq. cbn [bind]. destruct v as [|b v].
  { cbn in SZ. rewrite Z.eqb_refl in SZ. discriminate. }
  change (length (b :: v) - 1)%nat with (length v - 0)%nat. rewrite Nat.sub_0_r. change (length p - 2)%nat with (length v - 0)%nat. rewrite Nat.sub_0_r.
  rewrite T1 at 1. apply desc_loop_idx; [cbn; lia|exact T2].
Qed.

(** * scale_0_1_fmpq.c *)
Lemma scale_down_ok : forall u q c r, scale_down (length u) q c (u ++ r) = Val (rev (zpows q (c * q) (rev u)) ++ r).
Proof.
  intros u q. induction u as [|x u IH] using rev_ind; intros c r; [reflexivity|].
  rewrite app_length, Nat.add_1_r, <- app_assoc, rev_app_distr. cbn [scale_down app rev zpows]. rewrite upd_mid. cbn [bind]. rewrite IH, <- app_assoc. reflexivity.
Qed.
Lemma scale_up_ok : forall v u t c r, scale_up (length v) (length u) t c (u ++ v ++ r) = Val (u ++ zpows t (c * t) v ++ r).
Proof.
  induction v as [|x v IH]; intros u t c r; [reflexivity|]. cbn [length scale_up app zpows]. rewrite upd_mid. cbn [bind].
  specialize (IH (u ++ [x * (c * t)]) t (c * t) r). rewrite app_length, Nat.add_1_r, <- !app_assoc in IH. exact IH.
Qed.

Lemma scale_idx_ok : forall p rest a b, scale_idx (p ++ rest) (length p) a b = Val (scale_0_1 p a b ++ rest).
Proof.
  intros p rest a b. unfold scale_idx, scale_0_1.
  destruct (Nat.leb (length p) 1) eqn:L1; [reflexivity|]. apply Nat.leb_gt in L1.
  set (q := Z.lcm (snd a) (snd b)). set (p1 := fst a * snd b / Z.gcd (snd a) (snd b)). set (t := fst b * snd a / Z.gcd (snd a) (snd b) - p1).
  destruct (split_last p (length p - 1) ltac:(lia)) as [S1 S2].
  assert (E : scale_down (length p - 1) q 1 (p ++ rest) = Val (scale_by_den q p ++ rest)).
  { rewrite <- S2. clearbody q. clear - S1. generalize dependent (last p 0). generalize (removelast p). intros r x ->.
    rewrite <- app_assoc, scale_down_ok. unfold scale_by_den. rewrite rev_app_distr. cbn [rev app zpows]. rewrite Z.mul_1_r, <- app_assoc. reflexivity. }
  rewrite E. cbn [bind].
  assert (LD : length (scale_by_den q p) = length p) by (unfold scale_by_den; rewrite rev_length, zpows_length, rev_length; reflexivity).
  assert (FS : forall w, length w = length p -> firstn (length p) (w ++ rest) = w /\ skipn (length p) (w ++ rest) = rest).
  { intros w W. rewrite <- W. rewrite firstn_app, Nat.sub_diag, firstn_all, skipn_app, Nat.sub_diag, skipn_all. cbn. rewrite app_nil_r. split; reflexivity. }
  destruct (FS _ LD) as [F1 F2]. rewrite F1, F2.
  assert (LT : length (tshift p1 (scale_by_den q p)) = length p) by (rewrite tshift_length; exact LD).
  destruct (tshift p1 (scale_by_den q p)) as [|x v] eqn:TS; [cbn in LT; lia|].
  assert (EU : scale_up (length p - 1) 1 t 1 ((x :: v) ++ rest) = Val (zpows t 1 (x :: v) ++ rest)).
  { pose proof (scale_up_ok v [x] t 1 rest) as U. cbn [length app] in U. cbn [length] in LT. replace (length p - 1)%nat with (length v) by lia. cbn [app]. rewrite U.
    cbn [zpows app]. rewrite !Z.mul_1_r, Z.mul_1_l. reflexivity. }
  rewrite EU. cbn [bind]. destruct (FS (zpows t 1 (x :: v))) as [G1 G2]; [rewrite zpows_length; exact LT|]. rewrite G1, G2. reflexivity.
Qed.
