(** num_real_roots_vca.c counts the roots when the root bounds are strict. *)
Require Import Reals List ZArith Lia Lra.
From Verif Require Import PolyR RootModel RootSpec IsoAll IsoProofs VcaTerm CountAll BoundProofs.
Import ListNotations.
Open Scope R_scope.

Lemma count_vca : forall flog0 fuel p n, nonzero p -> simple_roots p reals ->
  good_bound flog0 (snd (low_zeros p)) -> good_bound flog0 (flip (snd (low_zeros p))) ->
  num_real_roots_vca flog0 fuel p = Some n -> exists l, root_list p reals l /\ n = length l.
Proof.
  intros flog0 fuel p n Hp Hs G1 G2 E. pose proof (isolate_correct flog0 fuel p Hp G1 G2) as HC.
  unfold num_real_roots_vca in E. destruct (isolate flog0 fuel p) as [ex ints| | |]; try discriminate. injection E as <-.
  destruct (iso_exact_mult _ _ _ _ HC) as (q & Eq & _).
  assert (Hnd : NoDup (map dyv ex)) by (apply (nodup_simple p reals _ q Eq); [intros x _; exact I|exact Hs]).
  destruct (isolates_root_list p reals ex ints HC Hnd) as (l & Hl & Hlen). exists l. split; [exact Hl|]. symmetry. exact Hlen.
Qed.

Lemma count_vca_ends : forall flog0 p, nonzero p -> simple_roots p reals ->
  exists f0, forall fuel, (f0 <= fuel)%nat -> exists n, num_real_roots_vca flog0 fuel p = Some n.
Proof.
  intros flog0 p Hp Hs. destruct (isolate_terminates flog0 p Hp Hs) as (f0 & H). exists f0. intros fuel Hf.
  destruct (H fuel Hf) as (ex & ints & E). unfold num_real_roots_vca. rewrite E. eexists. reflexivity.
Qed.
