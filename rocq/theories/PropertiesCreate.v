(** Fields are created: C17, C48 and C50 at sufficient precision. *)
Require Import Reals List ZArith Bool Sorted Lia Lra Ascii String.
From Verif Require Import PolyR RootSpec RootModel IsoAll Dyadic ArbModel ArbSpec FieldProofs RefineProofs DyBall DyBallProofs RateSpec DyRate
  ElemModel ElemSpec EndsSpec DefSpec ToolsSpec StrModel StrSpec StrRefute CxxModel MakeModel MakeSpec MakeText MakeRefute ArchiveRefute EmbModel
  CreateSpec CreateMain CreateMake CreateEx EmbStuck.
Import ListNotations.
Open Scope R_scope.

(** C17: for irreducible polynomials the test accepts every finite enclosure with
    exactly one root once the precision is large enough.  In full it does so at
    every precision. *)
Theorem C17_accepts_partial : forall o, arb_ok o -> arb_rate o -> forall p x m r,
  irreducible p -> last p 0%Z <> 0%Z -> (3 <= List.length p)%nat ->
  inb x (Fin m r) -> zeval p x = 0 -> (forall y, inb y (Fin m r) -> zeval p y = 0 -> y = x) ->
  exists P, forall prec, (P <= prec)%Z -> exists f0, forall fuel, (f0 <= fuel)%nat -> check_unique o fuel p (Fin m r) prec = Val true.
Proof. exact check_accepts. Qed.
Print Assumptions C17_accepts_partial.

Example C17_accepts_case : arb_ok dyops /\ arb_rate dyops /\ irreducible [-2; 0; 1]%Z /\ inb (sqrt 2) (Fin (3, -1) (1, -1))%Z /\ zeval [-2; 0; 1]%Z (sqrt 2) = 0 /\
  forall y, inb y (Fin (3, -1) (1, -1))%Z -> zeval [-2; 0; 1]%Z y = 0 -> y = sqrt 2.
Proof.
  pose proof sqrt2_bounds. assert (V : dyv (3, -1)%Z = 3 / 2 /\ dyv (1, -1)%Z = 1 / 2) by (unfold dyv, pw2; simpl; split; lra). destruct V as [V1 V2].
  split; [exact dyops_ok|]. split; [exact dyops_rate|]. split; [exact sq_irreducible|]. cbn [inb]. rewrite V1, V2.
  split; [apply Rabs_le; lra|]. split; [apply sq_roots; right; reflexivity|].
  intros y Hy Z. apply sq_roots in Z. destruct Z as [->|Z]; [|exact Z]. exfalso. unfold Rabs in Hy. destruct (Rcase_abs _) in Hy; lra.
Qed.

(** C48: an irreducible polynomial and a sufficiently small ball around one of its
    roots, both written as text, give the field of that root once the precision is
    large enough, unless an exponent of the refinement exceeds a machine word.  In
    full this holds for every ball with exactly one root, at every precision. *)
Theorem C48_makes_partial : forall o zd read, arb_ok o -> arb_rate o -> read_ok read -> read_sharp read ->
  forall pol x, irreducible pol -> last pol 0%Z <> 0%Z -> (3 <= List.length pol)%nat -> zeval pol x = 0 ->
  exists w, 0 < w /\ forall minpoly gen emb p q, set_str zd gen minpoly = Val (Some p) -> e_num p = pol ->
  ball_text emb = Some q -> Rabs (x - dec10 (fst q)) < dec10 (snd q) -> dec10 (snd q) <= w ->
  exists P, forall debug n prec, (P <= prec)%Z -> (2 <= n)%nat ->
  DefSpec.answers (fun fuel => make_str o debug zd read fuel n minpoly gen emb prec)
    (fun res => snd res = O /\ exists nf, fst res = Ret nf /\ embedded pol (e_den p) x prec nf)
    (exists b, read emb prec = Some b /\ word_overflow o pol b).
Proof. exact make_answers. Qed.
Print Assumptions C48_makes_partial.

Example C48_makes_case : arb_ok dyops /\ arb_rate dyops /\ read_ok dec_read /\ read_sharp dec_read /\
  irreducible [-2; 0; 1]%Z /\ zeval [-2; 0; 1]%Z (sqrt 2) = 0 /\
  (exists p, set_str zd0 (lit "x") (lit "1/3*x^2 - 2/3") = Val (Some p) /\ e_num p = [-2; 0; 1]%Z /\ e_den p = 3%Z) /\
  forall w, 0 < w -> exists emb q, ball_text emb = Some q /\ Rabs (sqrt 2 - dec10 (fst q)) < dec10 (snd q) /\ dec10 (snd q) <= w.
Proof.
  split; [exact dyops_ok|]. split; [exact dyops_rate|]. split; [exact dec_read_ok|]. split; [exact dec_read_sharp|]. split; [exact sq_irreducible|].
  split; [apply sq_roots; right; reflexivity|]. split; [|exact sq_text]. eexists. split; [vm_compute; reflexivity|]. split; reflexivity.
Qed.

(** C50: for an irreducible polynomial with the real roots [xs] and any isolating
    list of sufficiently short intervals, the fields of the first [lim] roots are
    created in order once the precision is large enough, unless an exponent of the
    refinement exceeds a machine word; the whole call does so if these are the
    intervals it finds itself.  In full it does so whatever the intervals are. *)
Theorem C50_small_partial : forall o, arb_ok o -> arb_rate o -> forall p xs, irreducible p -> last p 0%Z <> 0%Z -> (3 <= List.length p)%nat ->
  StronglySorted Rlt xs -> (forall x, zeval p x = 0 <-> In x xs) ->
  exists w, 0 < w /\ forall ints, isolates p reals [] ints -> Forall (fun d => ihi d - ilo d <= w) ints ->
  exists P, forall debug lim prec, (P <= prec)%Z ->
    DefSpec.answers (fun fuel => embed_all o debug fuel p prec (firstn (Z.to_nat lim) ints))
            (Forall2 (fun x nf => embedded p 1 x prec nf) (firstn (Z.to_nat lim) xs))
            (exists d, In d ints /\ word_overflow o p (embed_ball prec d)) /\
    forall flog0 fuel0, isolate flog0 fuel0 p = VDone [] ints ->
    DefSpec.answers (fun fuel => set_embeddings o debug flog0 fuel p lim prec)
            (fun r => snd r = Z.of_nat (List.length xs) /\ Forall2 (fun x nf => embedded p 1 x prec nf) (firstn (Z.to_nat lim) xs) (fst r))
            (exists d, In d ints /\ word_overflow o p (embed_ball prec d)).
Proof. exact embeddings_all. Qed.
Print Assumptions C50_small_partial.

Example C50_small_case : irreducible [-2; 0; 1]%Z /\ StronglySorted Rlt [- sqrt 2; sqrt 2] /\
  (forall x, zeval [-2; 0; 1]%Z x = 0 <-> In x [- sqrt 2; sqrt 2]) /\
  forall w, 0 < w -> exists ints, isolates [-2; 0; 1]%Z reals [] ints /\ Forall (fun d => ihi d - ilo d <= w) ints.
Proof.
  split; [exact sq_irreducible|]. split; [|split; [|exact sq_intervals]].
  - pose proof sqrt2_bounds. repeat constructor. lra.
  - intros x. rewrite sq_roots. cbn [In]. intuition congruence.
Qed.

(** The intervals of the call itself: open, isolating all real roots. *)
Theorem C50_isolation_partial : forall flog0 p, irreducible p -> last p 0%Z <> 0%Z -> (3 <= List.length p)%nat ->
  good_bound flog0 (snd (low_zeros p)) -> good_bound flog0 (RootModel.flip (snd (low_zeros p))) ->
  exists f0 ints, isolates p reals [] ints /\ forall f, (f0 <= f)%nat -> isolate flog0 f p = VDone [] ints.
Proof. exact isolation_open. Qed.
Print Assumptions C50_isolation_partial.

Example C50_isolation_case : good_bound 0 (snd (low_zeros [-2; 0; 1]%Z)) /\ good_bound 0 (RootModel.flip (snd (low_zeros [-2; 0; 1]%Z))) /\
  exists ints, isolate 0 20 [-2; 0; 1]%Z = VDone [] ints /\ List.length ints = 2%nat.
Proof.
  pose proof sqrt2_bounds. change (snd (low_zeros [-2; 0; 1]%Z)) with [-2; 0; 1]%Z. change (RootModel.flip [-2; 0; 1]%Z) with [-2; 0; 1]%Z.
  assert (G : good_bound 0 [-2; 0; 1]%Z).
  { unfold good_bound. replace (root_bound 0 [-2; 0; 1]%Z) with (Some 1%Z) by (vm_compute; reflexivity).
    intros x _ Z. apply sq_roots in Z. change (pw2 1) with (2 ^ 1). destruct Z; lra. }
  split; [exact G|]. split; [exact G|]. eexists. split; [vm_compute; reflexivity|reflexivity].
Qed.

(** C50: false at every sufficient precision.  The quadratic 6291455x^2 - 11264x + 4 is
    irreducible and its isolating intervals are the right ones, but the refinement of
    the first never ends, as in C54, whatever the precision; so it is at 64 bits. *)
Theorem C50_endless_refuted : exists p ints, irreducible p /\ (3 <= List.length p)%nat /\ last p 0%Z <> 0%Z /\ isolates p reals [] ints /\ List.length ints = 2%nat /\
  (exists P, forall prec, (P <= prec)%Z -> exists f0, forall debug fuel lim, (f0 <= fuel)%nat -> (1 <= lim)%Z ->
     isolate 0 fuel p = VDone [] ints /\ set_embeddings dyops debug 0 fuel p lim prec = Fuel) /\
  forall debug fuel lim, (60 <= fuel)%nat -> (1 <= lim)%Z -> set_embeddings dyops debug 0 fuel p lim 64 = Fuel.
Proof. exact embeddings_endless. Qed.
Print Assumptions C50_endless_refuted.

Example C50_run : match set_embeddings dyops true 0 60 [-2; 0; 1]%Z 2 64 with Val (nfs, n) => Nat.eqb (List.length nfs) 2 && Z.eqb n 2 | _ => false end = true.
Proof. vm_compute. reflexivity. Qed.
