(** Properties C08 (second half) and C50: all real embeddings of a polynomial. *)
Require Import Reals List ZArith Bool Sorted.
From Verif Require Import PolyR RootSpec RootModel VcaProofs IsoAll ExtraModel Dyadic ArbModel ArbSpec DyBall EmbModel EmbProofs IsoWithin EmbWithin
  BoundProofs RootFacts EmbWrong.
Import ListNotations.
Open Scope R_scope.

(** C08: the fields are created from balls isolating the real roots in
    increasing order.  Missing: polynomials with a wrong root bound (C05);
    intervals whose midpoint does not fit in the precision (C08_root_refuted); calls that abort (C50). *)
Theorem C08_embeddings_partial : forall o debug flog0 fuel p lim prec nfs n, nonzero p -> (1 <= prec)%Z ->
  good_bound flog0 (snd (low_zeros p)) -> good_bound flog0 (flip (snd (low_zeros p))) ->
  set_embeddings o debug flog0 fuel p lim prec = Val (nfs, n) ->
  exists xs, StronglySorted Rlt xs /\ (forall x, zeval p x = 0 <-> In x xs) /\ n = Z.of_nat (length xs) /\
    ((forall ex ints, isolate flog0 fuel p = VDone ex ints -> forall d, In d ints -> (zbits (2 * fst d + 1) <= prec)%Z) ->
     Forall2 (fun x nf => exists b, unique_root p b /\ inb x b /\ zeval p x = 0 /\
                renf_init o debug fuel p 1 b prec = Val nf) (firstn (Z.to_nat lim) xs) nfs).
Proof. exact embeddings_spec. Qed.
Print Assumptions C08_embeddings_partial.

(** The same for every polynomial without dyadic roots, whether or not the root bounds
    are right: the fields belong to the roots between the bounds, in increasing order. *)
Theorem C08_within_partial : forall o debug flog0 fuel p lim prec nfs n, nonzero p -> (1 <= prec)%Z ->
  (forall d, zeval p (dyv d) <> 0) ->
  set_embeddings o debug flog0 fuel p lim prec = Val (nfs, n) ->
  exists xs, StronglySorted Rlt xs /\ (forall x, in_bounds flog0 p x /\ zeval p x = 0 <-> In x xs) /\ n = Z.of_nat (length xs) /\
    ((forall ex ints, isolate flog0 fuel p = VDone ex ints -> forall d, In d ints -> (zbits (2 * fst d + 1) <= prec)%Z) ->
     Forall2 (fun x nf => exists b, unique_root p b /\ inb x b /\ zeval p x = 0 /\
                renf_init o debug fuel p 1 b prec = Val nf) (firstn (Z.to_nat lim) xs) nfs).
Proof. exact embeddings_within. Qed.
Print Assumptions C08_within_partial.

(** Two real roots, one field. *)
Example C08_within_case : nonzero [-2; -2; -1; -1; 1]%Z /\ (forall d, zeval [-2; -2; -1; -1; 1]%Z (dyv d) <> 0) /\
  (exists nf, set_embeddings dyops true 0 100 [-2; -2; -1; -1; 1]%Z 4 64 = Val ([nf], 1%Z)) /\
  isolate 0 100 [-2; -2; -1; -1; 1]%Z = VDone [] [(-1, 1)%Z].
Proof.
  split; [exact pbad_nonzero|]. split; [exact pbad_not_dyadic|]. split; [eexists; vm_compute; reflexivity|vm_compute; reflexivity].
Qed.

(** x^4 - 10x^2 + 1: four roots, the intervals fit in 64 bits. *)
Example C08_embeddings_case : (exists nfs, set_embeddings dyops true 0 500 [1; 0; -10; 0; 1]%Z 5 64 = Val (nfs, 4%Z) /\ length nfs = 4%nat) /\
  isolate 0 500 [1; 0; -10; 0; 1]%Z = VDone [] [(-2, 1); (-1, 1); (0, 1); (1, 1)]%Z.
Proof. split; [eexists; split; vm_compute; reflexivity|vm_compute; reflexivity]. Qed.

(** C08: false as stated.  The midpoint of an isolating interval is rounded to the
    precision and the error of that is dropped: a quadratic polynomial without rational
    roots gets, at 64 bits, a field whose enclosure holds no root at all. *)
Theorem C08_root_refuted : exists p fuel nf, (forall n d, (0 < d)%Z -> zeval p (IZR n / IZR d) <> 0) /\ length p = 3%nat /\
  (exists ints, isolate 0 fuel p = VDone [] ints /\ length ints = 2%nat) /\
  set_embeddings dyops true 0 fuel p 1 64 = Val ([nf], 2%Z) /\ forall x, inb x (f_emb nf) -> zeval p x <> 0.
Proof. exact embedding_wrong. Qed.
Print Assumptions C08_root_refuted.

(** The same at 4 bits with every root asked for. *)
Theorem C08_all_roots_refuted : exists p fuel nf, (forall n d, (0 < d)%Z -> zeval p (IZR n / IZR d) <> 0) /\ length p = 4%nat /\
  set_embeddings dyops true 0 fuel p 3 4 = Val ([nf], 1%Z) /\ forall x, inb x (f_emb nf) -> zeval p x <> 0.
Proof. exact embeddings_coarse. Qed.
Print Assumptions C08_all_roots_refuted.

(** C50: false as stated.  A cubic without rational root, hence irreducible, has
    three real roots; two isolating intervals share an endpoint where the value is
    too small for its sign to be seen at 128 bits, the balls are rejected. *)
Theorem C50_embeddings_refuted : exists p fuel, (forall n d, (0 < d)%Z -> Z.gcd n d = 1%Z -> zeval p (IZR n / IZR d) <> 0) /\
  length p = 4%nat /\ (exists ints, isolate 0 fuel p = VDone [] ints /\ length ints = 3%nat) /\
  set_embeddings dyops true 0 fuel p 3 64 = Abort.
Proof. exact embeddings_abort. Qed.
Print Assumptions C50_embeddings_refuted.

(** Rational roots are reported and end the program, but only those that the isolation
    finds: not the roots of x^2 - 1, which it encloses. *)
Example C08_rational_case : set_embeddings dyops true 0 100 [0; -2; 0; 1]%Z 3 64 = Abort /\ isolate 0 100 [-1; 0; 1]%Z = VDone [] [(-1, 1); (0, 1)]%Z.
Proof. split; vm_compute; reflexivity. Qed.
