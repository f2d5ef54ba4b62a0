(** Specifications for root isolation and root counting.  They only mention real
    numbers and the value [zeval] of an integer polynomial. *)
Require Import Reals List ZArith Sorting.
From Verif Require Import PolyR.
Import ListNotations.
Open Scope R_scope.

Definition pw2 (e : Z) : R := powerRZ 2 e.

(** The dyadic number c * 2^e. *)
Definition dyv (d : Z * Z) : R := IZR (fst d) * pw2 (snd d).

(** Open dyadic interval (c * 2^e, (c+1) * 2^e). *)
Definition ilo (d : Z * Z) : R := IZR (fst d) * pw2 (snd d).
Definition ihi (d : Z * Z) : R := (IZR (fst d) + 1) * pw2 (snd d).
Definition in_int (d : Z * Z) (x : R) : Prop := ilo d < x < ihi d.

Definition nonzero (p : list Z) : Prop := ~ Forall (fun a => a = 0%Z) p.

(** [rs] lists (with multiplicity) some roots of [p]. *)
Definition divides_out (rs : list R) (p : list Z) : Prop :=
  exists q : list R, forall x, zeval p x = linprod rs x * peval q x.

(** [ex] (exact dyadic roots) and [ints] (open dyadic intervals) isolate the
    roots of [p] in the domain [dom]. *)
Record isolates (p : list Z) (dom : R -> Prop) (ex ints : list (Z * Z)) : Prop := {
  iso_exact_root : forall d, In d ex -> dom (dyv d) /\ zeval p (dyv d) = 0;
  (* exact roots are listed with their multiplicity *)
  iso_exact_mult : exists q : list R,
      (forall x, zeval p x = linprod (map dyv ex) x * peval q x) /\
      (forall d, In d ex -> peval q (dyv d) <> 0);
  iso_int_root : forall d, In d ints ->
      exists! x, in_int d x /\ zeval p x = 0;
  iso_int_dom : forall d x, In d ints -> in_int d x -> dom x;
  iso_complete : forall x, dom x -> zeval p x = 0 ->
      (exists d, In d ex /\ dyv d = x) \/ (exists d, In d ints /\ in_int d x);
  (* an exact root is not found a second time by an interval *)
  iso_exclusive : forall d e, In d ex -> In e ints -> ~ in_int e (dyv d);
  iso_exact_sorted : StronglySorted (fun d e => dyv d <= dyv e) ex;
  iso_int_sorted : StronglySorted (fun d e => ihi d <= ilo e) ints
}.

(** [l] enumerates the roots of [p] in [dom] without repetition. *)
Definition root_list (p : list Z) (dom : R -> Prop) (l : list R) : Prop :=
  NoDup l /\ forall x, In x l <-> dom x /\ zeval p x = 0.

(** No multiple root in [dom]. *)
Definition simple_roots (p : list Z) (dom : R -> Prop) : Prop :=
  forall x, dom x -> zeval p x = 0 -> peval (pderiv (map IZR p)) x <> 0.

Definition unit_co (x : R) : Prop := 0 <= x < 1.
Definition unit_cc (x : R) : Prop := 0 <= x <= 1.
Definition unit_oo (x : R) : Prop := 0 < x < 1.
Definition reals (x : R) : Prop := True.
