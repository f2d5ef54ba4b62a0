(** Programs with the C++ classes, their answers, and what both should be.

    [xstep] is [xrun] of CxxModel.v together with the value returned by the
    operator (/repo/libeantic/srcxx/renf_elem_class.cpp:873-902 and 943-1360).  A
    program catches exceptions and goes on with the old objects. *)
Require Import Reals List ZArith Bool.
From Verif Require Import PolyR RootSpec Dyadic DyadicProofs ArbModel ArbSpec ElemModel ElemSpec DefSpec CxxModel CxxSpec.
Import ListNotations.
Open Scope R_scope.

Inductive xans := XNone | XBool (b : bool) | XInt (z : Z) | XThrow.

Section Steps.
Variables (o : arbops) (ops : list Z -> nfops) (debug : bool) (fuel : nat) (strict : bool).

Definition told {A} (t : A -> xans) (w : world) (r : out (exc (world * A))) : out (world * xans) :=
  bind r (fun e => Val (match e with Ret (v, a) => (v, t a) | Throw => (w, XThrow) end)).

Definition xstep (w : world) (c : xcall) : out (world * xans) :=
  match c with
  | XRel r i j => told XBool w (rel_objs o ops debug fuel r w i j)
  | XRelInt r i t z => told XBool w (rel_int o ops debug fuel r w i t z)
  | XRelMpz r i z => told XBool w (rel_mpz o ops debug fuel r w i z)
  | XRelMpq r i qn qd => told XBool w (rel_mpq o ops debug fuel r w i qn qd)
  | XFloordiv i j => told XInt w (floordiv o ops debug fuel strict w i j)
  | XFloor i => bind (floor_obj o debug fuel rd_floor w i) (fun '(v, z) => Val (v, XInt z))
  | XCeil i => bind (floor_obj o debug fuel rd_ceil w i) (fun '(v, z) => Val (v, XInt z))
  | XSgn i => bind (sgn_obj o debug fuel w i) (fun '(v, z) => Val (v, XInt z))
  | _ => bind (xrun o ops debug fuel strict w c) (fun e => Val (match e with Ret v => (v, XNone) | Throw => (w, XThrow) end))
  end.

Fixpoint xsteps (w : world) (l : list xcall) : out (world * list xans) :=
  match l with
  | [] => Val (w, [])
  | c :: l' => bind (xstep w c) (fun '(v, a) => bind (xsteps v l') (fun '(v', r) => Val (v', a :: r)))
  end.
End Steps.

(** * What programs should do *)

(** The field and the value of every object. *)
Definition state := nat -> (nat * R)%type.
Definition state_of (x : nat -> R) (w : world) : state := fun i => (fld w i, value x w i).

(** There is a common field. *)
Definition compatible (s : state) (i j : nat) : Prop := fst (s i) = fst (s j) \/ rational (snd (s i)) \/ rational (snd (s j)).
(** LIBEANTIC_STRICT_BINOP refuses different fields, but for the rational one. *)
Definition refused (strict : bool) (s : state) (i j : nat) : Prop :=
  strict = true /\ fst (s i) <> fst (s j) /\ fst (s i) <> 0%nat /\ fst (s j) <> 0%nat.

Definition put (s s' : state) (i f : nat) (v : R) : Prop := s' i = (f, v) /\ forall j, j <> i -> s' j = s j.
Definition stays (s s' : state) : Prop := forall i, s' i = s i.
Definition tells (s s' : state) (a : xans) (P : Prop) : Prop := stays s s' /\ exists b, a = XBool b /\ (b = true <-> P).
Definition counts (s s' : state) (a : xans) (P : Z -> Prop) : Prop := stays s s' /\ exists z, a = XInt z /\ P z.
Definition throws (s s' : state) (a : xans) : Prop := stays s s' /\ a = XThrow.

Definition right (strict : bool) (x : nat -> R) (s : state) (c : xcall) (s' : state) (a : xans) : Prop :=
  match c with
  | XBin p i j =>
      (~ compatible s i j \/ refused strict s i j) /\ throws s s' a \/
      compatible s i j /\ ~ refused strict s i j /\ a = XNone /\
        exists f, (f = fst (s i) \/ f = fst (s j)) /\ put s s' i f (real_op p (snd (s i)) (snd (s j)))
  | XBinInt p i _ z | XBinMpz p i z => a = XNone /\ put s s' i (fst (s i)) (real_op p (snd (s i)) (IZR z))
  | XBinMpq p i qn qd => a = XNone /\ put s s' i (fst (s i)) (real_op p (snd (s i)) (IZR qn / IZR qd))
  | XNeg i j => a = XNone /\ put s s' i (fst (s j)) (- snd (s j))
  | XPow i j e => a = XNone /\ put s s' i (fst (s j)) (powerRZ (snd (s j)) e)
  | XCopy i j => a = XNone /\ put s s' i (fst (s j)) (snd (s j))
  | XConvert i f j =>
      (fst (s j) = f \/ rational (snd (s j))) /\ a = XNone /\ put s s' i f (snd (s j)) \/
      fst (s j) <> f /\ ~ rational (snd (s j)) /\ throws s s' a
  | XZero i f => a = XNone /\ put s s' i f 0
  | XGen i f => a = XNone /\ put s s' i f (x f)
  | XAssignInt i _ z => a = XNone /\ put s s' i 0 (IZR z)
  | XAssignMpq i qn qd => a = XNone /\ put s s' i 0 (IZR qn / IZR qd)
  | XMakeInt i f _ z => a = XNone /\ put s s' i f (IZR z)
  | XMakeMpq i f qn qd => a = XNone /\ put s s' i f (IZR qn / IZR qd)
  | XMakeVector i f v d => a = XNone /\ put s s' i f (zeval v (x f) / IZR d)
  | XRel r i j =>
      ~ compatible s i j /\ throws s s' a \/
      compatible s i j /\ tells s s' a (real_rel r (snd (s i)) (snd (s j)))
  | XRelInt r i _ z | XRelMpz r i z => tells s s' a (real_rel r (snd (s i)) (IZR z))
  | XRelMpq r i qn qd => tells s s' a (real_rel r (snd (s i)) (IZR qn / IZR qd))
  | XFloordiv i j =>
      refused strict s i j /\ rational (snd (s j)) /\ throws s s' a \/
      ~ (refused strict s i j /\ rational (snd (s j))) /\ counts s s' a (is_floor (snd (s i) / snd (s j)))
  | XFloor i => counts s s' a (is_floor (snd (s i)))
  | XCeil i => counts s s' a (is_ceil (snd (s i)))
  | XSgn i => counts s s' a (eq (Rsgn (snd (s i))))
  | XRefine _ _ => a = XNone /\ stays s s'
  end.

(** What a call asks of the numbers stored: no division by zero; the opposite of
    the exponent fits (C42); vectors of at most the length of the degree; floor
    divisions with a common field (C43), and of zero in degree at most two only
    (C26); the generator and refinement in degree at least two (C20). *)
Definition xallowed (pol : nat -> list Z) (s : state) (c : xcall) : Prop :=
  match c with
  | XBin Div _ j => snd (s j) <> 0
  | XBinInt Div _ _ z | XBinMpz Div _ z => z <> 0%Z
  | XBinMpq Div _ qn _ => qn <> 0%Z
  | XPow _ j e => e <> low Int /\ (snd (s j) = 0 -> (0 <= e)%Z)
  | XMakeVector _ f v _ => (length v < length (pol f))%nat
  | XGen _ f | XRefine f _ => (3 <= length (pol f))%nat
  | XFloordiv i j => compatible s i j /\ snd (s j) <> 0 /\
      (snd (s i) <> 0 \/ (length (pol (fst (s i))) <= 3)%nat /\ (length (pol (fst (s j))) <= 3)%nat)
  | XFloor i | XCeil i => snd (s i) <> 0 \/ (length (pol (fst (s i))) <= 3)%nat
  | _ => True
  end.

Inductive xlegal (strict : bool) (pol : nat -> list Z) (x : nat -> R) : state -> list xcall -> Prop :=
| xl_nil : forall s, xlegal strict pol x s []
| xl_cons : forall s c l, xcall_ok c -> xallowed pol s c -> (forall s' a, right strict x s c s' a -> xlegal strict pol x s' l) ->
    xlegal strict pol x s (c :: l).

Inductive xhistory (strict : bool) (x : nat -> R) : state -> list xcall -> state -> list xans -> Prop :=
| xh_nil : forall s, xhistory strict x s [] s []
| xh_cons : forall s c s' a l s'' r, right strict x s c s' a -> xhistory strict x s' l s'' r -> xhistory strict x s (c :: l) s'' (a :: r).

(** A world of fields of degree one, with any right enclosure, and of higher
    degree, with enclosures of at most the given radii. *)
Record world_ready (pol : nat -> list Z) (x r0 : nat -> R) (w : world) : Prop := {
  wr_one : forall f, length (pol f) = 2%nat -> f_pol (w_fields w f) = pol f /\ inb (x f) (f_emb (w_fields w f)) /\ (2 <= f_prec (w_fields w f))%Z;
  wr_more : forall f, (3 <= length (pol f))%nat -> ready (pol f) (x f) (r0 f) (w_fields w f);
  wr_objs : forall i, elem_ok (pol (fld w i)) (x (fld w i)) (val w i)
}.
