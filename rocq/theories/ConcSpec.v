(** Specification for threads: what a program does alone, what a pool of threads
    can do, and what the calls answer. *)
Require Import Reals List ZArith Bool.
From Verif Require Import PolyR RootModel ExtraModel Dyadic DyadicProofs ArbModel ArbSpec ElemModel ElemSpec ConcModel.
Import ListNotations.
Open Scope Z_scope.

Definition with_imm (nf : renf) (z : Z) : renf :=
  {| f_pol := f_pol nf; f_den := f_den nf; f_emb := f_emb nf; f_prec := f_prec nf; f_imm := z |}.
Definition with_ball (nf : renf) (b : ball) : renf :=
  {| f_pol := f_pol nf; f_den := f_den nf; f_emb := b; f_prec := f_prec nf; f_imm := f_imm nf |}.

(** One step of a program: a read or a write. *)
Definition step1 {A} (nf : renf) (m : mem) (p : prog A) : option (renf * mem * prog A) :=
  match p with
  | Fin_ _ => None
  | Rd i k => Some (nf, m, k (m i))
  | WrE i e k => Some (nf, upd_elem m i e, k)
  | WrB i b k => Some (nf, upd_emb m i b, k)
  | RdF k => Some (nf, m, k nf)
  | WrImm z k => Some (with_imm nf z, m, k)
  | WrEmb b k => Some (with_ball nf b, m, k)
  end.

(** A pool of threads that share the field and the elements. *)
Definition pool (A : Type) := nat -> prog A.
Definition state (A : Type) := (renf * mem * pool A)%type.

(** Some thread makes a step; any thread may be next. *)
Inductive steps {A} : state A -> state A -> Prop :=
| steps_refl s : steps s s
| steps_one nf m ps t nf' m' p' s :
    step1 nf m (ps t) = Some (nf', m', p') ->
    steps (nf', m', fun u => if Nat.eqb u t then p' else ps u) s ->
    steps (nf, m, ps) s.

(** A thread without others. *)
Inductive alone {A} (nf : renf) (m : mem) : prog A -> renf -> mem -> out A -> Prop :=
| alone_end r : alone nf m (Fin_ r) nf m r
| alone_step p nf1 m1 p1 nf2 m2 r :
    step1 nf m p = Some (nf1, m1, p1) -> alone nf1 m1 p1 nf2 m2 r -> alone nf m p nf2 m2 r.

(** What one call answers, from the models of ElemModel.v. *)
Definition answer (o : arbops) (n : nfops) (debug : bool) (fuel : nat) (nf : renf) (m : mem) (k : call) : out ans :=
  match k with
  | KSgn a => bind (sgn o debug fuel nf (m a)) (fun '(_, _, s) => Val (AInt s))
  | KCmp a b => bind (cmp o n debug fuel nf (m a) (m b)) (fun '(_, _, _, s) => Val (AInt s))
  | KCmpQ a qn qd => bind (cmp_q o n debug fuel nf (m a) qn qd) (fun '(_, _, s) => Val (AInt s))
  | KFloor a => bind (floor o debug fuel nf (m a)) (fun '(_, _, z) => Val (AInt z))
  | KCeil a => bind (ceil o debug fuel nf (m a)) (fun '(_, _, z) => Val (AInt z))
  | KFdiv b c => bind (fdiv o n debug (Nat.eqb b c) fuel nf (m b) (m c)) (fun '(_, _, _, z) => Val (AInt z))
  | KGetArb a prec => bind (get_arb o debug fuel nf (m a) prec) (fun '(_, _, b) => Val (ABall b))
  | KCfrac r a k => bind (cfrac o n debug fuel nf (m a) k) (fun '(_, l, _) => Val (AInts l))
  | _ => Val ANone
  end.

(** Calls one after the other, with their answers. *)
Fixpoint calls (o : arbops) (n : nfops) (debug : bool) (fuel : nat) (nf : renf) (m : mem) (l : list call) :
    out (renf * mem * list ans) :=
  match l with
  | [] => Val (nf, m, [])
  | k :: l' =>
      bind (run o n debug fuel nf m k) (fun '(nf', m') =>
      bind (answer o n debug fuel nf m k) (fun a =>
      bind (calls o n debug fuel nf' m' l') (fun '(nf'', m'', r) => Val (nf'', m'', a :: r))))
  end.

(** Elements a call may write: the reading functions write enclosures. *)
Definition writes_of (k : call) : list nat :=
  match k with
  | KZero a | KOne a | KGen a | KSetZ a _ | KSetQ a _ _ | KSetPoly a _ _ | KSet a _ | KSetNf a _ _
  | KAdd a _ _ | KSub a _ _ | KMul a _ _ | KDiv a _ _
  | KAddZ a _ _ | KSubZ a _ _ | KMulZ a _ _ | KDivZ a _ _
  | KAddQ a _ _ _ | KSubQ a _ _ _ | KQSub a _ _ _ | KMulQ a _ _ _ | KDivQ a _ _ _ | KQDiv a _ _ _
  | KNeg a _ | KInv a _ | KPow a _ _ | KEval a _
  | KSgn a | KCmpQ a _ _ | KFloor a | KCeil a | KGetArb a _ => [a]
  | KSwap a b | KCmp a b | KFdiv a b => [a; b]
  | KCfrac r _ _ => [r]
  | KRefine _ => []
  end.
(** Elements a call only reads. *)
Definition reads_of (k : call) : list nat :=
  match k with
  | KAdd _ b c | KSub _ b c | KMul _ b c | KDiv _ b c => [b; c]
  | KSet _ b | KAddZ _ b _ | KSubZ _ b _ | KMulZ _ b _ | KDivZ _ b _
  | KAddQ _ b _ _ | KSubQ _ b _ _ | KQSub _ _ _ b | KMulQ _ b _ _ | KDivQ _ b _ _ | KQDiv _ _ _ b
  | KNeg _ b | KInv _ b | KPow _ b _ | KCfrac _ b _ => [b]
  | _ => []
  end.

(** Elements are divided among the threads: each belongs to one thread, or to
    none, and those that belong to none are only read. *)
Definition divided (own : nat -> option nat) (t : nat) (l : list call) : Prop :=
  forall k, In k l ->
    (forall i, In i (writes_of k) -> own i = Some t) /\
    (forall i, In i (reads_of k) -> own i = Some t \/ own i = None).

Open Scope R_scope.

(** The right answer of a call, in terms of the real numbers [v] the elements
    stand for. *)
Definition right (v : nat -> R) (k : call) (a : ans) : Prop :=
  match k, a with
  | KSgn i, AInt s => s = Rsgn (v i)
  | KCmp i j, AInt s => s = Rsgn (v i - v j)
  | KCmpQ i p q, AInt s => s = Rsgn (v i - IZR p / IZR q)
  | KFloor i, AInt z => is_floor (v i) z
  | KCeil i, AInt z => is_ceil (v i) z
  | KFdiv i j, AInt z => v j <> 0 /\ is_floor (v i / v j) z
  | KGetArb i _, ABall b => inb (v i) b
  | KCfrac _ i k, AInts l => exists w, cf (v i) l w /\ (List.length l = k \/ (List.length l < k)%nat /\ w = 0)
  | (KSgn _ | KCmp _ _ | KCmpQ _ _ _ | KFloor _ | KCeil _ | KFdiv _ _ | KGetArb _ _ | KCfrac _ _ _), _ => False
  | _, ANone => True
  | _, _ => False
  end.

(** Calls one after the other, each with its announced effect and the right
    answer. *)
Inductive history (x : R) : (nat -> R) -> list call -> (nat -> R) -> list ans -> Prop :=
| hist_nil v : history x v [] v []
| hist_cons v k l v1 v2 a r : effect x v k v1 -> right v k a -> history x v1 l v2 r -> history x v (k :: l) v2 (a :: r).
