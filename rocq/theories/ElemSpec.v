(** What is assumed of antic's exact arithmetic, and the specifications of the
    functions on elements.  Only real numbers occur here. *)
Require Import Reals List ZArith.
From Verif Require Import PolyR RootSpec Dyadic ArbModel ArbSpec RefineProofs ElemModel.
Import ListNotations.
Open Scope R_scope.

(** The real number represented by an element when the generator is [x]. *)
Definition ev (x : R) (e : elem) : R := zeval (e_num e) x / IZR (e_den e).

(** [pol] is, up to a factor, the minimal polynomial of [x]. *)
Record minimal (pol : list Z) (x : R) : Prop := {
  min_root : zeval pol x = 0;
  min_len : (2 <= length pol)%nat;
  min_lead : last pol 0%Z <> 0%Z;
  min_short : forall p, (length p < length pol)%nat -> zeval p x = 0 -> Forall (fun c => c = 0%Z) p
}.

(** Canonical representation. *)
Record canon (pol : list Z) (e : elem) : Prop := {
  can_den : (0 < e_den e)%Z;
  can_last : last (e_num e) 1%Z <> 0%Z;
  can_len : (length (e_num e) < length pol)%nat;
  can_gcd : forall g, (0 < g)%Z -> (g | e_den e)%Z -> (forall c, In c (e_num e) -> (g | c)%Z) -> g = 1%Z
}.

(** Contract of antic: canonical operands give the canonical representation of
    the exact result. *)
Definition represents (pol : list Z) (x : R) (e : elem) (v : R) : Prop := canon pol e /\ ev x e = v.

Record nf_ok (pol : list Z) (x : R) (n : nfops) : Prop := {
  nk_add : forall b c, canon pol b -> canon pol c -> represents pol x (n_add n b c) (ev x b + ev x c);
  nk_sub : forall b c, canon pol b -> canon pol c -> represents pol x (n_sub n b c) (ev x b - ev x c);
  nk_mul : forall b c, canon pol b -> canon pol c -> represents pol x (n_mul n b c) (ev x b * ev x c);
  nk_div : forall b c, canon pol b -> canon pol c -> ev x c <> 0 -> represents pol x (n_div n b c) (ev x b / ev x c);
  nk_neg : forall b, canon pol b -> represents pol x (n_neg n b) (- ev x b);
  nk_inv : forall b, canon pol b -> ev x b <> 0 -> represents pol x (n_inv n b) (/ ev x b);
  nk_pow : forall b k, canon pol b -> (0 <= k)%Z -> represents pol x (n_pow n b k) (ev x b ^ Z.to_nat k);
  nk_add_q : forall b a d, canon pol b -> (0 < d)%Z -> represents pol x (n_add_q n b a d) (ev x b + IZR a / IZR d);
  nk_sub_q : forall b a d, canon pol b -> (0 < d)%Z -> represents pol x (n_sub_q n b a d) (ev x b - IZR a / IZR d);
  nk_q_sub : forall b a d, canon pol b -> (0 < d)%Z -> represents pol x (n_q_sub n a d b) (IZR a / IZR d - ev x b);
  nk_mul_q : forall b a d, canon pol b -> (0 < d)%Z -> represents pol x (n_mul_q n b a d) (ev x b * (IZR a / IZR d));
  nk_div_q : forall b a d, canon pol b -> a <> 0%Z -> (0 < d)%Z -> represents pol x (n_div_q n b a d) (ev x b / (IZR a / IZR d));
  nk_set_q : forall a d, (0 < d)%Z -> represents pol x (n_set_q n a d) (IZR a / IZR d);
  nk_set_poly : forall p d, (0 < d)%Z -> represents pol x (n_set_poly n p d) (zeval p x / IZR d)
}.

(** Integer parts. *)
Definition is_floor (v : R) (z : Z) : Prop := IZR z <= v < IZR z + 1.
Definition is_ceil (v : R) (z : Z) : Prop := IZR z - 1 < v <= IZR z.

(** Continued fractions: quotients and remainder of [v]. *)
Inductive cf : R -> list Z -> R -> Prop :=
| cf_nil : forall v, cf v [] v
| cf_end : forall c, cf (IZR c) [c] 0
| cf_step : forall v c cs r, is_floor v c -> v <> IZR c -> cf (/ (v - IZR c)) cs r -> cf v (c :: cs) r.

(** Arguments the documentation allows. *)
Definition call_ok (pol : list Z) (k : call) : Prop :=
  match k with
  | KSetQ _ _ qd | KAddQ _ _ _ qd | KSubQ _ _ _ qd | KQSub _ _ qd _ | KMulQ _ _ _ qd | KDivQ _ _ _ qd
  | KQDiv _ _ qd _ | KCmpQ _ _ qd => (0 < qd)%Z
  | KSetPoly _ _ d => (0 < d)%Z
  | KSetNf _ e _ => canon pol e
  | KPow _ _ e => (0 <= e)%Z
  | KGetArb _ p => (0 <= p)%Z
  | _ => True
  end.

(** The announced effect of a call on the real numbers stored. *)
Definition vset (v : nat -> R) (a : nat) (y : R) : nat -> R := fun i => if Nat.eqb i a then y else v i.

Inductive effect (x : R) (v : nat -> R) : call -> (nat -> R) -> Prop :=
| ef_zero : forall a, effect x v (KZero a) (vset v a 0)
| ef_one : forall a, effect x v (KOne a) (vset v a 1)
| ef_gen : forall a, effect x v (KGen a) (vset v a x)
| ef_set_z : forall a z, effect x v (KSetZ a z) (vset v a (IZR z))
| ef_set_q : forall a p q, effect x v (KSetQ a p q) (vset v a (IZR p / IZR q))
| ef_set_poly : forall a p d, effect x v (KSetPoly a p d) (vset v a (zeval p x / IZR d))
| ef_set : forall a b, effect x v (KSet a b) (vset v a (v b))
| ef_set_nf : forall a e p, effect x v (KSetNf a e p) (vset v a (ev x e))
| ef_swap : forall a b, effect x v (KSwap a b) (vset (vset v a (v b)) b (v a))
| ef_add : forall a b c, effect x v (KAdd a b c) (vset v a (v b + v c))
| ef_sub : forall a b c, effect x v (KSub a b c) (vset v a (v b - v c))
| ef_mul : forall a b c, effect x v (KMul a b c) (vset v a (v b * v c))
| ef_div : forall a b c, effect x v (KDiv a b c) (vset v a (v b / v c))
| ef_add_z : forall a b z, effect x v (KAddZ a b z) (vset v a (v b + IZR z))
| ef_sub_z : forall a b z, effect x v (KSubZ a b z) (vset v a (v b - IZR z))
| ef_mul_z : forall a b z, effect x v (KMulZ a b z) (vset v a (v b * IZR z))
| ef_div_z : forall a b z, effect x v (KDivZ a b z) (vset v a (v b / IZR z))
| ef_add_q : forall a b p q, effect x v (KAddQ a b p q) (vset v a (v b + IZR p / IZR q))
| ef_sub_q : forall a b p q, effect x v (KSubQ a b p q) (vset v a (v b - IZR p / IZR q))
| ef_q_sub : forall a b p q, effect x v (KQSub a p q b) (vset v a (IZR p / IZR q - v b))
| ef_mul_q : forall a b p q, effect x v (KMulQ a b p q) (vset v a (v b * (IZR p / IZR q)))
| ef_div_q : forall a b p q, effect x v (KDivQ a b p q) (vset v a (v b / (IZR p / IZR q)))
| ef_q_div : forall a p q c, effect x v (KQDiv a p q c) (vset v a (IZR p / IZR q / v c))
| ef_neg : forall a b, effect x v (KNeg a b) (vset v a (- v b))
| ef_inv : forall a b, effect x v (KInv a b) (vset v a (/ v b))
| ef_pow : forall a b e, effect x v (KPow a b e) (vset v a (v b ^ Z.to_nat e))
| ef_eval : forall a p, effect x v (KEval a p) v
| ef_refine : forall p, effect x v (KRefine p) v
| ef_sgn : forall a, effect x v (KSgn a) v
| ef_cmp : forall a b, effect x v (KCmp a b) v
| ef_cmp_q : forall a p q, effect x v (KCmpQ a p q) v
| ef_floor : forall a, effect x v (KFloor a) v
| ef_ceil : forall a, effect x v (KCeil a) v
| ef_fdiv : forall b c, effect x v (KFdiv b c) v
| ef_get_arb : forall a p, effect x v (KGetArb a p) v
| ef_cfrac : forall r a k cs w, cf (v a) cs w -> effect x v (KCfrac r a k) (vset v r w).

(** The two functions with a wrong result: the generator of a field of degree
    one, and the quotient of a rational by another object. *)
Definition sound_call (pol : list Z) (k : call) : Prop :=
  match k with
  | KGen _ => (3 <= length pol)%nat
  | KQDiv a _ _ c => a = c
  | _ => True
  end.

(** * Accuracy of arb_set_round (documentation of arb.h: the midpoint is rounded
      towards zero, its error and the rounding of the radius are added).  Used
      only for the accuracy of get_arb. *)
Definition round_sharp (o : arbops) : Prop := forall m r p, (2 <= p)%Z -> fst m <> 0%Z -> 0 <= dyv r ->
  exists m' r', o_round o (Fin m r) p = Fin m' r' /\ fst m' <> 0%Z /\ dexp m' = dexp m /\
    dyv r' <= (dyv r + pw2 (dexp m - p)) * (1 + pw2 (-20)).

(** * The setting of the theorems *)

(** Contracts of arb and antic, [x] with minimal polynomial [pol], and a set of
    balls in which refinement cannot leave [x] (RefineProofs.v). *)
Record setting (o : arbops) (n : nfops) (pol : list Z) (x : R) (N : ball -> Prop) : Prop := {
  st_arb : arb_ok o;
  st_min : minimal pol x;
  st_nf : nf_ok pol x n;
  st_safe : safe_balls o pol x N
}.

(** A field at any moment of its life. *)
Definition field_ok (pol : list Z) (x : R) (N : ball -> Prop) (nf : renf) : Prop :=
  f_pol nf = pol /\ inb x (f_emb nf) /\ N (f_emb nf) /\ (2 <= f_prec nf)%Z.

(** An element at any moment of its life: the enclosure is right. *)
Definition elem_ok (pol : list Z) (x : R) (y : relem) : Prop :=
  canon pol (r_elem y) /\ inb (ev x (r_elem y)) (r_emb y).
Definition mem_ok (pol : list Z) (x : R) (m : mem) : Prop := forall i, elem_ok pol x (m i).
Definition values (x : R) (m : mem) : nat -> R := fun i => ev x (r_elem (m i)).

(** Calls that only read elements. *)
Definition reads (k : call) : Prop :=
  match k with
  | KEval _ _ | KRefine _ | KSgn _ | KCmp _ _ | KCmpQ _ _ _ | KFloor _ | KCeil _ | KFdiv _ _ | KGetArb _ _ => True
  | _ => False
  end.

(** The arithmetic and conversion functions: everything but the generator,
    continued fractions and the functions that only read. *)
Definition arith (k : call) : Prop :=
  match k with KGen _ | KCfrac _ _ _ => False | _ => ~ reads k end.

(** Elements in canonical form, whatever their enclosures. *)
Definition exact_mem (pol : list Z) (m : mem) : Prop := forall i, canon pol (r_elem (m i)).
