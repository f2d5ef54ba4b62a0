(** Model of /repo/libeantic/src/renf/{init_nth_root,randtest}.c,
    renf_elem/check_embedding.c and fmpz_poly_extra/randtest_irreducible.c. *)
Require Import List ZArith Bool.
From Verif Require Import RootModel ExtraModel Dyadic ArbModel EmbModel ElemModel.
Import ListNotations.
Open Scope Z_scope.

(** ** renf/init_nth_root.c *)

(** Lines 29-31: the numerator of X^n - p/q, with p/q in lowest terms.  For n = 0
    the constant coefficient is overwritten by 1.  The cast of n to a signed word
    is left out. *)
Definition root_pol (p q : Z) (n : nat) : list Z :=
  match n with O => [1] | S k => - p :: repeat 0 k ++ [q] end.
Definition root_den (q : Z) (n : nat) : Z := match n with O => 1 | S _ => q end.

(** Lines 19-42; [root] is arb_root_ui. *)
Definition init_nth_root (o : arbops) (root : ball -> nat -> Z -> ball) (debug : bool) (fuel : nat) (p q : Z) (n : nat) (prec : Z) : out renf :=
  if p <? 0 then Abort
  else if prec <? 2 then Undef
  else renf_init o debug fuel (root_pol p q n) (root_den q n) (root (o_set_q o p q prec) n prec) prec.

(** ** renf_elem/check_embedding.c:20-50 *)
Definition check_embedding (o : arbops) (nf : renf) (a : relem) (prec : Z) : out unit :=
  bind (set_evaluation o nf (r_elem a) prec) (fun b => if boverlaps (r_emb a) b then Val tt else Abort).

(** ** fmpz_poly_extra/randtest_irreducible.c:19-57 *)

(** Lines 43-50: [q] is the polynomial drawn by fmpz_mod_poly_randtest_irreducible,
    its coefficients in 0..c-1; [take i] tells whether n_randint(state, 3) is 0. *)
Definition lift_mod (c : Z) (q : list Z) (take : nat -> bool) : list Z :=
  map (fun i => if take i then nth i q 0 - c else nth i q 0) (seq 0 (length q)).

(** ** renf/randtest.c *)

(** Lines 22-38; the sum 2c + 1 is exact at the precisions let through. *)
Definition from_interval (d : dyadic) (prec : Z) : out ball :=
  if (prec <=? 0) || (prec <? zbits (fst d) + 2) then Abort else Val (embed_ball prec d).

(** What one call of fmpz_poly_randtest_irreducible draws: prime, polynomial, signs. *)
Record draw := { dr_prime : Z; dr_pol : list Z; dr_take : nat -> bool }.
Definition drawn (d : draw) : list Z := lift_mod (dr_prime d) (dr_pol d) (dr_take d).

(** Lines 58-60: [has] is fmpz_poly_has_real_root. *)
Fixpoint rand_pol (has : list Z -> bool) (ds : list draw) : out (list Z) :=
  match ds with
  | [] => Fuel
  | d :: ds => if has (drawn d) then Val (drawn d) else rand_pol has ds
  end.

(** Lines 40-98; [ds] are the draws and [pick] is the value of n_randint in line 77,
    below the number of intervals. *)
Definition randtest (o : arbops) (debug : bool) (flog0 : Z) (has : list Z -> bool) (fuel : nat) (ds : list draw) (pick : nat) (len prec : Z) : out renf :=
  if len <=? 1 then Abort
  else
    bind (rand_pol has ds) (fun p =>
      match isolate flog0 fuel p with
      | VFuel => Fuel
      | VUndef => Undef
      | VAbort => Abort
      | VDone _ ints =>
          match nth_error ints (pick mod length ints) with
          | None => Abort
          | Some d =>
              bind (from_interval d (zbits (fst d) + Z.max (snd d) 0 + 2)) (fun b => renf_init o debug fuel p 1 b prec)
          end
      end).

(** ** A concrete arb_root_ui for the balls of DyBall.v *)

(** The largest r + s with s < 2^k, bit by bit, whose n-th power is at most z. *)
Fixpoint iroot_bits (n : nat) (z : Z) (k : nat) (r : Z) : Z :=
  match k with
  | O => r
  | S k => let r' := r + 2 ^ Z.of_nat k in iroot_bits n z k (if r' ^ Z.of_nat n <=? z then r' else r)
  end.
Definition iroot (n : nat) (z : Z) : Z := iroot_bits n z (S (Z.to_nat (Z.log2 z) / n)) 0.

Definition dyroot (a : ball) (n : nat) (p : Z) : ball :=
  match a with
  | Top => Top
  | Fin m r =>
      let s := Z.of_nat n * p in
      let lo := iroot n (Z.max 0 (dfloor (d2exp (dsub m r) s))) in
      let hi := iroot n (Z.max 0 (dfloor (d2exp (dadd m r) s))) + 1 in
      Fin (lo + hi, - p - 1) (hi - lo, - p - 1)
  end.
