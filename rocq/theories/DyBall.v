(** A concrete implementation of the ball operations, with midpoints rounded to
    the working precision and radii to 30 bits as in arb.  It shows that the
    contracts of ArbSpec.v can be met, and it makes the model executable. *)
Require Import List ZArith Bool.
From Verif Require Import Dyadic ArbModel.
Open Scope Z_scope.

Definition bround (p : Z) (m r : dy) : ball :=
  let m' := dround RDown p m in
  Fin m' (dround RUp 30 (dadd r (dabs (dsub m m')))).

(** Quotient of two dyadic numbers rounded down at about [p] bits. *)
Definition ddiv (p : Z) (a b : dy) : dy :=
  let k := Z.max 0 (p + zbits (fst b) - zbits (fst a)) in
  (fst a * 2 ^ k / fst b, snd a - snd b - k).

(** Bound for the error of [ddiv]. *)
Definition ddiv_err (p : Z) (a b : dy) : dy :=
  if fst a =? 0 then dz 0 else (1, snd (ddiv p a b)).

Definition lift1 (f : dy -> dy -> ball) (a : ball) : ball :=
  match a with Fin m r => f m r | Top => Top end.
Definition lift2 (f : dy -> dy -> dy -> dy -> ball) (a b : ball) : ball :=
  match a, b with Fin m r, Fin n s => f m r n s | _, _ => Top end.

Definition y_add (a b : ball) (p : Z) : ball :=
  lift2 (fun m r n s => bround p (dadd m n) (dadd r s)) a b.
Definition y_sub (a b : ball) (p : Z) : ball := y_add a (bneg b) p.
Definition y_mul (a b : ball) (p : Z) : ball :=
  lift2 (fun m r n s => bround p (dmul m n)
    (dadd (dmul r s) (dadd (dmul (dabs m) s) (dmul (dabs n) r)))) a b.
Definition y_div (a b : ball) (p : Z) : ball :=
  lift2 (fun m r n s =>
    if dleb (dabs n) s then Top
    else
      let num := dadd (dmul r (dabs n)) (dmul (dabs m) s) in
      let den := dmul (dsub (dabs n) s) (dabs n) in
      bround p (ddiv p m n)
        (dadd (dadd (ddiv 30 num den) (ddiv_err 30 num den)) (ddiv_err p m n))) a b.
Definition y_interval (l r : dy) (p : Z) : ball :=
  bround p (d2exp (dadd l r) (-1)) (d2exp (dsub r l) (-1)).
Definition dmax (a b : dy) : dy := if dleb a b then b else a.
Definition dmin (a b : dy) : dy := if dleb a b then a else b.
Definition y_inter (a b : ball) (p : Z) : ball :=
  match a, b with
  | Fin m r, Fin n s => y_interval (dmax (dsub m r) (dsub n s)) (dmin (dadd m r) (dadd n s)) p
  | Fin m r, Top => a
  | Top, _ => b
  end.
Fixpoint y_pow (a : ball) (n : nat) (p : Z) : ball :=
  match n with O => bint 1 | S n' => y_mul a (y_pow a n' p) p end.

Definition dyops : arbops := {|
  o_add := y_add;
  o_sub := y_sub;
  o_mul := y_mul;
  o_div := y_div;
  o_add_z := fun a n p => y_add a (bint n) p;
  o_sub_z := fun a n p => y_add a (bint (- n)) p;
  o_mul_z := fun a n p => y_mul a (bint n) p;
  o_div_z := fun a n p => y_div a (bint n) p;
  o_inv := fun a p => y_div (bint 1) a p;
  o_pow := fun a n p => y_pow a (Z.to_nat n) p;
  o_set_q := fun n d p => y_div (bint n) (bint d) p;
  o_round := fun a p => lift1 (bround p) a;
  o_set_interval := y_interval;
  o_inter := y_inter
|}.
