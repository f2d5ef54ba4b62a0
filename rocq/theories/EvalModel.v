(** Model of /repo/libeantic/src/fmpz_poly_extra/evaluate.c and
    /repo/libeantic/src/fmpq_poly_extra/evaluate.c on objects in memory: the
    argument may be the object that receives the result. *)
Require Import List ZArith Bool Arith.
From Verif Require Import Dyadic ArbModel.
Import ListNotations.
Open Scope Z_scope.

Section Eval.
(** The numbers, [arb_t] or [arf_t]; zero, multiplication, addition of an integer and
    division by one at the given precision. *)
Variable V : Type.
Variable zero : V.
Variable mul : V -> V -> V.
Variable addz divz : V -> Z -> V.

Definition put (m : nat -> V) (i : nat) (v : V) : nat -> V := fun j => if Nat.eqb j i then v else m j.

(** fmpz_poly_extra/evaluate.c:21-26 and 51-56: the coefficients from the leading one down. *)
Definition eval_step (res a : nat) (m : nat -> V) (c : Z) : nat -> V :=
  let m := put m res (mul (m res) (m a)) in put m res (addz (m res) c).
Definition eval_in (res a : nat) (p : list Z) (m : nat -> V) : nat -> V :=
  fold_left (eval_step res a) (rev p) (put m res zero).

(** fmpq_poly_extra/evaluate.c:20-21 and 44-45. *)
Definition eval_q_in (res a : nat) (p : list Z) (den : Z) (m : nat -> V) : nat -> V :=
  let m := eval_in res a p m in put m res (divz (m res) den).

(** Lines 29-45 and 59-75, and 24-40 and 48-64 of the other file: [f] is the function
    above; when the objects coincide it runs on the new object [tmp], which is swapped
    with the result. *)
Definition swap_in (m : nat -> V) (i j : nat) : nat -> V := let v := m i in let w := m j in put (put m i w) j v.
Definition aliased (f : nat -> nat -> (nat -> V) -> (nat -> V)) (tmp res a : nat) (m : nat -> V) : nat -> V :=
  if Nat.eqb a res then swap_in (f tmp a m) tmp res else f res a m.

Definition evaluate (tmp res a : nat) (p : list Z) : (nat -> V) -> (nat -> V) := aliased (fun res a => eval_in res a p) tmp res a.
Definition evaluate_q (tmp res a : nat) (p : list Z) (den : Z) : (nat -> V) -> (nat -> V) :=
  aliased (fun res a => eval_q_in res a p den) tmp res a.
End Eval.

(** Floating point numbers without infinities and NaN, of [prec] bits, rounded to nearest
    (the mode 4 is ARF_RND_NEAR); [div] is arf_div_fmpz.  FLINT wants at least two bits. *)
Definition arf_mul (prec : Z) (x y : dy) : dy := dround RNear prec (dmul x y).
Definition arf_addz (prec : Z) (x : dy) (c : Z) : dy := dround RNear prec (dadd x (dz c)).
Definition evaluate_arf (prec : Z) (tmp res a : nat) (p : list Z) (m : nat -> dy) : out (nat -> dy) :=
  if prec <? 2 then Undef else Val (evaluate dy (dz 0) (arf_mul prec) (arf_addz prec) tmp res a p m).
Definition evaluate_q_arf (div : dy -> Z -> Z -> dy) (prec : Z) (tmp res a : nat) (p : list Z) (den : Z) (m : nat -> dy) : out (nat -> dy) :=
  if prec <? 2 then Undef
  else Val (evaluate_q dy (dz 0) (arf_mul prec) (arf_addz prec) (fun x d => div x d prec) tmp res a p den m).

(** Balls. *)
Definition evaluate_arb (o : arbops) (prec : Z) (tmp res a : nat) (p : list Z) (m : nat -> ball) : out (nat -> ball) :=
  if prec <? 2 then Undef
  else Val (evaluate ball bzero (fun x y => o_mul o x y prec) (fun x c => o_add_z o x c prec) tmp res a p m).
Definition evaluate_q_arb (o : arbops) (prec : Z) (tmp res a : nat) (p : list Z) (den : Z) (m : nat -> ball) : out (nat -> ball) :=
  if prec <? 2 then Undef
  else Val (evaluate_q ball bzero (fun x y => o_mul o x y prec) (fun x c => o_add_z o x c prec) (fun x d => o_div_z o x d prec) tmp res a p den m).
