(** A concrete exact arithmetic in the field of a polynomial: polynomials over
    the integers with a denominator, reduced by pseudo-division.  It shows that
    the contract of ElemSpec.v can be met in every field, and it makes the model
    executable. *)
Require Import List ZArith Bool.
From Verif Require Import RootModel ExtraModel ElemModel.
Import ListNotations.
Open Scope Z_scope.

(** u p - v q. *)
Fixpoint comb (u v : Z) (p q : list Z) : list Z :=
  match p, q with
  | [], _ => map (Z.mul (- v)) q
  | _, [] => map (Z.mul u) p
  | a :: p', b :: q' => (u * a - v * b) :: comb u v p' q'
  end.

Definition pshift (k : nat) (p : list Z) : list Z := repeat 0 k ++ p.

Fixpoint pprod (p q : list Z) : list Z :=
  match p with
  | [] => []
  | a :: p' => comb a (-1) q (0 :: pprod p' q)
  end.

(** c p = q a + r. *)
Fixpoint pdiv (fuel : nat) (p a : list Z) (c : Z) (q : list Z) : Z * list Z * list Z :=
  match fuel with
  | O => (c, q, p)
  | S f =>
      if Nat.ltb (length p) (length a) then (c, q, p)
      else
        let k := (length p - length a)%nat in
        let b := last p 0 in
        let l := last a 0 in
        pdiv f (removelast (comb l b p (pshift k a))) a (l * c) (comb l (- b) q (pshift k [1]))
  end.

Definition lowest (num : list Z) (den : Z) : elem :=
  let num := normal num in
  let g := Z.gcd den (content num) in
  let s := Z.sgn den in
  {| e_num := map (fun c => s * (c / g)) num; e_den := s * (den / g) |}.

Section Field.
Variable pol : list Z.

Definition norm (num : list Z) (den : Z) : elem :=
  let '(c, _, r) := pdiv (length num) num pol 1 [] in lowest r (den * c).

(** Inverse of the polynomial [a] as numerator and denominator:
    c pol = q a + r gives 1/a = - q/r. *)
Fixpoint pinv (fuel : nat) (a : list Z) : list Z * Z :=
  match fuel with
  | O => ([], 1)
  | S f =>
      match a with
      | [] => ([], 1)
      | [c] => ([1], c)
      | _ =>
          let '(_, q, r) := pdiv (length pol) pol a 1 [] in
          let '(u, d) := pinv f (normal r) in
          (map Z.opp (pprod q u), d)
      end
  end.

Definition c_mul (a b : elem) : elem := norm (pprod (e_num a) (e_num b)) (e_den a * e_den b).
Definition c_inv (a : elem) : elem :=
  let '(u, d) := pinv (length pol) (e_num a) in norm (map (Z.mul (e_den a)) u) d.
Fixpoint c_pow (a : elem) (k : nat) : elem :=
  match k with O => lowest [1] 1 | S k' => c_mul a (c_pow a k') end.

Definition nfc : nfops := {|
  n_add := fun a b => norm (comb (e_den b) (- e_den a) (e_num a) (e_num b)) (e_den a * e_den b);
  n_sub := fun a b => norm (comb (e_den b) (e_den a) (e_num a) (e_num b)) (e_den a * e_den b);
  n_mul := c_mul;
  n_div := fun a b => c_mul a (c_inv b);
  n_neg := fun a => norm (map (Z.mul (-1)) (e_num a)) (e_den a);
  n_inv := c_inv;
  n_pow := fun a k => c_pow a (Z.to_nat k);
  n_add_q := fun a u d => norm (comb d (- e_den a) (e_num a) [u]) (e_den a * d);
  n_sub_q := fun a u d => norm (comb d (e_den a) (e_num a) [u]) (e_den a * d);
  n_q_sub := fun u d a => norm (comb (e_den a) d [u] (e_num a)) (e_den a * d);
  n_mul_q := fun a u d => norm (map (Z.mul u) (e_num a)) (e_den a * d);
  n_div_q := fun a u d => norm (map (Z.mul d) (e_num a)) (e_den a * u);
  n_set_q := fun u d => norm [u] d;
  n_set_poly := fun p d => norm p d
|}.
End Field.
