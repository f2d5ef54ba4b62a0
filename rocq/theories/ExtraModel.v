(** Model of the remaining integer polynomial routines of
    /repo/libeantic/src/fmpz_poly_extra: has_real_root, num_real_roots_0_1_sturm,
    scale_0_1_fmpq, squarefree_part.  Polynomials as in RootModel.v. *)
Require Import List ZArith Bool.
From Verif Require Import RootModel.
Import ListNotations.
Open Scope Z_scope.

(** * has_real_root.c *)
Section HasRoot.
(** FLINT [_fmpz_poly_num_real_roots] (external). *)
Variable num : list Z -> Z.

(** has_real_root.c:34-45: number of sign changes met, [s] the last sign. *)
Fixpoint sign_changes (s : Z) (n : Z) (l : list Z) : Z :=
  match l with
  | [] => n
  | a :: l' =>
      if a =? 0 then sign_changes s n l'
      else if Z.sgn a =? s then sign_changes s n l'
      else sign_changes (Z.sgn a) (n + 1) l'
  end.

(** has_real_root.c:48-60; [neg] is [i % 2]. *)
Fixpoint sign_changes_alt (neg : bool) (s : Z) (n : Z) (l : list Z) : Z :=
  match l with
  | [] => n
  | a :: l' =>
      if a =? 0 then sign_changes_alt (negb neg) s n l'
      else
        let t := if neg then - Z.sgn a else Z.sgn a in
        if t =? s then sign_changes_alt (negb neg) s n l'
        else sign_changes_alt (negb neg) t (n + 1) l'
  end.

(** has_real_root.c:16-70. *)
Definition has_real_root (p : list Z) : bool :=
  if Nat.eqb (length p) 1 then false
  else if Nat.even (length p) then true
  else if (hd 0 p =? 0) || (Z.sgn (hd 0 p) * Z.sgn (last p 0) <? 0) then true
  else if sign_changes (Z.sgn (hd 0 p)) 0 (tl p) mod 2 =? 1 then true
  else if sign_changes_alt true (Z.sgn (hd 0 p)) 0 (tl p) mod 2 =? 1 then true
  else negb (num p =? 0).
End HasRoot.

(** * Pieces shared by the routines below *)

(** FLINT [fmpz_poly] values are normalised: no leading zero. *)
Fixpoint normal (p : list Z) : list Z :=
  match p with
  | [] => []
  | a :: q => match normal q with
              | [] => if a =? 0 then [] else [a]
              | r => a :: r
              end
  end.

(** FLINT [fmpz_poly_derivative]. *)
Fixpoint zderiv_go (n : Z) (p : list Z) : list Z :=
  match p with [] => [] | a :: q => n * a :: zderiv_go (n + 1) q end.
Definition zderiv (p : list Z) : list Z := zderiv_go 1 (tl p).

(** FLINT [_fmpz_vec_sum], evaluate_at_one.c:18-21. *)
Definition at_one (p : list Z) : Z := fold_right Z.add 0 p.

(** FLINT [fmpz_poly_content]: nonnegative gcd of the coefficients. *)
Definition content (p : list Z) : Z := fold_right Z.gcd 0 p.
Definition div_content (c : Z) (p : list Z) : list Z := map (fun a => a / c) p.

(** FLINT [_fmpz_poly_primitive_part]: divide by the content, leading
    coefficient made nonnegative (content assumed nonzero). *)
Definition primitive_part (p : list Z) : list Z :=
  let c := if last p 0 <? 0 then - content p else content p in
  map (fun a => a / c) p.

(** * num_real_roots_0_1_sturm.c *)
Section Sturm.
(** FLINT [fmpz_poly_pseudo_rem (R, &d, A, B)] (external): remainder and d. *)
Variable prem : list Z -> list Z -> list Z * Z.

Inductive sres := SDone (t : Z) | SAbort | SFuel.

(** num_real_roots_0_1_sturm.c:44-80, with fuel. *)
Fixpoint sturm_loop (fuel : nat) (p0 p1 : list Z) (s0a s0b t : Z) : sres :=
  match fuel with
  | O => SFuel
  | S f =>
      match p1 with
      | [] => SDone t                                            (* line 44 *)
      | _ =>
          let s := Z.sgn (hd 0 p1) in                            (* 46-57 *)
          let '(t, s0a) :=
            if s0a =? 0 then (t + 1, s)
            else if negb (s =? s0a) then (t + 1, s) else (t, s0a) in
          let s := Z.sgn (at_one p1) in                          (* 59-68 *)
          let '(t, s0b) :=
            if s0b =? 0 then (t, s)
            else if negb (s =? s0b) then (t - 1, s) else (t, s0b) in
          let '(r, d) := prem p0 p1 in                           (* 70-71 *)
          let r := if (d mod 2 =? 0) || (Z.sgn (last p1 0) =? 1)
                   then map Z.opp r else r in                    (* 72-73 *)
          let c := content r in                                  (* 74-79 *)
          let r := if c =? 1 then r else div_content c r in
          sturm_loop f p1 r s0a s0b t
      end
  end.

(** num_real_roots_0_1_sturm.c:18-87. *)
Definition num_real_roots_0_1_sturm (fuel : nat) (p : list Z) : sres :=
  match p with
  | [] => SAbort
  | _ => sturm_loop fuel p (normal (zderiv p)) (Z.sgn (hd 0 p)) (Z.sgn (at_one p)) 0
  end.
End Sturm.

(** * scale_0_1_fmpq.c *)

(** A rational [fmpq]: numerator and denominator (positive). *)
Notation fmpq := (Z * Z)%type.

(** scale_0_1_fmpq.c:38-43: coefficient i is multiplied by q^(len-1-i). *)
Definition scale_by_den (q : Z) (p : list Z) : list Z := rev (zpows q 1 (rev p)).

(** scale_0_1_fmpq.c:16-60. *)
Definition scale_0_1 (p : list Z) (a b : fmpq) : list Z :=
  if Nat.leb (length p) 1 then p
  else
    let q := Z.lcm (snd a) (snd b) in
    let g := Z.gcd (snd a) (snd b) in
    let p1 := fst a * snd b / g in
    let c := fst b * snd a / g in
    let t := c - p1 in
    primitive_part (zpows t 1 (tshift p1 (scale_by_den q p))).

(** * squarefree_part.c *)
Section Squarefree.
(** FLINT [fmpz_poly_gcd] and [fmpz_poly_div] (external). *)
Variable pgcd pdiv : list Z -> list Z -> list Z.

(** squarefree_part.c:16-44. *)
Definition squarefree_part (p : list Z) : list Z :=
  match p with
  | [] => []
  | [_] => [1]
  | _ =>
      let r := pdiv p (pgcd p (normal (zderiv p))) in
      if last r 0 <? 0 then map Z.opp r else r
  end.
End Squarefree.
