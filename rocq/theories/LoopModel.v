(** Model of /repo/libeantic/src/fmpz_poly_extra/{has_real_root,num_real_roots_0_1_sturm,
    evaluate,relative_condition_number_2exp}.c as they are written, with arrays, indices,
    words and, for evaluate.c, the places where the balls are.  The same functions on lists,
    with unbounded integers, are in ExtraModel.v and ArbModel.v. *)
Require Import List ZArith Bool.
From Verif Require Import RootModel ExtraModel Dyadic ArbModel ArrModel IdxModel.
Import ListNotations.
Open Scope Z_scope.

(** The value of an expression of type int. *)
Definition int (z : Z) : out Z := if (- 2 ^ 31 <=? z) && (z <? 2 ^ 31) then Val z else Undef.

(** * has_real_root.c *)
Section HasRoot.
Variable num : list Z -> Z.

(** Lines 36-45 and, with [alt], lines 50-60; [m] iterations to come. *)
Fixpoint changes_idx (alt : bool) (m i : nat) (p : list Z) (s n : Z) : out Z :=
  match m with
  | O => Val n
  | S m =>
      bind (rd p i) (fun a =>
      if a =? 0 then changes_idx alt m (S i) p s n
      else
        let t := if alt && Nat.odd i then - Z.sgn a else Z.sgn a in
        if t =? s then changes_idx alt m (S i) p s n
        else bind (slong (n + 1)) (changes_idx alt m (S i) p t))
  end.

(** Lines 16-64. *)
Definition has_idx (p : list Z) (len : nat) : out bool :=
  if Nat.eqb len 1 then Val false
  else if Nat.even len then Val true
  else
    bind (rd p 0) (fun a =>
    if a =? 0 then Val true
    else
      bind (rd p (len - 1)) (fun b =>
      if Z.sgn a * Z.sgn b <? 0 then Val true
      else
        bind (changes_idx false (len - 1) 1 p (Z.sgn a) 0) (fun n =>
        if n mod 2 =? 1 then Val true
        else
          bind (changes_idx true (len - 1) 1 p (Z.sgn a) 0) (fun n =>
          if n mod 2 =? 1 then Val true else Val (negb (num (firstn len p) =? 0)))))).
End HasRoot.

(** * num_real_roots_0_1_sturm.c *)
Section Sturm.
Variable prem : list Z -> list Z -> list Z * Z.

(** fmpz_divexact, line 78: the divisor is not 0 and divides. *)
Definition divexact (c : Z) (i : nat) (l : list Z) : out (list Z) :=
  bind (rd l i) (fun a => if (c =? 0) || negb (a mod c =? 0) then Undef else wr l i (a / c)).

(** Lines 44-80; the counter t is an int. *)
Fixpoint sturm_idx_loop (fuel : nat) (p0 p1 : list Z) (s0a s0b t : Z) : out Z :=
  match fuel with
  | O => Fuel
  | S f =>
      match p1 with
      | [] => Val t
      | _ =>
          bind (rd p1 0) (fun a =>
          let s := Z.sgn a in
          bind (if s0a =? 0 then bind (int (t + 1)) (fun t => Val (t, s))
                else if negb (s =? s0a) then bind (int (t + 1)) (fun t => Val (t, s)) else Val (t, s0a)) (fun '(t, s0a) =>
          let s := Z.sgn (at_one p1) in
          bind (if s0b =? 0 then Val (t, s)
                else if negb (s =? s0b) then bind (int (t - 1)) (fun t => Val (t, s)) else Val (t, s0b)) (fun '(t, s0b) =>
          let '(r, d) := prem p0 p1 in
          bind (if d mod 2 =? 0 then Val true else bind (rd p1 (length p1 - 1)) (fun b => Val (Z.sgn b =? 1))) (fun n =>
          let r := if n then map Z.opp r else r in
          let c := content r in
          bind (if c =? 1 then Val r else times (length r) 0 (divexact c) r) (fun r =>
          sturm_idx_loop f p1 r s0a s0b t)))))
      end
  end.

(** Lines 18-87. *)
Definition sturm_idx (fuel : nat) (p : list Z) : out Z :=
  match p with
  | [] => Abort
  | _ => bind (rd p 0) (fun a => sturm_idx_loop fuel p (normal (zderiv p)) (Z.sgn a) (Z.sgn (at_one p)) 0)
  end.
End Sturm.

(** * evaluate.c; without indices in EvalModel.v *)
Section Eval.
Variable o : arbops.

(** Lines 22-26: the ball at place [ri] is the result, the one at [ai] the argument; i + 1
    iterations to come. *)
Fixpoint eval_loop (i1 : nat) (p : list Z) (ri ai : nat) (prec : Z) (m : list ball) : out (list ball) :=
  match i1 with
  | O => Val m
  | S i =>
      bind (rd m ri) (fun x => bind (rd m ai) (fun a => bind (wr m ri (o_mul o x a prec)) (fun m =>
      bind (rd m ri) (fun x => bind (rd p i) (fun c => bind (wr m ri (o_add_z o x c prec)) (fun m =>
      eval_loop i p ri ai prec m))))))
  end.

(** Lines 17-27. *)
Definition eval_raw (p : list Z) (len : nat) (ri ai : nat) (prec : Z) (m : list ball) : out (list ball) :=
  bind (wr m ri bzero) (eval_loop len p ri ai prec).

(** Lines 29-45; the temporary ball is behind the others. *)
Definition eval_idx (p : list Z) (len : nat) (ri ai : nat) (prec : Z) (m : list ball) : out (list ball) :=
  if Nat.eqb ai ri then
    bind (eval_raw p len (length m) ai prec (m ++ [bzero])) (fun m' =>
    bind (swp (length m) ri m') (fun m' => Val (firstn (length m) m')))
  else eval_raw p len ri ai prec m.
End Eval.

(** * relative_condition_number_2exp.c *)

(** Lines 35-42; i + 1 iterations to come. *)
Fixpoint cond_loop (i1 : nat) (p : list Z) (abs : dy) (prec : Z) (res : dy) : out dy :=
  match i1 with
  | O => Val res
  | S i =>
      bind (rd p i) (fun c =>
      let res := dround RUp prec (dmul res abs) in
      cond_loop i p abs prec
        (if 0 <? c then dround RUp prec (dadd res (dz c))
         else if c <? 0 then dround RUp prec (dsub res (dz c)) else res))
  end.

(** Lines 16-55: what is written to [cond], [None] if nothing. *)
Definition cond_idx (p : list Z) (len : nat) (x : ball) (prec : Z) : out (option Z) :=
  match len with
  | O => Undef                                      (* p[-1], line 28 *)
  | S d =>
      bind (rd p d) (fun c =>
      bind (match abs_ubound x prec with
            | Some a =>
                bind (cond_loop d p a prec (if 0 <? c then dround RUp prec (dz c) else dneg (dround RDown prec (dz c)))) (fun res => Val (dexp res))
            | None => Val 0
            end) (fun e => Val (if (word_min <=? e) && (e <=? word_max) then Some e else None)))
  end.
