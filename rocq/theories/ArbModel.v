(** Model of the ball arithmetic part of e-antic:
    /repo/libeantic/src/fmpz_poly_extra/{evaluate,relative_condition_number_2exp,
    newton_step_arb,bisection_step_arb}.c,
    /repo/libeantic/src/fmpq_poly_extra/{evaluate,check_unique_real_root}.c and
    /repo/libeantic/src/renf/{init,init_set,refine_embedding,equal,set_immutable}.c.

    Balls: FLINT's [arb_t] with finite midpoint and radius is [Fin]; all other
    values (NaN or infinite midpoint, infinite radius) are [Top] and contain
    every real number.  Exponents are unbounded.  Predicates on balls and the
    roundings of [arf_t] numbers are computed exactly as documented by FLINT;
    the operations returning balls are a parameter [arbops] for which only the
    documented enclosure property (ArbSpec.v) is assumed. *)
Require Import List ZArith Bool.
From Verif Require Import RootModel ExtraModel Dyadic.
Import ListNotations.
Open Scope Z_scope.

(** Result of a C function: a value, undefined behaviour (violated precondition
    of FLINT, signed overflow), an abort, or an exhausted loop bound. *)
Inductive out (A : Type) := Val (a : A) | Undef | Abort | Fuel.
Arguments Val {A} a.
Arguments Undef {A}.
Arguments Abort {A}.
Arguments Fuel {A}.

Definition bind {A B} (x : out A) (f : A -> out B) : out B :=
  match x with Val a => f a | Undef => Undef | Abort => Abort | Fuel => Fuel end.

Definition WORD_MAX : Z := 2 ^ 63 - 1.

(** * Balls *)
Inductive ball := Fin (m r : dy) | Top.

Definition bexact (d : dy) : ball := Fin d (dz 0).       (* arb_set_arf *)
Definition bint (n : Z) : ball := bexact (dz n).         (* arb_set_fmpz *)
Definition bzero : ball := bint 0.                       (* arb_zero *)
Definition bneg (b : ball) : ball :=                     (* arb_neg *)
  match b with Fin m r => Fin (dneg m) r | Top => Top end.
Definition bmid (b : ball) : ball :=                     (* midpoint as a ball *)
  match b with Fin m _ => bexact m | Top => Top end.
Definition msgn (b : ball) : Z :=                        (* arf_sgn (arb_midref b) *)
  match b with Fin m _ => dsgn m | Top => 0 end.
Definition contains_zero (b : ball) : bool :=            (* arb_contains_zero *)
  match b with Fin m r => dleb (dabs m) r | Top => true end.
Definition is_finite (b : ball) : bool :=                (* arb_is_finite *)
  match b with Fin _ _ => true | Top => false end.
Definition bcontains (a b : ball) : bool :=              (* arb_contains (a, b) *)
  match a, b with
  | Top, _ => true
  | Fin _ _, Top => false
  | Fin m r, Fin n s => dleb (dadd (dabs (dsub m n)) s) r
  end.
Definition bequal (a b : ball) : bool :=                 (* arb_equal *)
  match a, b with
  | Fin m r, Fin n s => deqb m n && deqb r s
  | Top, Top => true
  | _, _ => false
  end.
Definition boverlaps (a b : ball) : bool :=              (* arb_overlaps *)
  match a, b with
  | Fin m r, Fin n s => dleb (dabs (dsub m n)) (dadd r s)
  | _, _ => true
  end.
Definition blt (a b : ball) : bool :=                    (* arb_lt *)
  match a, b with
  | Fin m r, Fin n s => dltb (dadd m r) (dsub n s)
  | _, _ => false
  end.
(** arb_contains_fmpq (b, n/d), 0 < d. *)
Definition bcontains_q (b : ball) (n d : Z) : bool :=
  match b with
  | Fin m r => dleb (dabs (dsub (dmul m (dz d)) (dz n))) (dmul r (dz d))
  | Top => true
  end.

(** arb_get_interval_arf: endpoints rounded outwards to [prec] bits; [None]: infinite. *)
Definition interval (b : ball) (prec : Z) : option (dy * dy) :=
  match b with
  | Fin m r => Some (dround RFloor prec (dsub m r), dround RCeil prec (dadd m r))
  | Top => None
  end.

(** arb_rel_error_bits and arb_rel_accuracy_bits. *)
Definition rel_error (b : ball) : Z :=
  match b with
  | Fin m r =>
      if fst r =? 0 then - WORD_MAX
      else if fst m =? 0 then WORD_MAX
      else dexp r + 1 - dexp m
  | Top => WORD_MAX
  end.
Definition rel_accuracy (b : ball) : Z := - rel_error b.

(** * Operations of FLINT returning balls (external); the last argument is the
      working precision. *)
Record arbops := {
  o_add : ball -> ball -> Z -> ball;            (* arb_add *)
  o_sub : ball -> ball -> Z -> ball;            (* arb_sub *)
  o_mul : ball -> ball -> Z -> ball;            (* arb_mul *)
  o_div : ball -> ball -> Z -> ball;            (* arb_div *)
  o_add_z : ball -> Z -> Z -> ball;             (* arb_add_fmpz, _si, _ui *)
  o_sub_z : ball -> Z -> Z -> ball;             (* arb_sub_fmpz, _si, _ui *)
  o_mul_z : ball -> Z -> Z -> ball;             (* arb_mul_fmpz, _si, _ui *)
  o_div_z : ball -> Z -> Z -> ball;             (* arb_div_fmpz, _si, _ui *)
  o_inv : ball -> Z -> ball;                    (* arb_inv *)
  o_pow : ball -> Z -> Z -> ball;               (* arb_pow_ui *)
  o_set_q : Z -> Z -> Z -> ball;                (* arb_set_fmpq, arb_fmpz_div_fmpz *)
  o_round : ball -> Z -> ball;                  (* arb_set_round *)
  o_set_interval : dy -> dy -> Z -> ball;       (* arb_set_interval_arf *)
  o_inter : ball -> ball -> Z -> ball           (* arb_intersection *)
}.

Section Ops.
Variable o : arbops.

(** fmpz_poly_extra/evaluate.c:17-27, Horner's scheme from the leading
    coefficient; the aliasing wrapper of lines 29-45 changes nothing. *)
Fixpoint eval_arb (p : list Z) (a : ball) (prec : Z) : ball :=
  match p with
  | [] => bzero
  | c :: q => o_add_z o (o_mul o (eval_arb q a prec) a prec) c prec
  end.

(** fmpq_poly_extra/evaluate.c:42-46. *)
Definition eval_arb_q (p : list Z) (den : Z) (a : ball) (prec : Z) : ball :=
  o_div_z o (eval_arb p a prec) den prec.

(** fmpz_poly_extra/newton_step_arb.c:19-52.  [None] when the derivative may
    vanish and no ball is computed; FLINT wants at least two bits. *)
Definition newton_step (pol der : list Z) (a : ball) (prec : Z) : out (bool * option ball) :=
  if prec <=? 0 then Abort
  else if prec <? 2 then Undef
  else
    let d := eval_arb der a prec in
    if contains_zero d then Val (false, None)
    else
      let m := bmid a in
      let y := eval_arb pol m prec in
      let res := bneg (o_sub o (o_div o y d prec) m prec) in
      Val (bcontains a res && negb (bequal a res), Some res).

(** fmpz_poly_extra/bisection_step_arb.c:16-53. *)
Definition bisection_arf (l r : dy) (pol : list Z) (sl : Z) (prec : Z) : dy * dy :=
  let m := d2exp (dround RNear prec (dadd l r)) (-1) in
  if dleb m l || dleb r m then (l, r)
  else
    let c := eval_arb pol (bexact m) prec in
    if contains_zero c then (l, r)
    else if msgn c =? sl then (m, r) else (l, m).

(** fmpz_poly_extra/bisection_step_arb.c:55-108.  The return value of
    arb_intersection is ignored there.  An infinite endpoint makes the
    evaluation of line 72 contain zero. *)
Definition bisection_step (pol : list Z) (a : ball) (prec : Z) : out (bool * option ball) :=
  if prec <? 2 then Undef
  else
    match interval a prec with
    | None => Val (false, None)
    | Some (l, r) =>
        let cl := eval_arb pol (bexact l) prec in
        if contains_zero cl then Val (false, None)
        else
          let cr := eval_arb pol (bexact r) prec in
          if contains_zero cr then Val (false, None)
          else
            let '(l', r') := bisection_arf l r pol (msgn cl) prec in
            Val (true, Some (o_inter o (o_set_interval o l' r' prec) a prec))
    end.

(** ** fmpq_poly_extra/check_unique_real_root.c *)

(** Lines 21-27. *)
Definition sgn2 (b : ball) : Z := if contains_zero b then 0 else msgn b.

(** arf_get_fmpq. *)
Definition dy_fmpq (d : dy) : fmpq :=
  if 0 <=? snd d then (fst d * 2 ^ snd d, 1)
  else
    let g := Z.gcd (fst d) (2 ^ (- snd d)) in
    (fst d / g, 2 ^ (- snd d) / g).

(** Lines 29-114; [pol] is the numerator of the polynomial.  An infinite ball
    gives sign 0 at the endpoints. *)
Definition check_unique (fuel : nat) (pol : list Z) (a : ball) (prec : Z) : out bool :=
  match pol with
  | [] | [_] => Val false
  | [c0; c1] => Val (bcontains_q a (- c0 * Z.sgn c1) (Z.abs c1))
  | _ =>
      if prec <? 2 then Undef
      else
        match interval a prec with
        | None => Val false
        | Some (l, r) =>
            let ls := sgn2 (eval_arb pol (bexact l) (2 * prec)) in
            let rs := sgn2 (eval_arb pol (bexact r) (2 * prec)) in
            if ls * rs =? -1 then
              if negb (contains_zero (eval_arb (zderiv pol) a prec)) then Val true
              else
                match num_real_roots_0_1 fuel (scale_0_1 pol (dy_fmpq l) (dy_fmpq r)) with
                | Some n => Val (Nat.eqb n 1)
                | None => Fuel
                end
            else Val false
        end
  end.

(** ** fmpz_poly_extra/relative_condition_number_2exp.c:16-55 *)

(** arb_get_abs_ubound_arf. *)
Definition abs_ubound (b : ball) (prec : Z) : option dy :=
  match b with
  | Fin m r => Some (dround RUp prec (dadd (dabs m) r))
  | Top => None
  end.

(** Lines 29-43, Horner's scheme on absolute values. *)
Fixpoint cond_sum (p : list Z) (abs : dy) (prec : Z) : dy :=
  match p with
  | [] => dz 0
  | c :: q =>
      match q with
      | [] => if 0 <? c then dround RUp prec (dz c) else dneg (dround RDown prec (dz c))
      | _ =>
          let res := dround RUp prec (dmul (cond_sum q abs prec) abs) in
          if 0 <? c then dround RUp prec (dadd res (dz c))
          else if c <? 0 then dround RUp prec (dsub res (dz c))
          else res
      end
  end.

(** Lines 44-54: the exponent; 0 when the sum is 0, infinite or NaN. *)
Definition cond_2exp (p : list Z) (x : ball) (prec : Z) : Z :=
  match abs_ubound x prec with
  | Some a => dexp (cond_sum p a prec)
  | None => 0
  end.

(** * Fields *)

(** [renf_t]: the defining polynomial (numerator, constant term first, and
    denominator), the enclosure of the chosen root, the default precision and
    the immutability mark.  The derivative kept in the C structure is computed
    from the polynomial (init.c:32-35). *)
Record renf := { f_pol : list Z; f_den : Z; f_emb : ball; f_prec : Z; f_imm : Z }.

Definition with_emb (nf : renf) (e : ball) : renf :=
  {| f_pol := f_pol nf; f_den := f_den nf; f_emb := e; f_prec := f_prec nf; f_imm := f_imm nf |}.
Definition with_imm (nf : renf) (i : Z) : renf :=
  {| f_pol := f_pol nf; f_den := f_den nf; f_emb := f_emb nf; f_prec := f_prec nf; f_imm := i |}.

(** set_immutable.c:16-21: new field and the old mark. *)
Definition set_immutable (nf : renf) (i : Z) : renf * Z := (with_imm nf i, f_imm nf).

(** refine_embedding.c:34 and 59; the doubled accuracy is a signed word. *)
Definition comp_prec (nf : renf) (cprec : Z) : out Z :=
  let acc := 2 * Z.abs (rel_accuracy (f_emb nf)) in
  if WORD_MAX <? acc then Undef
  else Val (acc + cond_2exp (f_pol nf) (f_emb nf) cprec * Z.of_nat (length (f_pol nf))).

(** refine_embedding.c:35-60. *)
Fixpoint refine_loop (fuel : nat) (nf : renf) (prec cp : Z) : out renf :=
  match fuel with
  | O => Fuel
  | S fuel' =>
      if rel_accuracy (f_emb nf) <? prec then
        let next (t : ball) :=
          let nf' := with_emb nf t in
          bind (comp_prec nf' 32) (fun cp' => refine_loop fuel' nf' prec cp') in
        bind (newton_step (f_pol nf) (zderiv (f_pol nf)) (f_emb nf) cp) (fun nw =>
          match nw with
          | (true, Some t) => next t
          | _ =>
              bind (bisection_step (f_pol nf) (f_emb nf) cp) (fun bs =>
                match bs with
                | (true, Some t) => next t
                | _ => refine_loop fuel' nf prec (2 * cp)
                end)
          end)
      else Val nf
  end.

(** refine_embedding.c:20-64; [debug]: compiled with assertions.  With NDEBUG
    the two calls of renf_set_immutable vanish with the assertions. *)
Definition refine (debug : bool) (fuel : nat) (nf : renf) (prec : Z) : out renf :=
  let go (nf : renf) :=
    bind (comp_prec nf (Z.max (f_prec nf) 64)) (fun cp => refine_loop fuel nf prec cp) in
  if debug then
    let '(nf1, old) := set_immutable nf 1 in
    if old =? 0 then
      bind (go nf1) (fun nf2 =>
        let '(nf3, old2) := set_immutable nf2 0 in
        if old2 =? 0 then Abort else Val nf3)
    else Abort
  else go nf.

(** init.c:19-41. *)
Definition renf_init (debug : bool) (fuel : nat) (pol : list Z) (den : Z) (emb : ball) (prec : Z) : out renf :=
  bind (check_unique fuel pol emb prec) (fun ok =>
    if ok then
      let nf := {| f_pol := pol; f_den := den; f_emb := emb; f_prec := prec; f_imm := 0 |} in
      if Nat.eqb (length pol) 2 then Val nf
      else refine debug fuel nf prec
    else Abort).

(** init_set.c:16-28. *)
Definition renf_init_set (src : renf) : renf :=
  {| f_pol := f_pol src; f_den := f_den src; f_emb := f_emb src; f_prec := f_prec src; f_imm := 0 |}.

Fixpoint zlist_eqb (p q : list Z) : bool :=
  match p, q with
  | [], [] => true
  | a :: p', b :: q' => (a =? b) && zlist_eqb p' q'
  | _, _ => false
  end.

(** equal.c:16-25. *)
Definition renf_equal (nf1 nf2 : renf) : bool :=
  zlist_eqb (f_pol nf1) (f_pol nf2) && (f_den nf1 =? f_den nf2) &&
  boverlaps (f_emb nf1) (f_emb nf2).
End Ops.
