(** Model of the integer polynomial routines of
    /repo/libeantic/src/fmpz_poly_extra (root counting and isolation).

    Polynomials are lists of integer coefficients, constant term first; the C
    pair [(fmpz * p, slong len)] is the list [p] with [len = length p].
    General simplification: lengths, counters and exponents ([slong]) are
    unbounded ([nat]/[Z]); FLINT integers ([fmpz]) are [Z]; allocation always
    succeeds. *)
Require Import List ZArith Bool.
Import ListNotations.
Open Scope Z_scope.

(** * FLINT vector primitives used by the code (external, documented behaviour) *)

(** [prev + (x + c) * r]; used by the Taylor shift. *)
Fixpoint zlin_go (c prev : Z) (r : list Z) : list Z :=
  match r with
  | [] => [prev]
  | b :: l => (prev + c * b) :: zlin_go c b l
  end.

(** FLINT [_fmpz_poly_taylor_shift (p, c, len)]: p(x) becomes p(x + c), in place
    (external; documented effect, by Horner's scheme). *)
Fixpoint tshift (c : Z) (p : list Z) : list Z :=
  match p with
  | [] => []
  | a :: q => zlin_go c a (tshift c q)
  end.

(** Multiply the successive coefficients by acc, acc*b, acc*b^2, ... *)
Fixpoint zpows (b acc : Z) (p : list Z) : list Z :=
  match p with
  | [] => []
  | a :: q => a * acc :: zpows b (acc * b) q
  end.

(** 2-adic valuation; FLINT [fmpz_val2] (0 for 0). *)
Fixpoint pos_val2 (p : positive) : nat :=
  match p with xO q => S (pos_val2 q) | _ => O end.
Definition val2 (z : Z) : nat :=
  match z with Z0 => O | Zpos p => pos_val2 p | Zneg p => pos_val2 p end.

(** Smallest valuation among the nonzero entries. *)
Fixpoint min_val2 (p : list Z) : option nat :=
  match p with
  | [] => None
  | a :: q =>
      if a =? 0 then min_val2 q
      else match min_val2 q with
           | None => Some (val2 a)
           | Some v => Some (Nat.min (val2 a) v)
           end
  end.
Definition strip2 (p : list Z) : list Z :=
  match min_val2 p with
  | None => p
  | Some v => map (fun a => a / 2 ^ Z.of_nat v) p
  end.

(** FLINT [_fmpz_poly_scale_2exp (p, len, k)]: p(2^k x), multiplied by a power of
    two to stay integral and divided by the 2-part of the content (external;
    documented effect). *)
Definition scale2 (k : Z) (p : list Z) : list Z :=
  strip2 (if 0 <=? k then zpows (2 ^ k) 1 p
          else rev (zpows (2 ^ (- k)) 1 (rev p))).

(** * descartes_bound_0_1.c *)

(** Outcome of [_fmpz_poly_descartes_bound_0_1]: a count, WORD_MAX, or an
    out-of-bounds read (len = 0). WORD_MAX is a separate constructor, no
    polynomial in memory has that many sign changes. *)
Inductive dres := DCount (v : nat) | DTooMany | DUndef.

(** Every entry has sign [t] or is zero; descartes_bound_0_1.c:34-35 and 63-64. *)
Definition same_or_zero (t : Z) (l : list Z) : bool :=
  forallb (fun a => (Z.sgn a =? t) || (Z.sgn a =? 0)) l.

(** descartes_bound_0_1.c:54-66, entries given from the top index downwards:
    [t] starts as the current sign and is replaced by signs of entries as long
    as it is 0; afterwards all the entries must have sign [t] or 0. *)
Fixpoint tail_same (t : Z) (l : list Z) : bool :=
  match l with
  | [] => true
  | a :: l' => if t =? 0 then tail_same (Z.sgn a) l' else same_or_zero t l
  end.

(** Prefix sums, the in-place additions of descartes_bound_0_1.c:42-47 and 73-74. *)
Fixpoint psums_go (acc : Z) (l : list Z) : list Z :=
  match l with
  | [] => []
  | a :: l' => (acc + a) :: psums_go (acc + a) l'
  end.
Definition psums (l : list Z) : list Z := psums_go 0 l.

(** descartes_bound_0_1.c:52-101. [n] is the number of remaining iterations of
    the [i] loop; [act] the live part q[0..deg-i] of the array (entries above
    are never read again); [s], [V], [bound] as in the code. *)
Fixpoint desc_loop (n : nat) (act : list Z) (s : Z) (V : nat) (bound : Z) : dres :=
  match n with
  | O =>
      (* lines 90-101 *)
      if s =? - Z.sgn (hd 0 act) then
        if Z.of_nat V =? bound then DTooMany else DCount (S V)
      else DCount V
  | S n' =>
      if tail_same s (rev act) then DCount V        (* lines 54-71 *)
      else
        let act' := psums act in                    (* lines 73-74 *)
        let x := Z.sgn (last act' 0) in
        if s =? 0 then desc_loop n' (removelast act') x V bound   (* 76-77 *)
        else if s =? - x then                                     (* 78-87 *)
          if Z.of_nat V =? bound then DTooMany
          else desc_loop n' (removelast act') (- s) (S V) bound
        else desc_loop n' (removelast act') s V bound
  end.

(** descartes_bound_0_1.c:23-102. *)
Definition descartes01 (p : list Z) (bound : Z) : dres :=
  match p with
  | [] => DUndef                                    (* p[-1] is read, line 32 *)
  | _ =>
      if same_or_zero (Z.sgn (last p 0)) p then DCount 0    (* lines 31-39 *)
      else
        let q := psums p in                                 (* lines 41-47 *)
        desc_loop (length p - 2) (removelast q) (Z.sgn (last q 0)) 0 bound
  end.

(** * isolate_real_roots.c *)

(** A pair [(c, e)] stands for the dyadic number c * 2^e (exact roots: the C
    code stores the canonical fraction of the same value) or for the open
    interval (c * 2^e, (c + 1) * 2^e). *)
Notation dyadic := (Z * Z)%type.

Inductive vres :=
| VDone (exact ints : list dyadic)
| VUndef        (* out-of-bounds read *)
| VAbort        (* abort() *)
| VFuel.        (* fuel exhausted: the loop is still running *)

(** isolate_real_roots.c:53-66 (line numbers of the file itself): strip zero low
    coefficients, recording the exact root c / 2^k each time. *)
Fixpoint vca_strip (c k : Z) (p : list Z) (ex : list dyadic) : list Z * list dyadic :=
  match p with
  | [] => ([], ex)
  | a :: q => if a =? 0 then vca_strip c k q (ex ++ [(c, - k)]) else (p, ex)
  end.

(** isolate_real_roots.c:50-118, the [while (1)] loop with fuel. *)
Fixpoint vca_loop (fuel : nat) (c k : Z) (p : list Z) (ex ints : list dyadic) : vres :=
  match fuel with
  | O => VFuel
  | S f =>
      let '(p, ex) := vca_strip c k p ex in
      (* "no root: go up", lines 96-117 *)
      let next (ints : list dyadic) :=
        let c := c + 1 in
        let i := Z.of_nat (val2 c) in
        if k =? i then VDone ex ints
        else
          let p := tshift 1 p in
          if i =? 0 then vca_loop f c k p ex ints
          else vca_loop f (c / 2 ^ i) (k - i) (scale2 i p) ex ints in
      match descartes01 p 2 with
      | DUndef => VUndef
      | DTooMany | DCount 2 =>                              (* lines 73-79 *)
          vca_loop f (2 * c) (k + 1) (scale2 (-1) p) ex ints
      | DCount 1 => next (ints ++ [(c, - k)])               (* lines 80-88 *)
      | DCount 0 => next ints                               (* lines 89-90 *)
      | DCount _ => VAbort                                  (* lines 91-93 *)
      end
  end.

(** [_fmpz_poly_isolate_real_roots_0_1_vca] on [p], appending to arrays that
    already hold [ex] and [ints] (isolate_real_roots.c:29-119; output pointers
    non-NULL; ArrModel.v has the arrays and NULL). *)
Definition vca (fuel : nat) (p : list Z) (ex ints : list dyadic) : vres :=
  vca_loop fuel 0 0 p ex ints.

(** num_real_roots_0_1_vca.c:16-24 and num_real_roots_0_1.c:16-19. *)
Definition num_real_roots_0_1 (fuel : nat) (p : list Z) : option nat :=
  match vca fuel p [] [] with
  | VDone ex ints => Some (length ex + length ints)%nat
  | _ => None
  end.

(** * positive_root_upper_bound_2exp.c *)

Section Bound.
(** Value returned by FLINT [fmpz_flog_ui (0, 2)], a call outside the documented
    domain of that function; the code makes it for zero coefficients. *)
Variable flog0 : Z.

Definition flog2 (a : Z) : Z := if a =? 0 then flog0 else Z.log2 (Z.abs a).
Definition clog2 (a : Z) : Z := Z.log2_up (Z.abs a).

(** b < bmin where [None] is WORD_MAX, and b < b0 where [None] is WORD_MIN. *)
Definition lt_bmin (b : Z) (bmin : option Z) : bool :=
  match bmin with None => true | Some m => b <? m end.
Definition lt_b0 (b : Z) (b0 : option Z) : bool :=
  match b0 with None => false | Some m => b <? m end.
Definition max_b0 (b0 bmin : option Z) : option Z :=
  match b0, bmin with
  | None, x => x
  | x, None => x       (* not reached: bmin is set when len >= 2 *)
  | Some a, Some b => Some (Z.max a b)
  end.

(** positive_root_upper_bound_2exp.c:51-76, the [j] loop; [d = j - i]. *)
Fixpoint lm_inner (pi : Z) (b0 : option Z) (d : Z) (j : nat) (ps cs : list Z)
         (bmin : option Z) (jmin : nat) : option Z * nat :=
  match ps, cs with
  | pj :: ps', cj :: cs' =>
      let b := cj + clog2 pi - flog2 pj in
      let b := Z.quot (b + d - 1) d in
      if lt_bmin b bmin then
        if lt_b0 b b0 then (Some b, j)                (* break *)
        else lm_inner pi b0 (d + 1) (S j) ps' cs' (Some b) j
      else lm_inner pi b0 (d + 1) (S j) ps' cs' bmin jmin
  | _, _ => (bmin, jmin)
  end.

Fixpoint incr (j : nat) (cs : list Z) : list Z :=
  match cs, j with
  | [], _ => []
  | c :: l, O => (c + 1) :: l
  | c :: l, S j' => c :: incr j' l
  end.

(** positive_root_upper_bound_2exp.c:46-82, the [i] loop ([i = n - 1]). *)
Fixpoint lm_outer (n : nat) (p : list Z) (s : Z) (cs : list Z) (b0 : option Z) (jmin : nat) : option Z :=
  match n with
  | O => b0
  | S i =>
      let pi := nth i p 0 in
      if (Z.sgn pi =? 0) || (Z.sgn pi =? s) then lm_outer i p s cs b0 jmin
      else
        let '(bmin, jmin) := lm_inner pi b0 1 (S i) (skipn (S i) p) (skipn (S i) cs) None jmin in
        lm_outer i p s (incr jmin cs) (max_b0 b0 bmin) jmin
  end.

(** positive_root_upper_bound_2exp.c:31-88 and 90-93; [None] is WORD_MIN. *)
Definition root_bound (p : list Z) : option Z :=
  lm_outer (length p - 1) p (Z.sgn (last p 0)) (map (fun _ => 1) p) None 0.

(** Drop the low zero coefficients, with their number (the loops of
    positive_root_upper_bound_2exp.c:101-102, descartes_bound.c:32-34,
    isolate_real_roots.c:137-138). *)
Fixpoint low_zeros (p : list Z) : nat * list Z :=
  match p with
  | [] => (O, [])
  | a :: q => if a =? 0 then let '(n, r) := low_zeros q in (S n, r) else (O, p)
  end.

(** positive_root_upper_bound_2exp.c:95-107 (the zero polynomial gives 0). *)
Definition positive_root_upper_bound (p : list Z) : option Z :=
  if forallb (Z.eqb 0) p then Some 0 else root_bound (snd (low_zeros p)).

(** Negate the odd coefficients: p(-x); isolate_real_roots.c:143,
    descartes_bound.c:53-54. *)
Fixpoint flip (p : list Z) : list Z :=
  match p with
  | [] => []
  | [a] => [a]
  | a :: b :: q => a :: - b :: flip q
  end.

(** * descartes_bound.c:21-65 *)

Inductive cres := CVal (n : nat) | CAbort | CBad.

Definition desc_part (p : list Z) : dres :=
  match root_bound p with
  | None => DCount 0
  | Some k => descartes01 (scale2 k p) (Z.of_nat (length p))
  end.

(** [fmpz_poly_num_real_roots_upper_bound]; CBad would be a WORD_MAX or an
    out-of-bounds read added to the result. *)
Definition num_real_roots_upper_bound (p : list Z) : cres :=
  if forallb (Z.eqb 0) p then CAbort
  else
    let '(i0, p2) := low_zeros p in
    match desc_part p2, desc_part (flip p2) with
    | DCount a, DCount b => CVal (i0 + a + b)
    | _, _ => CBad
    end.

(** * isolate_real_roots.c:121-224 *)

Definition dy_shift (k : Z) (d : dyadic) : dyadic := (fst d, snd d + k).
Definition dy_opp (d : dyadic) : dyadic := (- fst d, snd d).
(** interval (c, c+1) 2^e becomes (-(c+1), -c) 2^e. *)
Definition int_opp (d : dyadic) : dyadic := (- (fst d + 1), snd d).

Definition isolate (fuel : nat) (pol : list Z) : vres :=
  if forallb (Z.eqb 0) pol then VAbort
  else
    let '(nz, p) := low_zeros pol in
    let zeros := repeat ((0, 0) : dyadic) nz in
    let neg :=
      match root_bound (flip p) with
      | None => VDone [] []
      | Some k =>
          match vca fuel (scale2 k (flip p)) [] [] with
          | VDone ex ints =>
              VDone (rev (map (fun d => dy_shift k (dy_opp d)) ex))
                    (rev (map (fun d => dy_shift k (int_opp d)) ints))
          | r => r
          end
      end in
    match neg with
    | VDone nex nints =>
        match root_bound p with
        | None => VDone (nex ++ zeros) nints
        | Some k =>
            match vca fuel (scale2 k p) [] [] with
            | VDone pex pints =>
                VDone (nex ++ zeros ++ map (dy_shift k) pex) (nints ++ map (dy_shift k) pints)
            | r => r
            end
        end
    | r => r
    end.

(** num_real_roots_vca.c:16-21. *)
Definition num_real_roots_vca (fuel : nat) (p : list Z) : option nat :=
  match isolate fuel p with
  | VDone ex ints => Some (length ex + length ints)%nat
  | _ => None
  end.
End Bound.
