(** Model of the conversions of pyeantic, /repo/pyeantic/src/pyeantic/:
    realalg_conversion.py and real_embedded_number_field.py.

    Python exceptions are [Throw].  Not modelled: cppyy, the coercion framework of
    SageMath, and the checks of argument types.  SageMath's functions are given as
    parameters. *)
Require Import Reals List ZArith Bool Ascii.
From Verif Require Import Dyadic ArbModel ElemModel StrModel StrMore CxxModel MakeModel MakeText.
Import ListNotations.
Open Scope Z_scope.

(** ** Conversion from realalg *)

(** str of an integer or a Fraction in lowest terms. *)
Definition q_text (q : Z * Z) : str := sdec (fst q) ++ (if snd q =? 1 then [] else "/"%char :: dec (snd q)).

(** poly_string, realalg_conversion.py:40-46; an empty list is an IndexError. *)
Fixpoint more_terms (var : str) (i : Z) (l : list (Z * Z)) : str :=
  match l with
  | [] => []
  | q :: l' =>
      (if fst q =? 0 then [] else
        [cblank; "+"%char; cblank] ++ q_text q ++ [cblank; "*"%char; cblank] ++ var ++ "^"%char :: dec i) ++
      more_terms var (i + 1) l'
  end.
Definition poly_string (coeffs : list (Z * Z)) (var : str) : exc str :=
  match coeffs with
  | [] => Throw
  | q :: l => Ret (q_text q ++ more_terms var 1 l)
  end.

(** Doubles: the quotient n / d (d > 0) rounded to 53 bits, ties to even.  The range
    of exponents is not bounded. *)
Definition nearest_even (a b : Z) : Z :=
  let q := a / b in
  let r := a mod b in
  if 2 * r <? b then q else if b <? 2 * r then q + 1 else if Z.even q then q else q + 1.
Definition fl (n d : Z) : dy :=
  if n =? 0 then (0, 0)
  else
    let k := Z.log2 (Z.abs n) - Z.log2 d - 53 in
    let a := if 0 <=? k then Z.abs n else Z.abs n * 2 ^ (- k) in
    let b := if 0 <=? k then d * 2 ^ k else d in
    if a <? 2 ^ 53 * b then (Z.sgn n * nearest_even a b, k) else (Z.sgn n * nearest_even a (2 * b), k + 1).
(** x / y for y > 0. *)
Definition fdiv (x y : dy) : dy :=
  let '(m, e) := fl (fst x) (fst y) in (m, e + snd x - snd y).

Section Interval.
Variable pow10 : Z -> dy.          (* 10.0 ** p *)
Variable show : dy -> str.         (* str of a float *)

(** realalg_interval_to_arb, lines 48-54: the interval from lower to upper in units
    of 10^-precision.  Dividing by 2.0 is exact. *)
Definition interval_text (lower upper precision : Z) : str :=
  let center := fdiv (d2exp (fl (lower + upper) 1) (-1)) (pow10 precision) in
  let rad := fdiv (fl (upper - lower) 1) (pow10 (precision - 1)) in
  "["%char :: show center ++ [cblank; "+"; "/"; "-"; cblank]%char ++ show rad ++ ["]"%char].
End Interval.

(** ** Conversion of fields to SageMath *)

(** fmpq_poly_get_str_pretty. *)
Definition coef_at (e : elem) (c : Z) : Z * Z := let g := Z.gcd c (e_den e) in (c / g, e_den e / g).
Definition lead_text (q : Z * Z) : str :=
  if (snd q =? 1) && (fst q =? 1) then [] else if (snd q =? 1) && (fst q =? -1) then ["-"%char] else q_text q ++ ["*"%char].
Definition power_text (var : str) (i : nat) : str := if Nat.eqb i 1 then var else var ++ "^"%char :: dec (Z.of_nat i).
(** The coefficients from degree length l - 1 down. *)
Fixpoint low_terms (e : elem) (var : str) (l : list Z) : str :=
  match l with
  | [] => []
  | c :: l' =>
      let i := length l' in
      (if c =? 0 then [] else
        (if c <? 0 then [cblank; "-"%char; cblank] else [cblank; "+"%char; cblank]) ++
        (if Nat.eqb i 0 then q_text (coef_at e (Z.abs c)) else lead_text (coef_at e (Z.abs c)) ++ power_text var i)) ++
      low_terms e var l'
  end.
Definition pretty (var : str) (e : elem) : str :=
  match rev (e_num e) with
  | [] => ["0"%char]
  | [a] => q_text (coef_at e a)
  | [b; a] => lead_text (coef_at e b) ++ var ++
              (if a =? 0 then [] else (if a <? 0 then [] else ["+"%char]) ++ q_text (coef_at e a))
  | c :: l => lead_text (coef_at e c) ++ power_text var (length l) ++ low_terms e var l
  end.

(** renf_get_str, /repo/libeantic/src/renf/get_str.c:19-34, as called by
    renf_class.cpp:221-227 with 64 digits. *)
Definition number_field : str := ["N"; "u"; "m"; "b"; "e"; "r"; "F"; "i"; "e"; "l"; "d"; "("]%char.
Definition field_text (print_ball : ball -> Z -> str) (var : str) (nf : renf) : str :=
  number_field ++ pretty var {| e_num := f_pol nf; e_den := f_den nf |} ++
  [","%char; cblank] ++ print_ball (f_emb nf) 64 ++ [")"%char].

(** The regular expression ^NumberField\(([^,]+), ([^)]+)\)$,
    real_embedded_number_field.py:459; a newline at the end is not modelled. *)
Fixpoint upto (stop : ascii) (s : str) : str * str :=
  match s with
  | [] => ([], [])
  | c :: s' => if Ascii.eqb c stop then ([], s) else let '(u, v) := upto stop s' in (c :: u, v)
  end.
Definition match_field (s : str) : option (str * str) :=
  match prefix number_field s with
  | None => None
  | Some s1 =>
      let '(u, s2) := upto "," s1 in
      match u, s2 with
      | _ :: _, c :: b :: s3 =>
          if Ascii.eqb c "," && Ascii.eqb b cblank then
            let '(v, s4) := upto ")" s3 in
            match v, s4 with
            | _ :: _, [_] => Some (u, v)
            | _, _ => None
            end
          else None
      | _, _ => None
      end
  end.

(** The regular expression ^\d*\*?([^\^ *]+)[\^ +-], line 463: the first match in
    the order of backtracking.  [name_at] is the part after the star: the longest
    group that is followed by one of the four characters. *)
Definition group_char (c : ascii) : bool := negb (Ascii.eqb c "^" || Ascii.eqb c cblank || Ascii.eqb c "*").
Definition after_char (c : ascii) : bool := Ascii.eqb c "^" || Ascii.eqb c cblank || Ascii.eqb c "+" || Ascii.eqb c "-".
Fixpoint name_at (s : str) : option str :=
  match s with
  | c :: ((d :: _) as s') =>
      if group_char c then
        match name_at s' with
        | Some u => Some (c :: u)
        | None => if after_char d then Some [c] else None
        end
      else None
  | _ => None
  end.
Definition after_digits (s : str) : option str :=
  match s with
  | c :: s' => if Ascii.eqb c "*" then match name_at s' with Some u => Some u | None => name_at s end else name_at s
  | [] => name_at s
  end.
Fixpoint match_lead (s : str) : option str :=
  match s with
  | c :: s' => if digitb c then match match_lead s' with Some u => Some u | None => after_digits s end else after_digits s
  | [] => after_digits s
  end.

Section Normalize.
Variable print_ball : ball -> Z -> str.         (* arb_get_str *)
Variable read_ball : str -> Z -> option ball.   (* RealBallField(prec)(s) *)
Variable poly_ring : str -> str -> exc elem.    (* QQ[name](s) *)
Variable roots : elem -> list R.                (* roots(AA), without multiplicities *)
Variable enclose : R -> Z -> ball.              (* RealBallField(prec)(aa) *)

(** Lines 466-475. *)
Fixpoint pick (aa : list R) (root : str) (precs : list Z) : exc R :=
  match precs with
  | [] => Throw
  | prec :: precs' =>
      match read_ball root prec with
      | None => Throw
      | Some b =>
          match filter (fun a => boverlaps (enclose a prec) b) aa with
          | [a] => Ret a
          | _ => pick aa root precs'
          end
      end
  end.

(** _normalize_embedding of a renf_class, lines 454-476: the polynomial, the name of
    the variable and the root of the number field. *)
Definition normalize (var : str) (nf : renf) : exc (elem * str * R) :=
  match match_field (field_text print_ball var nf) with
  | None => Throw
  | Some (minpoly, root) =>
      match match_lead minpoly with
      | None => Throw
      | Some name =>
          match poly_ring name minpoly with
          | Throw => Throw
          | Ret p =>
              match pick (roots p) root [53; 64; 128; 256] with
              | Throw => Throw
              | Ret a => Ret (p, name, a)
              end
          end
      end
  end.
End Normalize.

(** RealEmbeddedNumberField.__init__, lines 570-576: the renf_class of the number field
    given by a polynomial, a variable and a root, with the default of 64 bits
    (renf_class.hpp:154).  [repr]: repr of the polynomial in the variable;
    [ball_str a prec]: str of RealBallField(prec)(a). *)
Definition sage_renf (o : arbops) (debug : bool) (zero_den : Z -> out (option (Z * Z))) (read_ball : str -> Z -> option ball) (fuel n : nat)
  (repr : str -> elem -> str) (ball_str : R -> Z -> str) (var : str) (p : elem) (a : R) : out (exc renf * nat) :=
  make_loop o debug zero_den read_ball fuel n (repr var p) var (fun prec => Ret (ball_str a prec)) 64.

(** ** Conversion of elements *)

Definition reduced (n d : Z) : Z * Z := let g := Z.gcd n d in (n / g, d / g).
(** CoercionNumberFieldRenf._call_, lines 770-773: rational numbers, as many as the
    degree. *)
Definition to_sage (pol : list Z) (e : elem) : list (Z * Z) :=
  let v := map (fun c => reduced c (den e)) (num_vector pol e) in
  v ++ repeat (0, 1) (length pol - 1 - length v).

(** polynomial().list() of an element of a SageMath number field: no zeros at the
    end. *)
Fixpoint trim (v : list (Z * Z)) : list (Z * Z) :=
  match v with
  | [] => []
  | q :: v' => match trim v' with [] => if fst q =? 0 then [] else [q] | t => q :: t end
  end.
(** The numerators over a common denominator, as in fmpq_poly_set_coeff_fmpq. *)
Definition common_den (v : list (Z * Z)) : Z := fold_right (fun q d => Z.lcm (snd q) d) 1 v.
Definition numerators (v : list (Z * Z)) : list Z := map (fun q => fst q * (common_den v / snd q)) v.

(** RealEmbeddedNumberFieldElement.__init__, lines 121-131: the vector of an element of
    the number field to an element, through
    /repo/libeantic/srcxx/renf_elem_class.cpp:535-557.  With [old], for FLINT before
    version 3, line 545 takes the address of the first coefficient. *)
Definition of_sage (debug old : bool) (n : nfops) (pol : list Z) (v : list (Z * Z)) : out elem :=
  let t := trim v in
  if debug && Nat.leb (length pol) (length t) then Abort
  else if old && Nat.eqb (length t) 0 then Undef
  else Val (n_set_poly n (numerators t) (common_den t)).

(** __getstate__ and __setstate__, lines 317 and 332-333. *)
Definition pickled (debug old : bool) (n : nfops) (pol : list Z) (e : elem) : out elem := of_sage debug old n pol (to_sage pol e).

(** _rational_ and _integer_, lines 272-274 and 300-302. *)
Definition to_rational (debug : bool) (e : elem) : out (exc (Z * Z)) :=
  if is_rational e then bind (to_mpq debug e) (fun q => Val (Ret (reduced (fst q) (snd q)))) else Val Throw.
Definition to_integer (debug : bool) (e : elem) : out (exc Z) :=
  if is_integer e then
    bind (to_rational debug e) (fun r => match r with Ret q => Val (Ret (fst q)) | Throw => Val Throw end)
  else Val Throw.
