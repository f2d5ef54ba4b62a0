(** Model of reading and writing polynomials and elements as strings:
    /repo/libeantic/src/fmpq_poly_extra/set_str_pretty.c,
    /repo/libeantic/src/fmpz_poly_extra/set_str_pretty.c,
    /repo/libeantic/src/renf_elem/get_str_pretty.c and the string and stream
    functions of /repo/libeantic/srcxx/renf_elem_class.cpp and
    /repo/libeantic/srcxx/renf_class.cpp.

    A C string is the list of its bytes before the terminator.  [char] is signed
    (as on x86): [isdigit], [isalpha] and [isalnum] have undefined behaviour for
    a byte from 128 to 254 (ISO C 7.4; byte 255 is EOF).  Memory is unlimited. *)
Require Import List ZArith Bool Ascii.
From Verif Require Import RootModel ExtraModel ArbModel ElemModel NfArith.
Import ListNotations.
Open Scope Z_scope.

Definition str := list ascii.
Definition code (c : ascii) : Z := Z.of_N (N_of_ascii c).

Definition cblank : ascii := " ".
Definition digitb (c : ascii) : bool := (48 <=? code c) && (code c <=? 57).
Definition alphab (c : ascii) : bool :=
  ((65 <=? code c) && (code c <=? 90)) || ((97 <=? code c) && (code c <=? 122)).
Definition wild (c : ascii) : bool := (128 <=? code c) && (code c <=? 254).
(** The functions of ctype.h, in the C locale. *)
Definition ctype (f : ascii -> bool) (c : ascii) : out bool := if wild c then Undef else Val (f c).
Definition isdigit := ctype digitb.
Definition isalpha := ctype alphab.
Definition isalnum := ctype (fun c => digitb c || alphab c).

Definition num_step (a : Z) (c : ascii) : Z := 10 * a + (code c - 48).
Definition numval (s : str) : Z := fold_left num_step s 0.

(** while ( *x == ' ') x++; *)
Fixpoint skip_blanks (s : str) : str :=
  match s with
  | [] => []
  | c :: s' => if Ascii.eqb c cblank then skip_blanks s' else s
  end.

(** ** fmpq_poly_extra/set_str_pretty.c *)

(** Lines 38-48: [None] when the string ends. *)
Fixpoint signs (sign : Z) (s : str) : option (Z * str) :=
  match s with
  | [] => None
  | c :: s' =>
      if Ascii.eqb c "-" then signs (- sign) s'
      else if Ascii.eqb c cblank || Ascii.eqb c "+" then signs sign s'
      else Some (sign, s)
  end.

(** Line 54. *)
Fixpoint coeff_chars (s : str) : out (str * str) :=
  match s with
  | [] => Val ([], [])
  | c :: s' =>
      bind (isdigit c) (fun d =>
        if d || Ascii.eqb c "/" then bind (coeff_chars s') (fun '(u, v) => Val (c :: u, v))
        else Val ([], s))
  end.

(** The part before the first slash, and the part after it. *)
Fixpoint cut_slash (s : str) : str * option str :=
  match s with
  | [] => ([], None)
  | c :: s' => if Ascii.eqb c "/" then ([], Some s') else let '(u, v) := cut_slash s' in (c :: u, v)
  end.

(** strtol in base 10, on a string starting with a digit: all its digits.  Bytes
    are compared, no function of ctype.h is called by the user. *)
Fixpoint span_digits (s : str) : str * str :=
  match s with
  | [] => ([], [])
  | c :: s' => if digitb c then let '(u, v) := span_digits s' in (c :: u, v) else ([], s)
  end.

Definition long_max : Z := 2 ^ 63 - 1.

Section Parser.
(** What fmpq_set_str (external, FLINT) does with the fraction n/0. *)
Variable zero_den : Z -> out (option (Z * Z)).

(** fmpq_set_str on a string of digits and slashes that starts with a digit:
    an integer or a quotient of integers; [None]: error. *)
Definition fmpq_set_str (s : str) : out (option (Z * Z)) :=
  match cut_slash s with
  | (u, None) => Val (Some (numval u, 1))
  | (u, Some v) =>
      match v with
      | [] => Val None
      | _ => if forallb digitb v then
               if numval v =? 0 then zero_den (numval u) else Val (Some (numval u, numval v))
             else Val None
      end
  end.

Fixpoint prefix (p s : str) : option str :=          (* strncmp(x, var, strlen(var)), and the rest *)
  match p, s with
  | [], _ => Some s
  | a :: p', b :: s' => if Ascii.eqb a b then prefix p' s' else None
  | _ :: _, [] => None
  end.

(** Lines 117-133. *)
Definition exponent (s : str) : out (option Z) :=
  match s with
  | [] => Val None
  | c :: _ =>
      bind (isdigit c) (fun d =>
        if d then
          let '(u, v) := span_digits s in
          if long_max <? numval u then Val None
          else match skip_blanks v with [] => Val (Some (numval u)) | _ => Val None end
        else Val None)
  end.

(** Lines 98-115, then the exponent. *)
Definition after_var (s : str) : out (option Z) :=
  bind (match s with [] => Val false | c :: _ => isdigit c end) (fun d =>
    if d then exponent s
    else
      match skip_blanks s with
      | [] => Val (Some 1)
      | c :: s' => if Ascii.eqb c "^" then exponent (skip_blanks s') else Val None
      end).

(** Lines 79-96. *)
Definition star_var (var s : str) : out (option Z) :=
  let go (s : str) := match prefix var s with None => Val None | Some r => after_var r end in
  match s with
  | c :: s' =>
      if Ascii.eqb c "*" then
        match skip_blanks s' with [] => Val None | r => go r end
      else go s
  | [] => go s
  end.

(** _monomial_set_str, lines 24-134: coefficient (numerator, denominator) and
    power; [None]: -1. *)
Definition monomial (var w : str) : out (option (Z * Z * Z)) :=
  match skip_blanks w with
  | [] => Val None
  | x =>
      match signs 1 x with
      | None => Val None
      | Some (sign, x) =>
          bind (match x with [] => Val false | c :: _ => isdigit c end) (fun d =>
          bind (match x with
                | c :: x' =>
                    if d then
                      bind (coeff_chars x') (fun '(u, v) =>
                      bind (fmpq_set_str (c :: u)) (fun r =>
                        match r with None => Val None | Some q => Val (Some (q, v)) end))
                    else Val (Some ((1, 1), x))
                | [] => Val (Some ((1, 1), x))
                end) (fun r =>
            match r with
            | None => Val None
            | Some ((a, b), x) =>
                let a := if sign =? -1 then - a else a in
                match skip_blanks x with
                | [] => Val (Some (a, b, 0))
                | x => bind (star_var var x) (fun k =>
                         match k with None => Val None | Some k => Val (Some (a, b, k)) end)
                end
            end))
      end
  end.

(** str_is_varname, lines 136-151. *)
Fixpoint all_alnum (s : str) : out bool :=
  match s with
  | [] => Val true
  | c :: s' => bind (isalnum c) (fun b => if negb b && negb (Ascii.eqb c "_") then Val false else all_alnum s')
  end.
Definition is_varname (var : str) : out bool :=
  match var with
  | [] => Val false
  | c :: v => bind (isalpha c) (fun b => if b || Ascii.eqb c "_" then all_alnum v else Val false)
  end.

Definition signb (c : ascii) : bool := Ascii.eqb c "+" || Ascii.eqb c "-".

(** Lines 179-180. *)
Fixpoint jump_rest (s : str) : str * str :=
  match s with
  | [] => ([], [])
  | c :: s' => if signb c then ([], s) else let '(u, v) := jump_rest s' in (c :: u, v)
  end.

(** Lines 176-183: the next term and what follows it. *)
Fixpoint next_term (s : str) : str * str :=
  match s with
  | [] => ([], [])
  | c :: s' =>
      if signb c || Ascii.eqb c cblank then let '(u, v) := next_term s' in (c :: u, v) else jump_rest s
  end.

(** Lines 193-195.  A FLINT polynomial over the rationals is stored as an [elem]:
    numerator, denominator, in lowest terms (fmpq_poly_add, external, is exact). *)
Definition add_term (p : elem) (a b k : Z) : elem :=
  lowest (comb b (- e_den p) (e_num p) (pshift (Z.to_nat k) [a])) (e_den p * b).

(** Lines 169-198; each pass consumes a character, so the length suffices as
    fuel. *)
Fixpoint set_str_loop (fuel : nat) (var : str) (p : elem) (s : str) : out (option elem) :=
  match fuel with
  | O => Fuel
  | S f =>
      match s with
      | [] => Val (Some p)
      | _ =>
          let '(z, rest) := next_term (skip_blanks s) in
          bind (monomial var z) (fun r =>
            match r with
            | None => Val None
            | Some (a, b, k) => set_str_loop f var (add_term p a b k) rest
            end)
      end
  end.

(** Lines 153-204.  What the target held before is erased (line 165), except
    when the name of the variable is rejected. *)
Definition set_str (var s : str) : out (option elem) :=
  bind (is_varname var) (fun b =>
    if b then set_str_loop (S (length s)) var {| e_num := []; e_den := 1 |} s else Val None).

(** ** fmpz_poly_extra/set_str_pretty.c:17-44, with the old contents of [p]. *)
Fixpoint overwrite (old new : list Z) : list Z :=
  match old, new with
  | _, [] => old
  | [], _ => new
  | _ :: old', b :: new' => b :: overwrite old' new'
  end.
Definition set_str_z (old : list Z) (var s : str) : out (option (list Z)) :=
  bind (set_str var s) (fun r =>
    match r with
    | None => Val None
    | Some q => if e_den q =? 1 then Val (Some (overwrite old (e_num q))) else Val None
    end).

(** ** Elements as strings *)

(** External printers: nf_elem_get_str_pretty; the double as printed by
    get_str_pretty.c:54-86 (with arb_get_str); arb_get_str of the enclosure. *)
Record printers := {
  pr_alg : str -> elem -> str;
  pr_d : str;
  pr_arb : str
}.

(** renf_elem/get_str_pretty.c:28-105; flags EANTIC_STR_ALG, _D, _ARB. *)
Definition tilde : str := [cblank; "~"%char; cblank].
Definition get_str (pr : printers) (var : str) (e : elem) (alg d arb : bool) : str :=
  (if alg then pr_alg pr var e ++ (if d || arb then tilde else []) else []) ++
  (if d then pr_d pr else if arb then pr_arb pr else []).

(** renf_elem_class::to_string, renf_elem_class.cpp:857-871.  The assertion of
    line 861 is not modelled (both approximations are never asked for here). *)
Definition to_string (pr : printers) (var : str) (e : elem) (alg d arb : bool) : str :=
  let s := get_str pr var e alg d arb in
  if (alg && negb d && negb arb) || (negb alg && d && negb arb) || (negb alg && negb d && arb) then s
  else "("%char :: s ++ [")"%char].

(** operator<<, renf_class.cpp:235-242. *)
Definition write (pr : printers) (var : str) (e : elem) : str :=
  if is_integer e then to_string pr var e true false false else to_string pr var e true true false.

(** renf_elem_class(const renf_class&, const std::string&),
    renf_elem_class.cpp:401-437: [None] is the exception.  The polynomial is
    reduced by [n_set_poly].  Of a string with a zero byte the part before it is
    used (c_str, line 404). *)
Fixpoint cut_tilde (s : str) : str :=
  match s with
  | [] => []
  | c :: s' => if Ascii.eqb c "~" || Ascii.eqb c zero then [] else c :: cut_tilde s'
  end.
Definition of_string (n : nfops) (var s : str) : out (option elem) :=
  bind (set_str var (cut_tilde s)) (fun r =>
    match r with None => Val None | Some p => Val (Some (n_set_poly n (e_num p) (e_den p))) end).

(** ** operator>>, renf_class.cpp:244-279

    A stream is the characters left and its end-of-file bit; peeking at the end
    sets the bit.  The fail bit is never examined by the code; see [read_any] for
    streams on which it is set. *)
Record stream := { st_rest : str; st_eof : bool }.

(** isspace in the C locale. *)
Definition isspaceb (c : ascii) : bool := ((9 <=? code c) && (code c <=? 13)) || (code c =? 32).
Fixpoint skip_space (s : str) : str :=
  match s with
  | [] => []
  | c :: s' => if isspaceb c then skip_space s' else s
  end.

(** Lines 256-262: [None] when the stream ends.  [is >> c] skips white space; when
    only white space is left it does not set c, and line 260 uses the
    indeterminate value of c. *)
Fixpoint read_paren (fuel : nat) (s : str) : out (option (str * str)) :=
  match fuel with
  | O => Fuel
  | S f =>
      match s with
      | [] => Val None
      | c :: _ =>
          if Ascii.eqb c ")" then Val (Some ([], s))
          else
            match skip_space s with
            | [] => Undef
            | c :: s' =>
                bind (read_paren f s') (fun r =>
                  match r with None => Val None | Some (u, v) => Val (Some (c :: u, v)) end)
            end
      end
  end.

(** Lines 268-273: up to white space or the end. *)
Fixpoint read_word (s : str) : str * stream :=
  match s with
  | [] => ([], {| st_rest := []; st_eof := true |})
  | c :: s' => if isspaceb c then ([], {| st_rest := s; st_eof := false |})
               else let '(u, st) := read_word s' in (c :: u, st)
  end.

(** The whole operator: new element and stream, [None] for an exception. *)
Definition read_elem (n : nfops) (var : str) (st : stream) : out (option (elem * stream)) :=
  if st_eof st then Val None
  else
    let finish (s : str) (st : stream) :=
      bind (of_string n var s) (fun r =>
        match r with None => Val None | Some e => Val (Some (e, st)) end) in
    match st_rest st with
    | c :: r =>
        if Ascii.eqb c "(" then
          bind (read_paren (S (length r)) r) (fun p =>
            match p with
            | None => Val None
            | Some (s, r') => finish s {| st_rest := tl r'; st_eof := false |}
            end)
        else let '(s, st') := read_word (st_rest st) in finish s st'
    | [] => finish [] {| st_rest := []; st_eof := true |}
    end.

(** The operator on a stream with or without fail bit: when it is set, peek gives EOF
    and nothing is read. *)
Definition read_any (n : nfops) (var : str) (failed : bool) (st : stream) : out (option (elem * stream)) :=
  if failed && negb (st_eof st) then
    bind (of_string n var []) (fun r => match r with None => Val None | Some e => Val (Some (e, st)) end)
  else read_elem n var st.

(** Reading one element after another. *)
Fixpoint read_elems (n : nfops) (var : str) (k : nat) (st : stream) : out (option (list elem)) :=
  match k with
  | O => Val (Some [])
  | S k' =>
      bind (read_elem n var st) (fun r =>
        match r with
        | None => Val None
        | Some (e, st') =>
            bind (read_elems n var k' st') (fun r =>
              match r with None => Val None | Some l => Val (Some (e :: l)) end)
        end)
  end.
End Parser.
