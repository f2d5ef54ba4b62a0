(** The documented form of polynomial strings (test/fmpq_poly_extra/
    t-set_str_pretty.c): a signed sum of terms, each a coefficient, a power of
    the variable, or both.  The grammar with [loose = true] also has the strings
    that are accepted without being of this form. *)
Require Import Reals List ZArith Ascii.
From Verif Require Import PolyR ArbModel ElemModel ElemSpec StrModel.
Import ListNotations.

Definition blanks (s : str) : Prop := Forall (eq cblank) s.
Definition digits (s : str) : Prop := s <> [] /\ Forall (fun c => digitb c = true) s.

(** Names of variables: a letter or underscore, then letters, digits, underscores. *)
Definition name (var : str) : Prop :=
  match var with
  | [] => False
  | c :: v => (alphab c = true \/ c = "_"%char) /\
              Forall (fun c => digitb c = true \/ alphab c = true \/ c = "_"%char) v
  end.

Section Grammar.
Variable loose : bool.
Variable var : str.

(** Unsigned coefficient: integer or fraction. *)
Inductive coef : str -> Z -> Z -> Prop :=
| co_int : forall ds, digits ds -> coef ds (numval ds) 1
| co_frac : forall ds es, digits ds -> digits es -> numval es <> 0%Z ->
    coef (ds ++ "/"%char :: es) (numval ds) (numval es).

(** Power of the variable: a, a^3, a3; exponents fit in a word. *)
Inductive power : str -> Z -> Prop :=
| po_one : power var 1
| po_caret : forall b1 b2 ds, blanks b1 -> blanks b2 -> digits ds -> (numval ds <= 9223372036854775807)%Z ->
    power (var ++ b1 ++ "^"%char :: b2 ++ ds) (numval ds)
| po_bare : forall ds, digits ds -> (numval ds <= 9223372036854775807)%Z -> power (var ++ ds) (numval ds).

(** Term without its sign. *)
Inductive body : str -> Z -> Z -> Z -> Prop :=
| bo_const : forall c a b, coef c a b -> body c a b 0
| bo_power : forall s k, power s k -> body s 1 1 k
| bo_both : forall c a b bl s k, coef c a b -> blanks bl -> power s k -> body (c ++ bl ++ s) a b k
| bo_star : forall c a b b1 b2 s k, coef c a b -> blanks b1 -> blanks b2 -> power s k ->
    body (c ++ b1 ++ "*"%char :: b2 ++ s) a b k
| bo_only_star : forall b2 s k, loose = true -> blanks b2 -> power s k -> body ("*"%char :: b2 ++ s) 1 1 k.

(** A run of signs and blanks. *)
Inductive sign_run : str -> Z -> Prop :=
| si_nil : sign_run [] 1
| si_blank : forall s g, sign_run s g -> sign_run (cblank :: s) g
| si_plus : forall s g, sign_run s g -> sign_run ("+"%char :: s) g
| si_minus : forall s g, sign_run s g -> sign_run ("-"%char :: s) (- g).

(** What follows a term. *)
Definition starts_with_sign (s : str) : Prop :=
  match s with [] => True | c :: _ => c = "+"%char \/ c = "-"%char end.

(** The sum of terms: list of (numerator, denominator, exponent). *)
Inductive sum : str -> list (Z * Z * Z) -> Prop :=
| su_one : forall sg g s a b k bl, sign_run sg g -> body s a b k -> blanks bl ->
    sum (sg ++ s ++ bl) [((g * a)%Z, b, k)]
| su_more : forall sg g s a b k bl r ts, sign_run sg g -> body s a b k -> blanks bl ->
    starts_with_sign r -> sum r ts -> sum (sg ++ s ++ bl ++ r) (((g * a)%Z, b, k) :: ts).

Inductive form : str -> list (Z * Z * Z) -> Prop :=
| fo_sum : forall s ts, sum s ts -> form s ts
| fo_empty : loose = true -> form [] [].
End Grammar.

(** The polynomial function denoted by terms. *)
Open Scope R_scope.
Definition term_val (y : R) (t : Z * Z * Z) : R :=
  let '(a, b, k) := t in IZR a / IZR b * y ^ Z.to_nat k.
Definition terms_val (y : R) (ts : list (Z * Z * Z)) : R := fold_right (fun t v => term_val y t + v) 0 ts.

(** A polynomial over the rationals in lowest terms. *)
Record lowest_terms (p : elem) : Prop := {
  lt_den : (0 < e_den p)%Z;
  lt_last : last (e_num p) 1%Z <> 0%Z;
  lt_gcd : forall g, (0 < g)%Z -> (g | e_den p)%Z -> (forall c, In c (e_num p) -> (g | c)%Z) -> g = 1%Z
}.
Definition is_poly (p : elem) (f : R -> R) : Prop := lowest_terms p /\ forall y, ev y p = f y.

(** Contract of fmpq_set_str: success yields a rational. *)
Definition zero_den_ok (zero_den : Z -> out (option (Z * Z))) : Prop :=
  forall n q, zero_den n <> Val (Some q).

(** Contract of nf_elem_get_str_pretty: the polynomial in the documented form
    (its length is a word), without blanks when it is an integer. *)
Definition print_ok (pr : str -> elem -> str) : Prop :=
  forall var e, name var -> lowest_terms e -> (Z.of_nat (length (e_num e)) <= long_max)%Z -> exists ts,
    form false var (pr var e) ts /\ (forall y, terms_val y ts = ev y e) /\
    (is_integer e = true -> ~ In cblank (pr var e)).

(** Contract of arb_get_str for the double: visible characters, no parenthesis. *)
Definition approx_ok (d : str) : Prop := d <> [] /\ Forall (fun c => isspaceb c = false /\ c <> ")"%char) d.

(** The last character is no white space. *)
Definition ends_visible (s : str) : Prop := forall u c, s = u ++ [c] -> isspaceb c = false.
