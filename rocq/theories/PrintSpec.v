(** What the printed numbers say about an element. *)
Require Import Reals List ZArith Ascii String.
From Verif Require Import RootSpec Dyadic ArbModel ElemModel GetdSpec StrModel BufModel BufSpec MakeSpec.
Import ListNotations.
Open Scope R_scope.

(** The text is a decimal number with the sign of [v], seven digits of which are right
    unless it is about as small as the smallest double; or it says that [v] is beyond the
    largest double. *)
Definition approximates (v : R) (t : str) : Prop :=
  t = list_ascii_of_string "inf" /\ MAX < v \/
  t = list_ascii_of_string "-inf" /\ v < - MAX \/
  exists q, signed10 t = Some q /\ Rabs (dec10 q - v) <= 1.01 / 10 ^ 7 * Rabs v + pw2 (-1073) /\
    (0 <= v -> 0 <= dec10 q) /\ (v <= 0 -> dec10 q <= 0).

(** The text is a decimal ball and [v] is in it. *)
Definition contains (v : R) (t : str) : Prop := exists q, ball_text t = Some q /\ in_text v q.

(** The midpoint has at most [n] digits. *)
Definition at_most (n : Z) (t : str) : Prop := exists q, ball_text t = Some q /\
  exists d k, dec10 (fst q) = IZR d * powerRZ 10 k /\ (Z.abs d < 10 ^ n)%Z.

(** Contract of arb_get_str for the doubles: eight digits, an error of one unit of the
    last one. *)
Definition show8_ok (show8 : dy -> str) : Prop := forall d, is_double (dyv d) ->
  cstr (show8 d) /\ exists q, signed10 (show8 d) = Some q /\ Rabs (dec10 q - dyv d) <= / 10 ^ 7 * Rabs (dyv d).

(** The whole text for flags as in BufSpec.v: parts are put in parentheses. *)
Inductive string_form (p d b : str) : bool -> bool -> bool -> str -> Prop :=
| sf_alg : forall s, written p d b true false false s -> string_form p d b true false false s
| sf_d : forall s, written p d b false true false s -> string_form p d b false true false s
| sf_arb : forall s, written p d b false false true s -> string_form p d b false false true s
| sf_many : forall alg dbl arb s, written p d b alg dbl arb s -> (alg, dbl, arb) <> (true, false, false) -> (alg, dbl, arb) <> (false, true, false) ->
    (alg, dbl, arb) <> (false, false, true) -> string_form p d b alg dbl arb (list_ascii_of_string "(" ++ s ++ list_ascii_of_string ")").
