(** Specification of the conversions of pyeantic. *)
Require Import Reals List ZArith Bool Ascii.
From Verif Require Import PolyR RootSpec Dyadic ArbModel ArbSpec ElemModel ElemSpec StrModel StrSpec CxxModel MakeSpec PyModel.
Import ListNotations.
Open Scope R_scope.

(** The polynomial with rational coefficients [l], lowest degree first. *)
Fixpoint rational_poly (l : list (Z * Z)) (y : R) : R :=
  match l with
  | [] => 0
  | q :: l' => IZR (fst q) / IZR (snd q) + y * rational_poly l' y
  end.

(** 10.0 ** p with at most two units in the last place. *)
Definition pow10_ok (pow10 : Z -> dy) : Prop := forall p, (0 < fst (pow10 p))%Z /\
  Rabs (dyv (pow10 p) - powerRZ 10 p) <= pw2 (-52) * powerRZ 10 p.

(** The double m 2^e: a mantissa of 53 bits, none nearer to [v], even if another one is as near. *)
Definition rounded_even (m e : Z) (v : R) : Prop :=
  (2 ^ 52 <= Z.abs m <= 2 ^ 53)%Z /\ Rabs (dyv (m, e) - v) <= pw2 (e - 1) /\ (Rabs (dyv (m, e) - v) = pw2 (e - 1) -> Z.even m = true).

(** str of a float: a decimal number without blanks that rounds to the float. *)
Definition show_float_ok (show : dy -> str) : Prop := forall f, ~ In cblank (show f) /\ exists q,
  signed10 (show f) = Some q /\ (0 <= fst f -> unsigned10 (show f) = Some q)%Z /\ Rabs (dec10 q - dyv f) <= pw2 (-53) * Rabs (dyv f).

(** Names of variables in SageMath start with a letter. *)
Definition sage_name (v : str) : Prop := name v /\ match v with c :: _ => alphab c = true | [] => False end.

(** What is assumed of arb_get_str and of SageMath: texts of balls without
    parentheses that enclose the ball, balls that enclose the text and the algebraic
    number they are made from, polynomials read in the documented form, and an exception
    for a name that is not one. *)
Record sage_ok (print_ball : ball -> Z -> str) (read_ball : str -> Z -> option ball) (poly_ring : str -> str -> exc elem)
  (enclose : R -> Z -> ball) : Prop := {
  sg_plain : forall b n, is_finite b = true -> print_ball b n <> [] /\ ~ In ")"%char (print_ball b n);
  sg_show : show_ok print_ball;
  sg_read : read_ok read_ball;
  sg_ring : forall v s ts, sage_name v -> form false v s ts -> exists p, poly_ring v s = Ret p /\ is_poly p (fun y => terms_val y ts);
  sg_name : forall v s, ~ name v -> poly_ring v s = Throw;
  sg_enclose : forall a prec, (2 <= prec)%Z -> inb a (enclose a prec)
}.

(** repr of a polynomial in SageMath: the documented form. *)
Definition repr_ok (repr : str -> elem -> str) : Prop := forall v p, sage_name v -> lowest_terms p -> (Z.of_nat (length (e_num p)) <= long_max)%Z ->
  exists ts, form false v (repr v p) ts /\ forall y, terms_val y ts = ev y p.

(** All real roots without repetition. *)
Definition roots_ok (p : elem) (l : list R) : Prop := NoDup l /\ forall y, In y l <-> ev y p = 0.

(** The other real roots are told apart from [x] at 256 bits. *)
Definition told_apart (print_ball : ball -> Z -> str) (read_ball : str -> Z -> option ball) (enclose : R -> Z -> ball) (nf : renf) (x : R) : Prop :=
  forall b y, read_ball (print_ball (f_emb nf) 64%Z) 256%Z = Some b -> zeval (f_pol nf) y = 0 -> y <> x -> boverlaps (enclose y 256%Z) b = false.

(** Fractions in lowest terms. *)
Definition lowest (q : Z * Z) : Prop := (0 < snd q)%Z /\ Z.gcd (fst q) (snd q) = 1%Z.
