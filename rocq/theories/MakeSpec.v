(** Decimal text of balls, and the contracts of FLINT's functions that read and
    write it (documentation of arb_set_str and arb_get_str). *)
Require Import Reals List ZArith Bool Ascii.
From Verif Require Import PolyR RootSpec Dyadic ArbModel ArbSpec ElemModel StrModel MakeModel.
Import ListNotations.
Open Scope Z_scope.

(** n 10^k. *)
Definition dec10 (q : Z * Z) : R := (IZR (fst q) * powerRZ 10 (snd q))%R.

(** The exponent: e12, e-12, e+12. *)
Definition exponent10 (s : str) : option Z :=
  match s with
  | [] => None
  | c :: s' =>
      let neg := Ascii.eqb c "-" in
      let d := if neg || Ascii.eqb c "+" then s' else s in
      match d with
      | [] => None
      | _ => if forallb digitb d then Some (if neg then - numval d else numval d) else None
      end
  end.

(** Digits, possibly a point and digits, possibly an exponent. *)
Definition unsigned10 (s : str) : option (Z * Z) :=
  let '(u, r) := span_digits s in
  let '(v, r) := match r with
                 | c :: r' => if Ascii.eqb c "." then span_digits r' else ([], r)
                 | [] => ([], r)
                 end in
  match u ++ v with
  | [] => None
  | ds =>
      match r with
      | [] => Some (numval ds, - Z.of_nat (length v))
      | c :: r' =>
          if Ascii.eqb c "e" || Ascii.eqb c "E" then
            match exponent10 r' with Some k => Some (numval ds, k - Z.of_nat (length v)) | None => None end
          else None
      end
  end.
Definition signed10 (s : str) : option (Z * Z) :=
  match s with
  | c :: s' =>
      if Ascii.eqb c "-" then match unsigned10 s' with Some (n, k) => Some (- n, k) | None => None end
      else unsigned10 s
  | [] => None
  end.

(** The parts before and after " +/- ". *)
Definition pm : str := [cblank; "+"; "/"; "-"; cblank]%char.
Fixpoint cut_pm (s : str) : str * option str :=
  match prefix pm s with
  | Some r => ([], Some r)
  | None => match s with [] => ([], None) | c :: s' => let '(u, v) := cut_pm s' in (c :: u, v) end
  end.
Definition plain_ball (s : str) : option (Z * Z * (Z * Z)) :=
  match cut_pm s with
  | (u, Some v) => match signed10 u, unsigned10 v with Some c, Some r => Some (c, r) | _, _ => None end
  | (u, None) => match signed10 u with Some c => Some (c, (0, 0)) | None => None end
  end.

(** Centre and radius of "c", "c +/- r" and "[c +/- r]". *)
Definition ball_text (s : str) : option (Z * Z * (Z * Z)) :=
  match s with
  | c :: s' =>
      if Ascii.eqb c "[" then
        match rev s' with
        | d :: t => if Ascii.eqb d "]" then plain_ball (rev t) else None
        | [] => None
        end
      else plain_ball s
  | [] => None
  end.

Open Scope R_scope.

(** The reals a text stands for. *)
Definition in_text (x : R) (q : Z * Z * (Z * Z)) : Prop := Rabs (x - dec10 (fst q)) <= dec10 (snd q).

(** arb_set_str reads such a text and encloses it. *)
Definition read_ok (read : str -> Z -> option ball) : Prop := forall s q prec, (2 <= prec)%Z -> ball_text s = Some q ->
  exists b, read s prec = Some b /\ forall x, in_text x q -> inb x b.

(** arb_get_str (x, n, 0) writes a text that encloses the ball, with at most n
    digits in the midpoint. *)
Definition show_ok (show : ball -> Z -> str) : Prop := forall b n, (1 <= n)%Z -> is_finite b = true -> (exists x, inb x b) ->
  exists q, ball_text (show b n) = Some q /\ (forall x, inb x b -> in_text x q) /\
    exists d k, dec10 (fst q) = IZR d * powerRZ 10 k /\ (Z.abs d < 10 ^ n)%Z.

(** The polynomial of the field is the one written, the root the only one of the
    ball, and the ball of the field isolates it. *)
Definition isolating (pol : list Z) (x : R) (b : ball) : Prop :=
  zeval pol x = 0 /\ inb x b /\ forall y, inb y b -> zeval pol y = 0 -> y = x.
