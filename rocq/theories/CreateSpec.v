(** Specification for the creation of fields. *)
Require Import Reals List ZArith.
From Verif Require Import PolyR RootSpec Dyadic ArbModel ArbSpec GetdModel StrModel MakeModel MakeSpec.
Open Scope R_scope.

(** The field of a polynomial embedded at the real root [x], as sharp as asked for. *)
Record embedded (pol : list Z) (den : Z) (x : R) (prec : Z) (nf : renf) : Prop := {
  ed_pol : f_pol nf = pol;
  ed_den : f_den nf = den;
  ed_prec : f_prec nf = prec;
  ed_imm : f_imm nf = 0%Z;
  ed_finite : is_finite (f_emb nf) = true;
  ed_root : inb x (f_emb nf);
  ed_only : forall y, inb y (f_emb nf) -> zeval pol y = 0 -> y = x;
  ed_sharp : (prec <= rel_accuracy (f_emb nf))%Z
}.

(** arb_set_str: with growing precision the midpoint tends to the number written,
    and the radius, kept with 30 bits and rounded up, does not exceed twice the one
    written by more than a vanishing amount. *)
Definition read_sharp (read : str -> Z -> option ball) : Prop := forall s q e, ball_text s = Some q -> 0 < e ->
  exists P, forall prec, (P <= prec)%Z -> exists m r, read s prec = Some (Fin m r) /\
    Rabs (dyv m - dec10 (fst q)) <= e /\ dyv r <= 2 * dec10 (snd q) + e.
