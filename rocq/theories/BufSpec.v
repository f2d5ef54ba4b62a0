(** Texts in memory. *)
Require Import List Ascii String.
From Verif Require Import StrModel BufModel.
Import ListNotations.

(** A C string: no byte is zero. *)
Definition cstr (s : str) : Prop := ~ In nul s.

(** The block is exactly as large as the text and its terminator. *)
Definition is_text (b : block) (s : str) : Prop := b = map Some (s ++ [nul]).

(** How a double is written. *)
Definition double_is (d : double_text) : str :=
  match d with MinusInf => list_ascii_of_string "-inf" | PlusInf => list_ascii_of_string "inf" | Finite s => s end.

(** The documented forms: polynomial, approximation, or both. *)
Inductive written (s d b : str) : bool -> bool -> bool -> str -> Prop :=
| wr_none : written s d b false false false []
| wr_alg : written s d b true false false s
| wr_d : forall arb, written s d b false true arb d
| wr_arb : written s d b false false true b
| wr_alg_d : forall arb, written s d b true true arb (s ++ list_ascii_of_string " ~ " ++ d)
| wr_alg_arb : written s d b true false true (s ++ list_ascii_of_string " ~ " ++ b).
