(** What reading from a stream should do to fields and elements. *)
Require Import List ZArith Bool.
From Verif Require Import ArbModel LifeModel LifeSpec StreamLifeModel.
Import ListNotations.

Section Spec.
Context {D H V : Type}.
Notation sstate := (sstate D H V).

(** Legal: variables that exist, new names for local ones, free memory.  Nothing is
    said of the field of the stream. *)
Definition slegal {K : Type} (good : D -> Prop) (cls : D -> K) (s : sstate) (k : sop D V) : Prop :=
  match k with
  | SLife k => legal good cls (base s) k
  | SSet _ h => pointee (base s) h <> None
  | SSetOf _ e => filled (base s) e
  | SRead _ e _ p f x t => has_elem (base s) e /\ new_handle (base s) p /\ new_elem (base s) f /\ free (base s) [x; t]
  end.

(** A stream is read only while the field that it was given exists. *)
Definition careful (s : sstate) (k : sop D V) : Prop :=
  match k with SRead i _ _ _ _ _ _ => exists a, get i (words s) = Some a /\ field_alive (base s) a | _ => True end.

(** The states of programs whose operations are [ok]. *)
Inductive sreachable (ok : sstate -> sop D V -> Prop) (run : sstate -> sop D V -> out (sstate * outcome)) : sstate -> list outcome -> Prop :=
| sre_start : sreachable ok run {| base := start D H V; words := [] |} []
| sre_step : forall s rs k s' r, sreachable ok run s rs -> ok s k -> run s k = Val (s', r) -> sreachable ok run s' (r :: rs).

(** After reading with [e] as target and the field at [a]: only [e] changes, and
    only if there is an element. *)
Definition read_effect (s s' : state D H V) (a e : nat) (v : text V) (r : outcome) : Prop :=
  same_handles s s' [] /\
  match v with
  | TElem u => r = Done /\ same_elems s s' [e] /\ content s' e = Some (a, u)
  | _ => r = Thrown /\ same_elems s s' []
  end.
End Spec.
