(** Model of the field that a stream carries for operator>>:
    /repo/libeantic/srcxx/renf_class.cpp:208-219, 244-279 (CPP1), over the model of
    lifetimes.

    What is read from the stream is an argument (see StrModel.v). *)
Require Import List ZArith Bool Arith.
From Verif Require Import ArbModel LifeModel.
Import ListNotations.

Section Stream.
Variables (D H V : Type).
Variable hash : D -> out (D * H).
Variable heq : H -> H -> bool.
Variable deq : D -> D -> bool.
Variables zero one gen : D -> V.
Variable ratl : V -> bool.
Variable conv : D -> V -> V.
Variable trivial : D.
Variable debug : bool.
Notation state := (state D H V).
Notation run1 := (run1 D H V hash heq deq zero one gen ratl conv trivial debug).

(** [words]: the pointer stored in each stream, none if null. *)
Record sstate := { base : state; words : list (nat * nat) }.
Definition set_base (s : sstate) (b : state) : sstate := {| base := b; words := words s |}.

(** The stream ends too early (lines 250, 262), holds no element (as [EString]), or
    holds one. *)
Inductive text := TEnds | TWrong | TElem (v : V).

Inductive sop :=
| SLife (k : op D V)
| SSet (i h : nat)                           (* h->set_pword(is), lines 208-212 *)
| SSetOf (i e : nat)                         (* e.parent().set_pword(is) *)
| SRead (i e : nat) (v : text) (p f x t : nat). (* is >> e; [p], [f]: the variable nf and the temporary; [x], [t]: as [EString] *)

(** get_pword, lines 216-219, as [p]. *)
Definition get_pword (s : sstate) (i p : nat) : out state :=
  match get i (words s) with
  | None => Val (put_handle D H V (base s) p None)
  | Some a => bind (add_ref D H V (base s) a) (fun b => Val (put_handle D H V b p (Some a)))
  end.

(** operator>>, lines 244-279. *)
Definition read (s : sstate) (i e : nat) (v : text) (p f x t : nat) : out (state * outcome) :=
  bind (get_pword s i p) (fun b =>                                                   (* 246 *)
  match v with
  | TEnds => bind (run1 b (HDrop p)) (fun '(b, _) => Val (b, Thrown))
  | TWrong => bind (run1 b (EString f (OfHandle p) None x t)) (fun '(b, _) =>
      bind (run1 b (HDrop p)) (fun '(b, _) => Val (b, Thrown)))
  | TElem u => bind (run1 b (EString f (OfHandle p) (Some u) x t)) (fun '(b, _) =>    (* 276 *)
      bind (run1 b (EMoveAssign e f)) (fun '(b, _) =>
      bind (run1 b (EDrop f)) (fun '(b, _) =>
      bind (run1 b (HDrop p)) (fun '(b, _) => Val (b, Done)))))
  end).

Definition set_word (s : sstate) (i a : nat) : sstate := {| base := base s; words := put i a (words s) |}.

Definition srun (s : sstate) (k : sop) : out (sstate * outcome) :=
  match k with
  | SLife k => bind (run1 (base s) k) (fun '(b, r) => Val (set_base s b, r))
  | SSet i h => bind (deref (get h (handles (base s)))) (fun a => Val (set_word s i a, Done))
  | SSetOf i e => bind (elem_at D H V (base s) e) (fun y => bind (nf_of y) (fun a => Val (set_word s i a, Done)))
  | SRead i e v p f x t => bind (read s i e v p f x t) (fun '(b, r) => Val (set_base s b, r))
  end.

Fixpoint sruns (s : sstate) (l : list sop) : out (sstate * list outcome) :=
  match l with
  | [] => Val (s, [])
  | k :: l' => bind (srun s k) (fun '(s, r) => bind (sruns s l') (fun '(s, rs) => Val (s, r :: rs)))
  end.
End Stream.
Arguments base {D H V}. Arguments words {D H V}.
Arguments TEnds {V}. Arguments TWrong {V}. Arguments TElem {V}.
Arguments SLife {D V}. Arguments SSet {D V}. Arguments SSetOf {D V}. Arguments SRead {D V}.
