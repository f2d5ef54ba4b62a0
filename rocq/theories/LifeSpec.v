(** What lifetimes and values of elements should be. *)
Require Import List ZArith Bool.
From Verif Require Import ArbModel LifeModel.
Import ListNotations.

Section Spec.
Context {D H V : Type}.
Notation state := (state D H V).
Notation op := (op D V).

(** Contract of the registry's hash and equality: fields belong to classes (same
    polynomial, root and name), fields are equal if of the same class, and hashes
    [hof k] of the fields of class [k] are equal, whatever has been refined. *)
Record registry_ok {K : Type} (good : D -> Prop) (cls : D -> K) (hof : K -> H -> Prop)
    (hash : D -> out (D * H)) (heq : H -> H -> bool) (deq : D -> D -> bool) : Prop := {
  ro_hash : forall d, good d -> match hash d with
    | Val (d', h) => good d' /\ cls d' = cls d /\ hof (cls d) h | Fuel => True | _ => False end;
  ro_heq : forall k h h', hof k h -> hof k h' -> heq h h' = true;
  ro_deq : forall d d', good d -> good d' -> (deq d d' = true <-> cls d = cls d')
}.

(** A variable refers to the field at [a]. *)
Definition referenced (s : state) (a : nat) : Prop :=
  (exists h, get h (handles s) = Some (Some a)) \/
  (exists e y, get e (elems s) = Some y /\ ob_nf y = Some a) \/
  static s = Some (Some a).
Definition field_alive (s : state) (a : nat) : Prop := get a (fields s) <> None.
Definition data_at (s : state) (a : nat) (d : D) : Prop := exists f, get a (fields s) = Some f /\ fd_data f = d.

(** The memory at [x] belongs to an element variable or to a field's cache. *)
Definition owned (s : state) (x : nat) : Prop :=
  (exists e y, get e (elems s) = Some y /\ ob_nf y <> None /\ ob_st y = x) \/
  (exists a f, get a (fields s) = Some f /\ In x (fd_cache f)).
Definition memory_alive (s : state) (x : nat) : Prop := get x (stores s) <> None.

(** No variables left. *)
Definition all_gone (s : state) : Prop :=
  handles s = [] /\ elems s = [] /\ forall a, static s <> Some (Some a).

(** Field and value of an element; [None] if there is no such variable or it has
    been moved from. *)
Definition content (s : state) (e : nat) : option (nat * V) :=
  match get e (elems s) with
  | Some y => match ob_nf y, get (ob_st y) (stores s) with Some a, Some v => Some (a, v) | _, _ => None end
  | None => None
  end.
Definition pointee (s : state) (h : nat) : option nat := match get h (handles s) with Some p => p | None => None end.
Definition source_content (s : state) (q : source) : option (nat * V) :=
  match q with
  | Var e => content s e
  | Cached h k =>
      match pointee s h with
      | Some a => match get a (fields s) with
        | Some f => match nth_error (fd_cache f) k with
          | Some x => match get x (stores s) with Some v => Some (a, v) | None => None end
          | None => None end
        | None => None end
      | None => None end
  end.
Definition same_elems (s s' : state) (l : list nat) : Prop :=
  forall j, ~ In j l -> get j (elems s') = get j (elems s) /\ content s' j = content s j.
Definition same_handles (s s' : state) (l : list nat) : Prop := forall j, ~ In j l -> get j (handles s') = get j (handles s).

(** ** Legal operations: existing variables, new names, free memory. *)
Definition free (s : state) (l : list nat) : Prop := NoDup l /\ forall x, In x l -> get x (stores s) = None.
Definition cells (r : room) : list nat := let '(_, (x, y, z)) := r in [x; y; z].
Definition room_free (s : state) (r : room) (l : list nat) : Prop := get (fst r) (fields s) = None /\ free s (l ++ cells r).
Definition has_handle (s : state) (h : nat) : Prop := get h (handles s) <> None.
Definition new_handle (s : state) (h : nat) : Prop := get h (handles s) = None.
Definition has_elem (s : state) (e : nat) : Prop := get e (elems s) <> None.
Definition new_elem (s : state) (e : nat) : Prop := get e (elems s) = None.
(** The element has not been moved from. *)
Definition filled (s : state) (e : nat) : Prop := exists y, get e (elems s) = Some y /\ ob_nf y <> None.
Definition running (s : state) : Prop := static s <> Some None.

Definition parent_ok (s : state) (p : parent) (l : list nat) : Prop :=
  match p with
  | OfHandle h => pointee s h <> None /\ free s l
  | OfElem e => filled s e /\ free s l
  | OfStatic r => running s /\ room_free s r l
  end.
Definition source_ok (s : state) (q : source) : Prop :=
  match q with Var e => filled s e | Cached h k => pointee s h <> None /\ (k < 3)%nat end.

Section Legal.
Context {K : Type}.
Variables (good : D -> Prop) (cls : D -> K).

(** [refines s p d]: [d] is of the same class as the field. *)
Definition refines (s : state) (p : parent) (d : D) : Prop :=
  match p with
  | OfHandle h => exists a d0, pointee s h = Some a /\ data_at s a d0 /\ cls d = cls d0
  | OfElem e => exists a v d0, content s e = Some (a, v) /\ data_at s a d0 /\ cls d = cls d0
  | OfStatic _ => exists a d0, static s = Some (Some a) /\ data_at s a d0 /\ cls d = cls d0
  end.

Definition legal (s : state) (k : op) : Prop :=
  match k with
  | HMake h d r => new_handle s h /\ good d /\ room_free s r []
  | HNull h => new_handle s h
  | HCopy h g | HMove h g => new_handle s h /\ has_handle s g
  | HOf h e => new_handle s h /\ filled s e
  | HAssign h g | HMoveAssign h g | HSwap h g => has_handle s h /\ has_handle s g
  | HDrop h => has_handle s h
  | ENew e p _ x => new_elem s e /\ parent_ok s p [x]
  | EString e p _ x t => new_elem s e /\ parent_ok s p [x; t]
  | EConvert e p q x => new_elem s e /\ parent_ok s p [x] /\ source_ok s q
  | ECopy e q x => new_elem s e /\ source_ok s q /\ free s [x]
  | EMove e f => new_elem s e /\ has_elem s f
  | EAssign e q x => has_elem s e /\ source_ok s q /\ free s [x]
  | EMoveAssign e f | ESwap e f => has_elem s e /\ has_elem s f
  | ENumber e _ x r => has_elem s e /\ running s /\ room_free s r [x]
  | EWrite e _ => filled s e
  | EDrop e => has_elem s e
  | FRefine p d => good d /\ refines s p d
  | Exit => running s
  end.

(** The states of all programs that stick to legal operations, with the outcomes
    so far. *)
Inductive reachable (run : state -> op -> out (state * outcome)) : state -> list outcome -> Prop :=
| re_start : reachable run (start D H V) []
| re_step : forall s rs k s' r, reachable run s rs -> legal s k -> run s k = Val (s', r) -> reachable run s' (r :: rs).
End Legal.

(** ** Effects on the variables. *)
Definition parent_is (s s' : state) (p : parent) (a : nat) : Prop :=
  match p with
  | OfHandle h => pointee s h = Some a
  | OfElem e => exists v, content s e = Some (a, v)
  | OfStatic _ => static s' = Some (Some a)
  end.

Definition effect (ratl : V -> bool) (conv : D -> V -> V) (s : state) (k : op) (s' : state) (r : outcome) : Prop :=
  match k with
  | HMake h _ _ => r = Done /\ same_elems s s' [] /\ same_handles s s' [h] /\ pointee s' h <> None
  | HNull h => r = Done /\ same_elems s s' [] /\ same_handles s s' [h] /\ has_handle s' h /\ pointee s' h = None
  | HCopy h g | HAssign h g =>
      r = Done /\ same_elems s s' [] /\ same_handles s s' [h] /\ has_handle s' h /\ pointee s' h = pointee s g
  | HOf h e => r = Done /\ same_elems s s' [] /\ same_handles s s' [h] /\ exists v, content s e = option_map (fun a => (a, v)) (pointee s' h)
  | HMove h g => r = Done /\ same_elems s s' [] /\ same_handles s s' [h; g] /\ has_handle s' h /\ pointee s' h = pointee s g /\ has_handle s' g
  | HMoveAssign h g =>
      r = Done /\ same_elems s s' [] /\ same_handles s s' [h; g] /\ has_handle s' h /\ (h <> g -> pointee s' h = pointee s g) /\ has_handle s' g
  | HSwap h g => r = Done /\ same_elems s s' [] /\ same_handles s s' [h; g] /\ pointee s' h = pointee s g /\ pointee s' g = pointee s h
  | HDrop h => r = Done /\ same_elems s s' [] /\ same_handles s s' [h] /\ ~ has_handle s' h
  | ENew e p v _ => r = Done /\ same_handles s s' [] /\ same_elems s s' [e] /\ exists a, parent_is s s' p a /\ content s' e = Some (a, v)
  | EString e p v _ _ => same_handles s s' [] /\ same_elems s s' [e] /\
      match v with
      | Some v => r = Done /\ exists a, parent_is s s' p a /\ content s' e = Some (a, v)
      | None => r = Thrown /\ ~ has_elem s' e
      end
  | EConvert e p q _ => same_handles s s' [] /\ same_elems s s' [e] /\
      exists a b v d, parent_is s s' p a /\ source_content s q = Some (b, v) /\ data_at s' a d /\
        (if Nat.eqb b a then r = Done /\ content s' e = Some (a, v)
         else if ratl v then r = Done /\ content s' e = Some (a, conv d v)
         else r = Thrown /\ ~ has_elem s' e)
  | ECopy e q _ => r = Done /\ same_handles s s' [] /\ same_elems s s' [e] /\ source_content s q <> None /\ content s' e = source_content s q
  | EAssign e q _ => r = Done /\ same_handles s s' [] /\ same_elems s s' [e] /\ source_content s q <> None /\ content s' e = source_content s q
  | EMove e f => r = Done /\ same_handles s s' [] /\ same_elems s s' [e; f] /\ content s' e = content s f /\ has_elem s' e /\ has_elem s' f
  | EMoveAssign e f => r = Done /\ same_handles s s' [] /\ same_elems s s' [e; f] /\ content s' e = content s f /\ has_elem s' e /\ has_elem s' f
  | ESwap e f => r = Done /\ same_handles s s' [] /\ same_elems s s' [e; f] /\ content s' e = content s f /\ content s' f = content s e
  | ENumber e v _ _ => r = Done /\ same_handles s s' [] /\ same_elems s s' [e] /\ exists q, static s' = Some (Some q) /\ content s' e = Some (q, v)
  | EWrite e v => r = Done /\ same_handles s s' [] /\ same_elems s s' [e] /\ exists a u, content s e = Some (a, u) /\ content s' e = Some (a, v)
  | EDrop e => r = Done /\ same_handles s s' [] /\ same_elems s s' [e] /\ ~ has_elem s' e
  | FRefine p d => r = Done /\ same_handles s s' [] /\ same_elems s s' []
  | Exit => r = Done /\ same_handles s s' [] /\ same_elems s s' []
  end.
End Spec.
