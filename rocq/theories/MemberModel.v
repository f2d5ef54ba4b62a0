(** Model of the memory that fields and elements own:
    /repo/libeantic/src/renf/{init,init_set,clear}.c and renf_elem/{init,clear}.c.

    A renf has the members nf, der and emb, a renf_elem the members elem and emb, each
    with memory of its own.  nf_elem_init chooses among three representations by the
    length of the polynomial of the field it is given, and nf_elem_clear and the
    operations again go by the field they are given; with another representation than
    that of the element they are undefined.  Using or releasing a member that is not
    initialized is undefined; initializing a member again loses its memory.  The values
    of the members are in ElemModel.v, except for the length of the polynomial. *)
Require Import List ZArith Bool Arith.
From Verif Require Import RootModel Dyadic ArbModel.
Import ListNotations.
Open Scope nat_scope.

Inductive rep := RLinear | RQuadratic | RGeneric.
(** nf.c of antic: NF_LINEAR, NF_QUADRATIC or NF_GENERIC. *)
Definition rep_of (len : nat) : rep := if len <=? 2 then RLinear else if len =? 3 then RQuadratic else RGeneric.
Definition rep_eqb (r s : rep) : bool :=
  match r, s with RLinear, RLinear | RQuadratic, RQuadratic | RGeneric, RGeneric => true | _, _ => false end.

(** Members of field number f and of element number e. *)
Inductive slot := FNf (f : nat) | FDer (f : nat) | FEmb (f : nat) | EElem (e : nat) | EEmb (e : nat).
Definition slot_eqb (s t : slot) : bool :=
  match s, t with
  | FNf a, FNf b | FDer a, FDer b | FEmb a, FEmb b | EElem a, EElem b | EEmb a, EEmb b => a =? b
  | _, _ => false
  end.
Inductive content := CNf (len : nat) | CPoly | CArb | CElem (r : rep).

(** The initialized members and how often memory was lost. *)
Record heap := { h_at : slot -> option content; h_lost : nat }.
Definition put_at (s : slot) (v : option content) (h : heap) : slot -> option content :=
  fun t => if slot_eqb s t then v else h_at h t.
Definition alloc (s : slot) (v : content) (h : heap) : heap :=
  {| h_at := put_at s (Some v) h; h_lost := h_lost h + match h_at h s with Some _ => 1 | None => 0 end |}.
Definition release (s : slot) (ok : content -> bool) (h : heap) : out heap :=
  match h_at h s with
  | Some v => if ok v then Val {| h_at := put_at s None h; h_lost := h_lost h |} else Undef
  | None => Undef
  end.
Definition use (s : slot) (ok : content -> bool) (h : heap) : out heap :=
  match h_at h s with Some v => if ok v then Val h else Undef | None => Undef end.

Definition is_nf (v : content) : bool := match v with CNf _ => true | _ => false end.
Definition is_poly (v : content) : bool := match v with CPoly => true | _ => false end.
Definition is_arb (v : content) : bool := match v with CArb => true | _ => false end.
Definition is_elem (r : rep) (v : content) : bool := match v with CElem s => rep_eqb r s | _ => false end.
Definition len_of (f : nat) (h : heap) : out nat := match h_at h (FNf f) with Some (CNf l) => Val l | _ => Undef end.

(** renf_refine_embedding and other readers of a field. *)
Definition use_field (f : nat) (h : heap) : out heap :=
  bind (use (FNf f) is_nf h) (fun h => bind (use (FDer f) is_poly h) (use (FEmb f) is_arb)).

(** renf/init.c:19-44; [unique] is the outcome of the check. *)
Definition field_init (f len : nat) (unique : bool) (h : heap) : out heap :=
  if negb unique then Abort
  else
    let h := alloc (FEmb f) CArb h in
    let h := alloc (FNf f) (CNf len) h in
    let h := alloc (FDer f) CPoly h in
    match rep_of len with RLinear => Val h | _ => use_field f h end.

(** renf/init_set.c:16-28. *)
Definition field_init_set (f g : nat) (h : heap) : out heap :=
  bind (use (FEmb g) is_arb (alloc (FEmb f) CArb h)) (fun h =>
  bind (len_of g h) (fun l => use (FDer g) is_poly (alloc (FDer f) CPoly (alloc (FNf f) (CNf l) h)))).

(** renf/clear.c:16-21. *)
Definition field_clear (f : nat) (h : heap) : out heap :=
  bind (release (FNf f) is_nf h) (fun h => bind (release (FDer f) is_poly h) (release (FEmb f) is_arb)).

(** renf_elem/init.c:17-21, clear.c:17-21. *)
Definition elem_init (e f : nat) (h : heap) : out heap :=
  bind (len_of f h) (fun l => Val (alloc (EEmb e) CArb (alloc (EElem e) (CElem (rep_of l)) h))).
Definition elem_clear (e f : nat) (h : heap) : out heap :=
  bind (len_of f h) (fun l => bind (release (EElem e) (is_elem (rep_of l)) h) (release (EEmb e) is_arb)).

(** Any operation on an element, which may refine the field. *)
Definition elem_use (e f : nat) (h : heap) : out heap :=
  bind (use_field f h) (fun h => bind (len_of f h) (fun l =>
  bind (use (EElem e) (is_elem (rep_of l)) h) (use (EEmb e) is_arb))).

(** Programs of clients. *)
Inductive mcall := MInit (f len : nat) (unique : bool) | MCopy (f g : nat) | MClear (f : nat) | MRefine (f : nat)
| MElem (e f : nat) | MElemClear (e f : nat) | MElemUse (e f : nat).
Definition mstep (c : mcall) (h : heap) : out heap :=
  match c with
  | MInit f l u => field_init f l u h
  | MCopy f g => field_init_set f g h
  | MClear f => field_clear f h
  | MRefine f => use_field f h
  | MElem e f => elem_init e f h
  | MElemClear e f => elem_clear e f h
  | MElemUse e f => elem_use e f h
  end.
Fixpoint mrun (l : list mcall) (h : heap) : out heap :=
  match l with [] => Val h | c :: l => bind (mstep c h) (mrun l) end.
Definition mempty : heap := {| h_at := fun _ => None; h_lost := 0 |}.
