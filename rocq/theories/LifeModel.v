(** Model of reference counting, the registry of fields and the storage of
    elements, in one thread: /repo/libeantic/srcxx/renf_class.cpp (CPP1) and
    /repo/libeantic/srcxx/renf_elem_class.cpp (CPP2).

    A field is known by its data [D] (polynomial, embedding, name and cached
    generator), on which the registry's hash and equality are functions; values
    of elements are of an arbitrary type [V].  Memory is explicit: a field or a
    [renf_elem_t] is alive or not, and any use of a dead one is [Undef].  The
    addresses of new memory are arguments of the operations, so that every
    allocator is covered. *)
Require Import List ZArith Bool Arith.
From Verif Require Import ArbModel.
Import ListNotations.
Open Scope Z_scope.

(** ** Finite maps *)
Section Map.
Context {A : Type}.
Fixpoint get (k : nat) (l : list (nat * A)) : option A :=
  match l with [] => None | (j, a) :: l' => if Nat.eqb j k then Some a else get k l' end.
Fixpoint del (k : nat) (l : list (nat * A)) : list (nat * A) :=
  match l with [] => [] | (j, a) :: l' => if Nat.eqb j k then del k l' else (j, a) :: del k l' end.
Definition put (k : nat) (a : A) (l : list (nat * A)) : list (nat * A) := (k, a) :: del k l.
End Map.

Inductive outcome := Done | Thrown.

Section Life.
Variables (D H V : Type).
Variable hash : D -> out (D * H).    (* fields_hasher, CPP1:39-41; it may refine the embedding *)
Variable heq : H -> H -> bool.
Variable deq : D -> D -> bool.       (* fields_equality, CPP1:47-51 *)
Variables zero one gen : D -> V.     (* the cached elements, CPP1:72-78 *)
Variable ratl : V -> bool.           (* is_rational *)
Variable conv : D -> V -> V.         (* the rational element in another field *)
Variable trivial : D.                (* make("a - 1", "a", "1 +/- 1", 64) *)
Variable debug : bool.               (* assertions compiled in *)

Record field := { fd_data : D; fd_count : Z; fd_cache : list nat }.

(** A [renf_elem_class]: the member nf (null if moved from) and the memory its
    member a owns or has owned. *)
Record obj := { ob_nf : option nat; ob_st : nat }.

Record state := {
  fields : list (nat * field);           (* live fields *)
  stores : list (nat * V);               (* live element memory *)
  registry : list (nat * H);             (* the unordered_set with its stored hashes *)
  handles : list (nat * option nat);     (* intrusive_ptr variables *)
  elems : list (nat * obj);              (* element variables *)
  static : option (option nat)           (* the static variable of CPP1:89: not reached yet, alive, destroyed *)
}.

Definition start : state :=
  {| fields := []; stores := []; registry := []; handles := []; elems := []; static := None |}.

Definition set_fields (s : state) x := {| fields := x; stores := stores s; registry := registry s; handles := handles s; elems := elems s; static := static s |}.
Definition set_stores (s : state) x := {| fields := fields s; stores := x; registry := registry s; handles := handles s; elems := elems s; static := static s |}.
Definition set_registry (s : state) x := {| fields := fields s; stores := stores s; registry := x; handles := handles s; elems := elems s; static := static s |}.
Definition set_handles (s : state) x := {| fields := fields s; stores := stores s; registry := registry s; handles := x; elems := elems s; static := static s |}.
Definition set_elems (s : state) x := {| fields := fields s; stores := stores s; registry := registry s; handles := handles s; elems := x; static := static s |}.
Definition set_static (s : state) x := {| fields := fields s; stores := stores s; registry := registry s; handles := handles s; elems := elems s; static := x |}.

Definition field_at (s : state) (a : nat) : out field :=
  match get a (fields s) with Some f => Val f | None => Undef end.
Definition put_field (s : state) (a : nat) (f : field) : state := set_fields s (put a f (fields s)).

(** Element memory: renf_elem_init (renf_elem/init.c:18-22) at a given address,
    renf_elem_clear (renf_elem/clear.c:18-22), reading and writing. *)
Definition init (s : state) (x : nat) (v : V) : state := set_stores s (put x v (stores s)).
Definition clear (s : state) (x : nat) : out state :=
  match get x (stores s) with Some _ => Val (set_stores s (del x (stores s))) | None => Undef end.
Definition read (s : state) (x : nat) : out V :=
  match get x (stores s) with Some v => Val v | None => Undef end.
Definition write (s : state) (x : nat) (v : V) : out state :=
  match get x (stores s) with Some _ => Val (set_stores s (put x v (stores s))) | None => Undef end.

(** intrusive_ptr_add_ref, CPP1:283-285. *)
Definition add_ref (s : state) (a : nat) : out state :=
  bind (field_at s a) (fun f =>
    Val (put_field s a {| fd_data := fd_data f; fd_count := fd_count f + 1; fd_cache := fd_cache f |})).

(** fetch_sub, CPP1:289: the old value. *)
Definition decrement (s : state) (a : nat) : out (state * Z) :=
  bind (field_at s a) (fun f =>
    Val (put_field s a {| fd_data := fd_data f; fd_count := fd_count f - 1; fd_cache := fd_cache f |}, fd_count f)).

(** The destructors of the cached elements (CPP2:559-564, then the member nf): a
    count of 4 would lock the mutex a second time. *)
Fixpoint clear_cache (s : state) (a : nat) (l : list nat) : out state :=
  match l with
  | [] => Val s
  | x :: l' => bind (field_at s a) (fun _ => bind (clear s x) (fun s =>
      bind (decrement s a) (fun '(s, c) => if c =? 4 then Undef else clear_cache s a l')))
  end.

(** ~renf_class, CPP1:167-172, and the release of the memory. *)
Definition destroy (s : state) (a : nat) : out state :=
  bind (field_at s a) (fun f => bind (clear_cache s a (fd_cache f)) (fun s =>
    bind (field_at s a) (fun f =>
      if debug && negb (fd_count f =? 0) then Abort else Val (set_fields s (del a (fields s)))))).

(** fields.find: the hash of the key, then the entries with the same hash and
    equal data.  Entries of dead fields are read as well. *)
Fixpoint lookup (s : state) (d : D) (h : H) (l : list (nat * H)) : out (option nat) :=
  match l with
  | [] => Val None
  | (b, h') :: l' => if heq h h' then bind (field_at s b) (fun f => if deq d (fd_data f) then Val (Some b) else lookup s d h l') else lookup s d h l'
  end.
Definition find (s : state) (a : nat) : out (state * option nat * H) :=
  bind (field_at s a) (fun f => bind (hash (fd_data f)) (fun '(d, h) =>
    let s := put_field s a {| fd_data := d; fd_count := fd_count f; fd_cache := fd_cache f |} in
    bind (lookup s d h (registry s)) (fun r => Val (s, r, h)))).

(** intrusive_ptr_release, CPP1:288-303. *)
Definition release (s : state) (a : nat) : out state :=
  bind (decrement s a) (fun '(s, c) =>
    if c =? 4 then
      bind (if debug then bind (find s a) (fun '(s, r, _) => match r with Some _ => Val s | None => Abort end) else Val s) (fun s =>
      bind (find s a) (fun '(s, r, _) =>
      destroy (match r with Some b => set_registry s (del b (registry s)) | None => s end) a))
    else Val s).

Definition add_opt (s : state) (p : option nat) : out state := match p with Some a => add_ref s a | None => Val s end.
Definition rel_opt (s : state) (p : option nat) : out state := match p with Some a => release s a | None => Val s end.

(** The constructor of renf_class, CPP1:68-79, at address [a] with memory [m] for
    the cache, and make, CPP1:94-112: the pointer returned (counted). *)
Definition construct (s : state) (d : D) (a : nat) (m : nat * nat * nat) : state :=
  let '(x, y, z) := m in
  put_field (init (init (init s x (zero d)) y (one d)) z (gen d)) a {| fd_data := d; fd_count := 3; fd_cache := [x; y; z] |}.
Definition make (s : state) (d : D) (a : nat) (m : nat * nat * nat) : out (state * nat) :=
  let s := construct s d a m in
  bind (find s a) (fun '(s, r, h) =>
    match r with
    | None => let s := set_registry s ((a, h) :: registry s) in bind (add_ref s a) (fun s => Val (s, a))
    | Some b => bind (destroy s a) (fun s => bind (add_ref s b) (fun s => Val (s, b)))
    end).

(** Memory offered for a new field: its address and that of its cache. *)
Definition room := (nat * (nat * nat * nat))%type.

(** renf_class::make(), CPP1:81-92. *)
Definition rationals (s : state) (r : room) : out (state * nat) :=
  match static s with
  | Some (Some a) => Val (s, a)
  | Some None => Undef
  | None => bind (make s trivial (fst r) (snd r)) (fun '(s, a) => Val (set_static s (Some (Some a)), a))
  end.

(** A field to construct an element in: of a handle, of another element, or the
    rational one.  Null pointers are dereferenced. *)
Inductive parent := OfHandle (h : nat) | OfElem (e : nat) | OfStatic (r : room).
Definition deref (p : option (option nat)) : out nat := match p with Some (Some a) => Val a | _ => Undef end.
Definition elem_at (s : state) (e : nat) : out obj := match get e (elems s) with Some y => Val y | None => Undef end.
Definition handle_at (s : state) (h : nat) : out (option nat) := match get h (handles s) with Some p => Val p | None => Undef end.
Definition nf_of (y : obj) : out nat := match ob_nf y with Some a => Val a | None => Undef end.
Definition parent_of (s : state) (p : parent) : out (state * nat) :=
  match p with
  | OfHandle h => bind (deref (get h (handles s))) (fun a => Val (s, a))
  | OfElem e => bind (elem_at s e) (fun y => bind (nf_of y) (fun a => Val (s, a)))
  | OfStatic r => rationals s r
  end.

(** An element to copy: a variable, or zero(), one() or gen() of the field of a
    handle (CPP1:176-189). *)
Inductive source := Var (e : nat) | Cached (h : nat) (k : nat).
Definition source_of (s : state) (q : source) : out obj :=
  match q with
  | Var e => elem_at s e
  | Cached h k => bind (deref (get h (handles s))) (fun a => bind (field_at s a) (fun f =>
      match nth_error (fd_cache f) k with Some x => Val {| ob_nf := Some a; ob_st := x |} | None => Undef end))
  end.

Definition put_elem (s : state) (e : nat) (y : obj) : state := set_elems s (put e y (elems s)).
Definition put_handle (s : state) (h : nat) (p : option nat) : state := set_handles s (put h p (handles s)).

(** ** Operations
    New variables are named by the caller. *)
Inductive op :=
(* boost::intrusive_ptr *)
| HMake (h : nat) (d : D) (r : room)
| HNull (h : nat)
| HCopy (h g : nat)                    (* copy constructor *)
| HOf (h e : nat)                      (* intrusive_ptr(&e.parent()) *)
| HMove (h g : nat)                    (* move constructor *)
| HAssign (h g : nat)
| HMoveAssign (h g : nat)
| HSwap (h g : nat)
| HDrop (h : nat)                      (* destructor *)
(* renf_elem_class *)
| ENew (e : nat) (p : parent) (v : V) (x : nat)            (* CPP2:276-279, 290-399, 451-557 *)
| EString (e : nat) (p : parent) (v : option V) (x t : nat) (* CPP2:401-437; None: the string is not read; t: its copy *)
| EConvert (e : nat) (p : parent) (q : source) (x : nat)   (* CPP2:439-449 *)
| ECopy (e : nat) (q : source) (x : nat)                   (* CPP2:281-282 *)
| EMove (e f : nat)                                        (* CPP2:284-288 *)
| EAssign (e : nat) (q : source) (x : nat)                 (* CPP2:682-692 *)
| EMoveAssign (e f : nat)                                  (* CPP2:694-705 *)
| ESwap (e f : nat)                                        (* CPP2:1394-1399 *)
| ENumber (e : nat) (v : V) (x : nat) (r : room)           (* CPP2:586-680 *)
| EWrite (e : nat) (v : V)                                 (* a C function on e.renf_elem_t() *)
| EDrop (e : nat)                                          (* CPP2:559-564 *)
| FRefine (p : parent) (d : D)                             (* the embedding is refined *)
| Exit.                                                    (* the static variable is destroyed *)

Definition done (x : out state) : out (state * outcome) := bind x (fun s => Val (s, Done)).

(** renf_elem_class(k, value), CPP2:439-449, for [k] at [a]: if it throws, the
    member nf is destroyed and the memory of a is not cleared. *)
Definition convert (s : state) (e a : nat) (q : source) (x : nat) : out (state * outcome) :=
  bind (add_ref s a) (fun s =>
  bind (source_of s q) (fun y => bind (read s (ob_st y)) (fun v =>
  bind (nf_of y) (fun b =>
  let s := init s x v in
  if Nat.eqb b a then done (Val (put_elem s e {| ob_nf := Some a; ob_st := x |}))
  else if ratl v then bind (field_at s a) (fun f => bind (write s x (conv (fd_data f) v)) (fun s => done (Val (put_elem s e {| ob_nf := Some a; ob_st := x |}))))
  else bind (release s a) (fun s => Val (s, Thrown)))))).

Definition run1 (s : state) (k : op) : out (state * outcome) :=
  match k with
  | HMake h d r => done (bind (make s d (fst r) (snd r)) (fun '(s, a) => Val (put_handle s h (Some a))))
  | HNull h => done (Val (put_handle s h None))
  | HCopy h g => done (bind (handle_at s g) (fun p => bind (add_opt s p) (fun s => Val (put_handle s h p))))
  | HOf h e => done (bind (elem_at s e) (fun y => bind (nf_of y) (fun a => bind (add_ref s a) (fun s => Val (put_handle s h (Some a))))))
  | HMove h g => done (bind (handle_at s g) (fun p => Val (put_handle (put_handle s g None) h p)))
  | HAssign h g =>                     (* intrusive_ptr(rhs).swap(this) *)
      done (bind (handle_at s g) (fun p => bind (handle_at s h) (fun p0 =>
        bind (add_opt s p) (fun s => rel_opt (put_handle s h p) p0))))
  | HMoveAssign h g =>                 (* intrusive_ptr(std::move(rhs)).swap(this) *)
      done (bind (handle_at s g) (fun p => let s := put_handle s g None in
        bind (handle_at s h) (fun p0 => rel_opt (put_handle s h p) p0)))
  | HSwap h g => done (bind (handle_at s h) (fun p => bind (handle_at s g) (fun p' => Val (put_handle (put_handle s h p') g p))))
  | HDrop h => done (bind (handle_at s h) (fun p => rel_opt (set_handles s (del h (handles s))) p))
  | ENew e p v x => done (bind (parent_of s p) (fun '(s, a) => bind (add_ref s a) (fun s =>
      Val (put_elem (init s x v) e {| ob_nf := Some a; ob_st := x |}))))
  | EString e p v x t => bind (parent_of s p) (fun '(s, a) => bind (add_ref s a) (fun s =>
      match v with
      | Some v => done (Val (put_elem (init s x v) e {| ob_nf := Some a; ob_st := x |}))
      | None =>                        (* line 430: the copy of the string stays allocated (kept among the element memory here) *)
          bind (field_at s a) (fun f => bind (release (init s t (zero (fd_data f))) a) (fun s => Val (s, Thrown)))
      end))
  | EConvert e p q x => bind (parent_of s p) (fun '(s, a) => convert s e a q x)
  | ECopy e q x => bind (source_of s q) (fun y => bind (nf_of y) (fun a => convert s e a q x))
  | EMove e f => done (bind (elem_at s f) (fun y =>
      Val (put_elem (put_elem s f {| ob_nf := None; ob_st := ob_st y |}) e y)))
  | EAssign e q x => done (bind (elem_at s e) (fun y => bind (source_of s q) (fun z =>
      match ob_nf y, ob_nf z with
      | Some a, Some b =>
          if Nat.eqb a b then bind (read s (ob_st z)) (fun v => write s (ob_st y) v)
          else bind (clear s (ob_st y)) (fun s => bind (add_ref s b) (fun s =>
            bind (release (put_elem s e {| ob_nf := Some b; ob_st := x |}) a) (fun s =>
            bind (read s (ob_st z)) (fun v => Val (init s x v)))))
      | None, Some b => bind (add_ref s b) (fun s => bind (read s (ob_st z)) (fun v =>
          Val (init (put_elem s e {| ob_nf := Some b; ob_st := x |}) x v)))
      | _, None => Undef               (* renf_elem_init or renf_elem_set with the null pointer *)
      end)))
  | EMoveAssign e f => done (bind (elem_at s e) (fun y => bind (elem_at s f) (fun z =>
      match ob_nf y with
      | Some _ => Val (put_elem (put_elem s e z) f y)
      | None => Val (put_elem (put_elem s f {| ob_nf := None; ob_st := ob_st z |}) e (if Nat.eqb e f then y else z))
      end)))
  | ESwap e f => done (bind (elem_at s e) (fun y => bind (elem_at s f) (fun z => Val (put_elem (put_elem s e z) f y))))
  | ENumber e v x r => done (bind (rationals s r) (fun '(s, q) => bind (elem_at s e) (fun y =>
      match ob_nf y with
      | Some a =>
          if Nat.eqb a q then write s (ob_st y) v
          else bind (clear s (ob_st y)) (fun s => bind (add_ref s q) (fun s =>
            bind (release (put_elem s e {| ob_nf := Some q; ob_st := x |}) a) (fun s => Val (init s x v))))
      | None => bind (add_ref s q) (fun s => Val (init (put_elem s e {| ob_nf := Some q; ob_st := x |}) x v))
      end)))
  | EWrite e v => done (bind (elem_at s e) (fun y => bind (nf_of y) (fun a => bind (field_at s a) (fun _ => write s (ob_st y) v))))
  | EDrop e => done (bind (elem_at s e) (fun y =>
      let s := set_elems s (del e (elems s)) in
      match ob_nf y with
      | Some a => bind (field_at s a) (fun _ => bind (clear s (ob_st y)) (fun s => release s a))
      | None => Val s
      end))
  | FRefine p d => done (bind (parent_of s p) (fun '(s, a) => bind (field_at s a) (fun f =>
      Val (put_field s a {| fd_data := d; fd_count := fd_count f; fd_cache := fd_cache f |}))))
  | Exit => done (match static s with
      | Some (Some a) => release (set_static s (Some None)) a
      | _ => Val (set_static s (Some None))
      end)
  end.

Fixpoint runs (s : state) (l : list op) : out (state * list outcome) :=
  match l with
  | [] => Val (s, [])
  | k :: l' => bind (run1 s k) (fun '(s, r) => bind (runs s l') (fun '(s, rs) => Val (s, r :: rs)))
  end.

End Life.

Arguments fields {D H V}. Arguments stores {D H V}. Arguments registry {D H V}.
Arguments handles {D H V}. Arguments elems {D H V}. Arguments static {D H V}.
Arguments fd_data {D}. Arguments fd_count {D}. Arguments fd_cache {D}.
Arguments HMake {D V}. Arguments HNull {D V}. Arguments HCopy {D V}. Arguments HOf {D V}. Arguments HMove {D V}.
Arguments HAssign {D V}. Arguments HMoveAssign {D V}. Arguments HSwap {D V}. Arguments HDrop {D V}.
Arguments ENew {D V}. Arguments EString {D V}. Arguments EConvert {D V}. Arguments ECopy {D V}. Arguments EMove {D V}.
Arguments EAssign {D V}. Arguments EMoveAssign {D V}. Arguments ESwap {D V}. Arguments ENumber {D V}. Arguments EWrite {D V}.
Arguments EDrop {D V}. Arguments FRefine {D V}. Arguments Exit {D V}.
