(** Model of the C functions that build strings in memory:
    /repo/libeantic/src/renf/get_str.c and
    /repo/libeantic/src/renf_elem/get_str_pretty.c.

    A block of memory is the list of its bytes, [None] when uninitialized.  The
    texts of antic and arb are given as byte lists; they are C strings, so no
    byte is zero.  Allocation succeeds; sizes are unbounded. *)
Require Import List ZArith Bool Ascii String.
From Verif Require Import ArbModel StrModel.
Import ListNotations.

Definition block := list (option ascii).
Definition nul : ascii := zero.

(** malloc and calloc of [n] bytes; realloc keeps what fits. *)
Definition malloc (n : nat) : block := repeat None n.
Definition calloc (n : nat) : block := repeat (Some nul) n.
Definition realloc (b : block) (n : nat) : block := firstn n b ++ repeat None (n - List.length b).

(** Reading or writing outside the block or reading an uninitialized byte is
    undefined. *)
Fixpoint strlen (b : block) : out nat :=
  match b with
  | Some c :: b' => if Ascii.eqb c nul then Val O else bind (strlen b') (fun n => Val (S n))
  | _ => Undef
  end.
Definition store (b : block) (i : nat) (s : str) : out block :=
  if Nat.leb (i + List.length s) (List.length b)
  then Val (firstn i b ++ map Some s ++ skipn (i + List.length s) b)
  else Undef.
Definition strcpy (b : block) (s : str) : out block := store b 0 (s ++ [nul]).
Definition strcat (b : block) (s : str) : out block := bind (strlen b) (fun n => store b n (s ++ [nul])).

(** get_str.c:19-33; [p], [e]: fmpq_poly_get_str_pretty and arb_get_str. *)
Definition renf_get_str (p e : str) : out block :=
  let res := calloc (15 + List.length p + List.length e + 1) in
  bind (store res 0 [nul]) (fun res =>
  bind (strcat res (list_ascii_of_string "NumberField(")) (fun res =>
  bind (strcat res p) (fun res =>
  bind (strcat res (list_ascii_of_string ", ")) (fun res =>
  bind (strcat res e) (fun res =>
  strcat res (list_ascii_of_string ")")))))).

(** The double found by renf_elem_get_d, as far as printing cares. *)
Inductive double_text := MinusInf | PlusInf | Finite (s : str).

(** The text that later calls of strlen and strcat find in a block. *)
Fixpoint text_at (b : block) : out str :=
  match b with
  | Some c :: b' => if Ascii.eqb c nul then Val [] else bind (text_at b') (fun s => Val (c :: s))
  | _ => Undef
  end.

(** get_str_pretty.c:54-86. *)
Definition copy (s : str) : out str := bind (strcpy (malloc (List.length s + 1)) s) text_at.
Definition double_str (d : double_text) : out str :=
  match d with
  | MinusInf => copy (list_ascii_of_string "-inf")
  | PlusInf => copy (list_ascii_of_string "inf")
  | Finite s => Val s
  end.

(** get_str_pretty.c:28-105; [s]: nf_elem_get_str_pretty, [b]: arb_get_str of the
    enclosure; the booleans are the flags EANTIC_STR_ALG, _D, _ARB. *)
Definition elem_get_str (s : str) (d : double_text) (b : str) (alg dbl arb : bool) : out block :=
  let t := malloc 1 in
  bind (store t 0 [nul]) (fun t =>                                           (* 32-33 *)
  bind (if alg then                                                          (* 35-53 *)
          if dbl || arb then
            bind (strcat (realloc t (List.length s + 4)) s) (fun t => strcat t (list_ascii_of_string " ~ "))
          else strcat (realloc t (List.length s + 1)) s
        else Val t) (fun t =>
  if dbl then                                                                (* 55-95 *)
    bind (double_str d) (fun x =>
    bind (strlen t) (fun n => strcat (realloc t (n + List.length x + 1)) x))
  else if arb then                                                           (* 96-102 *)
    bind (strlen t) (fun n => strcat (realloc t (n + List.length b + 1)) b)
  else Val t)).
