(** Model of making a field from strings and of archives:
    /repo/libeantic/srcxx/renf_class.cpp:114-165 (make), 191-201 (construction)
    and /repo/libeantic/e-antic/cereal.hpp.

    External and given as parameters: arb_set_str ([None]: error), arb_get_str,
    fmpq_poly_get_str_pretty.  An exception is a normal result [Throw]. *)
Require Import List ZArith Bool Ascii.
From Verif Require Import Dyadic ArbModel ElemModel GetdModel StrModel CxxModel.
Import ListNotations.
Open Scope Z_scope.

Section Make.
Variable o : arbops.
Variable debug : bool.
Variable zero_den : Z -> out (option (Z * Z)).   (* fmpq_set_str with denominator 0, as in StrModel.v *)
Variable read_ball : str -> Z -> option ball.    (* arb_set_str *)
Variable fuel : nat.                             (* for the loops inside the C functions *)

(** renf_class.cpp:124-165: the field, and the number of temporaries (polynomial
    and ball) that are not cleared.  [emb] is the callback, which may throw; [n]
    bounds the number of iterations.  FLINT wants at least two bits; doubling the
    precision may overflow.  The registry (line 159) is in LifeModel.v. *)
Fixpoint make_loop (n : nat) (minpoly gen : str) (emb : Z -> exc str) (prec : Z) : out (exc renf * nat) :=
  match n with
  | O => Fuel
  | S n' =>
      bind (set_str zero_den gen minpoly) (fun r =>                       (* lines 130-135 *)
        match r with
        | None => Val (Throw, O)
        | Some p =>
            match emb prec with                                           (* line 138 *)
            | Throw => Val (Throw, 2%nat)
            | Ret s =>
                if prec <? 2 then Undef
                else
                  match read_ball s prec with
                  | None => Val (Throw, O)                                (* lines 139-143 *)
                  | Some e =>
                      bind (check_unique o fuel (e_num p) e prec) (fun ok =>
                        if ok then                                        (* lines 153-163 *)
                          bind (renf_init o debug fuel (e_num p) (e_den p) e prec) (fun nf => Val (Ret nf, O))
                        else if WORD_MAX <? 2 * prec then Undef
                        else make_loop n' minpoly gen emb (2 * prec))     (* lines 145-151 *)
                  end
            end
        end)
  end.

(** renf_class.cpp:114-122. *)
Definition fixed (emb : str) (prec p : Z) : exc str := if p =? prec then Ret emb else Throw.
Definition make_str (n : nat) (minpoly gen emb : str) (prec : Z) : out (exc renf * nat) :=
  make_loop n minpoly gen (fixed emb prec) prec.

(** ** Archives *)
Variable print_ball : ball -> Z -> str.          (* arb_get_str without flags: the ball, the number of digits *)
Variable print_poly : str -> elem -> str.        (* fmpq_poly_get_str_pretty *)
Variable print_elem : str -> elem -> str.        (* nf_elem_get_str_pretty, as in StrModel.v *)

(** A field as an object: its address, name and value. *)
Record place := { pl_addr : nat; pl_name : str; pl_nf : renf }.
Definition pol_of (nf : renf) : elem := {| e_num := f_pol nf; e_den := f_den nf |}.

(** construction, renf_class.cpp:191-201: polynomial, name, embedding, precision. *)
Definition construction (p : place) : str * str * str * Z :=
  (print_poly (pl_name p) (pol_of (pl_nf p)), pl_name p,
   print_ball (f_emb (pl_nf p)) (mid_bits (f_emb (pl_nf p))), f_prec (pl_nf p)).

(** What is written: identifiers with the mark of a first occurrence, strings,
    numbers.  An archive of any kind gives the values back in their order; an
    identifier is below 2^31. *)
Inductive tok := TId (first : bool) (id : nat) | TText (s : str) | TNum (z : Z).

(** OutputArchive::registerSharedPointer of cereal: the identifier of an address;
    [known] are the addresses seen, in their order. *)
Fixpoint index_of (a : nat) (l : list nat) : option nat :=
  match l with
  | [] => None
  | b :: l' => if Nat.eqb b a then Some O else match index_of a l' with Some i => Some (S i) | None => None end
  end.

(** save of a field, cereal.hpp:29-54. *)
Definition save_field (known : list nat) (p : place) : list nat * list tok :=
  match index_of (pl_addr p) known with
  | Some i => (known, [TId false (S i)])
  | None =>
      let '(pol, name, emb, prec) := construction p in
      (known ++ [pl_addr p], [TId true (S (length known)); TText name; TText emb; TText pol; TNum prec])
  end.

(** save of an element, cereal.hpp:127-134.  An element is given by its parent, as
    it is when the element is saved, and its exact value. *)
Definition save_elem (known : list nat) (x : place * elem) : list nat * list tok :=
  let '(known, l) := save_field known (fst x) in
  (known, l ++ [TText (print_elem (pl_name (fst x)) (snd x))]).
Fixpoint save_all (known : list nat) (l : list (place * elem)) : list tok :=
  match l with
  | [] => []
  | x :: l' => let '(known, t) := save_elem known x in t ++ save_all known l'
  end.

(** The loading process: the fields of the registry (name and value; an element
    refers to its field by the position) and the pointers of
    InputArchive::registerSharedPointer. *)
Record loader := { ld_pool : list (str * renf); ld_ids : list (nat * nat) }.

Fixpoint str_eqb (s t : str) : bool :=
  match s, t with
  | [], [] => true
  | a :: s', b :: t' => Ascii.eqb a b && str_eqb s' t'
  | _, _ => false
  end.

(** fields_equality, renf_class.cpp:47-51, and the search in the registry,
    renf_class.cpp:94-112 (the hash is left out). *)
Definition same_key (f g : str * renf) : bool := renf_equal (snd f) (snd g) && str_eqb (fst f) (fst g).
Fixpoint find_field (f : str * renf) (l : list (str * renf)) : option nat :=
  match l with
  | [] => None
  | g :: l' => if same_key f g then Some O else match find_field f l' with Some i => Some (S i) | None => None end
  end.
Definition enter (f : str * renf) (pool : list (str * renf)) : list (str * renf) * nat :=
  match find_field f pool with
  | Some i => (pool, i)
  | None => (pool ++ [f], length pool)
  end.

(** getSharedPointer of cereal. *)
Fixpoint id_at (i : nat) (l : list (nat * nat)) : option nat :=
  match l with
  | [] => None
  | (j, f) :: l' => if Nat.eqb j i then Some f else id_at i l'
  end.

(** load of a field, cereal.hpp:91-124: the position of the field, the loader and
    the tokens left; tokens of another kind throw. *)
Definition load_field (n : nat) (ld : loader) (ts : list tok) : out (exc (nat * loader * list tok)) :=
  match ts with
  | TId true id :: TText name :: TText emb :: TText pol :: TNum prec :: r =>
      bind (make_str n pol name emb prec) (fun m =>
        match fst m with
        | Throw => Val Throw
        | Ret nf =>
            let '(pool, i) := enter (name, nf) (ld_pool ld) in
            Val (Ret (i, {| ld_pool := pool; ld_ids := (id, i) :: ld_ids ld |}, r))
        end)
  | TId false id :: r =>
      match id_at id (ld_ids ld) with
      | Some i => Val (Ret (i, ld, r))
      | None => Val Throw
      end
  | _ => Val Throw
  end.

Variable ops : list Z -> nfops.   (* antic's arithmetic modulo a polynomial *)

(** load of an element, cereal.hpp:136-147. *)
Definition load_elem (n : nat) (ld : loader) (ts : list tok) : out (exc (nat * elem * loader * list tok)) :=
  ebind (load_field n ld ts) (fun '(i, ld, r) =>
    match r, nth_error (ld_pool ld) i with
    | TText s :: r, Some (name, nf) =>
        bind (of_string zero_den (ops (f_pol nf)) name s) (fun e =>
          match e with
          | Some e => Val (Ret (i, e, ld, r))
          | None => Val Throw
          end)
    | _, _ => Val Throw
    end).
Fixpoint load_all (n k : nat) (ld : loader) (ts : list tok) : out (exc (list (nat * elem) * loader)) :=
  match k with
  | O => Val (Ret ([], ld))
  | S k' =>
      ebind (load_elem n ld ts) (fun '(i, e, ld, r) =>
      ebind (load_all n k' ld r) (fun '(l, ld) => Val (Ret ((i, e) :: l, ld))))
  end.
End Make.
