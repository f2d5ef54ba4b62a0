(** Model of /repo/libeantic/src/fmpz_poly_extra/isolate_real_roots.c with the arrays
    that the caller provides, which may be NULL: entries are read and written by index,
    outside of the arrays this is undefined.  The exact roots, fractions in the code, are
    dyadic numbers as in RootModel.v.  The polynomials are lists as there. *)
Require Import List ZArith Bool.
From Verif Require Import RootModel ArbModel.
Import ListNotations.
Open Scope Z_scope.

Section Arrays.
Context {A : Type}.
Definition rd (l : list A) (i : nat) : out A := match nth_error l i with Some v => Val v | None => Undef end.
Definition wr (l : list A) (i : nat) (v : A) : out (list A) :=
  if (i <? length l)%nat then Val (firstn i l ++ v :: skipn (S i) l) else Undef.
Definition upd (f : A -> A) (i : nat) (l : list A) : out (list A) := bind (rd l i) (fun v => wr l i (f v)).
Definition swp (i j : nat) (l : list A) : out (list A) :=
  bind (rd l i) (fun v => bind (rd l j) (fun w => bind (wr l i w) (fun l => wr l j v))).
End Arrays.

(** for (i = ...; n times; i++) *)
Fixpoint times {S : Type} (n i : nat) (f : nat -> S -> out S) (s : S) : out S :=
  match n with O => Val s | Datatypes.S n => bind (f i s) (times n (Datatypes.S i) f) end.

(** The arrays exact_roots, c_array and k_array, [None] for NULL, and what n_exact and
    n_interval point to. *)
Record arrs := { a_ex : option (list dyadic); a_c : option (list Z); a_k : option (list Z); a_nex : nat; a_nint : nat }.

(** The functions on the arrays only do something if the arrays are there. *)
Definition on_ex (f : list dyadic -> out (list dyadic)) (s : arrs) : out arrs :=
  match a_ex s with
  | None => Val s
  | Some l => bind (f l) (fun l => Val {| a_ex := Some l; a_c := a_c s; a_k := a_k s; a_nex := a_nex s; a_nint := a_nint s |})
  end.
Definition on_ints (f : list Z * list Z -> out (list Z * list Z)) (s : arrs) : out arrs :=
  match a_c s, a_k s with
  | Some c, Some k => bind (f (c, k)) (fun '(c, k) => Val {| a_ex := a_ex s; a_c := Some c; a_k := Some k; a_nex := a_nex s; a_nint := a_nint s |})
  | _, _ => Val s
  end.
Definition set_nex (n : nat) (s : arrs) : arrs := {| a_ex := a_ex s; a_c := a_c s; a_k := a_k s; a_nex := n; a_nint := a_nint s |}.
Definition set_nint (n : nat) (s : arrs) : arrs := {| a_ex := a_ex s; a_c := a_c s; a_k := a_k s; a_nex := a_nex s; a_nint := n |}.

(** isolate_real_roots.c:53-66. *)
Fixpoint strip_arr (c k : Z) (p : list Z) (s : arrs) : out (list Z * arrs) :=
  match p with
  | [] => Val ([], s)
  | a :: q =>
      if a =? 0 then
        bind (on_ex (fun l => wr l (a_nex s) (c, - k)) s) (fun s => strip_arr c k q (set_nex (S (a_nex s)) s))
      else Val (p, s)
  end.

(** Lines 80-88. *)
Definition got_arr (c k : Z) (s : arrs) : out arrs :=
  bind (on_ints (fun '(cs, ks) => bind (wr cs (a_nint s) c) (fun cs => bind (wr ks (a_nint s) (- k)) (fun ks => Val (cs, ks)))) s)
    (fun s => Val (set_nint (S (a_nint s)) s)).

(** Lines 29-119. *)
Fixpoint vca_arr (fuel : nat) (c k : Z) (p : list Z) (s : arrs) : out arrs :=
  match fuel with
  | O => Fuel
  | S f =>
      bind (strip_arr c k p s) (fun '(p, s) =>
      let next (s : arrs) :=
        let c := c + 1 in
        let i := Z.of_nat (val2 c) in
        if k =? i then Val s
        else
          let p := tshift 1 p in
          if i =? 0 then vca_arr f c k p s
          else vca_arr f (c / 2 ^ i) (k - i) (scale2 i p) s in
      match descartes01 p 2 with
      | DUndef => Undef
      | DTooMany | DCount 2 => vca_arr f (2 * c) (k + 1) (scale2 (-1) p) s
      | DCount 1 => bind (got_arr c k s) next
      | DCount 0 => next s
      | DCount _ => Abort
      end)
  end.

Section Isolate.
Variable flog0 : Z.

(** Lines 148-184: intervals and exact roots of P(-x) are turned and reversed in place. *)
Definition neg_arr (k : Z) (s : arrs) : out arrs :=
  bind (on_ints (fun ck =>
    bind (times (a_nint s) 0 (fun i '(cs, ks) => bind (upd (fun c => - (c + 1)) i cs) (fun cs => bind (upd (fun e => e + k) i ks) (fun ks => Val (cs, ks)))) ck)
      (times (a_nint s / 2) 0 (fun i '(cs, ks) => bind (swp i (a_nint s - i - 1) cs) (fun cs => bind (swp i (a_nint s - i - 1) ks) (fun ks => Val (cs, ks)))))) s) (fun s =>
  on_ex (fun l =>
    bind (times (a_nex s) 0 (fun i => upd (fun d => dy_shift k (dy_opp d)) i) l)
      (times (a_nex s / 2) 0 (fun i => swp i (a_nex s - i - 1)))) s).

(** Lines 188-193. *)
Definition zeros_arr (nz : nat) (s : arrs) : out arrs :=
  bind (on_ex (times nz (a_nex s) (fun i l => wr l i (0, 0))) s) (fun s => Val (set_nex (a_nex s + nz) s)).

(** Lines 202-219; [ni] and [ne] are n_neg and n_neg_exact + n_zeros. *)
Definition pos_arr (k : Z) (ni ne : nat) (s : arrs) : out arrs :=
  bind (on_ints (times (a_nint s - ni) ni (fun i '(cs, ks) => bind (upd (fun e => e + k) i ks) (fun ks => Val (cs, ks)))) s) (fun s =>
  on_ex (times (a_nex s - ne) ne (fun i => upd (dy_shift k) i)) s).

(** Lines 121-224. *)
Definition isolate_arr (fuel : nat) (pol : list Z) (s : arrs) : out arrs :=
  let s := set_nint 0 (set_nex 0 s) in
  if forallb (Z.eqb 0) pol then Abort
  else
    let '(nz, p) := low_zeros pol in
    bind (match root_bound flog0 (flip p) with
          | None => Val s
          | Some k => bind (vca_arr fuel 0 0 (scale2 k (flip p)) s) (neg_arr k)
          end) (fun s =>
    let ni := a_nint s in
    let ne := a_nex s in
    bind (zeros_arr nz s) (fun s =>
    match root_bound flog0 p with
    | None => Val s
    | Some k => bind (vca_arr fuel 0 0 (scale2 k p) s) (pos_arr k ni (ne + nz))
    end)).
End Isolate.
