(** Model of the callers of fmpz_poly_isolate_real_roots with the arrays that they
    allocate: /repo/libeantic/src/renf/{set_embeddings_fmpz_poly,randtest}.c and
    fmpz_poly_extra/num_real_roots_vca.c.  The same functions on lists are in
    EmbModel.v, ToolsModel.v and RootModel.v. *)
Require Import List ZArith Bool.
From Verif Require Import RootModel Dyadic ArbModel EmbModel ToolsModel ArrModel.
Import ListNotations.
Open Scope Z_scope.

Section Call.
Variable o : arbops.
Variable debug : bool.
Variable flog0 : Z.
(** What memory from flint_malloc and local variables without initializer hold. *)
Variable junk : nat -> Z.
Variables junk_e junk_i : nat.

(** _fmpz_vec_init (n) and flint_malloc (n * sizeof(slong)); without exact_roots. *)
Definition fresh (n : nat) : arrs :=
  {| a_ex := None; a_c := Some (repeat 0 n); a_k := Some (map junk (seq 0 n)); a_nex := junk_e; a_nint := junk_i |}.

(** c[i] and k[i]. *)
Definition rd_int (s : arrs) (i : nat) : out dyadic :=
  match a_c s, a_k s with
  | Some c, Some k => bind (rd c i) (fun c => bind (rd k i) (fun k => Val (c, k)))
  | _, _ => Undef
  end.

(** set_embeddings_fmpz_poly.c:22-68; [slots] is the array nf, whose entries are not
    initialized at first ([None]). *)
Definition set_embeddings_arr (fuel : nat) (pol : list Z) (lim prec : Z) (slots : list (option renf)) : out (list (option renf) * Z) :=
  match num_real_roots_upper_bound flog0 pol with
  | CAbort => Abort
  | CBad => Undef
  | CVal n =>
      bind (isolate_arr flog0 fuel pol (fresh n)) (fun s =>
      if negb (Nat.eqb (a_nex s) 0) then Abort
      else
        bind (times (Z.to_nat (Z.min lim (Z.of_nat (a_nint s)))) 0 (fun i slots =>
                bind (rd_int s i) (fun d =>
                bind (renf_init o debug fuel pol 1 (embed_ball prec d) prec) (fun nf => wr slots i (Some nf)))) slots) (fun slots =>
        Val (slots, Z.of_nat (a_nint s))))
  end.

(** randtest.c:40-94, see [randtest]. *)
Definition randtest_arr (has : list Z -> bool) (fuel : nat) (ds : list draw) (pick : nat) (len prec : Z) : out renf :=
  if len <=? 1 then Abort
  else
    bind (rand_pol has ds) (fun p =>
    bind (isolate_arr flog0 fuel p (fresh (length p))) (fun s =>
    if Nat.eqb (a_nint s) 0 then Abort
    else
      bind (rd_int s (pick mod a_nint s)) (fun d =>
      bind (from_interval d (zbits (fst d) + Z.max (snd d) 0 + 2)) (fun b => renf_init o debug fuel p 1 b prec)))).

(** num_real_roots_vca.c:16-21. *)
Definition num_real_roots_vca_arr (fuel : nat) (pol : list Z) : out nat :=
  bind (isolate_arr flog0 fuel pol {| a_ex := None; a_c := None; a_k := None; a_nex := 0; a_nint := 0 |}) (fun s =>
    Val (a_nex s + a_nint s)%nat).
End Call.
