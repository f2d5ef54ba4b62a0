(** Model of /repo/libeantic/src/renf/set_embeddings_fmpz_poly.c. *)
Require Import List ZArith Bool.
From Verif Require Import RootModel ExtraModel Dyadic ArbModel.
Import ListNotations.
Open Scope Z_scope.

(** set_embeddings_fmpz_poly.c:52-56: the ball for the interval (c 2^k, (c+1) 2^k).
    The sum 2c + 1 is rounded to the precision (arb_add_si rounds towards zero),
    its error bound is then overwritten by the radius 1. *)
Definition embed_ball (prec : Z) (d : dyadic) : ball :=
  Fin (d2exp (dround RDown prec (dz (2 * fst d + 1))) (snd d - 1)) (1, snd d - 1).

Section Emb.
Variable o : arbops.
Variable debug : bool.
Variable flog0 : Z.

(** set_embeddings_fmpz_poly.c:50-60. *)
Fixpoint embed_all (fuel : nat) (pol : list Z) (prec : Z) (ints : list dyadic) : out (list renf) :=
  match ints with
  | [] => Val []
  | d :: l =>
      bind (renf_init o debug fuel pol 1 (embed_ball prec d) prec) (fun nf =>
        bind (embed_all fuel pol prec l) (fun nfs => Val (nf :: nfs)))
  end.

(** set_embeddings_fmpz_poly.c:22-68: the fields created and the return value.
    The allocations of lines 30-34 and the arrays are in CallArrModel.v. *)
Definition set_embeddings (fuel : nat) (pol : list Z) (lim prec : Z) : out (list renf * Z) :=
  match num_real_roots_upper_bound flog0 pol with
  | CAbort => Abort
  | CBad => Undef
  | CVal _ =>
      match isolate flog0 fuel pol with
      | VFuel => Fuel
      | VUndef => Undef
      | VAbort => Abort
      | VDone (_ :: _) _ => Abort
      | VDone [] ints =>
          bind (embed_all fuel pol prec (firstn (Z.to_nat lim) ints)) (fun nfs =>
            Val (nfs, Z.of_nat (length ints)))
      end
  end.
End Emb.
