(** The degree of a field. *)
Require Import List ZArith.
From Verif Require Import ArbModel.

(** /repo/libeantic/src/renf/degree.c:16-19; renf_class::degree,
    /repo/libeantic/srcxx/renf_class.cpp:174, is the same. *)
Definition renf_degree (nf : renf) : Z := Z.of_nat (length (f_pol nf)) - 1.
