(** Model of the precisions in /repo/libeantic/src/renf_elem/get_d.c as words, see
    PrecWModel.v.  The functions are those of GetdModel.v otherwise. *)
Require Import List ZArith Bool.
From Verif Require Import RootModel ExtraModel Dyadic ArbModel ElemModel GetdModel ArrModel IdxModel PrecWModel.
Import ListNotations.
Open Scope Z_scope.

Section Getd.
Variable o : arbops.
Variable n : nfops.
Variable debug : bool.

(** get_d.c:22-44, see [overflows]. *)
Fixpoint overflows_w (depth : nat) (fuel : nat) (nf : renf) (x : relem) : out (renf * relem * Z) :=
  match depth with
  | O => Fuel
  | S k =>
      bind (sgn_w o debug fuel nf x) (fun '(nf, b, s) =>
        let x := {| r_elem := r_elem x; r_emb := b |} in
        if 0 <=? s then
          bind (cmp_q_w o n debug fuel nf x UINT_MAX 1) (fun '(nf, b, c) =>
            let x := {| r_elem := r_elem x; r_emb := b |} in
            if c <=? 0 then Val (nf, x, 0)
            else
              bind (cmp_q_w o n debug fuel nf x dbl_max_z 1) (fun '(nf, b, c) =>
                Val (nf, {| r_elem := r_elem x; r_emb := b |}, if 0 <? c then 1 else 0)))
        else
          bind (overflows_w k fuel nf {| r_elem := n_neg n (r_elem x); r_emb := bneg b |}) (fun '(nf, x, v) =>
            Val (nf, {| r_elem := n_neg n (r_elem x); r_emb := bneg (r_emb x) |}, - v)))
  end.

(** get_d.c:74-77. *)
Definition reduce_rnd_w (fuel : nat) (nf : renf) (x : relem) (md : rnd) : out (renf * relem * rnd) :=
  match md with
  | RUp => bind (sgn_w o debug fuel nf x) (fun '(nf, b, s) =>
             Val (nf, {| r_elem := r_elem x; r_emb := b |}, if 0 <? s then RCeil else RFloor))
  | RDown => bind (sgn_w o debug fuel nf x) (fun '(nf, b, s) =>
             Val (nf, {| r_elem := r_elem x; r_emb := b |}, if 0 <? s then RFloor else RCeil))
  | _ => Val (nf, x, md)
  end.

(** get_d.c:113-118. *)
Fixpoint accuracy_loop_w (fuel : nat) (nf : renf) (a : elem) (b : ball) (prec : Z) : out (renf * ball) :=
  match fuel with
  | O => Fuel
  | S f =>
      if rel_accuracy b <? 55 then
        bind (twice_w o debug f nf prec) (fun '(nf, prec) => bind (set_evaluation o nf a prec) (fun b => accuracy_loop_w f nf a b prec))
      else Val (nf, b)
  end.

(** get_d.c:132-144. *)
Fixpoint double_loop_w (md : rnd) (fuel : nat) (nf : renf) (a : elem) (b : ball) (prec : Z) : out (renf * ball * dbl) :=
  match fuel with
  | O => Fuel
  | S f =>
      let again := bind (twice_w o debug f nf prec) (fun '(nf, prec) => bind (set_evaluation o nf a prec) (fun b => double_loop_w md f nf a b prec)) in
      match interval b prec with
      | Some (l, u) =>
          let d := arf_get_d md l in
          if dbl_eqb (arf_get_d md u) d then Val (nf, b, d) else again
      | None => again
      end
  end.

(** get_d.c:46-151; line 110 doubles the number of bits of the midpoint, a word. *)
Definition get_d_w (fuel : nat) (nf : renf) (x : relem) (md : rnd) : out (renf * relem * dbl) :=
  if is_zero (r_elem x) then Val (nf, x, DF (dz 0))
  else if is_rational (r_elem x) then
    Val (nf, x, arf_get_d md (round_q md (nth 0 (e_num (r_elem x)) 0) (e_den (r_elem x)) 53))
  else
    let prec := f_prec nf in
    bind (reduce_rnd_w fuel nf x md) (fun '(nf, x, md) =>
    bind (overflows_w 2 fuel nf x) (fun '(nf, x, v) =>
      if v =? 1 then Val (nf, x, DInf false)
      else if v =? -1 then Val (nf, x, DInf true)
      else
        let a := r_elem x in
        bind (if rel_accuracy (r_emb x) <? 55 then
                bind (slong (2 * mid_bits (r_emb x))) (fun m =>
                bind (if m <? prec then set_evaluation o nf a prec else Val (r_emb x)) (fun b =>
                accuracy_loop_w fuel nf a b prec))
              else Val (nf, r_emb x)) (fun '(nf, b) =>
        bind (double_loop_w md fuel nf a b (Z.max (f_prec nf) (rel_accuracy b))) (fun '(nf, b, d) =>
          Val (nf, {| r_elem := a; r_emb := b |}, d))))).

(** renf_elem_class.cpp:1406, see [hash_key]. *)
Definition hash_key_w (fuel : nat) (nf : renf) (x : relem) : out (renf * relem * dbl) := get_d_w fuel nf x RNear.
End Getd.
