(** Model of /repo/libeantic/src/fmpz_poly_extra/isolate_real_roots.c with arrays, words and
    assertions: ArrModel.v with the loops of IdxModel.v, where a sum of words that is not a
    word is undefined and a failed assertion aborts. *)
Require Import List ZArith Bool.
From Verif Require Import RootModel ArbModel ArrModel IdxModel.
Import ListNotations.
Open Scope Z_scope.

(** Lines 54-66: p[0] is read before the length is looked at. *)
Fixpoint strip_idx (c k : Z) (p : list Z) (s : arrs) : out (list Z * arrs) :=
  match p with
  | [] => Undef
  | a :: q =>
      if a =? 0 then
        bind (on_ex (fun l => if k <? 0 then Abort else wr l (a_nex s) (c, - k)) s) (fun s => strip_idx c k q (set_nex (S (a_nex s)) s))
      else Val (p, s)
  end.

(** Lines 80-88. *)
Definition got_idx (c k : Z) (s : arrs) : out arrs :=
  bind (on_ints (fun '(cs, ks) => bind (wr cs (a_nint s) c) (fun cs => bind (slong (- k)) (fun e => bind (wr ks (a_nint s) e) (fun ks => Val (cs, ks))))) s)
    (fun s => Val (set_nint (S (a_nint s)) s)).

(** Lines 51-118. *)
Fixpoint vca_idx (fuel : nat) (c k : Z) (p : list Z) (s : arrs) : out arrs :=
  match fuel with
  | O => Fuel
  | S f =>
      bind (strip_idx c k p s) (fun '(p, s) =>
      bind (desc_idx p (length p) 2) (fun bound =>
      let next (s : arrs) :=
        let c := c + 1 in
        bind (slong (Z.of_nat (val2 c))) (fun i =>
        if k =? i then Val s
        else
          let p := tshift 1 p in
          if i =? 0 then vca_idx f c k p s
          else
            let p := scale2 i p in
            let c := c / 2 ^ i in
            if k <? i then Abort else bind (slong (k - i)) (fun k => vca_idx f c k p s)) in
      match bound with
      | None | Some 2%nat => bind (slong (k + 1)) (fun k => vca_idx f (2 * c) k (scale2 (-1) p) s)
      | Some 1%nat => bind (got_idx c k s) next
      | Some 0%nat => next s
      | Some _ => Abort
      end))
  end.

(** k_array[i] += k, lines 156 and 205. *)
Definition addk (k : Z) (i : nat) (ks : list Z) : out (list Z) := bind (rd ks i) (fun e => bind (slong (e + k)) (wr ks i)).
(** Lines 174-177 and 214-217 on one exact root: the exponent is passed as -k if k < 0. *)
Definition shift_idx (k : Z) (d : dyadic) : out dyadic :=
  if k <? 0 then bind (slong (- k)) (fun e => Val (fst d, snd d - e)) else Val (fst d, snd d + k).
Definition updo (f : dyadic -> out dyadic) (i : nat) (l : list dyadic) : out (list dyadic) :=
  bind (rd l i) (fun v => bind (f v) (wr l i)).

(** Lines 148-184. *)
Definition neg_idx (k : Z) (s : arrs) : out arrs :=
  bind (on_ints (fun ck =>
    bind (times (a_nint s) 0 (fun i '(cs, ks) => bind (upd (fun c => - (c + 1)) i cs) (fun cs => bind (addk k i ks) (fun ks => Val (cs, ks)))) ck)
      (times (a_nint s / 2) 0 (fun i '(cs, ks) => bind (swp i (a_nint s - i - 1) cs) (fun cs => bind (swp i (a_nint s - i - 1) ks) (fun ks => Val (cs, ks)))))) s) (fun s =>
  on_ex (fun l =>
    bind (times (a_nex s) 0 (fun i => updo (fun d => shift_idx k (dy_opp d)) i) l)
      (times (a_nex s / 2) 0 (fun i => swp i (a_nex s - i - 1)))) s).

(** Lines 202-219. *)
Definition pos_idx (k : Z) (ni ne : nat) (s : arrs) : out arrs :=
  bind (on_ints (times (a_nint s - ni) ni (fun i '(cs, ks) => bind (addk k i ks) (fun ks => Val (cs, ks)))) s) (fun s =>
  on_ex (times (a_nex s - ne) ne (fun i => updo (shift_idx k) i)) s).

(** Lines 121-224. *)
Definition isolate_idx (flog0 : Z) (fuel : nat) (pol : list Z) (s : arrs) : out arrs :=
  let s := set_nint 0 (set_nex 0 s) in
  if forallb (Z.eqb 0) pol then Abort
  else
    let '(nz, p0) := low_zeros pol in
    bind (neg_odd (length p0 / 2) 1 p0) (fun p =>
    bind (bound_idx flog0 p (length p)) (fun k =>
    bind (if k =? word_min then Val s else bind (vca_idx fuel 0 0 (scale2 k p) s) (neg_idx k)) (fun s =>
    let ni := a_nint s in
    let ne := a_nex s in
    bind (zeros_arr nz s) (fun s =>
    bind (bound_idx flog0 p0 (length p0)) (fun k =>
    if k =? word_min then Val s else bind (vca_idx fuel 0 0 (scale2 k p0) s) (pos_idx k ni (ne + nz))))))).
