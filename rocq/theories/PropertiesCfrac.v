(** C93: continued fractions and the array for the quotients. *)
Require Import Reals List ZArith Bool.
From Verif Require Import PolyR RootSpec RootModel Dyadic ArbModel ArbSpec DyBall ElemModel ElemSpec NfArith ElemProofs ElemMore ElemExact ElemRefute
  ElemEdge ElemWrong ArrModel CfracModel CfracProofs.
Import ListNotations.
Open Scope Z_scope.

(** With room for n quotients nothing is undefined, aborts or runs on on account of the
    array; as many quotients are stored as the returned number says, in the first places,
    and the other places are left alone. *)
Theorem C93_inside : forall o n debug fuel nf y num c, 0 <= num -> num <= Z.of_nat (length c) ->
  match cfrac_arr o n debug fuel nf y num c with
  | Val (_, c', r, _) => exists cs, 0 <= r <= num /\ Z.of_nat (length cs) = r /\ c' = cs ++ skipn (length cs) c /\ length c' = length c /\
      exists nf' w, cfrac o n debug fuel nf y (Z.to_nat num) = Val (nf', cs, w)
  | Undef => cfrac o n debug fuel nf y (Z.to_nat num) = Undef
  | Abort => cfrac o n debug fuel nf y (Z.to_nat num) = Abort
  | Fuel => cfrac o n debug fuel nf y (Z.to_nat num) = Fuel
  end.
Proof. exact array_inside. Qed.
Print Assumptions C93_inside.

(** What is stored is a continued fraction of the element. *)
Theorem C93_values : forall o n debug pol x N, setting o n pol x N ->
  forall fuel nf y num c nf' c' r w, field_ok pol x N nf -> elem_ok pol x y -> 0 <= num -> num <= Z.of_nat (length c) ->
  cfrac_arr o n debug fuel nf y num c = Val (nf', c', r, w) ->
  0 <= r <= num /\ cf (ev x (r_elem y)) (firstn (Z.to_nat r) c') (ev x (r_elem w)) /\
  skipn (Z.to_nat r) c' = skipn (Z.to_nat r) c /\ length c' = length c /\ (r = num \/ ev x (r_elem w) = 0%R).
Proof. exact array_values. Qed.
Print Assumptions C93_values.

(** A negative n is handed back unless the element is zero; nothing is stored. *)
Theorem C93_negative : forall o n debug fuel nf y num c, num < 0 ->
  cfrac_arr o n debug fuel nf y num c = Val (nf, c, if is_zero (r_elem y) then 0 else num, y).
Proof. exact array_negative. Qed.
Print Assumptions C93_negative.

(** An array with fewer places than there are quotients is left. *)
Theorem C93_short : forall o n debug fuel nf y num c nf' cs w, 0 <= num -> cfrac o n debug fuel nf y (Z.to_nat num) = Val (nf', cs, w) ->
  (length c < length cs)%nat -> cfrac_arr o n debug fuel nf y num c = Undef.
Proof. exact array_short. Qed.
Print Assumptions C93_short.

(** The cube root of 2 and 1/3 (see [elem_setting]). *)
Example C93_case :
  let run i num c := match cfrac_arr dyops (nfc cube_pol) true 100 (fst cube_state) (snd cube_state i) num c with
                     | Val (_, c, r, _) => Some (c, r) | _ => None end in
  run 0%nat 3 [7; 7; 7; 7] = Some ([1; 3; 1; 7], 3) /\ run 1%nat 3 [7; 7; 7; 7] = Some ([0; 3; 7; 7], 2) /\
  run 0%nat 0 [7] = Some ([7], 0) /\ run 0%nat (-2) [7] = Some ([7], -2) /\ run 0%nat 3 [7; 7] = None /\ run 1%nat 3 [7; 7] = Some ([0; 3], 2).
Proof. vm_compute. repeat split; reflexivity. Qed.
