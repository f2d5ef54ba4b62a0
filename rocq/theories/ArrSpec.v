(** What arrays hold after values were written to their first entries. *)
Require Import List ZArith Arith.
From Verif Require Import RootModel ArrModel.
Import ListNotations.

Definition fill {A} (v : list A) (l : list A) : list A := v ++ skipn (length v) l.
Definition fill_opt {A} (v : list A) (l : option (list A)) : option (list A) := option_map (fill v) l.
(** There is no array, or it has room for [n] entries. *)
Definition room {A} (n : nat) (l : option (list A)) : Prop := match l with None => True | Some l => (n <= length l)%nat end.

(** The counters are the numbers of exact roots and intervals, the first entries of the
    arrays that are there are these, and all other entries are as before; without one of
    c_array and k_array the other is not touched. *)
Definition filled (ex ints : list dyadic) (s s' : arrs) : Prop :=
  a_nex s' = length ex /\ a_nint s' = length ints /\ a_ex s' = fill_opt ex (a_ex s) /\
  (a_c s <> None -> a_k s <> None -> a_c s' = fill_opt (map fst ints) (a_c s) /\ a_k s' = fill_opt (map snd ints) (a_k s)) /\
  (a_c s = None \/ a_k s = None -> a_c s' = a_c s /\ a_k s' = a_k s).
