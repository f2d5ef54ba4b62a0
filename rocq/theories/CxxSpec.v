(** Specifications for the C++ interface: real numbers only. *)
Require Import Reals List ZArith Bool.
From Verif Require Import PolyR RootSpec Dyadic ArbModel ArbSpec RefineProofs ElemModel ElemSpec CxxModel.
Import ListNotations.
Open Scope R_scope.

Definition rational (v : R) : Prop := exists p q, (0 < q)%Z /\ v = IZR p / IZR q.

Definition real_op (p : aop) (a b : R) : R :=
  match p with Add => a + b | Sub => a - b | Mul => a * b | Div => a / b end.

Definition real_rel (r : rel) (a b : R) : Prop :=
  match r with REq => a = b | RNe => a <> b | RLt => a < b | RGt => a > b | RLe => a <= b | RGe => a >= b end.

(** Fields: minimal polynomial and generator of each. *)
Section Spec.
Variables (pol : nat -> list Z) (x : nat -> R).

Definition value (w : world) (i : nat) : R := ev (x (fld w i)) (num_of w i).

(** Objects in canonical form, whatever their enclosures. *)
Record exact_world (w : world) : Prop := {
  ew_fields : forall f, f_pol (w_fields w f) = pol f;
  ew_objs : forall i, canon (pol (fld w i)) (num_of w i)
}.

(** Right enclosures as well. *)
Record sound_world (N : nat -> ball -> Prop) (w : world) : Prop := {
  sw_fields : forall f, field_ok (pol f) (x f) (N f) (w_fields w f);
  sw_objs : forall i, elem_ok (pol (fld w i)) (x (fld w i)) (val w i)
}.

(** The same objects with the same values, up to enclosures. *)
Definition same_objects (w w' : world) : Prop := forall i, fld w' i = fld w i /\ num_of w' i = num_of w i.

(** The call gave object [i] the value [v] and left the others alone. *)
Definition gave (w w' : world) (i : nat) (v : R) : Prop :=
  value w' i = v /\ forall j, j <> i -> w_objs w' j = w_objs w j.

(** Object [i] is now an element of field [f] with the value [v]. *)
Definition made_in (w w' : world) (i f : nat) (v : R) : Prop := exact_world w' /\ gave w w' i v /\ fld w' i = f.

(** The answer [b] decides [P] and nothing but enclosures changed. *)
Definition decides (N : nat -> ball -> Prop) (w w' : world) (b : bool) (P : Prop) : Prop :=
  sound_world N w' /\ same_objects w w' /\ (b = true <-> P).
End Spec.

(** Values of the integer types on 64-bit Unix systems. *)
Definition in_range (t : ity) (z : Z) : Prop :=
  match t with
  | Short => -32768 <= z <= 32767
  | UShort => 0 <= z <= 65535
  | Int => -2147483648 <= z <= 2147483647
  | UInt => 0 <= z <= 4294967295
  | Long | LLong => -9223372036854775808 <= z <= 9223372036854775807
  | ULong | ULLong => 0 <= z <= 18446744073709551615
  end%Z.

(** What the interface asks of its arguments. *)
Definition xcall_ok (c : xcall) : Prop :=
  match c with
  | XBinMpq _ _ _ qd | XAssignMpq _ _ qd | XMakeMpq _ _ _ qd => (0 < qd)%Z
  | XMakeVector _ _ _ d => (0 < d)%Z
  | XRelMpq _ _ qn qd => (0 < qd)%Z /\ Z.gcd qn qd = 1%Z
  | XBinInt _ _ t z | XAssignInt _ t z | XMakeInt _ _ t z | XRelInt _ _ t z => in_range t z
  | XPow i j e => i <> j /\ in_range Int e
  | _ => True
  end.

(** Calls the theorems cover: floor division of two irrational elements of
    different fields is excluded (see C43). *)
Definition legal (x : nat -> R) (w : world) (c : xcall) : Prop :=
  xcall_ok c /\
  match c with XFloordiv i j => fld w i = fld w j \/ rational (value x w i) \/ rational (value x w j) | _ => True end.

(** Programs all of whose calls are legal when they are made. *)
Fixpoint legal_run (o : arbops) (ops : list Z -> nfops) (debug : bool) (fuel : nat) (x : nat -> R) (strict : bool)
    (w : world) (l : list xcall) (w' : world) : Prop :=
  match l with
  | [] => w' = w
  | c :: l' => legal x w c /\ exists e, xrun o ops debug fuel strict w c = Val e /\
      legal_run o ops debug fuel x strict (match e with Ret v => v | Throw => w end) l' w'
  end.

(** [g] is the greatest common divisor of [l]. *)
Definition is_content (l : list Z) (g : Z) : Prop :=
  (0 <= g)%Z /\ (forall c, In c l -> (g | c)%Z) /\ forall d, (forall c, In c l -> (d | c)%Z) -> (d | g)%Z.
