(** Construction, assignment and conversion of C++ elements: C66. *)
Require Import Reals List ZArith Bool Lia Lra.
From Verif Require Import PolyR RootSpec Dyadic ArbModel ArbSpec DyBall DyBallProofs ElemModel ElemSpec NfArith NfArithProofs ElemRefute
  CxxModel CxxSpec CxxProofs CxxMake CxxRefute.
Import ListNotations.
Open Scope R_scope.

Theorem C66_int : forall o ops debug fuel pol x, (forall f, minimal (pol f) (x f)) -> (forall f, nf_ok (pol f) (x f) (ops (pol f))) ->
  forall w i f t z, exact_world pol w -> in_range t z ->
  exists w', make_int o ops debug fuel w i f t z = Val w' /\ made_in pol x w w' i f (IZR z).
Proof. exact make_int_ok. Qed.
Print Assumptions C66_int.

Theorem C66_rational : forall o ops debug fuel pol x, (forall f, minimal (pol f) (x f)) -> (forall f, nf_ok (pol f) (x f) (ops (pol f))) ->
  forall w i f qn qd, exact_world pol w -> (0 < qd)%Z ->
  exists w', make_mpq o ops debug fuel w i f qn qd = Val w' /\ made_in pol x w w' i f (IZR qn / IZR qd).
Proof. exact make_mpq_ok. Qed.
Print Assumptions C66_rational.

(** Assignment moves the object to the rational field. *)
Theorem C66_assign_int : forall o ops debug fuel pol x, (forall f, minimal (pol f) (x f)) -> (forall f, nf_ok (pol f) (x f) (ops (pol f))) ->
  forall w i t z, exact_world pol w -> in_range t z ->
  exists w', assign_int o ops debug fuel w i t z = Val w' /\ made_in pol x w w' i 0 (IZR z).
Proof. exact assign_int_ok. Qed.
Print Assumptions C66_assign_int.

Theorem C66_assign_rational : forall o ops debug fuel pol x, (forall f, minimal (pol f) (x f)) -> (forall f, nf_ok (pol f) (x f) (ops (pol f))) ->
  forall w i qn qd, exact_world pol w -> (0 < qd)%Z ->
  exists w', assign_mpq o ops debug fuel w i qn qd = Val w' /\ made_in pol x w w' i 0 (IZR qn / IZR qd).
Proof. exact assign_mpq_ok. Qed.
Print Assumptions C66_assign_rational.

(** Vectors: accepted up to the degree; longer ones abort if assertions are compiled
    in, and are reduced otherwise. *)
Theorem C66_vector : forall o ops debug fuel pol x, (forall f, minimal (pol f) (x f)) -> (forall f, nf_ok (pol f) (x f) (ops (pol f))) ->
  forall w i f v d, exact_world pol w -> (0 < d)%Z -> (length v <= length (pol f) - 1)%nat \/ debug = false ->
  exists w', make_vector o ops debug fuel w i f v d = Val w' /\ made_in pol x w w' i f (zeval v (x f) / IZR d).
Proof. exact make_vector_ok. Qed.
Print Assumptions C66_vector.

Theorem C66_vector_long : forall o ops debug fuel pol x, (forall f, minimal (pol f) (x f)) ->
  forall w i f v d, exact_world pol w -> debug = true -> (length (pol f) - 1 < length v)%nat ->
  make_vector o ops debug fuel w i f v d = Abort.
Proof. exact make_vector_aborts. Qed.
Print Assumptions C66_vector_long.

Theorem C66_negative : forall o ops debug fuel pol x, (forall f, minimal (pol f) (x f)) -> (forall f, nf_ok (pol f) (x f) (ops (pol f))) ->
  forall w i j, exact_world pol w ->
  exists w', negate o ops debug fuel w i j = Val w' /\ made_in pol x w w' i (fld w j) (- value x w j).
Proof. exact negate_made. Qed.
Print Assumptions C66_negative.

(** To another field exactly the rational elements are converted. *)
Theorem C66_convert : forall o ops debug fuel pol x, (forall f, minimal (pol f) (x f)) -> (forall f, nf_ok (pol f) (x f) (ops (pol f))) ->
  forall w i f j, exact_world pol w ->
  (fld w j = f \/ rational (value x w j) -> exists w', convert o ops debug fuel w i f j = Val (Ret w') /\ made_in pol x w w' i f (value x w j)) /\
  (fld w j <> f -> ~ rational (value x w j) -> convert o ops debug fuel w i f j = Val Throw).
Proof. exact convert_both. Qed.
Print Assumptions C66_convert.

Example C66_case : (forall f, minimal (spol f) (sx f)) /\ (forall f, nf_ok (spol f) (sx f) (nfc (spol f))) /\ exact_world spol sworld /\
  in_range Short (-32768) /\ (length [1; 2]%Z <= length (spol 1) - 1)%nat /\
  match make_vector dyops nfc true 100 sworld 5 1 [1; 2]%Z 3 with Val w => Some (num_of w 5) | _ => None end = Some {| e_num := [1; 2]; e_den := 3 |}%Z /\
  make_vector dyops nfc true 100 sworld 5 1 [1; 2; 3]%Z 3 = Abort.
Proof.
  split; [exact sminimal|]. split; [intros f; apply nfc_ok, sminimal|]. split.
  - apply (fresh_exact spol sx); [intros [|[|f]]; vm_compute; reflexivity|exact sworld_fresh].
  - split; [cbn; lia|]. split; [vm_compute; repeat constructor|]. split; vm_compute; reflexivity.
Qed.
