(** Properties C39, C40, C42, C43 and C44: the C++ operators on elements. *)
Require Import Reals List ZArith Bool Lia Lra.
From Verif Require Import PolyR RootSpec Dyadic DyadicProofs ArbModel ArbSpec DyBall DyBallProofs ElemModel ElemSpec ElemLoops NfArith NfArithProofs ElemRefute
  CxxModel CxxSpec CxxProofs CxxSound CxxNum CxxRefute.
Import ListNotations.
Open Scope R_scope.

(** * C39 *)
(** Elements of one field, or one of them rational: the operation of the real
    numbers.  The target gets the value, no other object changes. *)
Theorem C39_exact : forall o ops debug fuel pol x, (forall f, minimal (pol f) (x f)) -> (forall f, nf_ok (pol f) (x f) (ops (pol f))) ->
  forall w i j p, exact_world pol w -> fld w i = fld w j \/ rational (value x w i) \/ rational (value x w j) ->
  (p = Div -> value x w j <> 0) ->
  exists w', binop o ops debug fuel false p w i j = Val (Ret w') /\ exact_world pol w' /\
    gave x w w' i (real_op p (value x w i) (value x w j)) /\ (fld w' i = fld w i \/ fld w' i = fld w j).
Proof. exact binop_ok. Qed.
Print Assumptions C39_exact.

(** Otherwise an exception, and the objects are as before. *)
Theorem C39_throws : forall o ops debug fuel pol x, (forall f, minimal (pol f) (x f)) ->
  forall strict w i j p, exact_world pol w -> fld w i <> fld w j -> ~ rational (value x w i) -> ~ rational (value x w j) ->
  binop o ops debug fuel strict p w i j = Val Throw.
Proof. exact binop_throws. Qed.
Print Assumptions C39_throws.

(** Compiled with LIBEANTIC_STRICT_BINOP, different fields throw unless one of
    them is the rational field, and all else is as without it. *)
Theorem C39_strict_throws : forall o ops debug fuel w i j p, fld w i <> fld w j -> fld w i <> 0%nat -> fld w j <> 0%nat ->
  binop o ops debug fuel true p w i j = Val Throw.
Proof. exact binop_strict. Qed.
Print Assumptions C39_strict_throws.
Theorem C39_strict_same : forall o ops debug fuel w i j p, fld w i = fld w j \/ fld w i = 0%nat \/ fld w j = 0%nat ->
  binop o ops debug fuel true p w i j = binop o ops debug fuel false p w i j.
Proof. exact binop_lenient. Qed.
Print Assumptions C39_strict_same.

(** Machine integers of every type, integers and rationals on the right. *)
Theorem C39_int : forall o ops debug fuel pol x, (forall f, minimal (pol f) (x f)) -> (forall f, nf_ok (pol f) (x f) (ops (pol f))) ->
  forall w i t z p, exact_world pol w -> in_range t z -> (p = Div -> z <> 0%Z) ->
  exists w', binop_int o ops debug fuel p w i t z = Val w' /\
    exact_world pol w' /\ gave x w w' i (real_op p (value x w i) (IZR z)) /\ fld w' i = fld w i.
Proof. exact binop_int_ok. Qed.
Print Assumptions C39_int.
Theorem C39_mpz : forall o ops debug fuel pol x, (forall f, minimal (pol f) (x f)) -> (forall f, nf_ok (pol f) (x f) (ops (pol f))) ->
  forall w i z p, exact_world pol w -> (p = Div -> z <> 0%Z) ->
  exists w', binop_mpz o ops debug fuel p w i z = Val w' /\
    exact_world pol w' /\ gave x w w' i (real_op p (value x w i) (IZR z)) /\ fld w' i = fld w i.
Proof. exact binop_mpz_ok. Qed.
Print Assumptions C39_mpz.
Theorem C39_mpq : forall o ops debug fuel pol x, (forall f, minimal (pol f) (x f)) -> (forall f, nf_ok (pol f) (x f) (ops (pol f))) ->
  forall w i qn qd p, exact_world pol w -> (0 < qd)%Z -> (p = Div -> qn <> 0%Z) ->
  exists w', binop_mpq o ops debug fuel p w i qn qd = Val w' /\
    exact_world pol w' /\ gave x w w' i (real_op p (value x w i) (IZR qn / IZR qd)) /\ fld w' i = fld w i.
Proof. exact binop_mpq_ok. Qed.
Print Assumptions C39_mpq.

(** Every program keeps all objects in the form the theorems above ask for. *)
Theorem C39_reachable : forall o ops debug fuel pol x, (forall f, minimal (pol f) (x f)) -> (forall f, nf_ok (pol f) (x f) (ops (pol f))) ->
  forall strict l w w', exact_world pol w -> Forall xcall_ok l -> xruns o ops debug fuel strict w l = Val w' -> exact_world pol w'.
Proof. exact xruns_exact. Qed.
Print Assumptions C39_reachable.

(** 2^(1/3) divided by 3 of the rational field; 2^(1/3) plus 2^(1/3) of another
    field throws; in between, times 5/7 of the other field. *)
Definition seen (x : out (exc world)) (i : nat) : option (nat * elem) :=
  match x with Val (Ret w) => Some (fld w i, num_of w i) | _ => None end.
Example C39_case :
  seen (binop dyops nfc true 100 false Div eworld 0 1) 0 = Some (1%nat, {| e_num := [0; 1]; e_den := 3 |}%Z) /\
  seen (binop dyops nfc true 100 false Mul eworld 3 2) 3 = Some (2%nat, {| e_num := [0; 5]; e_den := 7 |}%Z) /\
  seen (binop dyops nfc true 100 false Sub eworld 1 0) 1 = Some (1%nat, {| e_num := [3; -1]; e_den := 1 |}%Z) /\
  binop dyops nfc true 100 false Add eworld 0 2 = Val Throw /\
  binop dyops nfc true 100 true Mul eworld 3 2 = Val Throw.
Proof. vm_compute. repeat split. Qed.

(** This world meets the hypotheses. *)
Example C39_world : forall z, 1 < z < 2 -> z * z * z = 2 ->
  (forall f, minimal (epol f) (ex z f)) /\ (forall f, nf_ok (epol f) (ex z f) (nfc (epol f))) /\ exact_world epol eworld.
Proof.
  intros z Hz E. split; [apply eminimal; exact E|]. split; [intros f; apply nfc_ok, eminimal; exact E|].
  apply (sound_exact epol (ex z) (fun _ _ => True)), eworld_sound; assumption.
Qed.

(** * C40 *)
(** Equality is exact. *)
Theorem C40_equal : forall debug pol x, (forall f, minimal (pol f) (x f)) -> forall w i j, exact_world pol w ->
  fld w i = fld w j \/ rational (value x w i) \/ rational (value x w j) ->
  exists b, eq_objs debug w i j = Val (Ret (w, b)) /\ (b = true <-> value x w i = value x w j).
Proof. exact eq_objs_ok. Qed.
Print Assumptions C40_equal.
Theorem C40_equal_throws : forall debug pol x, (forall f, minimal (pol f) (x f)) -> forall w i j, exact_world pol w ->
  fld w i <> fld w j -> ~ rational (value x w i) -> ~ rational (value x w j) -> eq_objs debug w i j = Val Throw.
Proof. exact eq_objs_throws. Qed.
Print Assumptions C40_equal_throws.
Theorem C40_equal_int : forall pol x, (forall f, minimal (pol f) (x f)) -> forall w i t z, exact_world pol w -> in_range t z ->
  exists b, eq_int w i t z = Val (Ret (w, b)) /\ (b = true <-> value x w i = IZR z).
Proof. exact eq_int_ok. Qed.
Print Assumptions C40_equal_int.
Theorem C40_equal_mpz : forall pol x, (forall f, minimal (pol f) (x f)) -> forall w i z, exact_world pol w ->
  exists b, eq_mpz w i z = Val (Ret (w, b)) /\ (b = true <-> value x w i = IZR z).
Proof. exact eq_mpz_ok. Qed.
Print Assumptions C40_equal_mpz.
Theorem C40_equal_mpq : forall pol x, (forall f, minimal (pol f) (x f)) -> forall w i qn qd, exact_world pol w ->
  (0 < qd)%Z -> Z.gcd qn qd = 1%Z ->
  exists b, eq_mpq w i qn qd = Val (Ret (w, b)) /\ (b = true <-> value x w i = IZR qn / IZR qd).
Proof. exact eq_mpq_ok. Qed.
Print Assumptions C40_equal_mpq.

(** The order is false as stated: the wrong refinement of C16 gives a < b for
    a > b. *)
Theorem C40_order_refuted : exists pol x w l w' w'' b, fresh pol x w /\ Forall xcall_ok l /\
  xruns dyops nfc true 100 false w l = Val w' /\ rel_objs dyops nfc true 100 RLt w' 0 1 = Val (Ret (w'', b)) /\
  ~ (b = true <-> value x w' 0 < value x w' 1).
Proof. exact order_refuted. Qed.
Print Assumptions C40_order_refuted.

(** If refinement cannot lose the root, every relation that is answered is
    answered right (all six relations, between elements and with all types). *)
Theorem C40_order_partial : forall o ops debug fuel pol x N, (forall f, setting o (ops (pol f)) (pol f) (x f) (N f)) ->
  forall r w i j w' b, sound_world pol x N w -> rel_objs o ops debug fuel r w i j = Val (Ret (w', b)) ->
  decides pol x N w w' b (real_rel r (value x w i) (value x w j)).
Proof. exact rel_objs_ok. Qed.
Print Assumptions C40_order_partial.
Theorem C40_sign_partial : forall o ops debug fuel pol x N, (forall f, setting o (ops (pol f)) (pol f) (x f) (N f)) ->
  forall w i w' z, sound_world pol x N w -> sgn_obj o debug fuel w i = Val (w', z) ->
  sound_world pol x N w' /\ same_objects w w' /\ z = Rsgn (value x w i).
Proof. exact sgn_obj_ok. Qed.
Print Assumptions C40_sign_partial.
Theorem C40_int_partial : forall o ops debug fuel pol x N, (forall f, setting o (ops (pol f)) (pol f) (x f) (N f)) ->
  forall r w i t z w' b, sound_world pol x N w -> in_range t z -> rel_int o ops debug fuel r w i t z = Val (Ret (w', b)) ->
  decides pol x N w w' b (real_rel r (value x w i) (IZR z)).
Proof. exact rel_int_ok. Qed.
Print Assumptions C40_int_partial.
Theorem C40_mpz_partial : forall o ops debug fuel pol x N, (forall f, setting o (ops (pol f)) (pol f) (x f) (N f)) ->
  forall r w i z w' b, sound_world pol x N w -> rel_mpz o ops debug fuel r w i z = Val (Ret (w', b)) ->
  decides pol x N w w' b (real_rel r (value x w i) (IZR z)).
Proof. exact rel_mpz_ok. Qed.
Print Assumptions C40_mpz_partial.
Theorem C40_mpq_partial : forall o ops debug fuel pol x N, (forall f, setting o (ops (pol f)) (pol f) (x f) (N f)) ->
  forall r w i qn qd w' b, sound_world pol x N w -> (0 < qd)%Z -> Z.gcd qn qd = 1%Z ->
  rel_mpq o ops debug fuel r w i qn qd = Val (Ret (w', b)) ->
  decides pol x N w w' b (real_rel r (value x w i) (IZR qn / IZR qd)).
Proof. exact rel_mpq_ok. Qed.
Print Assumptions C40_mpq_partial.

(** The order throws exactly for irrational elements of different fields. *)
Theorem C40_order_throws : forall o ops debug fuel pol x N, (forall f, setting o (ops (pol f)) (pol f) (x f) (N f)) ->
  forall w i j, exact_world pol w -> fld w i <> fld w j -> ~ rational (value x w i) -> ~ rational (value x w j) ->
  lt_objs o ops debug fuel w i j = Val Throw.
Proof. exact lt_objs_throws. Qed.
Print Assumptions C40_order_throws.
Theorem C40_order_throws_only : forall o ops debug fuel pol x N, (forall f, setting o (ops (pol f)) (pol f) (x f) (N f)) ->
  forall w i j, exact_world pol w -> lt_objs o ops debug fuel w i j = Val Throw ->
  fld w i <> fld w j /\ ~ rational (value x w i) /\ ~ rational (value x w j).
Proof. exact lt_objs_throws_only. Qed.
Print Assumptions C40_order_throws_only.

(** Every program of legal calls keeps the world as the theorems above ask. *)
Theorem C40_reachable_partial : forall o ops debug fuel pol x N, (forall f, setting o (ops (pol f)) (pol f) (x f) (N f)) ->
  forall strict l w w', sound_world pol x N w -> legal_run o ops debug fuel x strict w l w' -> sound_world pol x N w'.
Proof. exact legal_run_sound. Qed.
Print Assumptions C40_reachable_partial.

Definition told {A} (x : out (exc (world * A))) : option A := match x with Val (Ret (_, b)) => Some b | _ => None end.
Example C40_case :
  told (rel_objs dyops nfc true 100 RLt eworld 0 1) = Some true /\
  told (rel_objs dyops nfc true 100 RGe eworld 3 2) = Some false /\
  told (rel_int dyops nfc true 100 RGt eworld 0 UShort 1) = Some true /\
  told (rel_mpq dyops nfc true 100 RLe eworld 0 5 4) = Some false /\
  told (rel_mpq dyops nfc true 100 REq eworld 3 5 7) = Some true /\
  rel_objs dyops nfc true 100 RLt eworld 0 2 = Val Throw.
Proof. vm_compute. repeat split. Qed.
Example C40_world : forall z, 1 < z < 2 -> z * z * z = 2 ->
  (forall f, setting dyops (nfc (epol f)) (epol f) (ex z f) (fun _ => True)) /\ sound_world epol (ex z) (fun _ _ => True) eworld.
Proof. intros z Hz E. split; [apply esetting; exact E|apply eworld_sound; assumption]. Qed.

(** * C42 *)
(** False as stated: the negation of INT_MIN overflows. *)
Theorem C42_refuted : exists pol x w l w', fresh pol x w /\ Forall xcall_ok l /\
  xruns dyops nfc true 100 false w l = Val w' /\ value x w' 0 <> 0 /\ in_range Int (low Int) /\
  pow dyops nfc true 100 w' 1 0 (low Int) = Undef.
Proof. exact pow_refuted. Qed.
Print Assumptions C42_refuted.
(** So it is for every nonzero element of every field. *)
Theorem C42_undefined : forall o ops debug fuel pol x, (forall f, minimal (pol f) (x f)) -> (forall f, nf_ok (pol f) (x f) (ops (pol f))) ->
  forall w i j, exact_world pol w -> i <> j -> value x w j <> 0 -> pow o ops debug fuel w i j (low Int) = Undef.
Proof. exact pow_undef. Qed.
Print Assumptions C42_undefined.
(** Every other exponent is right. *)
Theorem C42_partial : forall o ops debug fuel pol x, (forall f, minimal (pol f) (x f)) -> (forall f, nf_ok (pol f) (x f) (ops (pol f))) ->
  forall w i j e, exact_world pol w -> i <> j -> in_range Int e -> e <> low Int -> (value x w j = 0 -> (0 <= e)%Z) ->
  exists w', pow o ops debug fuel w i j e = Val w' /\ exact_world pol w' /\ gave x w w' i (powerRZ (value x w j) e) /\ fld w' i = fld w j.
Proof. exact pow_ok. Qed.
Print Assumptions C42_partial.
Example C42_case :
  seen (bind (pow dyops nfc true 100 eworld 1 0 (-4)) ret) 1 = Some (1%nat, {| e_num := [0; 0; 1]; e_den := 4 |}%Z) /\
  seen (bind (pow dyops nfc true 100 eworld 4 3 5) ret) 4 = Some (1%nat, {| e_num := [3125]; e_den := 16807 |}%Z).
Proof. vm_compute. repeat split. Qed.

(** * C43 *)
(** False as stated: no exception for irrational elements of different fields.
    Here floordiv of sqrt 2 by sqrt 6 returns 1. *)
Theorem C43_refuted : exists pol x w l w' w'' z, fresh pol x w /\ Forall xcall_ok l /\
  xruns dyops nfc true 100 false w l = Val w' /\
  fld w' 0 <> fld w' 1 /\ ~ rational (value x w' 0) /\ ~ rational (value x w' 1) /\
  floordiv dyops nfc true 100 false w' 0 1 = Val (Ret (w'', z)) /\ ~ is_floor (value x w' 0 / value x w' 1) z.
Proof. exact floordiv_refuted. Qed.
Print Assumptions C43_refuted.
(** And sqrt 2 by the cube root of 2 reads the wrong member of a union. *)
Theorem C43_undefined_refuted : exists pol x w l w', fresh pol x w /\ Forall xcall_ok l /\
  xruns dyops nfc true 100 false w l = Val w' /\ value x w' 1 <> 0 /\
  floordiv dyops nfc true 100 false w' 0 1 = Undef.
Proof. exact floordiv_undef. Qed.
Print Assumptions C43_undefined_refuted.
(** In general: with every arithmetic, irrational elements of different fields never
    give an exception, and are always mixed up if one of the fields, but not both, is
    quadratic.  The two theorems above are instances. *)
Theorem C43_silent_refuted : forall o ops debug fuel pol x, (forall f, minimal (pol f) (x f)) ->
  forall strict w i j, exact_world pol w -> fld w i <> fld w j -> ~ rational (value x w i) -> ~ rational (value x w j) ->
  floordiv o ops debug fuel strict w i j <> Val Throw.
Proof. exact floordiv_silent. Qed.
Print Assumptions C43_silent_refuted.
Theorem C43_mixed_refuted : forall o ops debug fuel pol x, (forall f, minimal (pol f) (x f)) ->
  forall strict w i j, exact_world pol w -> ~ rational (value x w i) -> ~ rational (value x w j) ->
  length (pol (fld w i)) = 3%nat /\ length (pol (fld w j)) <> 3%nat \/ length (pol (fld w i)) <> 3%nat /\ length (pol (fld w j)) = 3%nat ->
  floordiv o ops debug fuel strict w i j = Undef.
Proof. exact floordiv_mixed. Qed.
Print Assumptions C43_mixed_refuted.
Theorem C43_partial : forall o ops debug fuel pol x N, (forall f, setting o (ops (pol f)) (pol f) (x f) (N f)) ->
  forall strict w i j w' z, sound_world pol x N w -> fld w i = fld w j \/ rational (value x w i) \/ rational (value x w j) ->
  floordiv o ops debug fuel strict w i j = Val (Ret (w', z)) ->
  sound_world pol x N w' /\ same_objects w w' /\ value x w j <> 0 /\ is_floor (value x w i / value x w j) z.
Proof. exact floordiv_ok. Qed.
Print Assumptions C43_partial.
(** The floor and the ceiling of one element. *)
Theorem C43_floor_partial : forall o ops debug fuel pol x N, (forall f, setting o (ops (pol f)) (pol f) (x f) (N f)) ->
  forall w i w' z, sound_world pol x N w -> floor_obj o debug fuel rd_floor w i = Val (w', z) ->
  sound_world pol x N w' /\ same_objects w w' /\ is_floor (value x w i) z.
Proof. exact (fun o ops debug fuel pol x N S => floor_obj_ok o ops debug fuel pol x N S rd_floor is_floor rd_floor_ok). Qed.
Print Assumptions C43_floor_partial.
Theorem C43_ceil_partial : forall o ops debug fuel pol x N, (forall f, setting o (ops (pol f)) (pol f) (x f) (N f)) ->
  forall w i w' z, sound_world pol x N w -> floor_obj o debug fuel rd_ceil w i = Val (w', z) ->
  sound_world pol x N w' /\ same_objects w w' /\ is_ceil (value x w i) z.
Proof. exact (fun o ops debug fuel pol x N S => floor_obj_ok o ops debug fuel pol x N S rd_ceil is_ceil rd_ceil_ok). Qed.
Print Assumptions C43_ceil_partial.
Example C43_case :
  told (floordiv dyops nfc true 100 false eworld 1 0) = Some 2%Z /\
  told (floordiv dyops nfc true 100 false eworld 2 3) = Some 1%Z /\
  told (floordiv dyops nfc true 100 false eworld 0 0) = Some 1%Z /\
  match floor_obj dyops true 100 rd_floor eworld 0, floor_obj dyops true 100 rd_ceil eworld 0, sgn_obj dyops true 100 eworld 0 with
  | Val (_, a), Val (_, b), Val (_, s) => a = 1%Z /\ b = 2%Z /\ s = 1%Z
  | _, _, _ => False
  end.
Proof. vm_compute. repeat split. Qed.

(** * C44 *)
Theorem C44_num_den : forall pol x e, canon pol e ->
  length (num_vector pol e) = (length pol - 1)%nat /\ (0 < den e)%Z /\ ev x e = zeval (num_vector pol e) x / IZR (den e) /\
  Z.gcd (num_content pol e) (den e) = 1%Z.
Proof. exact num_den_ok. Qed.
Print Assumptions C44_num_den.
(** The denominator is the least common multiple of those of the coefficients c/den. *)
Theorem C44_den : forall pol e, canon pol e -> forall D, (forall c, In c (num_vector pol e) -> (den e | D * c)%Z) <-> (den e | D)%Z.
Proof. exact (fun pol => den_least pol 0). Qed.
Print Assumptions C44_den.
Theorem C44_content : forall pol e, canon pol e -> is_content (num_vector pol e) (num_content pol e).
Proof. exact num_content_ok. Qed.
Print Assumptions C44_content.
Theorem C44_num : forall debug pol x, minimal pol x -> forall e, canon pol e -> rational (ev x e) ->
  exists n, num debug pol e = Val n /\ ev x e = IZR n / IZR (den e) /\ Z.gcd n (den e) = 1%Z.
Proof. exact num_rational. Qed.
Print Assumptions C44_num.
Theorem C44_mpq : forall debug pol x, minimal pol x -> forall e, canon pol e -> rational (ev x e) ->
  exists n d, to_mpq debug e = Val (n, d) /\ (0 < d)%Z /\ Z.gcd n d = 1%Z /\ ev x e = IZR n / IZR d.
Proof. exact to_mpq_rational. Qed.
Print Assumptions C44_mpq.
Theorem C44_mpz : forall debug pol x, minimal pol x -> forall e z, canon pol e -> ev x e = IZR z -> to_mpz debug e = Val z.
Proof. exact to_mpz_integer. Qed.
Print Assumptions C44_mpz.

(** On other elements the conversions stop the debug build; the release build
    returns the fraction of the constant coefficient for irrational elements. *)
Theorem C44_irrational : forall debug pol x, minimal pol x -> forall e, canon pol e -> ~ rational (ev x e) ->
  num debug pol e = (if debug then Abort else Val (nth 0 (e_num e) 0%Z)) /\ to_mpq debug e = (if debug then Abort else Val (nth 0 (e_num e) 0%Z, e_den e)).
Proof. exact num_irrational. Qed.
Print Assumptions C44_irrational.
Theorem C44_not_integer : forall debug pol x, minimal pol x -> forall e, canon pol e -> (forall z, ev x e <> IZR z) -> debug = true -> to_mpz debug e = Abort.
Proof. exact to_mpz_other. Qed.
Print Assumptions C44_not_integer.

(** (4 + 6 a) / 3, -5/7 and -4 for a = 2^(1/3). *)
Example C44_case : let e := {| e_num := [4; 6]; e_den := 3 |}%Z in let q := {| e_num := [-5]; e_den := 7 |}%Z in
  canon cube_pol e /\ canon cube_pol q /\
  num_vector cube_pol e = [4; 6; 0]%Z /\ den e = 3%Z /\ num_content cube_pol e = 2%Z /\
  num true cube_pol q = Val (-5)%Z /\ to_mpq true q = Val (-5, 7)%Z /\ to_mpz true {| e_num := [-4]; e_den := 1 |}%Z = Val (-4)%Z /\
  to_mpz true q = Abort /\ to_mpq true e = Abort /\ num true cube_pol e = Abort /\ to_mpq false e = Val (4, 3)%Z.
Proof. cbv zeta. repeat (split; [try (vm_compute; reflexivity); apply canon_intro; cbn; lia|]). vm_compute. repeat split. Qed.
