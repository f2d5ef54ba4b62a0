(** Properties C57 to C60. *)
Require Import Reals List ZArith Znumtheory Bool Lia Lra.
From Verif Require Import PolyR RootSpec RootModel ExtraModel IsoAll Dyadic ArbModel ArbSpec DyBall DyBallProofs
  ElemModel ElemSpec NfArith NfArithProofs ElemRefute RateSpec DyRate ToolsModel ToolsSpec ToolsIrred ToolsRoot ToolsProofs ToolsRand.
Import ListNotations.
Open Scope R_scope.

(** C57: no element with a right enclosure is rejected, and a wrong enclosure is
    found out by a sharp enough field at a large enough precision. *)
Theorem C57_accepts : forall o pol x N, arb_ok o -> minimal pol x -> forall nf y prec, field_ok pol x N nf -> elem_ok pol x y -> (2 <= prec)%Z ->
  check_embedding o nf y prec = Val tt.
Proof. exact check_accepts. Qed.
Print Assumptions C57_accepts.

Theorem C57_rejects : forall o pol x, arb_ok o -> arb_conv o -> minimal pol x -> forall y, canon pol (r_elem y) -> ~ inb (ev x (r_elem y)) (r_emb y) ->
  exists d P, 0 < d /\ forall nf prec, field_ok pol x (fun a => rad_le a d) nf -> (P <= prec)%Z -> check_embedding o nf y prec = Abort.
Proof. exact check_rejects. Qed.
Print Assumptions C57_rejects.

(** The generator of the field of the cube root of 2, with the enclosure of the
    field, and with one that ends before the root. *)
Example C57_case : let y b := {| r_elem := {| e_num := [0; 1]; e_den := 1 |}; r_emb := b |}%Z in
  check_embedding dyops cube_nf (y (Fin (5, -2) (1, -2))%Z) 64 = Val tt /\ check_embedding dyops cube_nf (y (Fin (1, -1) (1, -2))%Z) 64 = Abort.
Proof. split; vm_compute; reflexivity. Qed.

(** C58: false for negative numbers: the cube root of -2 is refused. *)
Theorem C58_negative_refuted : exists p q n x, (0 < q)%Z /\ x ^ n = IZR p / IZR q /\ minimal (root_pol p q n) x /\
  forall o root debug fuel prec, init_nth_root o root debug fuel p q n prec = Abort.
Proof. exact root_negative. Qed.
Print Assumptions C58_negative_refuted.

(** The field made is that of the root not below zero: for odd n at every
    precision, for even n from some precision on.  Missing: that the call returns,
    and small precisions for even n. *)
Theorem C58_odd_partial : forall o root p q n x, arb_ok o -> root_ok root -> (0 < q)%Z -> (1 <= n)%nat -> 0 <= x -> x ^ n = IZR p / IZR q ->
  minimal (root_pol p q n) x -> Nat.Odd n -> forall debug fuel prec nf, init_nth_root o root debug fuel p q n prec = Val nf ->
  field_ok (root_pol p q n) x (fun _ => True) nf /\ f_den nf = q /\ f_prec nf = prec /\ f_imm nf = 0%Z.
Proof. exact root_odd. Qed.
Print Assumptions C58_odd_partial.

Theorem C58_sharp_partial : forall o root p q n x, arb_ok o -> root_ok root -> (0 < q)%Z -> (1 <= n)%nat -> 0 <= x -> x ^ n = IZR p / IZR q ->
  minimal (root_pol p q n) x -> arb_conv o -> arb_rate o -> root_conv root -> (2 <= n)%nat -> 0 < x ->
  exists P r0, 0 < r0 /\ forall debug fuel prec nf, (P <= prec)%Z -> init_nth_root o root debug fuel p q n prec = Val nf ->
  field_ok (root_pol p q n) x (fun a => rad_le a r0) nf /\ f_den nf = q /\ f_prec nf = prec /\ f_imm nf = 0%Z /\
  (forall y, inb y (f_emb nf) -> zeval (root_pol p q n) y = 0 -> y = x).
Proof. exact root_sharp. Qed.
Print Assumptions C58_sharp_partial.

(** The contract for arb_root_ui can be met, and the calls return for the cube
    root of 2 and the square root of 2/3. *)
Example C58_case : root_ok dyroot /\ root_conv dyroot /\ root_pol 2 1 3 = cube_pol /\
  (exists nf, init_nth_root dyops dyroot true 100 2 1 3 64 = Val nf) /\ (exists nf, init_nth_root dyops dyroot true 100 2 3 2 64 = Val nf).
Proof.
  split; [exact dyroot_ok|]. split; [exact dyroot_conv|]. split; [reflexivity|]. split; eexists; vm_compute; reflexivity.
Qed.

(** C59: the random polynomials are irreducible over the rational numbers. *)
Theorem C59_irreducible : forall c q t, prime c -> irreducible_mod c q -> (0 < last q 0 < c)%Z ->
  length (lift_mod c q t) = length q /\ (last (lift_mod c q t) 0 = last q 0 \/ last (lift_mod c q t) 0 = last q 0 - c)%Z /\
  irreducible (lift_mod c q t) /\ (forall x, zeval (lift_mod c q t) x = 0 -> minimal (lift_mod c q t) x).
Proof. exact lift_irreducible. Qed.
Print Assumptions C59_irreducible.

Example C59_case : prime 2 /\ irreducible_mod 2 [1; 1; 1]%Z /\ lift_mod 2 [1; 1; 1]%Z (fun i => Nat.eqb i 0) = [-1; 1; 1]%Z.
Proof. split; [exact prime_2|]. split; [exact ex_irreducible|reflexivity]. Qed.

(** C60: false: for the polynomial x the only root is found exactly, there is no
    interval to choose and the call aborts. *)
Theorem C60_random_refuted : exists ds, Forall draw_ok ds /\ forall o debug num pick prec, (exists p, rand_pol (has_real_root num) ds = Val p) /\
  randtest o debug 0 (has_real_root num) 100 ds pick 2 prec = Abort.
Proof. exact randtest_aborts. Qed.
Print Assumptions C60_random_refuted.

(** The field is created from a ball that isolates a root of an
    irreducible polynomial.  Missing: polynomials with a wrong root bound (C05), that
    the call returns, and that creating the field keeps the root (C18). *)
Theorem C60_random_partial : forall o debug flog0 has fuel ds pick len prec nf, Forall draw_ok ds ->
  Forall (fun d => good_bound flog0 (snd (low_zeros (drawn d))) /\ good_bound flog0 (flip (snd (low_zeros (drawn d))))) ds ->
  randtest o debug flog0 has fuel ds pick len prec = Val nf ->
  exists d b x, In d ds /\ irreducible (drawn d) /\ length (drawn d) = length (dr_pol d) /\ minimal (drawn d) x /\
    unique_root (drawn d) b /\ inb x b /\ renf_init o debug fuel (drawn d) 1 b prec = Val nf.
Proof. exact randtest_spec. Qed.
Print Assumptions C60_random_partial.

(** The ball of an interval is exact; otherwise the precision is refused. *)
Theorem C60_interval : forall c k prec,
  ((Z.abs c < 2 ^ (prec - 2))%Z -> exists b, from_interval (c, k) prec = Val b /\ forall y, inb y b <-> IZR c * pw2 k <= y <= IZR (c + 1) * pw2 k) /\
  ((2 ^ (prec - 2) <= Z.abs c)%Z -> from_interval (c, k) prec = Abort).
Proof. exact from_interval_spec. Qed.
Print Assumptions C60_interval.
Example C60_interval_case : from_interval (-5, -40)%Z 5 = Val (Fin (-9, -41) (1, -41))%Z /\ from_interval (-5, -40)%Z 4 = Abort.
Proof. split; reflexivity. Qed.

Example C60_case : draw_ok draw_2 /\ drawn draw_2 = [-1; 1; 1]%Z /\
  good_bound 0 (snd (low_zeros (drawn draw_2))) /\ good_bound 0 (flip (snd (low_zeros (drawn draw_2)))) /\
  exists nf, randtest dyops true 0 (has_real_root (fun _ => 0%Z)) 100 [draw_2] 0 3 64 = Val nf.
Proof. split; [exact draw_2_ok|]. split; [reflexivity|]. split; [exact draw_2_bound|]. split; [exact draw_2_bound'|exact draw_2_case]. Qed.
