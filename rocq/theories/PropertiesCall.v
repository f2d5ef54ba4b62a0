(** Fields made with a callback and from SageMath number fields: C67 and C68. *)
Require Import Reals List ZArith Bool Lia Lra Ascii String.
From Verif Require Import PolyR RootSpec RootModel Dyadic ArbModel ArbSpec DyBall DyBallProofs RateSpec DyRate
  ElemModel ElemSpec EndsSpec DefSpec ToolsSpec StrModel StrSpec StrRefute CxxModel MakeModel MakeSpec MakeText ArchiveRefute
  CreateSpec CreateEx CallSpec CallProofs PyModel PySpec PyField PyRefute PyInit CallEndless.
Import ListNotations.
Open Scope R_scope.

(** * C67 *)

(** C67: false as stated.  A text that holds one root of x^2 - 2 only is accepted at 64
    bits, but the refinement in [renf_init] does not end (C54): the callback is never
    called again, whatever it would return for more bits. *)
Theorem C67_endless_refuted : exists s q x, ball_text s = Some q /\ in_text x q /\ zeval [-2; 0; 1]%Z x = 0 /\
  (forall y, in_text y q -> zeval [-2; 0; 1]%Z y = 0 -> y = x) /\
  forall zd emb, emb 64%Z = Ret s -> forall debug fuel n, (8 <= fuel)%nat ->
  make_loop dyops debug zd dec_read fuel n (lit "x^2 - 2") (lit "x") emb 64 = Fuel.
Proof. exact callback_endless. Qed.
Print Assumptions C67_endless_refuted.

(** The field of the root that the balls close in on is made, at the precision that
    was reached, unless an exponent of the refinement or the precision exceeds a
    machine word.  In full this holds for all balls that shrink to the root, however
    wide the ones before. *)
Theorem C67_callback_partial : forall o zd read, arb_ok o -> arb_rate o ->
  forall pol x, irreducible pol -> last pol 0%Z <> 0%Z -> (3 <= List.length pol)%nat -> zeval pol x = 0 ->
  exists w c P, 0 < w /\ 0 < c /\ forall minpoly gen p emb p0 k balls, set_str zd gen minpoly = Val (Some p) -> e_num p = pol ->
  (2 <= p0)%Z -> (P <= p0 * 2 ^ Z.of_nat k)%Z -> closing_in read emb pol x w c p0 k balls ->
  forall debug n, (k < n)%nat ->
  DefSpec.answers (fun fuel => make_loop o debug zd read fuel n minpoly gen emb p0)
    (fun res => snd res = O /\ exists j nf, (j <= k)%nat /\ fst res = Ret nf /\ embedded pol (e_den p) x (p0 * 2 ^ Z.of_nat j) nf)
    ((exists j, (j <= k)%nat /\ word_overflow o pol (balls j)) \/ (WORD_MAX < p0 * 2 ^ Z.of_nat k)%Z).
Proof. exact make_callback. Qed.
Print Assumptions C67_callback_partial.

Example C67_callback_case : arb_ok dyops /\ arb_rate dyops /\ irreducible [-2; 0; 1]%Z /\ zeval [-2; 0; 1]%Z (sqrt 2) = 0 /\
  forall w c P, 0 < w -> 0 < c -> exists emb p0 balls, (2 <= p0)%Z /\ (P <= p0 * 2 ^ Z.of_nat 1)%Z /\
  closing_in dec_read emb [-2; 0; 1]%Z (sqrt 2) w c p0 1 balls /\ inb (- sqrt 2) (balls 0%nat).
Proof.
  split; [exact dyops_ok|]. split; [exact dyops_rate|]. split; [exact sq_irreducible|]. split; [apply sq_roots; right; reflexivity|exact closing_case].
Qed.

(** A ball with another root is refused at every precision. *)
Theorem C67_two_roots : forall o, arb_ok o -> forall pol, irreducible pol -> last pol 0%Z <> 0%Z -> (3 <= List.length pol)%nat ->
  forall m r prec x y, (2 <= prec)%Z -> zeval pol x = 0 -> zeval pol y = 0 -> y <> x -> inb x (Fin m r) -> inb y (Fin m r) ->
  exists f0, forall fuel, (f0 <= fuel)%nat -> check_unique o fuel pol (Fin m r) prec = Val false.
Proof. intros o Ho pol Hi Hl Hdeg. exact (check_two o pol Ho Hi Hl Hdeg). Qed.
Print Assumptions C67_two_roots.

(** The second ball is accepted, the first one has two roots. *)
Example C67_case : exists nf, make_loop dyops true zd0 dec_read 50 2 (lit "x^2 - 2") (lit "x") two_step 8 = Val (Ret nf, O) /\ f_prec nf = 16%Z /\
  check_unique dyops 50 [-2; 0; 1]%Z (match dec_read wide_text 8 with Some b => b | None => Top end) 8 = Val false.
Proof. exact two_step_made. Qed.

(** * C68 *)

(** The number field given by a polynomial, a variable and a real root becomes the
    renf_class of this polynomial and root.  In full this holds for all enclosures
    of the root that SageMath may write. *)
Theorem C68_sage_partial : forall o zd read repr, arb_ok o -> arb_rate o -> repr_ok repr ->
  forall p a, irreducible (e_num p) -> last (e_num p) 0%Z <> 0%Z -> (3 <= List.length (e_num p))%nat -> (Z.of_nat (List.length (e_num p)) <= long_max)%Z ->
  lowest_terms p -> zeval (e_num p) a = 0 ->
  exists w c P, 0 < w /\ 0 < c /\ forall var ball_str k balls, sage_name var -> (P <= 64 * 2 ^ Z.of_nat k)%Z ->
  closing_in read (fun prec => Ret (ball_str a prec)) (e_num p) a w c 64 k balls ->
  forall debug n, (k < n)%nat ->
  DefSpec.answers (fun fuel => sage_renf o debug zd read fuel n repr ball_str var p a)
    (fun res => snd res = O /\ exists j nf, (j <= k)%nat /\ fst res = Ret nf /\ embedded (e_num p) (e_den p) a (64 * 2 ^ Z.of_nat j) nf)
    ((exists j, (j <= k)%nat /\ word_overflow o (e_num p) (balls j)) \/ (WORD_MAX < 64 * 2 ^ Z.of_nat k)%Z).
Proof. exact sage_makes. Qed.
Print Assumptions C68_sage_partial.

(** Back to SageMath: the same polynomial, variable and root, if the leading
    coefficient is a positive integer and the roots are told apart. *)
Theorem C68_back_partial : forall print_ball read_ball poly_ring roots enclose, sage_ok print_ball read_ball poly_ring enclose ->
  forall var p a prec nf, sage_name var -> lowest_terms p -> (3 <= List.length (e_num p))%nat -> (Z.of_nat (List.length (e_num p)) <= long_max)%Z ->
  (0 < last (e_num p) 0)%Z -> (e_den p | last (e_num p) 0)%Z -> zeval (e_num p) a = 0 -> roots_ok p (roots p) ->
  embedded (e_num p) (e_den p) a prec nf ->
  (forall r, normalize print_ball read_ball poly_ring roots enclose var nf = Ret r -> r = (p, var, a)) /\
  (told_apart print_ball read_ball enclose nf a -> normalize print_ball read_ball poly_ring roots enclose var nf = Ret (p, var, a)).
Proof. exact sage_returns. Qed.
Print Assumptions C68_back_partial.

Example C68_case : repr_ok pretty /\ sage_ok dec_show dec_read read_poly unit_ball /\ sage_name (lit "x") /\
  lowest_terms {| e_num := [-2; 0; 1]; e_den := 1 |}%Z /\ pretty (lit "x") {| e_num := [-2; 0; 1]; e_den := 1 |}%Z = lit "x^2 - 2".
Proof.
  split; [exact pretty_repr|]. split; [exact sage_met|]. split; [split; [split; [left; reflexivity|constructor]|reflexivity]|].
  split; [|reflexivity]. constructor; [reflexivity|discriminate|]. intros g G D _. apply Z.divide_1_r_nonneg in D; [exact D|lia].
Qed.
