(** Temporaries: what the functions of /repo/libeantic/src and
    /repo/libeantic/srcxx allocate, use and release.

    Each function is written down as a program of a small language that keeps its
    control flow (lines cited) and its local objects of FLINT, arb and malloc.
    Conditions are not kept: a branch may go either way and a loop may run any
    number of times, so a program has at least the executions of the function.
    Arguments, results, C++ objects with destructors and the temporaries of
    called functions are left out; a call is a use of the temporaries given to
    it.  Assertions are compiled in ([Halt] is an abort). *)
Require Import List ZArith Bool String.
From Verif Require Import RootModel ExtraModel Dyadic ArbModel ElemModel StrModel.
Import ListNotations.
Open Scope string_scope.
Open Scope list_scope.

(** Kinds name the pair of functions that allocates and releases; for vectors
    also the length, which is a name that keeps its value. *)
Inductive cmd :=
| Init (k x : string) | Use (x : string) | Clear (k x : string)
| Skip | Seq (c d : cmd)
| Either (c d : cmd)              (* a branch *)
| Loop (c : cmd)                  (* ends before any pass *)
| Forever (c : cmd)               (* ends only from within *)
| Break | Continue
| Leave                           (* return or throw *)
| Halt.                           (* abort *)

Notation "c ;; d" := (Seq c d) (at level 81, right associativity).
Definition Maybe (c : cmd) : cmd := Either c Skip.
Fixpoint uses (l : list string) : cmd := match l with [] => Skip | x :: l' => Use x ;; uses l' end.
Fixpoint inits (k : string) (l : list string) : cmd := match l with [] => Skip | x :: l' => Init k x ;; inits k l' end.
Fixpoint clears (k : string) (l : list string) : cmd := match l with [] => Skip | x :: l' => Clear k x ;; clears k l' end.

(** ** fmpz_poly_extra *)

(** descartes_bound.c:21-65. *)
Definition t_num_real_roots_upper_bound : cmd :=
  Maybe Halt ;; Init "vec len" "pol2" ;; Use "pol2" ;; Maybe (Use "pol2") ;; Use "pol2" ;; Loop (Use "pol2") ;;
  Maybe (Use "pol2") ;; Clear "vec len" "pol2" ;; Leave.

(** descartes_bound_0_1.c:23-102. *)
Definition t_descartes_bound_0_1 : cmd :=
  let out := Clear "vec len" "q" ;; Leave in
  Maybe Leave ;; Init "vec len" "q" ;; Use "q" ;; Loop (Use "q") ;; Use "q" ;;
  Loop (Loop (Use "q") ;; Loop (Use "q") ;; Maybe out ;; Loop (Use "q") ;; Either (Use "q") (Use "q" ;; Maybe (Maybe out))) ;;
  Use "q" ;; Maybe (Maybe out) ;; out.

(** evaluate.c:29-45 and 59-75; fmpq_poly_extra/evaluate.c:24-40 and 48-64. *)
Definition t_evaluate (k : string) : cmd := Either (Init k "tmp" ;; uses ["tmp"; "tmp"] ;; Clear k "tmp") Skip.

(** isolate_real_roots.c:29-119. *)
Definition t_isolate_0_1 : cmd :=
  Init "fmpz" "one" ;; Use "one" ;; Init "vec len0" "p0" ;; Use "p0" ;; Init "fmpz" "c" ;; Use "c" ;;
  Forever (
    Loop (Use "p0" ;; Maybe (Use "c")) ;; Use "p0" ;;
    Either (uses ["c"; "p0"] ;; Continue) (Either (Maybe (Use "c")) (Either Skip Halt)) ;;
    uses ["c"; "c"] ;;
    Maybe (clears "fmpz" ["c"; "one"] ;; Clear "vec len0" "p0" ;; Leave) ;;
    uses ["p0"; "one"] ;; Maybe (uses ["p0"; "c"] ;; Maybe Halt)).

(** isolate_real_roots.c:121-224. *)
Definition t_isolate : cmd :=
  Maybe Halt ;; Init "vec len" "p" ;; Use "p" ;; Loop (Use "p") ;; Use "p" ;;
  Maybe (uses ["p"; "p"]) ;; uses ["p"; "p"] ;; Maybe (uses ["p"; "p"]) ;; Clear "vec len" "p".

(** positive_root_upper_bound_2exp.c:31-88. *)
Definition t_positive_root_upper_bound : cmd :=
  Init "fmpz" "tmp" ;; Maybe Halt ;; Init "malloc" "coeffs" ;; Loop (Use "coeffs") ;;
  Loop (Maybe Continue ;; Loop (uses ["coeffs"; "tmp"; "tmp"; "tmp"; "tmp"; "tmp"; "tmp"] ;; Maybe (Maybe Break)) ;;
        Maybe Halt ;; Use "coeffs") ;;
  Clear "fmpz" "tmp" ;; Clear "malloc" "coeffs" ;; Leave.

(** num_real_roots_0_1_sturm.c:18-87. *)
Definition t_sturm : cmd :=
  Maybe Halt ;; Init "fmpz" "c" ;; inits "fmpz_poly" ["p0"; "p1"] ;; uses ["p0"; "p1"; "p0"; "c"; "c"] ;;
  Use "p1" ;;
  Loop (uses ["p1"; "c"; "p1"; "c"; "p0"; "p1"; "p1"; "p0"] ;; Maybe (Use "p1") ;; uses ["c"; "p1"; "c"] ;;
        Maybe (Loop (uses ["p1"; "c"])) ;; Use "p1") ;;
  clears "fmpz_poly" ["p0"; "p1"] ;; Clear "fmpz" "c" ;; Leave.

(** randtest_irreducible.c:19-62; [new]: FLINT 2.7 or later (the release decides
    which lines are compiled). *)
Definition t_randtest_irreducible (new : bool) : cmd :=
  Init "fmpz" "c" ;; Use "c" ;;
  (if new then Init "fmpz_mod_ctx" "ctx" ;; Use "c" ;; Init "fmpz_mod_poly" "q" ;; uses ["ctx"; "q"; "ctx"; "q"; "ctx"]
   else Init "fmpz_mod_poly" "q" ;; uses ["c"; "q"; "q"]) ;;
  Loop (Maybe (Use "c")) ;;
  (if new then Use "ctx" ;; Clear "fmpz_mod_poly" "q" ;; Clear "fmpz_mod_ctx" "ctx" else Clear "fmpz_mod_poly" "q") ;;
  Clear "fmpz" "c".

(** relative_condition_number_2exp.c:16-55. *)
Definition t_condition_number : cmd :=
  inits "arf" ["res"; "abs"] ;; Init "fmpz" "cond2" ;; Use "abs" ;; Either (Use "res") (uses ["res"; "res"]) ;;
  Loop (uses ["res"; "abs"] ;; Either (Use "res") (Maybe (Use "res"))) ;; uses ["cond2"; "res"] ;;
  clears "arf" ["res"; "abs"] ;; Use "cond2" ;; Maybe (Clear "fmpz" "cond2" ;; Leave) ;; Use "cond2" ;; Clear "fmpz" "cond2" ;; Leave.

(** scale_0_1_fmpq.c:16-60. *)
Definition t_scale_0_1 : cmd :=
  Maybe Leave ;; inits "fmpz" ["p1"; "q"; "c"; "t"] ;; uses ["q"; "t"; "p1"; "p1"; "t"; "c"; "c"; "t"; "t"; "c"; "p1"; "c"] ;;
  Loop (uses ["c"; "q"; "c"]) ;; uses ["p1"; "c"] ;; Loop (uses ["c"; "t"; "c"]) ;;
  clears "fmpz" ["t"; "c"; "p1"; "q"].

(** set_str_pretty.c:17-43. *)
Definition t_set_str_z : cmd :=
  Init "fmpq_poly" "q" ;; Use "q" ;; Maybe (Clear "fmpq_poly" "q" ;; Leave) ;; Use "q" ;;
  Maybe (Clear "fmpq_poly" "q" ;; Leave) ;; Loop (Use "q") ;; Clear "fmpq_poly" "q" ;; Leave.

(** squarefree_part.c:16-44. *)
Definition t_squarefree_part : cmd :=
  Either Skip (Either Skip (inits "fmpz_poly" ["der"; "gcd"] ;; uses ["der"; "gcd"; "der"; "gcd"] ;; clears "fmpz_poly" ["der"; "gcd"])).

(** bisection_step_arb.c:16-53. *)
Definition t_bisection_arf : cmd :=
  Init "arf" "m" ;; uses ["m"; "m"; "m"] ;; Maybe (Clear "arf" "m" ;; Leave) ;;
  inits "arb" ["b"; "c"] ;; uses ["b"; "m"; "c"; "b"; "c"] ;;
  Maybe (Clear "arf" "m" ;; clears "arb" ["b"; "c"] ;; Leave) ;;
  uses ["c"; "m"] ;; clears "arb" ["b"; "c"] ;; Clear "arf" "m".

(** bisection_step_arb.c:55-108. *)
Definition t_bisection_arb : cmd :=
  let fail := clears "arf" ["l"; "r"] ;; clears "arb" ["b"; "c"; "rres"] ;; Leave in
  inits "arf" ["l"; "r"] ;; inits "arb" ["b"; "c"; "rres"] ;; uses ["l"; "r"; "b"; "l"; "c"; "b"; "c"] ;;
  Maybe fail ;; uses ["c"; "b"; "r"; "c"; "b"; "c"] ;; Maybe fail ;;
  uses ["c"; "l"; "r"; "rres"; "l"; "r"; "rres"] ;;
  clears "arb" ["b"; "c"; "rres"] ;; clears "arf" ["l"; "r"] ;; Leave.

(** newton_step_arb.c:19-52. *)
Definition t_newton_step : cmd :=
  Maybe Halt ;; Maybe Leave ;; inits "arb" ["m"; "y"] ;; uses ["m"; "m"; "y"; "m"; "y"; "m"] ;; clears "arb" ["m"; "y"] ;; Leave.

(** ** fmpq_poly_extra *)

(** set_str_pretty.c:153-204. *)
Definition t_set_str : cmd :=
  Maybe Leave ;; Init "malloc" "z" ;; Init "fmpq_poly" "mon" ;; Init "fmpq" "coeff" ;;
  Loop (Loop Skip ;; uses ["z"; "z"; "coeff"; "z"] ;;
        Maybe (Clear "malloc" "z" ;; Clear "fmpq" "coeff" ;; Clear "fmpq_poly" "mon" ;; Leave) ;;
        uses ["mon"; "coeff"; "mon"; "mon"]) ;;
  Clear "malloc" "z" ;; Clear "fmpq" "coeff" ;; Clear "fmpq_poly" "mon" ;; Leave.

(** check_unique_real_root.c:29-114. *)
Definition t_check_unique : cmd :=
  Either Leave
  (Either (Init "fmpq" "root" ;; uses ["root"; "root"; "root"] ;; Clear "fmpq" "root" ;; Leave)
  (inits "arb" ["b"; "c"] ;; inits "arf" ["l"; "r"] ;; uses ["l"; "r"; "b"; "l"; "c"; "b"; "c"; "b"; "r"; "c"; "b"; "c"] ;;
   Clear "arb" "c" ;;
   Either
     (Init "vec len-1" "der" ;; uses ["der"; "b"; "der"] ;; Clear "vec len-1" "der" ;; Use "b" ;;
      Maybe (clears "arf" ["l"; "r"] ;; Clear "arb" "b" ;; Leave))
     Leave ;;
   Clear "arb" "b" ;; inits "fmpq" ["ql"; "qr"] ;; uses ["ql"; "l"; "qr"; "r"] ;;
   Init "fmpz_poly" "pol2" ;; uses ["pol2"; "pol2"; "pol2"; "pol2"; "ql"; "qr"; "pol2"] ;;
   Clear "fmpz_poly" "pol2" ;; clears "fmpq" ["ql"; "qr"] ;; Leave)).

(** ** renf *)

(** get_str.c:19-33; the result is returned. *)
Definition t_renf_get_str : cmd :=
  inits "malloc" ["p"; "e"] ;; uses ["p"; "e"; "p"; "e"] ;; clears "malloc" ["p"; "e"] ;; Leave.

(** init_nth_root.c:19-44. *)
Definition t_init_nth_root : cmd :=
  Maybe Halt ;; Init "fmpq_poly" "pol" ;; Init "fmpq" "p0" ;; uses ["p0"; "p0"; "pol"; "p0"; "pol"] ;;
  Init "arb" "emb" ;; uses ["emb"; "emb"; "pol"; "emb"] ;; Clear "fmpq" "p0" ;; Clear "fmpq_poly" "pol" ;; Clear "arb" "emb".

(** randtest.c:40-94. *)
Definition t_renf_randtest : cmd :=
  Maybe Halt ;; Init "fmpz_poly" "p" ;; Use "p" ;; Use "p" ;; Loop (uses ["p"; "p"]) ;;
  Init "vec p->length" "c_array" ;; Init "malloc" "k_array" ;; uses ["c_array"; "k_array"; "p"] ;; Maybe Halt ;; Maybe Halt ;;
  Init "arb" "emb" ;; uses ["emb"; "c_array"; "k_array"; "c_array"; "k_array"] ;;
  Init "fmpq_poly" "p2" ;; uses ["p2"; "p"; "p2"; "emb"] ;;
  Use "p" ;; Clear "vec p->length" "c_array" ;; Clear "malloc" "k_array" ;; Clear "fmpz_poly" "p" ;; Clear "fmpq_poly" "p2" ;; Clear "arb" "emb".

(** refine_embedding.c:20-64. *)
Definition t_refine : cmd :=
  Maybe Halt ;; Init "arb" "tmp" ;;
  Loop (Use "tmp" ;; Maybe (Use "tmp" ;; Maybe Continue) ;; Use "tmp") ;;
  Clear "arb" "tmp" ;; Maybe Halt.

(** set_embeddings_fmpz_poly.c:22-68. *)
Definition t_set_embeddings : cmd :=
  Init "vec n" "c" ;; Maybe Halt ;; Init "malloc" "k" ;; uses ["c"; "k"] ;; Maybe Halt ;;
  Init "arb" "a" ;; Init "fmpq_poly" "p2" ;; uses ["p2"; "p2"; "p2"; "p2"] ;;
  Loop (uses ["a"; "c"; "a"; "a"; "a"; "a"; "k"; "p2"; "a"]) ;;
  Clear "arb" "a" ;; Clear "fmpq_poly" "p2" ;; Clear "vec n" "c" ;; Clear "malloc" "k" ;; Leave.

(** ** renf_elem *)

(** add_fmpq.c, sub_fmpq.c, mul_fmpq.c, div_fmpq.c, fmpq_sub.c:16-23. *)
Definition t_arb_fmpq : cmd := Init "arb" "x" ;; uses ["x"; "x"] ;; Clear "arb" "x".

(** add_ui.c, sub_ui.c, mul_ui.c, div_ui.c:16-24. *)
Definition t_ui : cmd := Init "fmpz" "tmp" ;; uses ["tmp"; "tmp"; "tmp"] ;; Clear "fmpz" "tmp".

(** set_mpz.c, set_mpq.c:16-22. *)
Definition t_set_readonly (k : string) : cmd := Init k "x" ;; Use "x" ;; Clear k "x".

(** check_embedding.c:19-50. *)
Definition t_check_embedding : cmd :=
  Init "arb" "emb" ;; Either (Use "emb") (Either (uses ["emb"; "emb"; "emb"; "emb"; "emb"]) (Use "emb")) ;; Use "emb" ;;
  Maybe (Use "emb" ;; Clear "arb" "emb" ;; Halt) ;; Clear "arb" "emb".

(** cmp.c:18-83. *)
Definition t_cmp : cmd :=
  Maybe Leave ;; Maybe Leave ;; Maybe Leave ;; Maybe (Either Leave (Either Leave Leave)) ;; Maybe Leave ;; Maybe Leave ;;
  Init "renf_elem" "diff" ;; uses ["diff"; "diff"] ;; Clear "renf_elem" "diff" ;; Leave.

(** cmp_fmpq.c:19-86. *)
Definition t_cmp_fmpq : cmd :=
  Maybe Leave ;; Maybe Leave ;; Maybe Leave ;;
  Init "arb" "diffball" ;; uses ["diffball"; "diffball"; "diffball"; "diffball"] ;;
  Maybe (Use "diffball" ;; Clear "arb" "diffball" ;; Leave) ;; Maybe Halt ;;
  uses ["diffball"; "diffball"; "diffball"; "diffball"] ;; Maybe (Use "diffball" ;; Clear "arb" "diffball" ;; Leave) ;;
  Clear "arb" "diffball" ;; Init "renf_elem" "diffnf" ;; uses ["diffnf"; "diffnf"; "diffnf"; "diffnf"] ;;
  Clear "renf_elem" "diffnf" ;; Leave.

(** cmp_fmpz.c:16-28, cmp_si.c and cmp_ui.c:16-28. *)
Definition t_cmp_z : cmd := Init "fmpq" "bq" ;; uses ["bq"; "bq"; "bq"] ;; Clear "fmpq" "bq" ;; Leave.

(** fdiv.c:24-106. *)
Definition t_fdiv : cmd :=
  Either
    (Loop Skip ;; Loop Skip ;; Init "arb" "quotient" ;; uses ["quotient"; "quotient"] ;; Loop (uses ["quotient"; "quotient"]) ;; Use "quotient" ;;
     Either (Use "quotient" ;; Init "renf_elem" "ac" ;; uses ["ac"; "ac"] ;; Clear "renf_elem" "ac") (Use "quotient") ;;
     Clear "arb" "quotient")
    (Init "renf_elem" "quotient" ;; uses ["quotient"; "quotient"] ;; Clear "renf_elem" "quotient").

(** gen.c:16-41. *)
Definition t_gen : cmd := Either Skip (Init "fmpq_poly" "p" ;; uses ["p"; "p"; "p"] ;; Clear "fmpq_poly" "p").

(** get_d.c:23-43 and 45-151. *)
Definition t_overflows : cmd :=
  Either (Maybe Leave ;; Init "fmpz" "dbl_max" ;; uses ["dbl_max"; "dbl_max"] ;; Clear "fmpz" "dbl_max" ;; Leave) Leave.
Definition t_get_d : cmd :=
  Maybe Leave ;;
  Maybe (Init "fmpq" "b" ;; Init "arf" "c" ;; uses ["b"; "c"; "b"; "c"] ;; Clear "arf" "c" ;; Clear "fmpq" "b" ;; Leave) ;;
  Maybe Leave ;; Maybe Leave ;; Maybe (Loop Skip) ;;
  inits "arf" ["lbound"; "ubound"] ;;
  Forever (uses ["lbound"; "ubound"; "lbound"; "ubound"] ;; Maybe Break) ;;
  clears "arf" ["lbound"; "ubound"] ;; Leave.

(** rounding_template.h:42-117. *)
Definition t_round : cmd :=
  let out := clears "arf" ["cl"; "cr"] ;; Leave in
  Maybe Leave ;; Maybe (Loop Skip) ;; inits "arf" ["cl"; "cr"] ;; uses ["cl"; "cr"; "cl"; "cr"; "cl"; "cr"] ;; Maybe out ;;
  Init "fmpz" "zsize" ;; uses ["zsize"; "cl"; "zsize"] ;; Maybe Halt ;; uses ["zsize"; "zsize"; "cr"; "zsize"] ;; Maybe Halt ;; Use "zsize" ;;
  Clear "fmpz" "zsize" ;;
  Forever (uses ["cl"; "cr"; "cl"; "cr"] ;; Maybe out).

(** get_str_pretty.c:28-105; the result is returned.  print_pretty.c:18-23. *)
Definition t_get_str_pretty : cmd :=
  Maybe (Init "malloc" "s" ;; uses ["s"; "s"] ;; Clear "malloc" "s") ;;
  Either
    (Either (Init "malloc" "s1" ;; Use "s1")
            (Init "arb" "x" ;; Use "x" ;; Init "malloc" "s1" ;; Use "x" ;; Clear "arb" "x") ;;
     uses ["s1"; "s1"] ;; Clear "malloc" "s1")
    (Maybe (Init "malloc" "s2" ;; uses ["s2"; "s2"] ;; Clear "malloc" "s2")) ;;
  Leave.
Definition t_print_pretty : cmd := Init "malloc" "res" ;; Use "res" ;; Clear "malloc" "res".

(** ** srcxx/renf_elem_class.cpp *)

(** Lines 79-105. *)
Definition t_coerce : cmd :=
  Maybe Leave ;;
  Either Skip (Either (Init "fmpz" "value" ;; Use "value" ;; Clear "fmpz" "value") (Either Skip Leave)).
(** Lines 112-151. *)
Definition t_binop : cmd :=
  Either Skip (Maybe (Either Leave Skip) ;;
               Either Skip (Either (Init "fmpq" "buffer" ;; Use "buffer" ;; Clear "fmpq" "buffer") Skip)) ;; Leave.
(** Lines 153-161, 163-179, 181-190, 192-208. *)
Definition t_readonly (k : string) : cmd := Maybe Leave ;; Init k "r" ;; Use "r" ;; Clear k "r" ;; Leave.
(** Lines 213-228. *)
Definition t_maybe_fmpz : cmd := Maybe (Init "fmpz_readonly" "v" ;; Use "v" ;; Clear "fmpz_readonly" "v").
(** Lines 401-437. *)
Definition t_of_string : cmd :=
  Init "malloc" "t" ;; Use "t" ;; Init "fmpq_poly" "p" ;; uses ["p"; "t"] ;; Maybe (Clear "fmpq_poly" "p" ;; Leave) ;;
  Use "p" ;; Clear "fmpq_poly" "p" ;; Clear "malloc" "t".
(** Lines 451-513; 515-536 and 538-557 with [k] for the coefficients. *)
Definition t_of_vector : cmd := Maybe Halt ;; Init "fmpq_poly" "p" ;; Loop (Use "p") ;; Use "p" ;; Clear "fmpq_poly" "p".
Definition t_of_mpz_vector (k : string) : cmd :=
  Maybe Halt ;; Init "fmpq_poly" "p" ;; Loop (Init k "coeff" ;; uses ["p"; "coeff"] ;; Clear k "coeff") ;; Use "p" ;; Clear "fmpq_poly" "p".
(** num_content, lines 756-783. *)
Definition t_num_content : cmd :=
  Either Skip (Either (Init "fmpz" "t" ;; uses ["t"; "t"] ;; Clear "fmpz" "t") (Init "fmpz" "t" ;; uses ["t"; "t"] ;; Clear "fmpz" "t")) ;; Leave.
(** den, lines 785-795; floor and ceil, lines 873-897; floordiv, lines 943-964. *)
Definition t_den : cmd := Init "fmpz" "z" ;; uses ["z"; "z"] ;; Clear "fmpz" "z" ;; Leave.
Definition t_floor : cmd := Init "fmpz" "tmp" ;; uses ["tmp"; "tmp"] ;; Clear "fmpz" "tmp" ;; Leave.
Definition t_floordiv : cmd := Maybe (Maybe Leave ;; Maybe Leave) ;; Init "fmpz" "floor" ;; uses ["floor"; "floor"] ;; Clear "fmpz" "floor" ;; Leave.
(** operator mpq_class, lines 808-829; num_vector, lines 831-850. *)
Definition t_to_mpq : cmd :=
  Either Leave (Maybe Halt ;; Init "fmpq_poly" "f" ;; uses ["f"; "f"; "f"] ;; Clear "fmpq_poly" "f" ;; Leave).
Definition t_num_vector : cmd :=
  Init "fmpq_poly" "f" ;; Use "f" ;; Loop (Use "f") ;; Use "f" ;; Loop Skip ;; Clear "fmpq_poly" "f" ;; Leave.
(** to_string, lines 857-871; renf_class.cpp:191-201 and 221-227. *)
Definition t_to_string : cmd := Maybe Halt ;; Init "malloc" "u" ;; Use "u" ;; Clear "malloc" "u" ;; Leave.
Definition t_construction : cmd := inits "malloc" ["emb"; "pol"] ;; uses ["pol"; "emb"] ;; clears "malloc" ["pol"; "emb"] ;; Leave.

(** All functions above except [t_check_unique] and [t_of_string]. *)
Definition programs : list (string * cmd) :=
  [("fmpz_poly_num_real_roots_upper_bound", t_num_real_roots_upper_bound);
   ("_fmpz_poly_descartes_bound_0_1", t_descartes_bound_0_1);
   ("fmpz_poly_evaluate_arb, fmpq_poly_evaluate_arb", t_evaluate "arb");
   ("fmpz_poly_evaluate_arf, fmpq_poly_evaluate_arf", t_evaluate "arf");
   ("_fmpz_poly_isolate_real_roots_0_1_vca", t_isolate_0_1);
   ("fmpz_poly_isolate_real_roots", t_isolate);
   ("_fmpz_poly_positive_root_upper_bound_2exp_local_max", t_positive_root_upper_bound);
   ("fmpz_poly_num_real_roots_0_1_sturm", t_sturm);
   ("fmpz_poly_randtest_irreducible", t_randtest_irreducible true);
   ("fmpz_poly_randtest_irreducible, old FLINT", t_randtest_irreducible false);
   ("_fmpz_poly_relative_condition_number_2exp", t_condition_number);
   ("_fmpz_poly_scale_0_1_fmpq", t_scale_0_1);
   ("fmpz_poly_set_str_pretty", t_set_str_z);
   ("fmpz_poly_squarefree_part", t_squarefree_part);
   ("_fmpz_poly_bisection_step_arf", t_bisection_arf);
   ("_fmpz_poly_bisection_step_arb", t_bisection_arb);
   ("_fmpz_poly_newton_step_arb", t_newton_step);
   ("fmpq_poly_set_str_pretty", t_set_str);
   ("renf_get_str", t_renf_get_str);
   ("renf_init_nth_root_fmpq", t_init_nth_root);
   ("renf_randtest", t_renf_randtest);
   ("renf_refine_embedding", t_refine);
   ("renf_set_embeddings_fmpz_poly", t_set_embeddings);
   ("renf_elem_add_fmpq, _sub_fmpq, _mul_fmpq, _div_fmpq, _fmpq_sub", t_arb_fmpq);
   ("renf_elem_add_ui, _sub_ui, _mul_ui, _div_ui", t_ui);
   ("renf_elem_set_mpz", t_set_readonly "fmpz_readonly");
   ("renf_elem_set_mpq", t_set_readonly "fmpq_readonly");
   ("renf_elem_check_embedding", t_check_embedding);
   ("renf_elem_cmp", t_cmp);
   ("renf_elem_cmp_fmpq", t_cmp_fmpq);
   ("renf_elem_cmp_fmpz, _cmp_si, _cmp_ui", t_cmp_z);
   ("renf_elem_fdiv", t_fdiv);
   ("renf_elem_gen", t_gen);
   ("renf_elem_overflows_d", t_overflows);
   ("renf_elem_get_d", t_get_d);
   ("renf_elem_floor, renf_elem_ceil", t_round);
   ("renf_elem_get_str_pretty", t_get_str_pretty);
   ("renf_elem_print_pretty", t_print_pretty);
   ("coerce", t_coerce);
   ("binop", t_binop);
   ("binop_mpz, relop_mpz", t_readonly "fmpz_readonly");
   ("binop_mpq, relop_mpq", t_readonly "fmpq_readonly");
   ("maybe_fmpz", t_maybe_fmpz);
   ("renf_elem_class(k, vector of machine integers)", t_of_vector);
   ("renf_elem_class(k, vector<mpz_class>)", t_of_mpz_vector "fmpz_readonly");
   ("renf_elem_class(k, vector<mpq_class>)", t_of_mpz_vector "fmpq_readonly");
   ("renf_elem_class::num_content", t_num_content);
   ("renf_elem_class::den", t_den);
   ("renf_elem_class::floor, ceil", t_floor);
   ("renf_elem_class::floordiv", t_floordiv);
   ("renf_elem_class::operator mpq_class", t_to_mpq);
   ("renf_elem_class::num_vector", t_num_vector);
   ("renf_elem_class::to_string, renf_class::to_string", t_to_string);
   ("renf_class::construction", t_construction)].

(** ** Two functions with their conditions *)
Inductive event := EInit (k x : string) | EUse (x : string) | EClear (k x : string).

Section Traced.
Variable o : arbops.

(** check_unique_real_root.c:29-114: answer and events. *)
Definition check_unique_events (fuel : nat) (pol : list Z) (a : ball) (prec : Z) : out (bool * list event) :=
  match pol with
  | [] | [_] => Val (false, [])
  | [c0; c1] =>
      Val (bcontains_q a (- c0 * Z.sgn c1) (Z.abs c1),
           [EInit "fmpq" "root"; EUse "root"; EUse "root"; EUse "root"; EClear "fmpq" "root"])
  | _ =>
      if (prec <? 2)%Z then Undef
      else
        let ev1 :=                                                             (* 59-72 *)
          [EInit "arb" "b"; EInit "arb" "c"; EInit "arf" "l"; EInit "arf" "r"; EUse "l"; EUse "r";
           EUse "b"; EUse "l"; EUse "c"; EUse "b"; EUse "c"; EUse "b"; EUse "r"; EUse "c"; EUse "b"; EUse "c";
           EClear "arb" "c"] in
        match interval a prec with
        | None => Val (false, ev1)
        | Some (l, r) =>
            let ls := sgn2 (eval_arb o pol (bexact l) (2 * prec)) in
            let rs := sgn2 (eval_arb o pol (bexact r) (2 * prec)) in
            if (ls * rs =? -1)%Z then
              let ev2 := ev1 ++                                                (* 75-80 *)
                [EInit "vec len-1" "der"; EUse "der"; EUse "b"; EUse "der"; EClear "vec len-1" "der"; EUse "b"] in
              if negb (contains_zero (eval_arb o (zderiv pol) a prec)) then
                Val (true, ev2 ++ [EClear "arf" "l"; EClear "arf" "r"; EClear "arb" "b"])        (* 82-85 *)
              else
                match num_real_roots_0_1 fuel (scale_0_1 pol (dy_fmpq l) (dy_fmpq r)) with
                | Some n =>
                    Val (Nat.eqb n 1, ev2 ++                                   (* 90-112 *)
                      [EClear "arb" "b"; EInit "fmpq" "ql"; EInit "fmpq" "qr"; EUse "ql"; EUse "l"; EUse "qr"; EUse "r";
                       EInit "fmpz_poly" "pol2"; EUse "pol2"; EUse "pol2"; EUse "pol2"; EUse "pol2"; EUse "ql"; EUse "qr"; EUse "pol2";
                       EClear "fmpz_poly" "pol2"; EClear "fmpq" "ql"; EClear "fmpq" "qr"])
                | None => Fuel
                end
            else Val (false, ev1)                                              (* 89 *)
        end
  end.
End Traced.

(** renf_elem_class.cpp:401-437: element, [None] for the exception, and events. *)
Definition of_string_events (zero_den : Z -> out (option (Z * Z))) (n : nfops) (var s : str) : out (option elem * list event) :=
  let ev := [EInit "malloc" "t"; EUse "t"; EInit "fmpq_poly" "p"; EUse "p"; EUse "t"] in
  bind (set_str zero_den var (cut_tilde s)) (fun r =>
    match r with
    | None => Val (None, ev ++ [EClear "fmpq_poly" "p"])
    | Some p => Val (Some (n_set_poly n (e_num p) (e_den p)), ev ++ [EUse "p"; EClear "fmpq_poly" "p"; EClear "malloc" "t"])
    end).
