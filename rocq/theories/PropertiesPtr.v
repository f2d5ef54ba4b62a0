(** C92: reading a polynomial does not leave its strings. *)
Require Import List ZArith Bool Ascii String.
From Verif Require Import RootModel ArbModel ElemModel StrModel ArrModel PtrModel PtrProofs.
Import ListNotations.
Open Scope Z_scope.

(** On the arrays that hold the name and the text, with their terminators and anything
    behind, and whatever malloc finds, the function with pointers gives what C32 says of the
    characters before the terminators: no pointer leaves the arrays, and the copy of a term
    with its terminator fits into strlen(s) + 1 characters. *)
Theorem C92_read : forall zero_den fresh var s rv rs, (forall n, List.length (fresh n) = n) -> ~ In nul var -> ~ In nul s ->
  set_str_buf zero_den fresh (var ++ nul :: rv) (s ++ nul :: rs) = set_str zero_den var s.
Proof. exact set_str_ok. Qed.
Print Assumptions C92_read.

(** The copy of a term is the same before and after it is read. *)
Theorem C92_term : forall zero_den var s r, ~ In nul var -> ~ In nul s ->
  monomial_buf zero_den var (s ++ nul :: r) = bind (monomial zero_den var s) (fun q => Val (q, s ++ nul :: r)).
Proof. exact monomial_buf_ok. Qed.
Print Assumptions C92_term.

Definition chars (s : string) : str := list_ascii_of_string s.
Definition junk (n : nat) : buf := repeat "7"%char n.
Definition reject (n : Z) : out (option (Z * Z)) := Val None.

Example C92_case : (forall n, List.length (junk n) = n) /\ ~ In nul (chars "x") /\ ~ In nul (chars " 2/3*x^2 - - x 5") /\
  set_str_buf reject junk (chars "x" ++ nul :: chars "yz") (chars "2/3*x^2 - - x + 5 - x2" ++ [nul]) = Val (Some {| e_num := [15; 3; -1]; e_den := 3 |}) /\
  set_str_buf reject junk (chars "x" ++ [nul]) (chars "x" ++ nul :: chars "^2") = Val (Some {| e_num := [0; 1]; e_den := 1 |}) /\
  set_str_buf reject junk (chars "x" ++ [nul]) (chars "1/" ++ nul :: chars "2") = Val None /\
  set_str_buf reject junk (chars "x" ++ [nul]) (chars "x^" ++ nul :: chars "2") = Val None /\
  set_str_buf reject junk (chars "xy" ++ [nul]) (chars "x" ++ nul :: chars "y") = Val None /\
  set_str_buf reject junk (chars "x" ++ [nul]) ([nul]) = Val (Some {| e_num := []; e_den := 1 |}).
Proof.
  split; [apply repeat_length|]. split; [intros H; cbn in H; intuition discriminate|]. split; [intros H; cbn in H; intuition discriminate|]. vm_compute. repeat split; reflexivity.
Qed.

(** Arrays without terminators, and one character less than strlen(s) + 1. *)
Example C92_short_case : set_str_buf reject junk (chars "x") (chars "2*x" ++ [nul]) = Undef /\ set_str_buf reject junk (chars "x" ++ [nul]) (chars "2*x") = Undef /\
  set_str_buf reject (fun n => junk (n - 1)) (chars "x" ++ [nul]) (chars "2*x" ++ [nul]) = Undef /\
  set_str_buf reject (fun n => junk (n - 1)) (chars "x" ++ [nul]) (chars "2*x+1" ++ [nul]) = Val (Some {| e_num := [1; 2]; e_den := 1 |}).
Proof. vm_compute. repeat split; reflexivity. Qed.

Example C92_term_case : monomial_buf reject (chars "x") (chars "- 3/4 x ^ 2 " ++ nul :: junk 3) = Val (Some (-3, 4, 2), chars "- 3/4 x ^ 2 " ++ nul :: junk 3) /\
  monomial_buf reject (chars "x") (chars "3/" ++ nul :: junk 3) = Val (None, chars "3/" ++ nul :: junk 3).
Proof. vm_compute. split; reflexivity. Qed.
