(** Specification: executions of the programs of TempModel.v and the discipline
    that temporaries must follow. *)
Require Import List Bool String.
From Verif Require Import TempModel.
Import ListNotations.

(** How an execution ends: at the end of the program, by a jump, or (for one that
    is still running) somewhere. *)
Inductive ends := Through | Broke | Continued | Left | Halted | Running.

Inductive exec : cmd -> list event -> ends -> Prop :=
| ex_running c : exec c [] Running
| ex_init k x : exec (Init k x) [EInit k x] Through
| ex_use x : exec (Use x) [EUse x] Through
| ex_clear k x : exec (Clear k x) [EClear k x] Through
| ex_skip : exec Skip [] Through
| ex_seq c d t u e : exec c t Through -> exec d u e -> exec (Seq c d) (t ++ u) e
| ex_seq_stop c d t e : exec c t e -> e <> Through -> exec (Seq c d) t e
| ex_left c d t e : exec c t e -> exec (Either c d) t e
| ex_right c d t e : exec d t e -> exec (Either c d) t e
| ex_loop_end c : exec (Loop c) [] Through
| ex_loop c t u e e' : exec c t e -> e = Through \/ e = Continued -> exec (Loop c) u e' -> exec (Loop c) (t ++ u) e'
| ex_loop_break c t : exec c t Broke -> exec (Loop c) t Through
| ex_loop_out c t e : exec c t e -> e = Left \/ e = Halted \/ e = Running -> exec (Loop c) t e
| ex_forever c t u e e' : exec c t e -> e = Through \/ e = Continued -> exec (Forever c) u e' -> exec (Forever c) (t ++ u) e'
| ex_forever_break c t : exec c t Broke -> exec (Forever c) t Through
| ex_forever_out c t e : exec c t e -> e = Left \/ e = Halted \/ e = Running -> exec (Forever c) t e
| ex_break : exec Break [] Broke
| ex_continue : exec Continue [] Continued
| ex_leave : exec Leave [] Left
| ex_halt : exec Halt [] Halted.

(** The life of one object: allocated, used, released by the function that
    belongs to its kind, perhaps again and again. *)
Inductive lives : list event -> Prop :=
| lives_none : lives []
| lives_one k x us l : Forall (eq (EUse x)) us -> lives l -> lives (EInit k x :: us ++ EClear k x :: l).

Definition about (x : string) (e : event) : bool :=
  match e with EInit _ y | EUse y | EClear _ y => String.eqb x y end.
Definition disciplined (t : list event) : Prop := forall x, lives (filter (about x) t).

(** No release or use of what is not allocated so far: the events can be
    continued to a disciplined sequence. *)
Definition usable (t : list event) : Prop := exists u, disciplined (t ++ u).

(** A function whose temporaries are released whenever it returns or throws. *)
Definition tidy (c : cmd) : Prop :=
  forall t e, exec c t e ->
    match e with
    | Through | Left => disciplined t
    | Halted | Running => usable t
    | Broke | Continued => False
    end.
