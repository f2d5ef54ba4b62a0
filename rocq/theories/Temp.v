(** A checker for the programs of TempModel.v, and its correctness. *)
Require Import List ZArith Bool String Lia.
From Verif Require Import RootModel ExtraModel Dyadic ArbModel ElemModel StrModel TempModel TempSpec.
Import ListNotations.

(** Live objects: name and kind. *)
Definition state := list (string * string).
Fixpoint kind_of (s : state) (x : string) : option string :=
  match s with
  | [] => None
  | (y, k) :: s' => if String.eqb x y then Some k else kind_of s' x
  end.
Fixpoint drop (s : state) (x : string) : state :=
  match s with
  | [] => []
  | (y, k) :: s' => if String.eqb x y then s' else (y, k) :: drop s' x
  end.
Definition step (s : state) (e : event) : option state :=
  match e with
  | EInit k x => match kind_of s x with None => Some ((x, k) :: s) | Some _ => None end
  | EUse x => match kind_of s x with None => None | Some _ => Some s end
  | EClear k x => match kind_of s x with Some k' => if String.eqb k k' then Some (drop s x) else None | None => None end
  end.
Fixpoint steps (s : state) (t : list event) : option state :=
  match t with
  | [] => Some s
  | e :: t' => match step s e with Some s' => steps s' t' | None => None end
  end.

Lemma steps_app t u s : steps s (t ++ u) = match steps s t with Some s' => steps s' u | None => None end.
Proof.
  revert s. induction t as [|e t IH]; intros s; simpl; [reflexivity|].
  destruct (step s e); [apply IH | reflexivity].
Qed.

Record flows := { f_go : list state; f_brk : list state; f_cnt : list state; f_out : list state }.
Definition state_dec : forall a b : state, {a = b} + {a <> b}.
Proof. apply list_eq_dec. decide equality; apply string_dec. Defined.
Definition only (s : state) : flows := {| f_go := [s]; f_brk := []; f_cnt := []; f_out := [] |}.
Definition join (a b : flows) : flows :=
  {| f_go := nodup state_dec (f_go a ++ f_go b); f_brk := nodup state_dec (f_brk a ++ f_brk b);
     f_cnt := nodup state_dec (f_cnt a ++ f_cnt b); f_out := nodup state_dec (f_out a ++ f_out b) |}.
Definition same (s : state) (l : list state) : bool := forallb (fun s' => if state_dec s s' then true else false) l.

Fixpoint each (f : state -> option flows) (l : list state) (a : flows) : option flows :=
  match l with
  | [] => Some a
  | s :: l' => match f s with Some b => each f l' (join a b) | None => None end
  end.

Fixpoint flow (c : cmd) (s : state) : option flows :=
  match c with
  | Init k x => match step s (EInit k x) with Some s' => Some (only s') | None => None end
  | Use x => match step s (EUse x) with Some s' => Some (only s') | None => None end
  | Clear k x => match step s (EClear k x) with Some s' => Some (only s') | None => None end
  | Skip => Some (only s)
  | Seq c d =>
      match flow c s with
      | Some a => each (flow d) (f_go a) {| f_go := []; f_brk := f_brk a; f_cnt := f_cnt a; f_out := f_out a |}
      | None => None
      end
  | Either c d => match flow c s, flow d s with Some a, Some b => Some (join a b) | _, _ => None end
  | Loop c =>
      match flow c s with
      | Some a => if same s (f_go a) && same s (f_cnt a)
                  then Some {| f_go := s :: f_brk a; f_brk := []; f_cnt := []; f_out := f_out a |} else None
      | None => None
      end
  | Forever c =>
      match flow c s with
      | Some a => if same s (f_go a) && same s (f_cnt a)
                  then Some {| f_go := f_brk a; f_brk := []; f_cnt := []; f_out := f_out a |} else None
      | None => None
      end
  | Break => Some {| f_go := []; f_brk := [s]; f_cnt := []; f_out := [] |}
  | Continue => Some {| f_go := []; f_brk := []; f_cnt := [s]; f_out := [] |}
  | Leave => Some {| f_go := []; f_brk := []; f_cnt := []; f_out := [s] |}
  | Halt => Some {| f_go := []; f_brk := []; f_cnt := []; f_out := [] |}
  end.

Definition check (c : cmd) : bool :=
  match flow c [] with
  | Some a => same [] (f_go a) && same [] (f_out a) &&
              match f_brk a, f_cnt a with [], [] => true | _, _ => false end
  | None => false
  end.

(** ** Soundness of the flow *)
Definition lands (a : flows) (e : ends) (s : state) : Prop :=
  match e with
  | Through => In s (f_go a) | Broke => In s (f_brk a) | Continued => In s (f_cnt a) | Left => In s (f_out a)
  | Halted | Running => True
  end.

Lemma lands_join a b e s : lands a e s \/ lands b e s -> lands (join a b) e s.
Proof.
  intros H. destruct e; simpl in *; try exact I; apply nodup_In, in_or_app; exact H.
Qed.

Lemma each_acc f l : forall a r, each f l a = Some r -> forall e s, lands a e s -> lands r e s.
Proof.
  induction l as [|x l IH]; intros a r E e s L; simpl in E.
  - injection E as <-. exact L.
  - destruct (f x) as [b|]; [|discriminate]. apply (IH _ _ E). apply lands_join. left. exact L.
Qed.
Lemma each_in f l : forall a r, each f l a = Some r -> forall x, In x l ->
  exists b, f x = Some b /\ forall e s, lands b e s -> lands r e s.
Proof.
  induction l as [|y l IH]; intros a r E x I; [contradiction|]. simpl in E.
  destruct (f y) as [b|] eqn:F; [|discriminate]. destruct I as [-> | I].
  - exists b. split; [exact F|]. intros e s L. apply (each_acc _ _ _ _ E). apply lands_join. right. exact L.
  - exact (IH _ _ E x I).
Qed.
Lemma same_eq s l x : same s l = true -> In x l -> x = s.
Proof.
  intros H I. unfold same in H. rewrite forallb_forall in H. specialize (H x I).
  destruct (state_dec s x); [symmetry; assumption | discriminate].
Qed.

Lemma flow_sound c t e : exec c t e -> forall s a, flow c s = Some a ->
  exists s', steps s t = Some s' /\ lands a e s'.
Proof.
  induction 1 as [c | k x | x | k x | | c d t u e _ IH1 _ IH2 | c d t e _ IH N | c d t e _ IH | c d t e _ IH | c
    | c t u e e' _ IH1 D _ IH2 | c t _ IH | c t e _ IH D | c t u e e' _ IH1 D _ IH2 | c t _ IH | c t e _ IH D | | | | ];
    intros s a F.
  - exists s. split; [reflexivity | exact I].
  - simpl in F. destruct (kind_of s x) eqn:K; [discriminate|]. injection F as <-. eexists. simpl. rewrite K. split; [reflexivity | left; reflexivity].
  - simpl in F. destruct (kind_of s x) eqn:K; [|discriminate]. injection F as <-. eexists. simpl. rewrite K. split; [reflexivity | left; reflexivity].
  - simpl in F. destruct (kind_of s x) eqn:K; [|discriminate]. destruct (String.eqb k s0) eqn:Q; [|discriminate].
    injection F as <-. eexists. simpl. rewrite K, Q. split; [reflexivity | left; reflexivity].
  - simpl in F. injection F as <-. exists s. split; [reflexivity | left; reflexivity].
  - simpl in F. destruct (flow c s) as [b|] eqn:C; [|discriminate].
    destruct (IH1 s b C) as (s1 & S1 & L1). destruct (each_in _ _ _ _ F s1 L1) as (b2 & D & L).
    destruct (IH2 s1 b2 D) as (s2 & S2 & L2). exists s2. rewrite steps_app, S1. split; [exact S2 | exact (L _ _ L2)].
  - simpl in F. destruct (flow c s) as [b|] eqn:C; [|discriminate].
    destruct (IH s b C) as (s1 & S1 & L1). exists s1. split; [exact S1|].
    apply (each_acc _ _ _ _ F). destruct e; try exact L1. exfalso. apply N. reflexivity.
  - simpl in F. destruct (flow c s) as [b|] eqn:C; [|discriminate]. destruct (flow d s) as [b2|]; [|discriminate].
    injection F as <-. destruct (IH s b C) as (s1 & S1 & L1). exists s1. split; [exact S1|]. apply lands_join. left. exact L1.
  - simpl in F. destruct (flow c s) as [b|]; [|discriminate]. destruct (flow d s) as [b2|] eqn:D; [|discriminate].
    injection F as <-. destruct (IH s b2 D) as (s1 & S1 & L1). exists s1. split; [exact S1|]. apply lands_join. right. exact L1.
  - simpl in F. destruct (flow c s) as [b|]; [|discriminate]. destruct (_ && _); [|discriminate]. injection F as <-.
    exists s. split; [reflexivity | left; reflexivity].
  - assert (F' := F). simpl in F'. destruct (flow c s) as [b|] eqn:C; [|discriminate].
    destruct (same s (f_go b) && same s (f_cnt b)) eqn:Q; [|discriminate]. apply andb_prop in Q. destruct Q as [Q1 Q2].
    destruct (IH1 s b C) as (s1 & S1 & L1).
    assert (s1 = s) as -> by (destruct D as [-> | ->]; [exact (same_eq _ _ _ Q1 L1) | exact (same_eq _ _ _ Q2 L1)]).
    destruct (IH2 s a F) as (s2 & S2 & L2). exists s2. rewrite steps_app, S1. split; [exact S2 | exact L2].
  - simpl in F. destruct (flow c s) as [b|] eqn:C; [|discriminate]. destruct (_ && _); [|discriminate]. injection F as <-.
    destruct (IH s b C) as (s1 & S1 & L1). exists s1. split; [exact S1 | right; exact L1].
  - simpl in F. destruct (flow c s) as [b|] eqn:C; [|discriminate]. destruct (_ && _); [|discriminate]. injection F as <-.
    destruct (IH s b C) as (s1 & S1 & L1). exists s1. split; [exact S1|]. destruct D as [-> | [-> | ->]]; [exact L1 | exact I | exact I].
  - assert (F' := F). simpl in F'. destruct (flow c s) as [b|] eqn:C; [|discriminate].
    destruct (same s (f_go b) && same s (f_cnt b)) eqn:Q; [|discriminate]. apply andb_prop in Q. destruct Q as [Q1 Q2].
    destruct (IH1 s b C) as (s1 & S1 & L1).
    assert (s1 = s) as -> by (destruct D as [-> | ->]; [exact (same_eq _ _ _ Q1 L1) | exact (same_eq _ _ _ Q2 L1)]).
    destruct (IH2 s a F) as (s2 & S2 & L2). exists s2. rewrite steps_app, S1. split; [exact S2 | exact L2].
  - simpl in F. destruct (flow c s) as [b|] eqn:C; [|discriminate]. destruct (_ && _); [|discriminate]. injection F as <-.
    destruct (IH s b C) as (s1 & S1 & L1). exists s1. split; [exact S1 | exact L1].
  - simpl in F. destruct (flow c s) as [b|] eqn:C; [|discriminate]. destruct (_ && _); [|discriminate]. injection F as <-.
    destruct (IH s b C) as (s1 & S1 & L1). exists s1. split; [exact S1|]. destruct D as [-> | [-> | ->]]; [exact L1 | exact I | exact I].
  - simpl in F. injection F as <-. exists s. split; [reflexivity | left; reflexivity].
  - simpl in F. injection F as <-. exists s. split; [reflexivity | left; reflexivity].
  - simpl in F. injection F as <-. exists s. split; [reflexivity | left; reflexivity].
  - simpl in F. injection F as <-. exists s. split; [reflexivity | exact I].
Qed.

(** ** From states to lives *)
Lemma kind_drop_other s x y : x <> y -> kind_of (drop s y) x = kind_of s x.
Proof.
  intros N. induction s as [|(z, k) s IH]; simpl; [reflexivity|].
  destruct (String.eqb_spec y z) as [<- | Nz].
  - destruct (String.eqb_spec x y); [contradiction | reflexivity].
  - simpl. rewrite IH. reflexivity.
Qed.
Lemma kind_none s x : ~ In x (map fst s) -> kind_of s x = None.
Proof.
  induction s as [|(z, k) s IH]; simpl; intros N; [reflexivity|].
  destruct (String.eqb_spec x z) as [-> | _]; [exfalso; apply N; left; reflexivity|]. apply IH. intros I. apply N. right. exact I.
Qed.
Lemma none_kind s x : kind_of s x = None -> ~ In x (map fst s).
Proof.
  induction s as [|(z, k) s IH]; simpl; intros N; [intros []|].
  destruct (String.eqb_spec x z) as [-> | Nz]; [discriminate|]. intros [-> | I]; [apply Nz; reflexivity | exact (IH N I)].
Qed.
Lemma drop_in s x y : In y (map fst (drop s x)) -> In y (map fst s).
Proof.
  induction s as [|(z, k) s IH]; simpl; [intros []|]. destruct (String.eqb x z); [intros I; right; exact I|].
  simpl. intros [-> | I]; [left; reflexivity | right; exact (IH I)].
Qed.
Lemma drop_nodup s x : NoDup (map fst s) -> NoDup (map fst (drop s x)).
Proof.
  induction s as [|(z, k) s IH]; simpl; intros N; [exact N|]. apply NoDup_cons_iff in N. destruct N as [N1 N2].
  destruct (String.eqb x z); [exact N2|]. simpl. constructor; [|exact (IH N2)]. intros I. apply N1. exact (drop_in _ _ _ I).
Qed.
Lemma drop_gone s x : NoDup (map fst s) -> kind_of (drop s x) x = None.
Proof.
  induction s as [|(z, k) s IH]; simpl; intros N; [reflexivity|]. apply NoDup_cons_iff in N. destruct N as [N1 N2].
  destruct (String.eqb_spec x z) as [-> | Nz]; [exact (kind_none _ _ N1)|]. simpl.
  destruct (String.eqb_spec x z) as [E|]; [contradiction|]. exact (IH N2).
Qed.
Lemma step_nodup s e s' : step s e = Some s' -> NoDup (map fst s) -> NoDup (map fst s').
Proof.
  intros S N. destruct e as [k x | x | k x]; simpl in S; destruct (kind_of s x) eqn:K; try discriminate.
  - injection S as <-. simpl. constructor; [exact (none_kind _ _ K) | exact N].
  - injection S as <-. exact N.
  - destruct (String.eqb k s0); [|discriminate]. injection S as <-. exact (drop_nodup _ _ N).
Qed.

Lemma lives_from t : forall s, NoDup (map fst s) -> steps s t = Some [] -> forall x,
  match kind_of s x with
  | None => lives (filter (about x) t)
  | Some k => exists us l, filter (about x) t = us ++ EClear k x :: l /\ Forall (eq (EUse x)) us /\ lives l
  end.
Proof.
  induction t as [|e t IH]; intros s N S x; simpl in S.
  - injection S as ->. simpl. constructor.
  - destruct (step s e) as [s'|] eqn:E; [|discriminate]. specialize (IH s' (step_nodup _ _ _ E N) S x).
    destruct e as [k y | y | k y]; simpl in E |- *; destruct (kind_of s y) as [k'|] eqn:K; try discriminate.
    + injection E as <-. simpl in IH. destruct (String.eqb_spec x y) as [-> | Nx].
      * rewrite K. destruct IH as (us & l & -> & U & L). constructor; assumption.
      * exact IH.
    + injection E as <-. destruct (String.eqb_spec x y) as [-> | Nx].
      * rewrite K in IH |- *. destruct IH as (us & l & -> & U & L). exists (EUse y :: us), l. repeat split; [|exact L].
        constructor; [reflexivity | exact U].
      * exact IH.
    + destruct (String.eqb_spec k k') as [-> | _]; [|discriminate]. injection E as <-.
      destruct (String.eqb_spec x y) as [-> | Nx].
      * rewrite K. rewrite (drop_gone _ _ N) in IH. exists [], (filter (about y) t). repeat split; [constructor | exact IH].
      * rewrite (kind_drop_other s x y Nx) in IH. exact IH.
Qed.

Lemma steps_disciplined t : steps [] t = Some [] -> disciplined t.
Proof. intros S x. exact (lives_from t [] (NoDup_nil _) S x). Qed.

Lemma steps_finish s : NoDup (map fst s) -> steps s (map (fun '(x, k) => EClear k x) s) = Some [].
Proof.
  induction s as [|(x, k) s IH]; intros N; [reflexivity|]. simpl in N |- *. apply NoDup_cons_iff in N. destruct N as [_ N].
  rewrite String.eqb_refl. rewrite String.eqb_refl. exact (IH N).
Qed.
Lemma steps_nodup t : forall s s', steps s t = Some s' -> NoDup (map fst s) -> NoDup (map fst s').
Proof.
  induction t as [|e t IH]; intros s s' S N; simpl in S; [injection S as <-; exact N|].
  destruct (step s e) as [s1|] eqn:E; [|discriminate]. exact (IH _ _ S (step_nodup _ _ _ E N)).
Qed.
Lemma steps_usable t s : steps [] t = Some s -> usable t.
Proof.
  intros S. exists (map (fun '(x, k) => EClear k x) s). apply steps_disciplined. rewrite steps_app, S.
  apply steps_finish. exact (steps_nodup _ _ _ S (NoDup_nil _)).
Qed.

Lemma check_tidy c : check c = true -> tidy c.
Proof.
  unfold check. intros H t e E. destruct (flow c []) as [a|] eqn:F; [|discriminate].
  apply andb_prop in H. destruct H as [H B]. apply andb_prop in H. destruct H as [G O].
  destruct (flow_sound c t e E [] a F) as (s & S & L).
  destruct e; simpl in L.
  - rewrite (same_eq _ _ _ G L) in S. exact (steps_disciplined _ S).
  - destruct (f_brk a); [contradiction | discriminate].
  - destruct (f_brk a); [|discriminate]. destruct (f_cnt a); [contradiction | discriminate].
  - rewrite (same_eq _ _ _ O L) in S. exact (steps_disciplined _ S).
  - exact (steps_usable _ _ S).
  - exact (steps_usable _ _ S).
Qed.

Lemma programs_tidy : Forall (fun p => tidy (snd p)) programs.
Proof.
  assert (H : forallb (fun p => check (snd p)) programs = true) by (vm_compute; reflexivity).
  rewrite forallb_forall in H. apply Forall_forall. intros p I. exact (check_tidy _ (H p I)).
Qed.
