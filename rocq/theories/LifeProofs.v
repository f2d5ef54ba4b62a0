(** Reference counts and ownership. *)
Require Import List ZArith Bool Lia Permutation.
From Verif Require Import ArbModel LifeModel LifeSpec.
Import ListNotations.
Open Scope Z_scope.

(** * Finite maps *)
Definition is_some {A} (o : option A) : bool := match o with Some _ => true | None => false end.
Section Map.
Context {A : Type}.
Implicit Types (l : list (nat * A)) (w : A -> Z).

Lemma get_del : forall l k j, get j (del k l) = if Nat.eqb k j then None else get j l.
Proof.
  induction l as [|[i a] l IH]; intros k j; cbn [get del]; [destruct (Nat.eqb k j); reflexivity|].
  destruct (Nat.eqb_spec i k) as [->|N].
  - rewrite IH. destruct (Nat.eqb_spec k j) as [->|]; [reflexivity|]. destruct (Nat.eqb_spec k j); [congruence|reflexivity].
  - cbn [get]. rewrite IH. destruct (Nat.eqb_spec i j) as [->|]; [|reflexivity]. destruct (Nat.eqb_spec k j); [congruence|reflexivity].
Qed.
Lemma get_put : forall l k j a, get j (put k a l) = if Nat.eqb k j then Some a else get j l.
Proof. intros. unfold put. cbn [get]. rewrite get_del. destruct (Nat.eqb k j); reflexivity. Qed.
Lemma get_put_same : forall l k a, get k (put k a l) = Some a.
Proof. intros. rewrite get_put, Nat.eqb_refl. reflexivity. Qed.
Lemma get_put_other : forall l k j a, k <> j -> get j (put k a l) = get j l.
Proof. intros l k j a N. rewrite get_put. apply Nat.eqb_neq in N. rewrite N. reflexivity. Qed.
Lemma get_del_same : forall l k, get k (del k l) = None.
Proof. intros. rewrite get_del, Nat.eqb_refl. reflexivity. Qed.
Lemma get_del_other : forall l k j, k <> j -> get j (del k l) = get j l.
Proof. intros l k j N. rewrite get_del. apply Nat.eqb_neq in N. rewrite N. reflexivity. Qed.
Lemma get_none : forall l k, get k l = None <-> ~ In k (map fst l).
Proof.
  induction l as [|[i a] l IH]; intros k; cbn [get map fst In]; [tauto|].
  destruct (Nat.eqb_spec i k) as [->|N]; [split; [discriminate|tauto]|]. rewrite IH. tauto.
Qed.
Lemma del_none : forall l k, get k l = None -> del k l = l.
Proof.
  induction l as [|[i a] l IH]; intros k; cbn [get del]; [reflexivity|].
  destruct (Nat.eqb i k); [discriminate|]. intros E. rewrite (IH _ E). reflexivity.
Qed.
Lemma del_put : forall l k a, get k l = None -> del k (put k a l) = l.
Proof. intros l k a E. unfold put. cbn [del]. rewrite Nat.eqb_refl, (del_none l k E). apply del_none. exact E. Qed.
Lemma del_del : forall l k, del k (del k l) = del k l.
Proof. intros. apply del_none. apply get_del_same. Qed.
Lemma put_put : forall l k a b, put k a (put k b l) = put k a l.
Proof. intros. unfold put. cbn [del]. rewrite Nat.eqb_refl, del_del. reflexivity. Qed.

Definition keys l := map fst l.
Lemma del_in : forall l k j, In j (keys (del k l)) <-> j <> k /\ In j (keys l).
Proof.
  induction l as [|[i a] l IH]; intros k j; cbn [del keys map fst In]; [tauto|].
  destruct (Nat.eqb_spec i k) as [->|N]; [rewrite IH; unfold keys; intuition congruence|]. cbn [keys map fst In]. unfold keys in IH. rewrite IH.
  split; [intros [<-|[]]; tauto|tauto].
Qed.
Lemma keys_del : forall l k, NoDup (keys l) -> NoDup (keys (del k l)).
Proof.
  induction l as [|[i a] l IH]; intros k N; cbn [del]; [constructor|]. inversion N; subst.
  destruct (Nat.eqb i k); [apply IH; assumption|]. cbn [keys map fst]. constructor; [|apply IH; assumption].
  intros I. apply del_in in I. tauto.
Qed.
Lemma keys_put : forall l k a, NoDup (keys l) -> NoDup (keys (put k a l)).
Proof. intros l k a N. cbn [put keys map fst]. constructor; [|apply keys_del; exact N]. intros I. apply del_in in I. tauto. Qed.

(** Sums over all entries. *)
Definition wo w (o : option A) : Z := match o with Some a => w a | None => 0 end.
Fixpoint total w l : Z := match l with [] => 0 | (_, a) :: l' => w a + total w l' end.
Lemma total_del : forall w l k, NoDup (keys l) -> total w (del k l) = total w l - wo w (get k l).
Proof.
  induction l as [|[i a] l IH]; intros k N; cbn [del total get wo]; [lia|]. inversion N as [|? ? X Y]; subst.
  destruct (Nat.eqb_spec i k) as [->|]; cbn [total wo]; [|rewrite (IH k Y); lia].
  rewrite (IH k Y). assert (E : get k l = None) by (apply get_none; exact X). rewrite E. cbn [wo]. lia.
Qed.
Lemma total_put : forall w l k a, NoDup (keys l) -> total w (put k a l) = total w l - wo w (get k l) + w a.
Proof. intros w l k a N. cbn [put total]. rewrite total_del by exact N. lia. Qed.
Lemma total_pos : forall w l, (forall a, 0 <= w a) -> 0 <= total w l.
Proof. intros w l P. induction l as [|[i a] l IH]; cbn [total]; [lia|]. specialize (P a). lia. Qed.
Lemma total_ge : forall w l k a, (forall a, 0 <= w a) -> get k l = Some a -> w a <= total w l.
Proof.
  intros w l k a P. induction l as [|[i b] l IH]; cbn [get total]; [discriminate|].
  destruct (Nat.eqb i k); intros E; [injection E as <-; pose proof (total_pos w l P); lia|]. specialize (IH E). specialize (P b). lia.
Qed.
Lemma total_two : forall w l k j a b, (forall a, 0 <= w a) -> k <> j -> get k l = Some a -> get j l = Some b -> w a + w b <= total w l.
Proof.
  intros w l k j a b P N. induction l as [|[i c] l IH]; cbn [get total]; [discriminate|].
  destruct (Nat.eqb_spec i k) as [->|A1]; destruct (Nat.eqb_spec k j) as [->|B1]; try congruence.
  - intros E F. injection E as <-. pose proof (total_ge w l j b P F). lia.
  - destruct (Nat.eqb_spec i j) as [->|].
    + intros E F. injection F as <-. pose proof (total_ge w l k a P E). lia.
    + intros E F. specialize (IH E F). specialize (P c). lia.
Qed.
Lemma total_some : forall w l, (forall a, 0 <= w a) -> 0 < total w l -> exists k a, In (k, a) l /\ 0 < w a.
Proof.
  intros w l P. induction l as [|[i a] l IH]; cbn [total]; [lia|]. intros H.
  destruct (Z_lt_le_dec 0 (w a)) as [W|W]; [exists i, a; split; [left; reflexivity|exact W]|].
  destruct IH as (k & b & I & W'); [specialize (P a); lia|]. exists k, b. split; [right; exact I|exact W'].
Qed.
Lemma in_get : forall l k a, NoDup (keys l) -> In (k, a) l -> get k l = Some a.
Proof.
  induction l as [|[i b] l IH]; intros k a N I; [destruct I|]. inversion N as [|? ? X Y]; subst. cbn [get].
  destruct I as [E|I]; [injection E as -> ->; rewrite Nat.eqb_refl; reflexivity|].
  destruct (Nat.eqb_spec i k) as [->|]; [|apply IH; assumption]. exfalso. apply X. apply (in_map fst) in I. exact I.
Qed.
Lemma get_in : forall l k a, get k l = Some a -> In (k, a) l.
Proof.
  induction l as [|[i b] l IH]; intros k a; cbn [get]; [discriminate|]. destruct (Nat.eqb_spec i k) as [->|]; intros E;
    [injection E as ->; left; reflexivity|right; apply IH; exact E].
Qed.
End Map.

Definition is (a : nat) (p : option nat) : Z := match p with Some b => if Nat.eqb b a then 1 else 0 | None => 0 end.
Definition owns (x : nat) (y : obj) : Z := match ob_nf y with Some _ => if Nat.eqb (ob_st y) x then 1 else 0 | None => 0 end.
Definition cnt (x : nat) (l : list nat) : Z := Z.of_nat (count_occ Nat.eq_dec l x).
Definition one_at (x y : nat) : Z := if Nat.eqb x y then 1 else 0.
Definition inc (f : nat -> Z) (a : nat) : nat -> Z := fun b => f b + one_at a b.

Lemma is_pos : forall a p, 0 <= is a p. Proof. intros a [b|]; cbn; [destruct (Nat.eqb b a); lia|lia]. Qed.
Lemma owns_pos : forall x y, 0 <= owns x y. Proof. intros x y. unfold owns. destruct (ob_nf y); [destruct (Nat.eqb _ _); lia|lia]. Qed.
Lemma cnt_pos : forall x l, 0 <= cnt x l. Proof. intros. unfold cnt. lia. Qed.
Lemma one_at_same : forall x, one_at x x = 1. Proof. intros. unfold one_at. rewrite Nat.eqb_refl. reflexivity. Qed.
Lemma one_at_other : forall x y, x <> y -> one_at x y = 0. Proof. intros x y N. unfold one_at. apply Nat.eqb_neq in N. rewrite N. reflexivity. Qed.
Lemma one_at_pos : forall x y, 0 <= one_at x y. Proof. intros. unfold one_at. destruct (Nat.eqb _ _); lia. Qed.
Lemma is_some_at : forall a b, is b (Some a) = one_at a b. Proof. reflexivity. Qed.
Lemma owns_at : forall x a y, owns x {| ob_nf := Some a; ob_st := y |} = one_at y x. Proof. reflexivity. Qed.
Lemma owns_null : forall x y, owns x {| ob_nf := None; ob_st := y |} = 0. Proof. reflexivity. Qed.

Section Proofs.
Context {D H V K : Type}.
Variable hash : D -> out (D * H).
Variable heq : H -> H -> bool.
Variable deq : D -> D -> bool.
Variables zero one gen : D -> V.
Variable ratl : V -> bool.
Variable conv : D -> V -> V.
Variable trivial : D.
Variable debug : bool.
Variables (good : D -> Prop) (cls : D -> K) (hof : K -> H -> Prop).
Hypothesis RO : registry_ok good cls hof hash heq deq.
Hypothesis Htriv : good trivial.

Notation state := (state D H V).
Implicit Types (s : state).
Notation find := (find D H V hash heq deq).
Notation release := (release D H V hash heq deq debug).
Notation destroy := (destroy D H V debug).
Notation make := (make D H V hash heq deq zero one gen debug).
Notation lookup := (lookup D H V heq deq).
Notation add_ref := (add_ref D H V).
Notation clear := (clear D H V).
Notation init := (init D H V).
Notation put_field := (put_field D H V).
Notation put_elem := (put_elem D H V).
Notation put_handle := (put_handle D H V).

Definition refs s a : Z :=
  total (is a) (handles s) + total (fun y => is a (ob_nf y)) (elems s) + match static s with Some p => is a p | None => 0 end.
Definition owners s x : Z := total (owns x) (elems s) + total (fun f => cnt x (fd_cache f)) (fields s).
Definition live s x : Z := match get x (stores s) with Some _ => 1 | None => 0 end.

(** Invariant, with references [ex] and memory [ow] held by a running function
    (or lost). *)
Record inv (ex ow : nat -> Z) s : Prop := {
  i_kf : NoDup (keys (fields s)); i_ks : NoDup (keys (stores s)); i_kh : NoDup (keys (handles s)); i_ke : NoDup (keys (elems s));
  i_field : forall a f, get a (fields s) = Some f ->
    good (fd_data f) /\ fd_count f = 3 + refs s a + ex a /\ 1 <= refs s a + ex a /\ length (fd_cache f) = 3%nat;
  i_dead : forall a, get a (fields s) = None -> refs s a + ex a = 0;
  i_store : forall x, owners s x + ow x = live s x;
  i_reg : forall a h, In (a, h) (registry s) -> exists f, get a (fields s) = Some f /\ hof (cls (fd_data f)) h;
  i_all : forall a f, get a (fields s) = Some f -> In a (keys (registry s));
  i_kr : NoDup (keys (registry s));
  i_unique : forall a b f g, get a (fields s) = Some f -> get b (fields s) = Some g -> cls (fd_data f) = cls (fd_data g) -> a = b
}.

Lemma inv_ext : forall ex ow ex' ow' s, (forall a, ex a = ex' a) -> (forall x, ow x = ow' x) -> inv ex ow s -> inv ex' ow' s.
Proof.
  intros ex ow ex' ow' s A B I. destruct I. constructor; auto.
  - intros a f E. rewrite <- A. auto.
  - intros a E. rewrite <- A. auto.
  - intros x. rewrite <- B. auto.
Qed.

Lemma refs_pos : forall s a, 0 <= refs s a.
Proof.
  intros s a. unfold refs. pose proof (total_pos (is a) (handles s) (is_pos a)).
  pose proof (total_pos (fun y => is a (ob_nf y)) (elems s) (fun y => is_pos a _)).
  destruct (static s) as [p|]; [pose proof (is_pos a p)|]; lia.
Qed.
Lemma owners_pos : forall s x, 0 <= total (owns x) (elems s) /\ 0 <= total (fun f => cnt x (fd_cache f)) (fields s).
Proof. intros s x. split; apply total_pos; intros; [apply owns_pos|apply cnt_pos]. Qed.

Lemma referenced_alive : forall ex ow s a, inv ex ow s -> 1 <= refs s a + ex a -> exists f, get a (fields s) = Some f.
Proof.
  intros ex ow s a I R. destruct (get a (fields s)) as [f|] eqn:E; [exists f; reflexivity|]. pose proof (i_dead _ _ _ I a E). lia.
Qed.

(** A change of variables only. *)
Lemma vars_ok : forall ex ow ex' ow' s s', inv ex ow s ->
  fields s' = fields s -> stores s' = stores s -> registry s' = registry s -> NoDup (keys (handles s')) -> NoDup (keys (elems s')) ->
  (forall a, refs s' a + ex' a = refs s a + ex a) -> (forall x, total (owns x) (elems s') + ow' x = total (owns x) (elems s) + ow x) -> inv ex' ow' s'.
Proof.
  intros ex ow ex' ow' s s' I F S R Kh Ke A B. destruct I. constructor; rewrite ?F, ?S, ?R; auto.
  - intros a f E. destruct (i_field0 a f E) as (G & C & P & L). specialize (A a). repeat split; auto; lia.
  - intros a E. specialize (i_dead0 a E). specialize (A a). lia.
  - intros x. specialize (i_store0 x). specialize (B x). unfold owners, live in *. rewrite F, S. lia.
Qed.

(** ** Memory *)
Lemma init_ok : forall ex ow s x v, inv ex ow s -> get x (stores s) = None -> inv ex (inc ow x) (init s x v).
Proof.
  intros ex ow s x v I E. destruct I. constructor; auto.
  - apply (keys_put (stores s) x v). assumption.
  - intros y. specialize (i_store0 y). unfold owners, live, inc, LifeModel.init, set_stores in *. cbn [stores elems fields]. rewrite get_put. unfold one_at.
    destruct (Nat.eqb_spec x y) as [->|]; [rewrite E in i_store0; lia|lia].
Qed.
Lemma alive_if : forall ex ow s x, inv ex ow s -> 1 <= owners s x + ow x -> exists v, get x (stores s) = Some v.
Proof.
  intros ex ow s x I E. pose proof (i_store _ _ _ I x) as S. unfold live in S. destruct (get x (stores s)) as [v|]; [exists v; reflexivity|lia].
Qed.
Lemma clear_ok : forall ex ow s x v, inv ex ow s -> get x (stores s) = Some v ->
  inv ex (fun y => ow y - one_at x y) (set_stores _ _ _ s (del x (stores s))).
Proof.
  intros ex ow s x v I E. destruct I. constructor; auto.
  - apply (keys_del (stores s) x). assumption.
  - intros y. specialize (i_store0 y). unfold owners, live, set_stores in *. cbn [stores elems fields]. rewrite get_del. unfold one_at in *.
    destruct (Nat.eqb_spec x y) as [->|]; [rewrite E in i_store0; lia|lia].
Qed.
Lemma write_ok : forall ex ow s x v u, inv ex ow s -> get x (stores s) = Some u -> inv ex ow (set_stores _ _ _ s (put x v (stores s))).
Proof.
  intros ex ow s x v u I E. destruct I. constructor; auto.
  - apply (keys_put (stores s) x v). assumption.
  - intros y. specialize (i_store0 y). unfold owners, live, set_stores in *. cbn [stores elems fields]. rewrite get_put.
    destruct (Nat.eqb_spec x y) as [->|]; [rewrite E in i_store0|]; lia.
Qed.

(** ** Fields *)
(** Replacing a field by one with the same cache. *)
Lemma caches_put : forall s a f f' x, NoDup (keys (fields s)) -> get a (fields s) = Some f -> fd_cache f' = fd_cache f ->
  total (fun f => cnt x (fd_cache f)) (put a f' (fields s)) = total (fun f => cnt x (fd_cache f)) (fields s).
Proof. intros s a f f' x N E C. rewrite total_put by exact N. rewrite E. cbn [wo]. rewrite C. lia. Qed.

Lemma put_field_ok : forall ex ow ex' s a f f', inv ex ow s -> get a (fields s) = Some f -> good (fd_data f') -> cls (fd_data f') = cls (fd_data f) ->
  fd_cache f' = fd_cache f -> fd_count f' - fd_count f = ex' a - ex a -> (forall b, b <> a -> ex' b = ex b) -> 1 <= refs s a + ex' a ->
  inv ex' ow (put_field s a f').
Proof.
  intros ex ow ex' s a f f' I E G C L Cn X P. destruct I. unfold LifeModel.put_field, set_fields.
  assert (R : forall b, refs {| fields := put a f' (fields s); stores := stores s; registry := registry s; handles := handles s; elems := elems s; static := static s |} b = refs s b) by reflexivity.
  constructor; cbn [fields stores registry handles elems static]; auto.
  - apply keys_put. assumption.
  - intros b g. rewrite get_put, R. destruct (Nat.eqb_spec a b) as [<-|Nb]; intros Eg.
    + injection Eg as <-. destruct (i_field0 a f E) as (_ & C1 & P1 & L1). repeat split; auto; [lia|rewrite L; exact L1].
    + rewrite (X b) by congruence. apply i_field0. exact Eg.
  - intros b. rewrite get_put, R. destruct (Nat.eqb_spec a b) as [<-|Nb]; [discriminate|]. rewrite (X b) by congruence. apply i_dead0.
  - intros x. specialize (i_store0 x). unfold owners, live in *. cbn [stores elems fields]. rewrite (caches_put _ _ _ _ _ i_kf0 E L). exact i_store0.
  - intros b h I. destruct (i_reg0 b h I) as (g & Eg & Hof). rewrite get_put. destruct (Nat.eqb_spec a b) as [<-|Nb]; [|exists g; auto].
    exists f'. split; [reflexivity|]. rewrite E in Eg. injection Eg as <-. rewrite C. exact Hof.
  - intros b g. rewrite get_put. destruct (Nat.eqb_spec a b) as [<-|Nb]; intros Eg; [apply (i_all0 a f E)|apply (i_all0 b g Eg)].
  - intros b c g g'. rewrite !get_put. destruct (Nat.eqb_spec a b) as [<-|Nb]; destruct (Nat.eqb_spec a c) as [<-|Nc]; intros E1 E2 Cg;
      try (injection E1 as <-); try (injection E2 as <-); try reflexivity.
    + apply (i_unique0 a c f g' E E2). congruence.
    + apply (i_unique0 b a g f E1 E). congruence.
    + apply (i_unique0 b c g g' E1 E2 Cg).
Qed.

(** Fields are as before up to counts and refinement. *)
Definition like (f f' : field D) : Prop := cls (fd_data f') = cls (fd_data f) /\ fd_cache f' = fd_cache f.
Definition alike s s' : Prop :=
  stores s' = stores s /\ registry s' = registry s /\ handles s' = handles s /\ elems s' = elems s /\ static s' = static s /\
  forall a, match get a (fields s), get a (fields s') with Some f, Some f' => like f f' | None, None => True | _, _ => False end.
Lemma like_refl : forall f, like f f. Proof. split; reflexivity. Qed.
Lemma alike_put : forall s a f f', get a (fields s) = Some f -> like f f' -> alike s (put_field s a f').
Proof.
  intros s a f f' E L. do 5 (split; [reflexivity|]). intros b. cbn [fields LifeModel.put_field set_fields]. rewrite get_put.
  destruct (Nat.eqb_spec a b) as [<-|]; [rewrite E; exact L|]. destruct (get b (fields s)); [apply like_refl|exact Logic.I].
Qed.
Lemma alike_refs : forall s s' a, alike s s' -> refs s' a = refs s a.
Proof. intros s s' a (_ & _ & A & B & C & _). unfold refs. rewrite A, B, C. reflexivity. Qed.

Lemma add_ref_ok : forall ex ow s a, inv ex ow s -> 1 <= refs s a + ex a ->
  exists s', add_ref s a = Val s' /\ inv (inc ex a) ow s' /\ alike s s'.
Proof.
  intros ex ow s a I R. destruct (referenced_alive _ _ _ _ I R) as [f E]. unfold LifeModel.add_ref, field_at. rewrite E. cbn [bind].
  eexists. split; [reflexivity|]. split; [|apply (alike_put s a f); [exact E|split; reflexivity]].
  apply (put_field_ok ex ow (inc ex a) s a f); cbn [fd_data fd_cache fd_count]; auto.
  - apply (i_field _ _ _ I a f E).
  - unfold inc. rewrite one_at_same. lia.
  - intros b N. unfold inc. rewrite one_at_other by congruence. lia.
  - unfold inc. rewrite one_at_same. lia.
Qed.

(** ** The registry *)
Lemma lookup_ok : forall s d hd l, good d -> hof (cls d) hd ->
  (forall b h, In (b, h) l -> exists f, get b (fields s) = Some f /\ good (fd_data f) /\ hof (cls (fd_data f)) h) ->
  exists r, lookup s d hd l = Val r /\
  match r with
  | Some b => In b (keys l) /\ exists f, get b (fields s) = Some f /\ cls (fd_data f) = cls d
  | None => forall b f, In b (keys l) -> get b (fields s) = Some f -> cls (fd_data f) <> cls d
  end.
Proof.
  intros s d hd l G Hd. induction l as [|[b h] l IH]; intros R; cbn [LifeModel.lookup]; [exists None; split; [reflexivity|intros b f []]|].
  destruct (R b h (or_introl eq_refl)) as (f & E & Gf & Hf).
  destruct IH as (r & Er & Pr); [intros; apply R; right; assumption|].
  assert (Next : cls (fd_data f) <> cls d -> exists r, lookup s d hd l = Val r /\
    match r with
    | Some b' => In b' (keys ((b, h) :: l)) /\ exists f, get b' (fields s) = Some f /\ cls (fd_data f) = cls d
    | None => forall b' f', In b' (keys ((b, h) :: l)) -> get b' (fields s) = Some f' -> cls (fd_data f') <> cls d
    end).
  { intros N. exists r. split; [exact Er|]. destruct r as [b'|]; [destruct Pr as [A B]; split; [right; exact A|exact B]|].
    intros b' f' [X|I] E'; [cbn in X; subst b'; congruence|apply (Pr b' f' I E')]. }
  destruct (heq hd h) eqn:Hq.
  - unfold field_at. rewrite E. cbn [bind]. destruct (deq d (fd_data f)) eqn:Q.
    + exists (Some b). split; [reflexivity|]. apply (ro_deq _ _ _ _ _ _ RO d (fd_data f) G Gf) in Q. split; [left; reflexivity|]. exists f. auto.
    + apply Next. intros C. assert (T : deq d (fd_data f) = true) by (apply (ro_deq _ _ _ _ _ _ RO d _ G Gf); auto). congruence.
  - apply Next. intros C. rewrite C in Hf. assert (T : heq hd h = true) by (apply (ro_heq _ _ _ _ _ _ RO (cls d)); assumption). congruence.
Qed.

(** Looking up a registered field finds it.  Here the field's count may be off. *)
Definition reg_inv s : Prop :=
  (forall b h, In (b, h) (registry s) -> exists f, get b (fields s) = Some f /\ hof (cls (fd_data f)) h) /\
  (forall b f, get b (fields s) = Some f -> In b (keys (registry s)) /\ good (fd_data f)) /\
  (forall a b f g, get a (fields s) = Some f -> get b (fields s) = Some g -> cls (fd_data f) = cls (fd_data g) -> a = b).

Lemma find_self : forall s a f, reg_inv s -> get a (fields s) = Some f ->
  match find s a with
  | Val (s', r, h) => r = Some a /\ reg_inv s' /\ exists d', good d' /\ cls d' = cls (fd_data f) /\
      s' = put_field s a {| fd_data := d'; fd_count := fd_count f; fd_cache := fd_cache f |}
  | Fuel => True | _ => False end.
Proof.
  intros s a f (R1 & R2 & R3) E. unfold LifeModel.find, field_at. rewrite E. cbn [bind]. destruct (R2 a f E) as [Ia Gf].
  pose proof (ro_hash _ _ _ _ _ _ RO (fd_data f) Gf) as Hh. destruct (hash (fd_data f)) as [[d' h]| | |]; cbn [bind]; try exact Hh; try contradiction.
  destruct Hh as (Gd & Cd & Hd).
  set (s1 := put_field s a {| fd_data := d'; fd_count := fd_count f; fd_cache := fd_cache f |}).
  assert (Gt : forall b, get b (fields s1) = if Nat.eqb a b then Some {| fd_data := d'; fd_count := fd_count f; fd_cache := fd_cache f |} else get b (fields s))
    by (intros b; unfold s1; cbn [fields LifeModel.put_field set_fields]; apply get_put).
  assert (RI : reg_inv s1).
  { split; [|split].
    - intros b h' I. destruct (R1 b h' I) as (g & Eg & Hof). rewrite Gt. destruct (Nat.eqb_spec a b) as [<-|]; [|exists g; auto].
      eexists. split; [reflexivity|]. cbn [fd_data]. rewrite Cd. congruence.
    - intros b g. rewrite Gt. destruct (Nat.eqb_spec a b) as [<-|]; [intros X; injection X as <-; split; [exact Ia|exact Gd]|intros X; apply (R2 b g X)].
    - intros b c g g'. rewrite !Gt. destruct (Nat.eqb_spec a b) as [<-|]; destruct (Nat.eqb_spec a c) as [<-|]; intros E1 E2 Q;
        try (injection E1 as <-); try (injection E2 as <-); cbn [fd_data] in Q; try reflexivity.
      + apply (R3 a c f g' E E2). congruence.
      + apply (R3 b a g f E1 E). congruence.
      + apply (R3 b c g g' E1 E2 Q). }
  destruct (lookup_ok s1 d' h (registry s1) Gd (eq_ind_r (fun k => hof k h) Hd Cd)) as (r & Er & Pr).
  { intros b h' I. destruct (proj1 RI b h' I) as (g & Eg & Hof). exists g. split; [exact Eg|]. split; [apply (proj1 (proj2 RI) b g Eg)|exact Hof]. }
  rewrite Er. cbn [bind]. split; [|split; [exact RI|exists d'; auto]].
  assert (Ea : get a (fields s1) = Some {| fd_data := d'; fd_count := fd_count f; fd_cache := fd_cache f |}) by (rewrite Gt, Nat.eqb_refl; reflexivity).
  destruct r as [b|].
  - destruct Pr as (_ & g & Eg & Cg). f_equal. apply (proj2 (proj2 RI) b a g _ Eg Ea). cbn [fd_data]. exact Cg.
  - exfalso. apply (Pr a _ Ia Ea). reflexivity.
Qed.

Lemma inv_reg : forall ex ow s, inv ex ow s -> reg_inv s.
Proof.
  intros ex ow s I. split; [apply (i_reg _ _ _ I)|]. split; [|apply (i_unique _ _ _ I)].
  intros b f E. split; [apply (i_all _ _ _ I b f E)|apply (i_field _ _ _ I b f E)].
Qed.

(** ** Destroying a field *)
(** With pairwise different live cache cells and count equal to their number. *)
Lemma clear_cache_ok : forall a l s f, get a (fields s) = Some f -> fd_count f = Z.of_nat (length l) -> (length l <= 3)%nat -> NoDup l ->
  (forall x, In x l -> get x (stores s) <> None) ->
  exists s', clear_cache D H V s a l = Val s' /\
    s' = set_fields _ _ _ (set_stores _ _ _ s (fold_left (fun t x => del x t) l (stores s)))
           (match l with [] => fields s | _ => put a {| fd_data := fd_data f; fd_count := 0; fd_cache := fd_cache f |} (fields s) end).
Proof.
  intros a l. induction l as [|x l IH]; intros s f E C L N A; cbn [clear_cache fold_left].
  { exists s. split; [reflexivity|]. destruct s; reflexivity. }
  inversion N as [|? ? Nx Nl]; subst. unfold field_at. rewrite E. cbn [bind]. unfold LifeModel.clear.
  destruct (get x (stores s)) as [v|] eqn:Ex; [|exfalso; apply (A x (or_introl eq_refl)); exact Ex]. cbn [bind].
  unfold decrement, field_at. cbn [fields set_stores]. rewrite E. cbn [bind]. cbn [length] in C, L.
  replace (fd_count f =? 4) with false by (symmetry; apply Z.eqb_neq; lia).
  set (s1 := put_field _ _ _). destruct (IH s1 {| fd_data := fd_data f; fd_count := fd_count f - 1; fd_cache := fd_cache f |}) as (s' & R & ->).
  - unfold s1. cbn [fields LifeModel.put_field set_fields]. apply get_put_same.
  - cbn [fd_count]. lia.
  - lia.
  - exact Nl.
  - intros y Iy. unfold s1. cbn [stores LifeModel.put_field set_fields set_stores]. rewrite get_del_other; [apply A; right; exact Iy|]. intros ->. contradiction.
  - eexists. split; [exact R|]. unfold s1, set_fields, set_stores, LifeModel.put_field. cbn [fields stores registry handles elems static fd_data fd_cache].
    f_equal. destruct l as [|y l]; [|apply put_put]. cbn [length] in C. unfold set_fields. cbn [fields set_stores]. do 2 f_equal. lia.
Qed.
Lemma fold_del_none : forall {A} l x (t : list (nat * A)), get x t = None -> get x (fold_left (fun t x => del x t) l t) = None.
Proof. intros A l. induction l as [|y l IH]; intros x t E; cbn [fold_left]; [exact E|]. apply IH. rewrite get_del. destruct (Nat.eqb y x); [reflexivity|exact E]. Qed.
Lemma fold_del_get : forall {A} l x (t : list (nat * A)), get x (fold_left (fun t x => del x t) l t) = if existsb (Nat.eqb x) l then None else get x t.
Proof.
  intros A l. induction l as [|y l IH]; intros x t; cbn [fold_left existsb]; [reflexivity|]. rewrite IH, get_del. rewrite (Nat.eqb_sym x y).
  destruct (Nat.eqb y x); cbn [orb]; destruct (existsb (Nat.eqb x) l); reflexivity.
Qed.
Lemma fold_del_keys : forall {A} l (t : list (nat * A)), NoDup (keys t) -> NoDup (keys (fold_left (fun t x => del x t) l t)).
Proof. intros A l. induction l as [|y l IH]; intros t N; cbn [fold_left]; [exact N|]. apply IH, keys_del, N. Qed.

Lemma destroy_ok : forall s a f, get a (fields s) = Some f -> fd_count f = 3 -> length (fd_cache f) = 3%nat -> NoDup (fd_cache f) ->
  (forall x, In x (fd_cache f) -> get x (stores s) <> None) ->
  destroy s a = Val (set_fields _ _ _ (set_stores _ _ _ s (fold_left (fun t x => del x t) (fd_cache f) (stores s))) (del a (fields s))).
Proof.
  intros s a f E C L N A. unfold LifeModel.destroy, field_at. rewrite E. cbn [bind].
  destruct (clear_cache_ok a (fd_cache f) s f E) as (s' & R & ->); [rewrite L; exact C|lia|exact N|exact A|].
  rewrite R. cbn [bind fields set_fields]. destruct (fd_cache f) as [|x l]; [discriminate|]. rewrite get_put_same. cbn [bind fd_count].
  rewrite Z.eqb_refl. cbn [negb]. rewrite andb_false_r. unfold set_fields, set_stores, put. cbn [fields stores registry handles elems static del].
  rewrite Nat.eqb_refl, del_del. reflexivity.
Qed.

(** Cache cells are different and alive. *)
Lemma cnt_in : forall x l, In x l -> 1 <= cnt x l.
Proof. intros x l I. unfold cnt. apply (count_occ_In Nat.eq_dec) in I. lia. Qed.
Lemma cache_cells : forall ex ow s a f, inv ex ow s -> (forall x, 0 <= total (owns x) (elems s) + ow x) -> get a (fields s) = Some f ->
  NoDup (fd_cache f) /\ (forall x, In x (fd_cache f) -> get x (stores s) <> None /\ total (owns x) (elems s) + ow x = 0 /\
    forall b g, b <> a -> get b (fields s) = Some g -> ~ In x (fd_cache g)).
Proof.
  intros ex ow s a f I Po E.
  assert (T : forall x, cnt x (fd_cache f) <= total (fun f => cnt x (fd_cache f)) (fields s)).
  { intros x. apply (total_ge (fun f => cnt x (fd_cache f)) _ a f); [intros; apply cnt_pos|exact E]. }
  assert (B : forall x, owners s x + ow x <= 1).
  { intros x. rewrite (i_store _ _ _ I x). unfold live. destruct (get x (stores s)); lia. }
  split.
  - apply (NoDup_count_occ Nat.eq_dec). intros x. specialize (T x). specialize (B x). unfold owners in B.
    destruct (owners_pos s x). specialize (Po x). assert (Q : cnt x (fd_cache f) <= 1) by lia. unfold cnt in Q. lia.
  - intros x Ix. pose proof (cnt_in _ _ Ix). specialize (T x). specialize (B x). pose proof (i_store _ _ _ I x) as St. unfold owners in *.
    destruct (owners_pos s x). specialize (Po x). split; [|split; [lia|]].
    + unfold live in St. destruct (get x (stores s)); [discriminate|lia].
    + intros b g N Eg Ig. pose proof (cnt_in _ _ Ig).
      pose proof (total_two (fun f => cnt x (fd_cache f)) (fields s) a b f g (fun f => cnt_pos x _) (not_eq_sym N) E Eg). cbn beta in *. lia.
Qed.

(** ** Releasing a reference *)
(** Everything still in use is as before. *)
Definition kept ex ow s s' : Prop :=
  handles s' = handles s /\ elems s' = elems s /\ static s' = static s /\
  (forall x, 1 <= total (owns x) (elems s) + ow x -> get x (stores s') = get x (stores s)) /\
  (forall x, get x (stores s) = None -> get x (stores s') = None) /\
  (forall a f, 1 <= refs s a + ex a -> get a (fields s) = Some f -> exists f', get a (fields s') = Some f' /\ like f f' /\
     forall x, In x (fd_cache f) -> get x (stores s') = get x (stores s)) /\
  (forall a, get a (fields s) = None -> get a (fields s') = None).

Lemma release_ok' : forall ex ow s a, inv (inc ex a) ow s -> (forall b, 0 <= ex b) -> (forall x, 0 <= total (owns x) (elems s) + ow x) ->
  match release s a with Val s' => inv ex ow s' /\ kept ex ow s s' | Fuel => True | _ => False end.
Proof.
  intros ex ow s a I Px Po. destruct (referenced_alive _ _ _ a I) as [f E].
  { unfold inc. rewrite one_at_same. pose proof (refs_pos s a). specialize (Px a). lia. }
  destruct (i_field _ _ _ I a f E) as (Gf & Cf & Pf & Lf). unfold inc in Cf, Pf. rewrite one_at_same in Cf, Pf.
  unfold LifeModel.release, decrement, field_at. rewrite E. cbn [bind].
  set (f1 := {| fd_data := fd_data f; fd_count := fd_count f - 1; fd_cache := fd_cache f |}).
  destruct (Z.eqb_spec (fd_count f) 4) as [Four|Nf].
  - (* the last reference *)
    assert (R0 : refs s a = 0 /\ ex a = 0) by (pose proof (refs_pos s a); specialize (Px a); lia).
    set (s1 := put_field s a f1).
    assert (RI1 : reg_inv s1).
    { destruct (inv_reg _ _ _ I) as (R1 & R2 & R3). unfold s1.
      assert (Gt : forall b g, get b (put a f1 (fields s)) = Some g -> exists g0, get b (fields s) = Some g0 /\ fd_data g = fd_data g0).
      { intros b g. rewrite get_put. destruct (Nat.eqb_spec a b) as [<-|]; [intros X; injection X as <-; exists f; auto|intros X; exists g; auto]. }
      split; [|split]; cbn [fields registry LifeModel.put_field set_fields].
      - intros b h Ib. destruct (R1 b h Ib) as (g & Eg & Hof). rewrite get_put. destruct (Nat.eqb_spec a b) as [<-|]; [|exists g; auto].
        exists f1. split; [reflexivity|]. cbn [f1 fd_data]. congruence.
      - intros b g X. destruct (Gt b g X) as (g0 & Eg & Dg). rewrite Dg. apply (R2 b g0 Eg).
      - intros b c g g' X Y. destruct (Gt b g X) as (g0 & Eg & ->). destruct (Gt c g' Y) as (g1 & Eg' & ->). apply (R3 b c g0 g1 Eg Eg'). }
    assert (E1 : get a (fields s1) = Some f1) by (unfold s1; cbn [fields LifeModel.put_field set_fields]; apply get_put_same).
    assert (Hd : forall g d, g = {| fd_data := d; fd_count := 3; fd_cache := fd_cache f |} ->
      forall r, r = Some a -> good d ->
      let s2 := put_field s a g in
      match destroy (match r with Some b => set_registry _ _ _ s2 (del b (registry s2)) | None => s2 end) a with
      | Val s' => inv ex ow s' /\ kept ex ow s s' | Fuel => True | _ => False end).
    { intros g d -> r -> Gd s2. set (s3 := set_registry _ _ _ s2 (del a (registry s2))).
      destruct (cache_cells _ _ _ _ _ I Po E) as [Nc Cc].
      assert (E3 : get a (fields s3) = Some {| fd_data := d; fd_count := 3; fd_cache := fd_cache f |})
        by (unfold s3, s2; cbn [fields LifeModel.put_field set_fields set_registry]; apply get_put_same).
      pose proof (destroy_ok s3 a _ E3 eq_refl Lf Nc) as Ds. cbn [fd_cache] in Ds. rewrite Ds by (intros x Ix; apply (Cc x Ix)). clear Ds.
      unfold s3, s2, set_registry, LifeModel.put_field, set_fields, set_stores. cbn [fields stores registry handles elems static].
      assert (Df : del a (put a {| fd_data := d; fd_count := 3; fd_cache := fd_cache f |} (fields s)) = del a (fields s))
        by (unfold put; cbn [del]; rewrite Nat.eqb_refl; apply del_del). rewrite Df.
      assert (Ex : forall x l, existsb (Nat.eqb x) l = true <-> In x l).
      { intros x l. rewrite existsb_exists. split; [intros (y & Iy & Q); apply Nat.eqb_eq in Q; subst; exact Iy|intros Ix; exists x; split; [exact Ix|apply Nat.eqb_refl]]. }
      split.
      - assert (Rf : forall b, refs {| fields := del a (fields s); stores := fold_left (fun t x => del x t) (fd_cache f) (stores s);
           registry := del a (registry s); handles := handles s; elems := elems s; static := static s |} b = refs s b) by reflexivity.
        pose proof I as I0. destruct I. constructor; cbn [fields stores registry handles elems static]; auto.
        + apply keys_del. assumption.
        + apply fold_del_keys. assumption.
        + intros b g. rewrite get_del, Rf. destruct (Nat.eqb_spec a b) as [<-|Nb]; [discriminate|]. intros Eg.
          destruct (i_field0 b g Eg) as (A & B & C & L). unfold inc in B, C. rewrite one_at_other in B, C by congruence. repeat split; auto; lia.
        + intros b. rewrite get_del, Rf. destruct (Nat.eqb_spec a b) as [<-|Nb]; [intros _; lia|]. intros Eb.
          specialize (i_dead0 b Eb). unfold inc in i_dead0. rewrite one_at_other in i_dead0 by congruence. lia.
        + intros x. specialize (i_store0 x). unfold owners, live in *. cbn [fields stores elems].
          rewrite total_del by exact i_kf0. rewrite E. cbn [wo]. rewrite fold_del_get.
          destruct (existsb (Nat.eqb x) (fd_cache f)) eqn:Xx.
          * apply Ex in Xx. destruct (Cc x Xx) as (A & B & _). destruct (get x (stores s)); [|congruence].
            pose proof (cnt_in _ _ Xx). assert (0 <= total (fun f0 => cnt x (fd_cache f0)) (fields s) - cnt x (fd_cache f)).
            { rewrite <- (Z.add_0_r (_ - _)). pose proof (total_ge (fun f0 => cnt x (fd_cache f0)) (fields s) a f (fun f0 => cnt_pos x _) E). cbn beta in *. lia. }
            lia.
          * assert (Z0 : cnt x (fd_cache f) = 0).
            { unfold cnt. replace (count_occ Nat.eq_dec (fd_cache f) x) with 0%nat; [reflexivity|]. symmetry. apply count_occ_not_In. intros Ix. apply Ex in Ix. congruence. }
            lia.
        + intros b h Ib. assert (Kb : In b (keys (del a (registry s)))) by (apply (in_map fst) in Ib; exact Ib). apply del_in in Kb. destruct Kb as [Nb _].
          assert (Gb : In (b, h) (registry s)).
          { apply get_in. rewrite <- (get_del_other _ a b) by congruence. apply in_get; [apply keys_del; exact i_kr0|exact Ib]. }
          destruct (i_reg0 b h Gb) as (g & Eg & Hof). exists g. rewrite get_del_other by congruence. auto.
        + intros b g. rewrite get_del. destruct (Nat.eqb_spec a b) as [<-|Nb]; [discriminate|]. intros Eg. apply del_in. split; [congruence|apply (i_all0 b g Eg)].
        + apply keys_del. assumption.
        + intros b c g g'. rewrite !get_del. destruct (Nat.eqb_spec a b) as [<-|]; [discriminate|]. destruct (Nat.eqb_spec a c) as [<-|]; [discriminate|]. apply i_unique0.
      - split; [reflexivity|]. split; [reflexivity|]. split; [reflexivity|]. cbn [fields stores].
        split; [|split; [|split]].
        + intros x Ox. rewrite fold_del_get. destruct (existsb (Nat.eqb x) (fd_cache f)) eqn:Xx; [|reflexivity].
          apply Ex in Xx. destruct (Cc x Xx) as (_ & B & _). lia.
        + intros x Nx. apply fold_del_none. exact Nx.
        + intros b g Rb Eg. assert (Nb : b <> a) by (intros ->; lia). exists g. rewrite get_del_other by congruence. split; [exact Eg|]. split; [apply like_refl|].
          intros x Ix. rewrite fold_del_get. destruct (existsb (Nat.eqb x) (fd_cache f)) eqn:Xx; [|reflexivity].
          apply Ex in Xx. destruct (Cc x Xx) as (_ & _ & N). exfalso. apply (N b g Nb Eg Ix).
        + intros b Eb. rewrite get_del. destruct (Nat.eqb a b); [reflexivity|exact Eb]. }
    assert (Fin : forall s2 g, reg_inv s2 -> get a (fields s2) = Some g -> (exists d, good d /\ g = {| fd_data := d; fd_count := 3; fd_cache := fd_cache f |} /\ s2 = put_field s a g) ->
      match bind (find s2 a) (fun '(s, r, _) => destroy (match r with Some b => set_registry _ _ _ s (del b (registry s)) | None => s end) a) with
      | Val s' => inv ex ow s' /\ kept ex ow s s' | Fuel => True | _ => False end).
    { intros s2 g RI2 E2 (d & Gd & Eg & Es). pose proof (find_self s2 a g RI2 E2) as Fs. destruct (find s2 a) as [[[s' r] h]| | |]; cbn [bind]; try contradiction; [|exact Logic.I].
      destruct Fs as (-> & _ & d' & Gd' & _ & ->). rewrite Es. unfold LifeModel.put_field at 1 2, set_fields. cbn [fields stores registry handles elems static].
      rewrite put_put. rewrite Eg. cbn [fd_count fd_cache]. apply (Hd _ d' eq_refl (Some a) eq_refl Gd'). }
    assert (F1 : f1 = {| fd_data := fd_data f; fd_count := 3; fd_cache := fd_cache f |}) by (unfold f1; f_equal; lia).
    destruct debug.
    + pose proof (find_self s1 a f1 RI1 E1) as Fs. destruct (find s1 a) as [[[s' r] h]| | |]; cbn [bind]; try contradiction; [|exact Logic.I].
      destruct Fs as (-> & RI2 & d' & Gd' & _ & Es'). cbn [bind].
      assert (Es2 : s' = put_field s a {| fd_data := d'; fd_count := fd_count f1; fd_cache := fd_cache f1 |}).
      { rewrite Es'. unfold s1, LifeModel.put_field, set_fields. cbn [fields stores registry handles elems static]. rewrite put_put. reflexivity. }
      apply (Fin s' {| fd_data := d'; fd_count := fd_count f1; fd_cache := fd_cache f1 |} RI2).
      * rewrite Es2. cbn [fields LifeModel.put_field set_fields]. apply get_put_same.
      * exists d'. split; [exact Gd'|]. split; [|exact Es2]. rewrite F1. reflexivity.
    + cbn [bind]. apply (Fin s1 f1 RI1 E1). exists (fd_data f). split; [exact Gf|]. split; [exact F1|reflexivity].
  - pose proof (refs_pos s a). specialize (Px a) as Pa.
    assert (Al : alike s (put_field s a f1)) by (apply (alike_put s a f f1 E); split; reflexivity).
    split.
    + apply (put_field_ok (inc ex a) ow ex s a f f1 I E); auto.
      * unfold f1. cbn [fd_count]. unfold inc. rewrite one_at_same. lia.
      * intros b N. unfold inc. rewrite one_at_other by congruence. lia.
      * lia.
    + destruct Al as (_ & _ & _ & _ & _ & Fd). do 3 (split; [reflexivity|]). split; [reflexivity|]. split; [auto|]. split.
      * intros b g _ Eg. specialize (Fd b). rewrite Eg in Fd. destruct (get b (fields (put_field s a f1))) as [g'|] eqn:Eg'; [|contradiction].
        exists g'. split; [reflexivity|]. split; [exact Fd|]. reflexivity.
      * intros b Eb. specialize (Fd b). rewrite Eb in Fd. destruct (get b (fields (put_field s a f1))); [contradiction|reflexivity].
Qed.

Lemma owned_pos : forall (ow : nat -> Z) s, (forall x, 0 <= ow x) -> forall x, 0 <= total (owns x) (elems s) + ow x.
Proof. intros ow s P x. specialize (P x). destruct (owners_pos s x). lia. Qed.
Lemma release_ok : forall ex ow s a, inv (inc ex a) ow s -> (forall b, 0 <= ex b) -> (forall x, 0 <= ow x) ->
  match release s a with Val s' => inv ex ow s' /\ kept ex ow s s' | Fuel => True | _ => False end.
Proof. intros ex ow s a I Px Po. apply release_ok'; [exact I|exact Px|apply owned_pos; exact Po]. Qed.
Implicit Types (t u : state).
(** ** Changing variables *)
Notation nfi a := (fun y => is a (ob_nf y)).
Lemma put_elem_inv : forall ex ow s e y, inv ex ow s ->
  inv (fun a => ex a + wo (nfi a) (get e (elems s)) - is a (ob_nf y)) (fun x => ow x + wo (owns x) (get e (elems s)) - owns x y) (put_elem s e y).
Proof.
  intros ex ow s e y I. pose proof (i_ke _ _ _ I) as Ke. apply (vars_ok ex ow _ _ s); auto.
  - apply (i_kh _ _ _ I).
  - apply keys_put. exact Ke.
  - intros a. unfold refs. cbn [LifeModel.put_elem set_elems handles elems static]. rewrite total_put by exact Ke. lia.
  - intros x. cbn [LifeModel.put_elem set_elems handles elems static]. rewrite total_put by exact Ke. lia.
Qed.
Lemma del_elem_inv : forall ex ow s e, inv ex ow s ->
  inv (fun a => ex a + wo (nfi a) (get e (elems s))) (fun x => ow x + wo (owns x) (get e (elems s))) (set_elems _ _ _ s (del e (elems s))).
Proof.
  intros ex ow s e I. pose proof (i_ke _ _ _ I) as Ke. apply (vars_ok ex ow _ _ s); auto.
  - apply (i_kh _ _ _ I).
  - apply keys_del. exact Ke.
  - intros a. unfold refs. cbn [set_elems handles elems static]. rewrite total_del by exact Ke. lia.
  - intros x. cbn [set_elems handles elems static]. rewrite total_del by exact Ke. lia.
Qed.
Lemma put_handle_inv : forall ex ow s h p, inv ex ow s ->
  inv (fun a => ex a + wo (is a) (get h (handles s)) - is a p) ow (put_handle s h p).
Proof.
  intros ex ow s h p I. pose proof (i_kh _ _ _ I) as Ke. apply (vars_ok ex ow _ _ s); auto.
  - apply keys_put. exact Ke.
  - apply (i_ke _ _ _ I).
  - intros a. unfold refs. cbn [LifeModel.put_handle set_handles handles elems static]. rewrite total_put by exact Ke. lia.
Qed.
Lemma del_handle_inv : forall ex ow s h, inv ex ow s ->
  inv (fun a => ex a + wo (is a) (get h (handles s))) ow (set_handles _ _ _ s (del h (handles s))).
Proof.
  intros ex ow s h I. pose proof (i_kh _ _ _ I) as Ke. apply (vars_ok ex ow _ _ s); auto.
  - apply keys_del. exact Ke.
  - apply (i_ke _ _ _ I).
  - intros a. unfold refs. cbn [set_handles handles elems static]. rewrite total_del by exact Ke. lia.
Qed.
Notation at_static a s := (match static s with Some p => is a p | None => 0 end).
Lemma static_inv : forall ex ow s p, inv ex ow s -> inv (fun a => ex a + at_static a s - is a p) ow (set_static _ _ _ s (Some p)).
Proof.
  intros ex ow s p I. apply (vars_ok ex ow _ _ s); auto; [apply (i_kh _ _ _ I)|apply (i_ke _ _ _ I)|].
  intros a. unfold refs. cbn [set_static handles elems static]. lia.
Qed.

(** ** References and ownership of variables *)
Lemma handle_ref : forall s h a, get h (handles s) = Some (Some a) -> 1 <= refs s a.
Proof.
  intros s h a E. unfold refs. pose proof (total_ge (is a) (handles s) h (Some a) (is_pos a) E) as T. rewrite is_some_at, one_at_same in T.
  pose proof (total_pos (nfi a) (elems s) (fun y => is_pos a _)). destruct (static s) as [p|]; [pose proof (is_pos a p)|]; lia.
Qed.
Lemma elem_ref : forall s e y a, get e (elems s) = Some y -> ob_nf y = Some a -> 1 <= refs s a.
Proof.
  intros s e y a E N. unfold refs. pose proof (total_ge (nfi a) (elems s) e y (fun y => is_pos a _) E) as T. cbn beta in T. rewrite N, is_some_at, one_at_same in T.
  pose proof (total_pos (is a) (handles s) (is_pos a)). destruct (static s) as [p|]; [pose proof (is_pos a p)|]; lia.
Qed.
Lemma static_ref : forall s a, static s = Some (Some a) -> 1 <= refs s a.
Proof.
  intros s a E. unfold refs. rewrite E, is_some_at, one_at_same. pose proof (total_pos (is a) (handles s) (is_pos a)).
  pose proof (total_pos (nfi a) (elems s) (fun y => is_pos a _)). lia.
Qed.
Lemma owns_same : forall y, ob_nf y <> None -> owns (ob_st y) y = 1.
Proof. intros y N. unfold owns. destruct (ob_nf y); [rewrite Nat.eqb_refl; reflexivity|congruence]. Qed.
Lemma own_ge : forall s e y, get e (elems s) = Some y -> ob_nf y <> None -> 1 <= total (owns (ob_st y)) (elems s).
Proof. intros s e y E N. pose proof (total_ge _ _ e y (owns_pos (ob_st y)) E) as T. rewrite (owns_same y N) in T. exact T. Qed.
Lemma own_alive : forall ex ow s e y, inv ex ow s -> (forall x, 0 <= ow x) -> get e (elems s) = Some y -> ob_nf y <> None -> exists v, get (ob_st y) (stores s) = Some v.
Proof.
  intros ex ow s e y I Po E N. apply (alive_if ex ow s _ I). pose proof (own_ge s e y E N). destruct (owners_pos s (ob_st y)). specialize (Po (ob_st y)).
  unfold owners. lia.
Qed.
Lemma own_diff : forall ex ow s e f y z, inv ex ow s -> (forall x, 0 <= ow x) -> get e (elems s) = Some y -> get f (elems s) = Some z ->
  ob_nf y <> None -> ob_nf z <> None -> e <> f -> ob_st y <> ob_st z.
Proof.
  intros ex ow s e f y z I Po E F Ny Nz N Q. pose proof (total_two (owns (ob_st y)) (elems s) e f y z (owns_pos _) N E F) as T.
  rewrite (owns_same y Ny) in T. rewrite Q, (owns_same z Nz) in T. pose proof (i_store _ _ _ I (ob_st z)) as S. unfold owners, live in S.
  destruct (owners_pos s (ob_st z)). specialize (Po (ob_st z)). destruct (get (ob_st z) (stores s)); lia.
Qed.
Lemma cached_other : forall ex ow s a f x e y, inv ex ow s -> (forall x, 0 <= ow x) -> get a (fields s) = Some f -> In x (fd_cache f) ->
  get e (elems s) = Some y -> ob_nf y <> None -> ob_st y <> x.
Proof.
  intros ex ow s a f x e y I Po E Ix Ey N Q. destruct (cache_cells _ _ _ _ _ I (owned_pos _ _ Po) E) as [_ C]. destruct (C x Ix) as (_ & Z0 & _).
  pose proof (own_ge s e y Ey N) as O. rewrite Q in O. specialize (Po x). lia.
Qed.

(** ** What does not change *)
Lemma sm_gen : forall s t l, (forall j, ~ In j l -> get j (elems t) = get j (elems s)) ->
  (forall j y, ~ In j l -> get j (elems s) = Some y -> ob_nf y <> None -> get (ob_st y) (stores t) = get (ob_st y) (stores s)) -> same_elems s t l.
Proof.
  intros s t l A B j N. split; [apply A; exact N|]. unfold content. rewrite (A j N). destruct (get j (elems s)) as [y|] eqn:E; [|reflexivity].
  destruct (ob_nf y) eqn:F; [|reflexivity]. rewrite (B j y N E); [reflexivity|congruence].
Qed.
Lemma sm_trans : forall s t u l, same_elems s t l -> same_elems t u l -> same_elems s u l.
Proof. intros s t u l A B j N. destruct (A j N), (B j N). split; congruence. Qed.
Lemma sm_mono : forall s t l, same_elems s t [] -> same_elems s t l.
Proof. intros s t l A j _. apply A. intros []. Qed.
Lemma sm_refl : forall s l, same_elems s s l.
Proof. intros s l j _. split; reflexivity. Qed.
Lemma kept_same : forall ex ow s t l, kept ex ow s t -> (forall x, 0 <= ow x) -> same_elems s t l /\ same_handles s t [].
Proof.
  intros ex ow s t l (A & B & _ & C & _) Po. split; [|intros j _; rewrite A; reflexivity]. apply sm_gen.
  - intros j _. rewrite B. reflexivity.
  - intros j y _ E N. apply C. pose proof (own_ge s j y E N). specialize (Po (ob_st y)). lia.
Qed.
Lemma alike_same : forall s t l, alike s t -> same_elems s t l /\ same_handles s t [].
Proof.
  intros s t l (A & _ & B & C & _). split; [|intros j _; rewrite B; reflexivity]. apply sm_gen; intros; rewrite ?A, ?C; reflexivity.
Qed.
Lemma init_same : forall ex ow s x v l, inv ex ow s -> (forall x, 0 <= ow x) -> get x (stores s) = None -> same_elems s (init s x v) l.
Proof.
  intros ex ow s x v l I Po E. apply sm_gen; [reflexivity|]. intros j y _ Ey N. cbn [LifeModel.init set_stores stores]. apply get_put_other.
  destruct (own_alive _ _ _ _ _ I Po Ey N) as [u Eu]. intros ->. congruence.
Qed.
Lemma put_elem_same : forall s e y, same_elems s (put_elem s e y) [e].
Proof.
  intros s e y. apply sm_gen; [|reflexivity]. intros j N. cbn [LifeModel.put_elem set_elems elems]. apply get_put_other. intros ->. apply N. left. reflexivity.
Qed.

(** ** Making fields *)
(** New fields and memory only. *)
Definition grown s t (l : list nat) : Prop :=
  handles t = handles s /\ elems t = elems s /\
  (forall x v, get x (stores s) = Some v -> get x (stores t) = Some v) /\
  (forall x, get x (stores s) = None -> ~ In x l -> get x (stores t) = None) /\
  (forall a f, get a (fields s) = Some f -> exists f', get a (fields t) = Some f' /\ like f f').
Lemma grown_refl : forall s l, grown s s l.
Proof. intros s l. do 4 (split; [auto|]). intros a f E. exists f. split; [exact E|apply like_refl]. Qed.
Lemma alike_grown : forall s t l, alike s t -> grown s t l.
Proof.
  intros s t l (A & _ & B & C & _ & F). unfold grown. rewrite A, B, C. do 4 (split; [auto|]). intros a f E. specialize (F a). rewrite E in F.
  destruct (get a (fields t)) as [f'|]; [exists f'; auto|contradiction].
Qed.
Lemma grown_same : forall ex ow s t l m, grown s t l -> inv ex ow s -> (forall x, 0 <= ow x) -> same_elems s t m /\ same_handles s t [].
Proof.
  intros ex ow s t l m (A & B & C & _) I Po. split; [|intros j _; rewrite A; reflexivity]. apply sm_gen; [intros; rewrite B; reflexivity|].
  intros j y _ E N. destruct (own_alive _ _ _ _ _ I Po E N) as [v Ev]. rewrite Ev. apply C. exact Ev.
Qed.

Lemma del_put_other : forall {A} (l : list (nat * A)) k j a, k <> j -> del k (put j a l) = put j a (del k l).
Proof.
  intros A l k j a N. unfold put. cbn [del]. destruct (Nat.eqb_spec j k); [congruence|]. f_equal.
  induction l as [|[i b] l IH]; cbn [del]; [reflexivity|].
  destruct (Nat.eqb i j) eqn:J, (Nat.eqb i k) eqn:Kk; cbn [del]; rewrite ?J, ?Kk; try exact IH; f_equal; exact IH.
Qed.

Lemma make_ok : forall ex ow s d r, inv ex ow s -> good d -> room_free s r [] ->
  match make s d (fst r) (snd r) with
  | Val (t, b) => inv (inc ex b) ow t /\ grown s t (cells r) /\ static t = static s /\ exists f, get b (fields t) = Some f /\ cls (fd_data f) = cls d
  | Fuel => True | _ => False end.
Proof.
  intros ex ow s d (a & (x & y) & z) I G (Fa & Nd & Fx). cbn [fst snd cells app] in *. unfold LifeModel.make, construct.
  assert (Ex : get x (stores s) = None) by (apply Fx; cbn; tauto). assert (Ey : get y (stores s) = None) by (apply Fx; cbn; tauto).
  assert (Ez : get z (stores s) = None) by (apply Fx; cbn; tauto). clear Fx.
  assert (Nxy : x <> y /\ x <> z /\ y <> z).
  { inversion Nd as [|? ? A B]; subst. inversion B as [|? ? A' B']; subst. cbn in A, A'. repeat split; intros ->; tauto. }
  destruct Nxy as (Nxy & Nxz & Nyz).
  unfold LifeModel.find. unfold field_at at 1. cbn [fields LifeModel.put_field set_fields]. rewrite get_put_same. cbn [bind fd_data].
  pose proof (ro_hash _ _ _ _ _ _ RO d G) as Hh. destruct (hash d) as [[d' h]| | |]; cbn [bind]; try contradiction; [|exact Logic.I].
  destruct Hh as (Gd & Cd & Hd). cbn [fd_count fd_cache].
  set (st := put z (gen d) (put y (one d) (put x (zero d) (stores s)))).
  set (fn := {| fd_data := d'; fd_count := 3; fd_cache := [x; y; z] |}).
  unfold LifeModel.put_field, set_fields, LifeModel.init, set_stores. cbn [fields stores registry handles elems static]. rewrite put_put. fold st. fold fn.
  set (s1 := {| fields := put a fn (fields s); stores := st; registry := registry s; handles := handles s; elems := elems s; static := static s |}).
  change {| fields := put a fn (fields s); stores := st; registry := registry s; handles := handles s; elems := elems s; static := static s |} with s1.
  assert (Nr : forall b h, In (b, h) (registry s) -> b <> a).
  { intros b h' Ib ->. destruct (i_reg _ _ _ I a h' Ib) as (g & Eg & _). congruence. }
  assert (G1 : forall b, b <> a -> get b (fields s1) = get b (fields s)) by (intros b N; unfold s1; cbn [fields]; apply get_put_other; congruence).
  destruct (lookup_ok s1 d' h (registry s) Gd (eq_ind_r (fun k => hof k h) Hd Cd)) as (r & Er & Pr).
  { intros b h' Ib. destruct (i_reg _ _ _ I b h' Ib) as (g & Eg & Hof). exists g. rewrite (G1 b (Nr b _ Ib)). split; [exact Eg|].
    split; [apply (i_field _ _ _ I b g Eg)|exact Hof]. }
  rewrite Er. cbn [bind]. destruct r as [b|].
  - (* an equal field exists *)
    destruct Pr as (Ib & g & Eg & Cg). assert (Nb : b <> a).
    { unfold keys in Ib. apply in_map_iff in Ib. destruct Ib as ((b' & h') & <- & Ib). apply (Nr _ _ Ib). }
    assert (E1 : get a (fields s1) = Some fn) by (unfold s1; cbn [fields]; apply get_put_same).
    pose proof (destroy_ok s1 a fn E1 eq_refl eq_refl) as Ds. rewrite Ds; clear Ds.
    2:{ cbn [fn fd_cache]. exact Nd. }
    2:{ cbn [fn fd_cache]. intros t It. unfold s1, st. cbn [stores]. rewrite !get_put. destruct It as [<-|[<-|[<-|[]]]]; rewrite ?Nat.eqb_refl;
        [destruct (Nat.eqb z x); [discriminate|destruct (Nat.eqb y x); discriminate]|destruct (Nat.eqb z y); discriminate|discriminate]. }
    assert (Old : set_fields _ _ _ (set_stores _ _ _ s1 (fold_left (fun m x => del x m) (fd_cache fn) (stores s1))) (del a (fields s1)) = s).
    { unfold s1, st, set_fields, set_stores. cbn [fn fd_cache fold_left fields stores registry handles elems static].
      rewrite (del_put _ a fn Fa). rewrite !(del_put_other _ x) by congruence. rewrite (del_put _ x _ Ex).
      rewrite (del_put_other _ y) by congruence. rewrite (del_put _ y _ Ey). rewrite (del_put _ z _ Ez). destruct s; reflexivity. }
    rewrite Old. cbn [bind]. rewrite (G1 b Nb) in Eg. destruct (add_ref_ok ex ow s b I) as (t & Et & It & At).
    { apply (i_field _ _ _ I b g Eg). }
    rewrite Et. cbn [bind]. split; [exact It|]. split; [apply alike_grown; exact At|]. destruct At as (_ & _ & _ & _ & S & F). split; [exact S|].
    specialize (F b). rewrite Eg in F. destruct (get b (fields t)) as [g'|]; [|contradiction]. exists g'. split; [reflexivity|]. destruct F as [F _]. congruence.
  - (* a new field *)
    unfold LifeModel.add_ref, field_at. unfold set_registry. cbn [fields stores registry handles elems static]. unfold s1 at 1. cbn [fields]. rewrite get_put_same. cbn [bind].
    unfold LifeModel.put_field, set_fields. cbn [fields stores registry handles elems static fd_data fd_count fd_cache fn s1]. rewrite put_put.
    set (f4 := {| fd_data := d'; fd_count := 3 + 1; fd_cache := [x; y; z] |}).
    assert (Dead : refs s a + ex a = 0) by (apply (i_dead _ _ _ I a Fa)).
    assert (Gt : forall w, get w st = if Nat.eqb z w then Some (gen d) else if Nat.eqb y w then Some (one d) else if Nat.eqb x w then Some (zero d) else get w (stores s))
      by (intros u; unfold st; rewrite !get_put; reflexivity).
    split.
    + assert (Rf : forall b, refs {| fields := put a f4 (fields s); stores := st; registry := (a, h) :: registry s; handles := handles s; elems := elems s; static := static s |} b = refs s b) by reflexivity.
      destruct I. constructor; cbn [fields stores registry handles elems static]; auto.
      * apply keys_put. assumption.
      * unfold st. do 3 apply keys_put. assumption.
      * intros b g. rewrite get_put, Rf. unfold inc. destruct (Nat.eqb_spec a b) as [<-|Nb]; intros Eg.
        -- injection Eg as <-. rewrite one_at_same. cbn [f4 fd_data fd_count fd_cache length]. repeat split; [exact Gd|lia|lia].
        -- rewrite one_at_other by congruence. destruct (i_field0 b g Eg) as (A & B & C & L). repeat split; auto; lia.
      * intros b. rewrite get_put, Rf. unfold inc. destruct (Nat.eqb_spec a b) as [<-|Nb]; [discriminate|]. rewrite one_at_other by congruence. intros Eb. specialize (i_dead0 b Eb). lia.
      * intros u. specialize (i_store0 u). unfold owners, live in *. cbn [fields stores elems]. rewrite total_put by exact i_kf0. rewrite Fa. cbn [wo f4 fd_cache].
        rewrite Gt. unfold cnt in *. cbn [count_occ].
        destruct (Nat.eqb_spec z u) as [<-|Nz]; [rewrite Ez in i_store0|].
        { destruct (Nat.eq_dec x z); [congruence|]. destruct (Nat.eq_dec y z); [congruence|]. destruct (Nat.eq_dec z z); [|congruence]. lia. }
        destruct (Nat.eqb_spec y u) as [<-|Ny]; [rewrite Ey in i_store0|].
        { destruct (Nat.eq_dec x y); [congruence|]. destruct (Nat.eq_dec z y); [congruence|]. destruct (Nat.eq_dec y y); [|congruence]. lia. }
        destruct (Nat.eqb_spec x u) as [<-|Nx]; [rewrite Ex in i_store0|].
        { destruct (Nat.eq_dec y x); [congruence|]. destruct (Nat.eq_dec z x); [congruence|]. destruct (Nat.eq_dec x x); [|congruence]. lia. }
        destruct (Nat.eq_dec x u); [congruence|]. destruct (Nat.eq_dec y u); [congruence|]. destruct (Nat.eq_dec z u); [congruence|]. lia.
      * intros b h' [E|Ib].
        -- injection E as <- <-. exists f4. rewrite get_put_same. split; [reflexivity|]. cbn [f4 fd_data]. rewrite Cd. exact Hd.
        -- destruct (i_reg0 b h' Ib) as (g & Eg & Hof). exists g. rewrite get_put_other; [auto|]. intros ->. congruence.
      * intros b g. rewrite get_put. cbn [keys map fst In]. destruct (Nat.eqb_spec a b) as [<-|Nb]; [auto|]. intros Eg. right. apply (i_all0 b g Eg).
      * cbn [keys map fst]. constructor; [|exact i_kr0]. intros Ia. unfold keys in Ia. apply in_map_iff in Ia. destruct Ia as ((b' & h') & E & Ib). cbn in E. subst b'. apply (Nr _ _ Ib eq_refl).
      * assert (New : forall b g, b <> a -> get b (fields s) = Some g -> cls (fd_data g) <> cls d').
        { intros b g Nb Eg. apply (Pr b g); [apply (i_all0 b g Eg)|rewrite G1 by exact Nb; exact Eg]. }
        intros b c g g'. rewrite !get_put. destruct (Nat.eqb_spec a b) as [<-|Nb]; destruct (Nat.eqb_spec a c) as [<-|Nc]; intros E1 E2 Q;
          try (injection E1 as <-); try (injection E2 as <-); try reflexivity.
        -- exfalso. apply (New c g' (not_eq_sym Nc) E2). symmetry. exact Q.
        -- exfalso. apply (New b g (not_eq_sym Nb) E1). exact Q.
        -- apply (i_unique0 b c g g' E1 E2 Q).
    + split; [|split; [reflexivity|]].
      * split; [reflexivity|]. split; [reflexivity|]. cbn [fields stores]. split; [|split].
        -- intros u v Eu. rewrite Gt. destruct (Nat.eqb_spec z u) as [<-|]; [congruence|]. destruct (Nat.eqb_spec y u) as [<-|]; [congruence|]. destruct (Nat.eqb_spec x u) as [<-|]; [congruence|exact Eu].
        -- intros u Eu Nu. rewrite Gt. cbn in Nu. destruct (Nat.eqb_spec z u) as [<-|]; [tauto|]. destruct (Nat.eqb_spec y u) as [<-|]; [tauto|]. destruct (Nat.eqb_spec x u) as [<-|]; [tauto|exact Eu].
        -- intros b g Eg. exists g. rewrite get_put_other; [split; [exact Eg|apply like_refl]|]. intros ->. congruence.
      * exists f4. cbn [fields]. rewrite get_put_same. split; [reflexivity|exact Cd].
Qed.

Lemma rationals_ok : forall ex ow s r l, inv ex ow s -> running s -> room_free s r l ->
  match rationals D H V hash heq deq zero one gen trivial debug s r with
  | Val (t, q) => inv ex ow t /\ grown s t (cells r) /\ static t = Some (Some q)
  | Fuel => True | _ => False end.
Proof.
  intros ex ow s r l I Ru Fr. unfold rationals. destruct (static s) as [[q|]|] eqn:E; [|contradiction|].
  - split; [exact I|]. split; [apply grown_refl|exact E].
  - assert (Fr0 : room_free s r []).
    { destruct Fr as (A & B & C). split; [exact A|]. cbn [app]. split; [|intros x Ix; apply C; apply in_or_app; right; exact Ix].
      clear - B. induction l as [|x l IH]; [exact B|]. inversion B; auto. }
    pose proof (make_ok ex ow s trivial r I Htriv Fr0) as M. destruct (make s trivial (fst r) (snd r)) as [[t b]| | |]; cbn [bind]; try contradiction; [|exact Logic.I].
    destruct M as (It & Gr & S & _). split; [|split; [|reflexivity]].
    + apply (inv_ext _ _ ex ow _) with (3 := static_inv _ _ t (Some b) It); [|reflexivity]. intros a. rewrite S, E, is_some_at. unfold inc. lia.
    + exact Gr.
Qed.

Lemma free_app : forall s r l, room_free s r l -> free s l /\ forall x, In x l -> ~ In x (cells r).
Proof.
  intros s r l (_ & A & B). split.
  - split; [|intros x Ix; apply B; apply in_or_app; left; exact Ix]. clear - A. induction l as [|x l IH]; [constructor|]. inversion A as [|? ? X Y]; subst. constructor; [|apply IH; assumption].
    intros I. apply X. apply in_or_app. left. exact I.
  - intros x Ix. clear B. induction l as [|y l IH]; [destruct Ix|]. inversion A as [|? ? X Y]; subst. destruct Ix as [->|Ix]; [|apply IH; assumption]. intros I. apply X. apply in_or_app. right. exact I.
Qed.

Lemma parent_ok_of : forall ex ow s p l, inv ex ow s -> (forall x, 0 <= ow x) -> parent_ok s p l ->
  match parent_of D H V hash heq deq zero one gen trivial debug s p with
  | Val (t, a) => inv ex ow t /\ (exists m, grown s t m) /\ free t l /\ 1 <= refs t a /\ parent_is s t p a
  | Fuel => True | _ => False end.
Proof.
  intros ex ow s p l I Po Pk. destruct p as [h|e|r]; cbn [parent_of parent_ok parent_is] in *.
  - destruct Pk as [P F]. unfold pointee in *. destruct (get h (handles s)) as [[a|]|] eqn:E; try congruence. cbn [deref bind].
    split; [exact I|]. split; [exists []; apply grown_refl|]. split; [exact F|]. split; [apply (handle_ref s h a E)|reflexivity].
  - destruct Pk as [(y & E & N) F]. unfold elem_at. rewrite E. cbn [bind]. unfold nf_of. destruct (ob_nf y) as [a|] eqn:Q; [|congruence]. cbn [bind].
    split; [exact I|]. split; [exists []; apply grown_refl|]. split; [exact F|]. split; [apply (elem_ref s e y a E Q)|].
    destruct (own_alive _ _ _ _ _ I Po E) as [v Ev]; [congruence|]. exists v. unfold content. rewrite E, Q, Ev. reflexivity.
  - destruct Pk as [Ru Fr]. pose proof (rationals_ok ex ow s r l I Ru Fr) as M.
    destruct (rationals D H V hash heq deq zero one gen trivial debug s r) as [[t q]| | |]; try contradiction; [|exact Logic.I].
    destruct M as (It & Gr & S). split; [exact It|]. split; [exists (cells r); exact Gr|]. split; [|split; [apply static_ref; exact S|exact S]].
    destruct (free_app s r l Fr) as [[Nd Fl] Nl]. split; [exact Nd|]. intros x Ix. destruct Gr as (_ & _ & _ & F & _). apply F; [apply Fl; exact Ix|apply Nl; exact Ix].
Qed.

(** ** Sources *)
Lemma source_ok_of : forall ex ow s q, inv ex ow s -> (forall x, 0 <= ow x) -> (forall a, 0 <= ex a) -> source_ok s q ->
  exists y b v, source_of D H V s q = Val y /\ ob_nf y = Some b /\ get (ob_st y) (stores s) = Some v /\ source_content s q = Some (b, v) /\ 1 <= refs s b.
Proof.
  intros ex ow s q I Po Px Sk. destruct q as [e|h k]; cbn [source_of source_content source_ok] in *.
  - destruct Sk as (y & E & N). destruct (ob_nf y) as [b|] eqn:Q; [|congruence]. destruct (own_alive _ _ _ _ _ I Po E) as [v Ev]; [congruence|].
    exists y, b, v. unfold elem_at, content. rewrite E, Q, Ev. repeat split; auto. apply (elem_ref s e y b E Q).
  - destruct Sk as [P Lt]. unfold pointee in *. destruct (get h (handles s)) as [[b|]|] eqn:E; try congruence. cbn [deref bind].
    pose proof (handle_ref s h b E) as R. destruct (referenced_alive _ _ _ b I) as [f Ef]; [specialize (Px b); lia|]. unfold field_at. rewrite Ef. cbn [bind].
    destruct (i_field _ _ _ I b f Ef) as (_ & _ & _ & L). destruct (nth_error (fd_cache f) k) as [x|] eqn:Nx; [|apply nth_error_None in Nx; lia].
    destruct (cache_cells _ _ _ _ _ I (owned_pos _ _ Po) Ef) as [_ C]. destruct (C x (nth_error_In _ _ Nx)) as (A & _). destruct (get x (stores s)) as [v|] eqn:Ev; [|congruence].
    exists {| ob_nf := Some b; ob_st := x |}, b, v. cbn [ob_nf ob_st]. auto 6.
Qed.
Lemma source_grown : forall s t l q y, grown s t l -> source_of D H V s q = Val y -> source_of D H V t q = Val y.
Proof.
  intros s t l q y (A & B & _ & _ & F). destruct q as [e|h k]; cbn [source_of]; [unfold elem_at; rewrite B; auto|]. rewrite A.
  destruct (deref (get h (handles s))) as [a| | |]; cbn [bind]; try discriminate. unfold field_at. destruct (get a (fields s)) as [f|] eqn:E; cbn [bind]; [|discriminate].
  destruct (F a f E) as (f' & Ef & _ & Cf). rewrite Ef. cbn [bind]. rewrite Cf. auto.
Qed.

(** ** Steps *)
Notation run1 := (run1 D H V hash heq deq zero one gen ratl conv trivial debug).
Notation runs := (runs D H V hash heq deq zero one gen ratl conv trivial debug).
Notation effect := (effect ratl conv).
Definition z0 : nat -> Z := fun _ => 0.
Lemma z0_pos : forall a, 0 <= z0 a. Proof. intros. unfold z0. lia. Qed.

Definition good_out (ow : nat -> Z) s k (o : out (state * outcome)) : Prop :=
  match o with
  | Val (t, r) => (r = Done -> inv z0 ow t) /\ (exists ow', (forall x, 0 <= ow' x) /\ inv z0 ow' t) /\ effect s k t r
  | Fuel => True | _ => False end.
Lemma good_done : forall ow s k t, (forall x, 0 <= ow x) -> inv z0 ow t -> effect s k t Done -> good_out ow s k (Val (t, Done)).
Proof. intros ow s k t Po I E. split; [auto|]. split; [exists ow; auto|exact E]. Qed.

Lemma add_opt_ok : forall ex ow s p, inv ex ow s -> (forall a, p = Some a -> 1 <= refs s a + ex a) ->
  exists t, add_opt D H V s p = Val t /\ inv (fun a => ex a + is a p) ow t /\ alike s t.
Proof.
  intros ex ow s [a|] I P; cbn [add_opt].
  - destruct (add_ref_ok ex ow s a I (P a eq_refl)) as (t & E & It & At). exists t. auto.
  - exists s. split; [reflexivity|]. split; [apply (inv_ext ex ow _ _ s); cbn [is]; auto; intros; lia|]. do 5 (split; [reflexivity|]). intros b.
    destruct (get b (fields s)); [apply like_refl|exact Logic.I].
Qed.
Lemma kept_refl : forall ex ow s, kept ex ow s s.
Proof. intros. do 5 (split; [auto|]). split; [|auto]. intros a f _ E. exists f. split; [exact E|]. split; [apply like_refl|auto]. Qed.
Lemma rel_opt_ok : forall ex ow s p, inv (fun a => ex a + is a p) ow s -> (forall a, 0 <= ex a) -> (forall x, 0 <= ow x) ->
  match rel_opt D H V hash heq deq debug s p with Val t => inv ex ow t /\ kept ex ow s t | Fuel => True | _ => False end.
Proof.
  intros ex ow s [a|] I Px Po; cbn [rel_opt].
  - apply release_ok; [|exact Px|exact Po]. exact I.
  - split; [|apply kept_refl]. apply (inv_ext _ _ _ _ s) with (3 := I); cbn [is]; intros; lia.
Qed.

Lemma sh_put : forall s t h p, handles t = handles s -> same_handles s (put_handle t h p) [h].
Proof. intros s t h p E j N. cbn [LifeModel.put_handle set_handles handles]. rewrite E. apply get_put_other. intros ->. apply N. left. reflexivity. Qed.
Lemma sh_put2 : forall s t h g p, same_handles s t [g] -> same_handles s (put_handle t h p) [h; g].
Proof.
  intros s t h g p E j N. cbn [LifeModel.put_handle set_handles handles]. rewrite get_put_other; [apply E; cbn in *; tauto|]. intros ->. apply N. left. reflexivity.
Qed.
Lemma sh_trans : forall s t u l, same_handles s t l -> handles u = handles t -> same_handles s u l.
Proof. intros s t u l A B j N. rewrite B. apply A. exact N. Qed.
Lemma sh_eq : forall s t l, handles t = handles s -> same_handles s t l.
Proof. intros s t l E j _. rewrite E. reflexivity. Qed.
Lemma pt_put : forall s h p, pointee (put_handle s h p) h = p.
Proof. intros. unfold pointee. cbn [LifeModel.put_handle set_handles handles]. rewrite get_put_same. reflexivity. Qed.
Lemma has_put : forall s h p, has_handle (put_handle s h p) h.
Proof. intros. unfold has_handle. cbn [LifeModel.put_handle set_handles handles]. rewrite get_put_same. discriminate. Qed.

Ltac grab g := match type of g with has_handle ?s ?h => unfold has_handle in g; let p := fresh "p" in let E := fresh "E" in destruct (get h (handles s)) as [p|] eqn:E; [clear g|congruence]
  | has_elem ?s ?h => unfold has_elem in g; let y := fresh "y" in let E := fresh "E" in destruct (get h (elems s)) as [y|] eqn:E; [clear g|congruence] end.

Lemma ok_make : forall ow s h d r, inv z0 ow s -> (forall x, 0 <= ow x) -> legal good cls s (HMake h d r) -> good_out ow s (HMake h d r) (run1 s (HMake h d r)).
Proof.
  intros ow s h d r I Po (Nh & G & Fr). cbn [LifeModel.run1]. pose proof (make_ok z0 ow s d r I G Fr) as M.
  destruct (make s d (fst r) (snd r)) as [[t b]| | |]; cbn [bind done]; try contradiction; [|exact Logic.I].
  destruct M as (It & Gr & _ & _). destruct (grown_same _ _ _ _ _ [] Gr I Po) as [Sm _]. destruct Gr as (Eh & _). apply good_done; [exact Po| |].
  - apply (inv_ext _ _ _ _ _) with (3 := put_handle_inv _ _ t h (Some b) It); [|reflexivity]. intros a. rewrite Eh, Nh, is_some_at. cbn [wo]. unfold inc, z0. lia.
  - split; [reflexivity|]. split; [exact Sm|]. split; [apply sh_put; exact Eh|]. rewrite pt_put. discriminate.
Qed.
Lemma ok_null : forall ow s h, inv z0 ow s -> (forall x, 0 <= ow x) -> legal good cls s (HNull h) -> good_out ow s (HNull h) (run1 s (HNull h)).
Proof.
  intros ow s h I Po Nh. cbn [LifeModel.run1 done bind]. apply good_done; [exact Po| |].
  - apply (inv_ext _ _ _ _ _) with (3 := put_handle_inv _ _ s h None I); [|reflexivity]. intros a. cbn in Nh. rewrite Nh. cbn [wo is]. unfold z0. lia.
  - split; [reflexivity|]. split; [apply sm_gen; reflexivity|]. split; [apply sh_put; reflexivity|]. split; [apply has_put|apply pt_put].
Qed.
Lemma handle_ref_opt : forall s h p a, get h (handles s) = Some p -> p = Some a -> 1 <= refs s a + z0 a.
Proof. intros s h p a E ->. pose proof (handle_ref s h a E). unfold z0. lia. Qed.
Lemma ok_copy : forall ow s h g, inv z0 ow s -> (forall x, 0 <= ow x) -> legal good cls s (HCopy h g) -> good_out ow s (HCopy h g) (run1 s (HCopy h g)).
Proof.
  intros ow s h g I Po (Nh & Hg). grab Hg. cbn [LifeModel.run1]. unfold handle_at. rewrite E. cbn [bind].
  destruct (add_opt_ok z0 ow s p I (fun a => handle_ref_opt s g p a E)) as (t & Et & It & At). rewrite Et. cbn [bind done].
  destruct (alike_same s t [] At) as [Sm _]. destruct At as (_ & _ & Eh & _). apply good_done; [exact Po| |].
  - apply (inv_ext _ _ _ _ _) with (3 := put_handle_inv _ _ t h p It); [|reflexivity]. intros a. rewrite Eh, Nh. cbn [wo]. unfold z0. lia.
  - split; [reflexivity|]. split; [exact Sm|]. split; [apply sh_put; exact Eh|]. split; [apply has_put|]. rewrite pt_put. unfold pointee. rewrite E. reflexivity.
Qed.
Lemma ok_of : forall ow s h e, inv z0 ow s -> (forall x, 0 <= ow x) -> legal good cls s (HOf h e) -> good_out ow s (HOf h e) (run1 s (HOf h e)).
Proof.
  intros ow s h e I Po (Nh & y & E & N). cbn [LifeModel.run1]. unfold elem_at. rewrite E. cbn [bind]. unfold nf_of.
  destruct (own_alive _ _ _ _ _ I Po E N) as [v Ev]. destruct (ob_nf y) as [a|] eqn:Q; [|congruence]. cbn [bind].
  destruct (add_ref_ok z0 ow s a I) as (t & Et & It & At). { pose proof (elem_ref s e y a E Q). unfold z0. lia. }
  rewrite Et. cbn [bind done]. destruct (alike_same s t [] At) as [Sm _]. destruct At as (_ & _ & Eh & _). apply good_done; [exact Po| |].
  - apply (inv_ext _ _ _ _ _) with (3 := put_handle_inv _ _ t h (Some a) It); [|reflexivity]. intros b. rewrite Eh, Nh, is_some_at. cbn [wo]. unfold inc, z0. lia.
  - split; [reflexivity|]. split; [exact Sm|]. split; [apply sh_put; exact Eh|]. exists v. rewrite pt_put. unfold content. rewrite E, Q, Ev. reflexivity.
Qed.
Lemma ok_hmove : forall ow s h g, inv z0 ow s -> (forall x, 0 <= ow x) -> legal good cls s (HMove h g) -> good_out ow s (HMove h g) (run1 s (HMove h g)).
Proof.
  intros ow s h g I Po (Nh & Hg). grab Hg. cbn [LifeModel.run1]. unfold handle_at. rewrite E. cbn [bind done].
  assert (Ng : h <> g) by (intros ->; unfold new_handle in Nh; congruence). apply good_done; [exact Po| |].
  - apply (inv_ext _ _ _ _ _) with (3 := put_handle_inv _ _ _ h p (put_handle_inv _ _ s g None I)); [|reflexivity]. intros a. rewrite E.
    cbn [LifeModel.put_handle set_handles handles]. rewrite get_put_other by congruence. rewrite Nh. cbn [wo is]. unfold z0. lia.
  - split; [reflexivity|]. split; [apply sm_gen; reflexivity|]. split; [apply sh_put2, sh_put; reflexivity|]. split; [apply has_put|]. rewrite pt_put.
    split; [unfold pointee; rewrite E; reflexivity|]. unfold has_handle. cbn [LifeModel.put_handle set_handles handles]. rewrite get_put_other by congruence. rewrite get_put_same. discriminate.
Qed.
Lemma ok_hassign : forall ow s h g, inv z0 ow s -> (forall x, 0 <= ow x) -> legal good cls s (HAssign h g) -> good_out ow s (HAssign h g) (run1 s (HAssign h g)).
Proof.
  intros ow s h g I Po (Hh & Hg). grab Hg. grab Hh. cbn [LifeModel.run1]. unfold handle_at. rewrite E, E0. cbn [bind].
  destruct (add_opt_ok z0 ow s p I (fun a => handle_ref_opt s g p a E)) as (t & Et & It & At). rewrite Et. cbn [bind].
  destruct (alike_same s t [] At) as [Sm _]. destruct At as (_ & _ & Eh & _). pose proof (rel_opt_ok z0 ow (put_handle t h p) p0) as R.
  destruct (rel_opt D H V hash heq deq debug (put_handle t h p) p0) as [u| | |]; cbn [bind done];
    [|destruct R|destruct R|exact Logic.I]; try (apply z0_pos); try exact Po;
    try (apply (inv_ext _ _ _ _ _) with (3 := put_handle_inv _ _ t h p It); [intros a; rewrite Eh, E0; cbn [wo]; unfold z0; lia|reflexivity]).
  destruct R as [Iu Ku]; [|apply z0_pos|exact Po|].
  { apply (inv_ext _ _ _ _ _) with (3 := put_handle_inv _ _ t h p It); [intros a; rewrite Eh, E0; cbn [wo]; unfold z0; lia|reflexivity]. }
  destruct (kept_same _ _ _ _ [] Ku Po) as [Sk _]. destruct Ku as (Hk & _).
  assert (Gh : get h (handles u) = Some p) by (rewrite Hk; cbn [LifeModel.put_handle set_handles handles]; apply get_put_same).
  apply good_done; [exact Po|exact Iu|]. split; [reflexivity|].
  split; [apply (sm_trans s (put_handle t h p) u); [exact Sm|exact Sk]|]. split; [apply (sh_trans s (put_handle t h p) u); [apply sh_put; exact Eh|exact Hk]|].
  unfold has_handle, pointee. rewrite Gh, E. split; [discriminate|reflexivity].
Qed.
Lemma ok_hmassign : forall ow s h g, inv z0 ow s -> (forall x, 0 <= ow x) -> legal good cls s (HMoveAssign h g) -> good_out ow s (HMoveAssign h g) (run1 s (HMoveAssign h g)).
Proof.
  intros ow s h g I Po (Hh & Hg). grab Hg. cbn [LifeModel.run1]. unfold handle_at at 1. rewrite E. cbn [bind]. cbv zeta.
  set (t := put_handle s g None). assert (X : exists p0, get h (handles t) = Some p0).
  { unfold t. cbn [LifeModel.put_handle set_handles handles]. rewrite get_put. destruct (Nat.eqb g h); [exists None; reflexivity|]. grab Hh. exists p0. reflexivity. }
  destruct X as [p0 E0]. unfold handle_at. rewrite E0. cbn [bind]. pose proof (put_handle_inv _ _ t h p (put_handle_inv _ _ s g None I)) as It. fold t in It.
  assert (I2 : inv (fun a => z0 a + is a p0) ow (put_handle t h p)).
  { apply (inv_ext _ _ _ _ _) with (3 := It); [|reflexivity]. intros a. rewrite E, E0. cbn [wo is]. lia. }
  pose proof (rel_opt_ok z0 ow (put_handle t h p) p0 I2 z0_pos Po) as R.
  destruct (rel_opt D H V hash heq deq debug (put_handle t h p) p0) as [u| | |]; cbn [bind done]; try contradiction; [|exact Logic.I].
  destruct R as [Iu Ku]. destruct (kept_same _ _ _ _ [] Ku Po) as [Sk _]. destruct Ku as (Hk & _).
  apply good_done; [exact Po|exact Iu|]. split; [reflexivity|]. split; [exact Sk|]. split; [apply (sh_trans s (put_handle t h p) u); [apply sh_put2, sh_put; reflexivity|exact Hk]|].
  unfold has_handle, pointee. rewrite Hk. cbn [LifeModel.put_handle set_handles handles t]. rewrite get_put_same. split; [discriminate|]. split; [intros _; rewrite E; reflexivity|].
  rewrite get_put. destruct (Nat.eqb h g); [discriminate|]. rewrite get_put_same. discriminate.
Qed.
Lemma ok_hswap : forall ow s h g, inv z0 ow s -> (forall x, 0 <= ow x) -> legal good cls s (HSwap h g) -> good_out ow s (HSwap h g) (run1 s (HSwap h g)).
Proof.
  intros ow s h g I Po (Hh & Hg). grab Hg. grab Hh. cbn [LifeModel.run1]. unfold handle_at. rewrite E, E0. cbn [bind done].
  assert (X : get g (put h p (handles s)) = Some p) by (rewrite get_put; destruct (Nat.eqb h g); [reflexivity|exact E]). apply good_done; [exact Po| |].
  - apply (inv_ext _ _ _ _ _) with (3 := put_handle_inv _ _ _ g p0 (put_handle_inv _ _ s h p I)); [|reflexivity]. intros a.
    cbn [LifeModel.put_handle set_handles handles]. rewrite E0, X. cbn [wo]. unfold z0. lia.
  - split; [reflexivity|]. split; [apply sm_gen; reflexivity|]. split.
    { intros j N. cbn [LifeModel.put_handle set_handles handles]. rewrite !get_put_other; [reflexivity|cbn in N; tauto|cbn in N; tauto]. }
    split; [|rewrite pt_put; unfold pointee; rewrite E0; reflexivity]. unfold pointee. cbn [LifeModel.put_handle set_handles handles].
    rewrite get_put. rewrite E. destruct (Nat.eqb_spec g h) as [->|]; [congruence|]. rewrite get_put_same. reflexivity.
Qed.
Lemma ok_hdrop : forall ow s h, inv z0 ow s -> (forall x, 0 <= ow x) -> legal good cls s (HDrop h) -> good_out ow s (HDrop h) (run1 s (HDrop h)).
Proof.
  intros ow s h I Po Hh. cbn [legal] in Hh. grab Hh. cbn [LifeModel.run1]. unfold handle_at. rewrite E. cbn [bind].
  set (t := set_handles D H V s (del h (handles s))). assert (It : inv (fun a => z0 a + is a p) ow t).
  { apply (inv_ext _ _ _ _ _) with (3 := del_handle_inv _ _ s h I); [|reflexivity]. intros a. rewrite E. reflexivity. }
  pose proof (rel_opt_ok z0 ow t p It z0_pos Po) as R. destruct (rel_opt D H V hash heq deq debug t p) as [u| | |]; cbn [bind done]; try contradiction; [|exact Logic.I].
  destruct R as [Iu Ku]. destruct (kept_same _ _ _ _ [] Ku Po) as [Sk _]. destruct Ku as (Hk & _).
  apply good_done; [exact Po|exact Iu|]. split; [reflexivity|]. split; [exact Sk|]. split.
  - intros j N. rewrite Hk. cbn [t set_handles handles]. apply get_del_other. intros ->. apply N. left. reflexivity.
  - unfold has_handle. rewrite Hk. cbn [t set_handles handles]. rewrite get_del_same. auto.
Qed.

(** *** Elements *)
Lemma new_elem_inv : forall ex ow s e a x, inv (inc ex a) (inc ow x) s -> get e (elems s) = None -> inv ex ow (put_elem s e {| ob_nf := Some a; ob_st := x |}).
Proof.
  intros ex ow s e a x I E. apply (inv_ext _ _ _ _ _) with (3 := put_elem_inv _ _ s e {| ob_nf := Some a; ob_st := x |} I); intros b; rewrite E; cbn [wo ob_nf].
  - rewrite is_some_at. unfold inc. lia.
  - rewrite owns_at. unfold inc. lia.
Qed.
Lemma content_put : forall s e a x v, get x (stores s) = Some v -> content (put_elem s e {| ob_nf := Some a; ob_st := x |}) e = Some (a, v).
Proof. intros s e a x v E. unfold content. cbn [LifeModel.put_elem set_elems elems stores]. rewrite get_put_same. cbn [ob_nf ob_st]. rewrite E. reflexivity. Qed.

(** Allocating [x] and a reference to [a] for a new element. *)
Lemma place : forall ow t a x v e, inv z0 ow t -> (forall x, 0 <= ow x) -> 1 <= refs t a -> get x (stores t) = None -> get e (elems t) = None ->
  exists u, add_ref t a = Val u /\ inv (inc z0 a) ow u /\ alike t u /\
    let w := put_elem (init u x v) e {| ob_nf := Some a; ob_st := x |} in
    inv z0 ow w /\ same_elems t w [e] /\ handles w = handles t /\ content w e = Some (a, v) /\ static w = static t.
Proof.
  intros ow t a x v e I Po R Ex Ee. destruct (add_ref_ok z0 ow t a I) as (u & Eu & Iu & Au); [unfold z0; lia|]. exists u. split; [exact Eu|]. split; [exact Iu|]. split; [exact Au|].
  cbv zeta. destruct (alike_same t u [e] Au) as [Sm _]. destruct Au as (St & _ & Hh & He & Hs & _).
  assert (Ex' : get x (stores u) = None) by (rewrite St; exact Ex).
  split; [|split; [|split; [|split]]].
  - apply new_elem_inv; [apply init_ok; assumption|]. cbn [LifeModel.init set_stores elems]. rewrite He. exact Ee.
  - apply (sm_trans t u); [exact Sm|]. apply (sm_trans u (init u x v)); [apply (init_same _ _ _ _ _ _ Iu Po Ex')|apply put_elem_same].
  - exact Hh.
  - apply content_put. cbn [LifeModel.init set_stores stores]. apply get_put_same.
  - exact Hs.
Qed.

Lemma parent_static : forall s t u p a, parent_is s t p a -> static u = static t -> parent_is s u p a.
Proof. intros s t u [h|e|r] a; cbn [parent_is]; auto. intros E ->. exact E. Qed.

Lemma ok_new : forall ow s e p v x, inv z0 ow s -> (forall x, 0 <= ow x) -> legal good cls s (ENew e p v x) -> good_out ow s (ENew e p v x) (run1 s (ENew e p v x)).
Proof.
  intros ow s e p v x I Po (Ne & Pk). cbn [LifeModel.run1]. pose proof (parent_ok_of z0 ow s p [x] I Po Pk) as P.
  destruct (parent_of D H V hash heq deq zero one gen trivial debug s p) as [[t a]| | |]; cbn [bind done]; try contradiction; [|exact Logic.I].
  destruct P as (It & (m & Gr) & (_ & Fx) & R & Pi). assert (Ex : get x (stores t) = None) by (apply Fx; left; reflexivity).
  assert (Ee : get e (elems t) = None) by (destruct Gr as (_ & -> & _); exact Ne).
  destruct (place ow t a x v e It Po R Ex Ee) as (u & Eu & _ & _ & Iw & Sw & Hw & Cw & Xw). rewrite Eu. cbn [bind].
  destruct (grown_same _ _ _ _ _ [e] Gr I Po) as [Sm _]. destruct Gr as (Hh & _). apply good_done; [exact Po|exact Iw|].
  split; [reflexivity|]. split; [apply sh_eq; congruence|]. split; [apply (sm_trans s t); assumption|]. exists a. split; [apply (parent_static s t); assumption|exact Cw].
Qed.
Lemma ok_string : forall ow s e p v x y, inv z0 ow s -> (forall x, 0 <= ow x) -> legal good cls s (EString e p v x y) -> good_out ow s (EString e p v x y) (run1 s (EString e p v x y)).
Proof.
  intros ow s e p v x y I Po (Ne & Pk). cbn [LifeModel.run1]. pose proof (parent_ok_of z0 ow s p [x; y] I Po Pk) as P.
  destruct (parent_of D H V hash heq deq zero one gen trivial debug s p) as [[t a]| | |]; cbn [bind]; try contradiction; [|exact Logic.I].
  destruct P as (It & (m & Gr) & (_ & Fx) & R & Pi). assert (Ex : get x (stores t) = None) by (apply Fx; left; reflexivity).
  assert (Ey : get y (stores t) = None) by (apply Fx; right; left; reflexivity).
  assert (Ee : get e (elems t) = None) by (destruct Gr as (_ & -> & _); exact Ne).
  destruct (grown_same _ _ _ _ _ [e] Gr I Po) as [Sm _]. destruct Gr as (Hh & _). destruct v as [v|].
  - destruct (place ow t a x v e It Po R Ex Ee) as (u & Eu & _ & _ & Iw & Sw & Hw & Cw & Xw). rewrite Eu. cbn [bind done].
    apply good_done; [exact Po|exact Iw|]. split; [apply sh_eq; congruence|]. split; [apply (sm_trans s t); assumption|]. split; [reflexivity|].
    exists a. split; [apply (parent_static s t); assumption|exact Cw].
  - destruct (add_ref_ok z0 ow t a It) as (u & Eu & Iu & Au); [unfold z0; lia|]. rewrite Eu. cbn [bind]. unfold field_at.
    destruct (referenced_alive _ _ _ a Iu) as [f Ef]; [unfold inc, z0; rewrite one_at_same; pose proof (refs_pos u a); lia|]. rewrite Ef. cbn [bind].
    destruct (alike_same t u [e] Au) as [Su _]. destruct Au as (St & _ & Hu & He & _). rewrite <- St in Ey.
    pose proof (release_ok z0 (inc ow y) (init u y (zero (fd_data f))) a (init_ok _ _ _ _ _ Iu Ey) z0_pos) as Rl.
    assert (Pw : forall x, 0 <= inc ow y x) by (intros w; unfold inc; specialize (Po w); pose proof (one_at_pos y w); lia). specialize (Rl Pw).
    destruct (release (init u y (zero (fd_data f))) a) as [w| | |]; cbn [bind]; try contradiction; [|exact Logic.I]. destruct Rl as [Iw Kw].
    destruct (kept_same _ _ _ _ [e] Kw Pw) as [Sw _]. destruct Kw as (Hw & Ew & _).
    split; [discriminate|]. split; [exists (inc ow y); auto|].
    split; [apply sh_eq; rewrite Hw; cbn [LifeModel.init set_stores handles]; congruence|]. split.
    + apply (sm_trans s t); [exact Sm|]. apply (sm_trans t u); [exact Su|]. apply (sm_trans u (init u y (zero (fd_data f)))); [apply (init_same _ _ _ _ _ _ Iu Po Ey)|exact Sw].
    + split; [reflexivity|]. unfold has_elem. rewrite Ew. cbn [LifeModel.init set_stores elems]. rewrite He, Ee. auto.
Qed.

Lemma convert_ok : forall ow t e a q x y b v, inv z0 ow t -> (forall x, 0 <= ow x) -> 1 <= refs t a -> get x (stores t) = None -> get e (elems t) = None ->
  source_of D H V t q = Val y -> ob_nf y = Some b -> get (ob_st y) (stores t) = Some v ->
  match convert D H V hash heq deq ratl conv debug t e a q x with
  | Val (w, r) => (r = Done -> inv z0 ow w) /\ (exists ow', (forall x, 0 <= ow' x) /\ inv z0 ow' w) /\ handles w = handles t /\ same_elems t w [e] /\ static w = static t /\
      exists d, data_at w a d /\
        (if Nat.eqb b a then r = Done /\ content w e = Some (a, v)
         else if ratl v then r = Done /\ content w e = Some (a, conv d v)
         else r = Thrown /\ ~ has_elem w e)
  | Fuel => True | _ => False end.
Proof.
  intros ow t e a q x y b v I Po R Ex Ee Sq Ny Ev. unfold convert.
  destruct (place ow t a x v e I Po R Ex Ee) as (u & Eu & Iu & Au & Iw & Sw & Hw & Cw & Xw). rewrite Eu. cbn [bind].
  rewrite (source_grown t u [] q y (alike_grown _ _ _ Au) Sq). cbn [bind]. unfold read. destruct Au as (St & Rg & Hu & He & Hs & Fd). rewrite St, Ev. cbn [bind]. unfold nf_of. rewrite Ny. cbn [bind].
  destruct (referenced_alive _ _ _ a Iu) as [f Ef]; [unfold inc, z0; rewrite one_at_same; pose proof (refs_pos u a); lia|].
  destruct (Nat.eqb b a).
  { cbn [done bind]. split; [auto|]. split; [exists ow; auto|]. split; [exact Hw|]. split; [exact Sw|]. split; [exact Xw|]. exists (fd_data f). split; [exists f; auto|auto]. }
  destruct (ratl v).
  - unfold field_at. cbn [LifeModel.init set_stores fields]. rewrite Ef. cbn [bind]. unfold write, LifeModel.init, set_stores. cbn [fields stores registry handles elems static]. rewrite get_put_same. cbn [bind done].
    rewrite put_put. destruct (place ow t a x (conv (fd_data f) v) e I Po R Ex Ee) as (u' & Eu' & _ & _ & Iw' & Sw' & Hw' & Cw' & Xw'). assert (u' = u) by congruence. subst u'.
    split; [auto|]. split; [exists ow; auto|]. split; [exact Hw'|]. split; [exact Sw'|]. split; [exact Xw'|]. exists (fd_data f). split; [exists f; auto|auto].
  - assert (Ex' : get x (stores u) = None) by (rewrite St; exact Ex).
    assert (Pw : forall z, 0 <= inc ow x z) by (intros z; unfold inc; specialize (Po z); pose proof (one_at_pos x z); lia).
    pose proof (release_ok z0 (inc ow x) (init u x v) a (init_ok _ _ _ _ _ Iu Ex') z0_pos Pw) as Rl.
    destruct (release (init u x v) a) as [w| | |]; cbn [bind]; try contradiction; [|exact Logic.I]. destruct Rl as [Il Kl].
    destruct (kept_same _ _ _ _ [e] Kl Pw) as [Sl _]. destruct Kl as (Hl & El & Xl & _ & _ & Fl & _).
    split; [discriminate|]. split; [exists (inc ow x); auto|]. cbn [LifeModel.init set_stores handles elems static fields] in Hl, El, Xl, Fl. split; [congruence|]. split.
    + apply (sm_trans t u); [apply alike_same; repeat (split; [assumption|]); assumption|]. apply (sm_trans u (init u x v)); [apply (init_same _ _ _ _ _ _ Iu Po Ex')|exact Sl].
    + split; [congruence|]. destruct (Fl a f) as (f' & Ef' & _); [|exact Ef|exists (fd_data f'); split; [exists f'; auto|]].
      * change (refs (init u x v) a) with (refs u a). assert (Q : refs u a = refs t a) by (unfold refs; rewrite Hu, He, Hs; reflexivity). rewrite Q. unfold z0. lia.
      * split; [reflexivity|]. unfold has_elem. rewrite El, He, Ee. auto.
Qed.
Lemma ok_convert : forall ow s e p q x, inv z0 ow s -> (forall x, 0 <= ow x) -> legal good cls s (EConvert e p q x) -> good_out ow s (EConvert e p q x) (run1 s (EConvert e p q x)).
Proof.
  intros ow s e p q x I Po (Ne & Pk & Sk). cbn [LifeModel.run1]. destruct (source_ok_of z0 ow s q I Po z0_pos Sk) as (y & b & v & Sq & Ny & Ev & Cq & _).
  pose proof (parent_ok_of z0 ow s p [x] I Po Pk) as P.
  destruct (parent_of D H V hash heq deq zero one gen trivial debug s p) as [[t a]| | |]; cbn [bind]; try contradiction; [|exact Logic.I].
  destruct P as (It & (m & Gr) & (_ & Fx) & R & Pi). assert (Ex : get x (stores t) = None) by (apply Fx; left; reflexivity).
  assert (Ee : get e (elems t) = None) by (destruct Gr as (_ & -> & _); exact Ne).
  pose proof (convert_ok ow t e a q x y b v It Po R Ex Ee (source_grown s t m q y Gr Sq) Ny) as C.
  destruct (convert D H V hash heq deq ratl conv debug t e a q x) as [[w r]| | |]; cbn [good_out];
    [|apply C, Gr, Ev|apply C, Gr, Ev|exact Logic.I].
  destruct C as (C1 & C2 & C3 & C4 & C5 & d & C6 & C7); [apply Gr, Ev|]. destruct (grown_same _ _ _ _ _ [e] Gr I Po) as [Sm _]. destruct Gr as (Hh & _).
  split; [exact C1|]. split; [exact C2|]. split; [apply sh_eq; congruence|]. split; [apply (sm_trans s t); assumption|].
  exists a, b, v, d. split; [apply (parent_static s t); assumption|]. auto.
Qed.
Lemma ok_ecopy : forall ow s e q x, inv z0 ow s -> (forall x, 0 <= ow x) -> legal good cls s (ECopy e q x) -> good_out ow s (ECopy e q x) (run1 s (ECopy e q x)).
Proof.
  intros ow s e q x I Po (Ne & Sk & (_ & Fx)). cbn [LifeModel.run1]. destruct (source_ok_of z0 ow s q I Po z0_pos Sk) as (y & b & v & Sq & Ny & Ev & Cq & R).
  rewrite Sq. cbn [bind]. unfold nf_of. rewrite Ny. cbn [bind].
  pose proof (convert_ok ow s e b q x y b v I Po R (Fx x (or_introl eq_refl)) Ne Sq Ny Ev) as C.
  destruct (convert D H V hash heq deq ratl conv debug s e b q x) as [[w r]| | |]; cbn [good_out]; try contradiction; [|exact Logic.I].
  destruct C as (C1 & C2 & C3 & C4 & C5 & d & C6 & C7). rewrite Nat.eqb_refl in C7. destruct C7 as [-> C7].
  split; [exact C1|]. split; [exact C2|]. split; [reflexivity|]. split; [apply sh_eq; exact C3|]. split; [exact C4|]. rewrite Cq. split; [discriminate|exact C7].
Qed.
Lemma sm_put2 : forall s e f y z, same_elems s (put_elem (put_elem s f y) e z) [e; f].
Proof.
  intros s e f y z. apply sm_gen; [|reflexivity]. intros j N. cbn [LifeModel.put_elem set_elems elems]. rewrite !get_put_other; [reflexivity|cbn in N; tauto|cbn in N; tauto].
Qed.
Lemma sm_perm : forall s t e f, same_elems s t [f; e] -> same_elems s t [e; f].
Proof. intros s t e f A j N. apply A. cbn in *. tauto. Qed.
Lemma ok_emove : forall ow s e f, inv z0 ow s -> (forall x, 0 <= ow x) -> legal good cls s (EMove e f) -> good_out ow s (EMove e f) (run1 s (EMove e f)).
Proof.
  intros ow s e f I Po (Ne & Hf). grab Hf. cbn [LifeModel.run1]. unfold elem_at. rewrite E. cbn [bind done].
  assert (Nf : e <> f) by (intros ->; unfold new_elem in Ne; congruence). apply good_done; [exact Po| |].
  - apply (inv_ext _ _ _ _ _) with (3 := put_elem_inv _ _ _ e y (put_elem_inv _ _ s f {| ob_nf := None; ob_st := ob_st y |} I)); intros a; rewrite E;
      cbn [LifeModel.put_elem set_elems elems]; rewrite get_put_other by congruence; rewrite Ne; cbn [wo ob_nf is]; rewrite ?owns_null; unfold z0; lia.
  - split; [reflexivity|]. split; [apply sh_eq; reflexivity|]. split; [apply sm_put2|]. unfold content, has_elem. cbn [LifeModel.put_elem set_elems elems stores].
    rewrite get_put_same, E. split; [reflexivity|]. split; [discriminate|]. rewrite get_put_other by congruence. rewrite get_put_same. discriminate.
Qed.
Lemma swap_ok : forall ow s e f y z, inv z0 ow s -> get e (elems s) = Some y -> get f (elems s) = Some z ->
  inv z0 ow (put_elem (put_elem s e z) f y) /\ content (put_elem (put_elem s e z) f y) e = content s f /\ content (put_elem (put_elem s e z) f y) f = content s e.
Proof.
  intros ow s e f y z I E F. assert (X : get f (put e z (elems s)) = Some z) by (rewrite get_put; destruct (Nat.eqb e f); [reflexivity|exact F]). split; [|split].
  - apply (inv_ext _ _ _ _ _) with (3 := put_elem_inv _ _ _ f y (put_elem_inv _ _ s e z I)); intros a; cbn [LifeModel.put_elem set_elems elems]; rewrite E, X; cbn [wo]; unfold z0; lia.
  - unfold content. cbn [LifeModel.put_elem set_elems elems stores]. rewrite get_put. destruct (Nat.eqb_spec f e) as [->|]; [rewrite E; congruence|]. rewrite get_put_same, F. reflexivity.
  - unfold content. cbn [LifeModel.put_elem set_elems elems stores]. rewrite get_put_same, E. reflexivity.
Qed.
Lemma ok_eswap : forall ow s e f, inv z0 ow s -> (forall x, 0 <= ow x) -> legal good cls s (ESwap e f) -> good_out ow s (ESwap e f) (run1 s (ESwap e f)).
Proof.
  intros ow s e f I Po (He & Hf). grab He. grab Hf. cbn [LifeModel.run1]. unfold elem_at. rewrite E, E0. cbn [bind done].
  destruct (swap_ok ow s e f y y0 I E E0) as (A & B & C). apply good_done; [exact Po|exact A|]. split; [reflexivity|]. split; [apply sh_eq; reflexivity|].
  split; [apply sm_perm, sm_put2|]. auto.
Qed.
Lemma ok_emassign : forall ow s e f, inv z0 ow s -> (forall x, 0 <= ow x) -> legal good cls s (EMoveAssign e f) -> good_out ow s (EMoveAssign e f) (run1 s (EMoveAssign e f)).
Proof.
  intros ow s e f I Po (He & Hf). grab He. grab Hf. cbn [LifeModel.run1]. unfold elem_at. rewrite E, E0. cbn [bind done]. destruct (ob_nf y) as [a|] eqn:Q.
  - destruct (swap_ok ow s e f y y0 I E E0) as (A & B & C). cbn [bind]. apply good_done; [exact Po|exact A|]. split; [reflexivity|]. split; [apply sh_eq; reflexivity|].
    split; [apply sm_perm, sm_put2|]. split; [exact B|]. unfold has_elem. cbn [LifeModel.put_elem set_elems elems]. rewrite !get_put. rewrite !Nat.eqb_refl.
    destruct (Nat.eqb f e); split; discriminate.
  - cbn [bind]. apply good_done; [exact Po| |].
    + apply (inv_ext _ _ _ _ _) with (3 := put_elem_inv _ _ _ e _ (put_elem_inv _ _ s f {| ob_nf := None; ob_st := ob_st y0 |} I)); intros b;
        cbn [LifeModel.put_elem set_elems elems]; rewrite E0, get_put, (Nat.eqb_sym f e); cbn [wo ob_nf is]; rewrite ?owns_null;
        (destruct (Nat.eqb_spec e f) as [->|]; [assert (y0 = y) by congruence; subst y0; cbn [wo ob_nf is]; rewrite ?owns_null; unfold owns; rewrite ?Q; cbn [is]; unfold z0; lia|]);
        rewrite E; cbn [wo]; unfold owns; rewrite ?Q; cbn [is]; unfold z0; lia.
    + split; [reflexivity|]. split; [apply sh_eq; reflexivity|]. split; [apply sm_put2|]. unfold content, has_elem. cbn [LifeModel.put_elem set_elems elems stores].
      rewrite !get_put, E0, !Nat.eqb_refl. split; [|destruct (Nat.eqb e f); split; discriminate]. destruct (Nat.eqb_spec e f) as [->|]; [|reflexivity].
      assert (y0 = y) by congruence. subst y0. reflexivity.
Qed.
Lemma write_same : forall ow s e y v, inv z0 ow s -> (forall x, 0 <= ow x) -> get e (elems s) = Some y -> ob_nf y <> None ->
  same_elems s (set_stores D H V s (put (ob_st y) v (stores s))) [e].
Proof.
  intros ow s e y v I Po E N. apply sm_gen; [reflexivity|]. intros j z Nj Ej Nz. cbn [set_stores stores]. apply get_put_other.
  apply (own_diff _ _ _ _ _ _ _ I Po E Ej N Nz). intros ->. apply Nj. left. reflexivity.
Qed.
Lemma write_elem : forall ow s e y a (u v : V), inv z0 ow s -> (forall x, 0 <= ow x) -> get e (elems s) = Some y -> ob_nf y = Some a -> get (ob_st y) (stores s) = Some u ->
  let t := set_stores D H V s (put (ob_st y) v (stores s)) in
  write D H V s (ob_st y) v = Val t /\ inv z0 ow t /\ same_elems s t [e] /\ content t e = Some (a, v) /\ content s e = Some (a, u).
Proof.
  intros ow s e y a u v I Po E Q Eu t. split; [unfold write; rewrite Eu; reflexivity|]. split; [apply (write_ok _ _ _ _ _ _ I Eu)|].
  split; [apply (write_same ow s e y v I Po E); congruence|]. unfold content. cbn [t set_stores elems stores]. rewrite E, Q, get_put_same, Eu. auto.
Qed.
Lemma ok_ewrite : forall ow s e v, inv z0 ow s -> (forall x, 0 <= ow x) -> legal good cls s (EWrite e v) -> good_out ow s (EWrite e v) (run1 s (EWrite e v)).
Proof.
  intros ow s e v I Po (y & E & N). cbn [LifeModel.run1]. unfold elem_at. rewrite E. cbn [bind]. destruct (own_alive _ _ _ _ _ I Po E N) as [u Eu].
  unfold nf_of. destruct (ob_nf y) as [a|] eqn:Q; [|congruence]. cbn [bind]. unfold field_at.
  destruct (referenced_alive _ _ _ a I) as [f Ef]; [pose proof (elem_ref s e y a E Q); unfold z0; lia|]. rewrite Ef. cbn [bind].
  destruct (write_elem ow s e y a u v I Po E Q Eu) as (A & B & C & F & G). rewrite A. cbn [bind done].
  apply good_done; [exact Po|exact B|]. split; [reflexivity|]. split; [apply sh_eq; reflexivity|]. split; [exact C|]. exists a, u. auto.
Qed.
Lemma ok_edrop : forall ow s e, inv z0 ow s -> (forall x, 0 <= ow x) -> legal good cls s (EDrop e) -> good_out ow s (EDrop e) (run1 s (EDrop e)).
Proof.
  intros ow s e I Po He. cbn [legal] in He. grab He. cbn [LifeModel.run1]. unfold elem_at. rewrite E. cbn [bind]. cbv zeta.
  set (t := set_elems D H V s (del e (elems s))). pose proof (del_elem_inv _ _ s e I) as It. fold t in It. rewrite E in It. cbn [wo] in It.
  assert (St : same_elems s t [e]).
  { apply sm_gen; [|reflexivity]. intros j N. cbn [t set_elems elems]. apply get_del_other. intros ->. apply N. left. reflexivity. }
  assert (Nt : get e (elems t) = None) by apply get_del_same. destruct (ob_nf y) as [a|] eqn:Q.
  - unfold field_at. destruct (referenced_alive _ _ _ a I) as [f Ef]; [pose proof (elem_ref s e y a E Q); unfold z0; lia|]. cbn [t set_elems fields]. rewrite Ef. cbn [bind].
    destruct (own_alive _ _ _ _ _ I Po E) as [u Eu]; [congruence|]. unfold LifeModel.clear. change (stores t) with (stores s). rewrite Eu. cbn [bind].
    set (w := set_stores D H V t (del (ob_st y) (stores t))). change (set_stores D H V t (del (ob_st y) (stores s))) with w.
    assert (Iw : inv (inc z0 a) ow w).
    { apply (inv_ext _ _ _ _ _) with (3 := clear_ok _ _ t (ob_st y) u It Eu); intros b; cbn beta.
      - rewrite is_some_at. reflexivity.
      - unfold owns. rewrite Q. unfold one_at. lia. }
    pose proof (release_ok z0 ow w a Iw z0_pos Po) as R. destruct (release w a) as [v| | |]; cbn [bind done]; try contradiction; [|exact Logic.I]. destruct R as [Iv Kv].
    destruct (kept_same _ _ _ _ [e] Kv Po) as [Sv _]. destruct Kv as (Hv & Ev & _). apply good_done; [exact Po|exact Iv|].
    split; [reflexivity|]. split; [apply sh_eq; rewrite Hv; reflexivity|]. split; [|unfold has_elem; rewrite Ev; cbn [w set_stores elems]; rewrite Nt; auto].
    apply (sm_trans s w); [|exact Sv]. apply sm_gen; [apply (fun j N => proj1 (St j N))|]. intros j z Nj Ej Nz. cbn [w set_stores stores t set_elems]. apply get_del_other.
    apply (own_diff _ _ _ _ _ _ _ I Po E Ej); [congruence|exact Nz|]. intros ->. apply Nj. left. reflexivity.
  - cbn [bind done]. apply good_done; [exact Po| |].
    + apply (inv_ext _ _ _ _ _) with (3 := It); intros b; cbn [is]; unfold owns; rewrite ?Q; unfold z0; lia.
    + split; [reflexivity|]. split; [apply sh_eq; reflexivity|]. split; [exact St|]. unfold has_elem. rewrite Nt. auto.
Qed.

(** Leaving field [a] for [b] with new memory [x]. *)
Lemma rehome : forall ow s e y a b x (u : V), inv z0 ow s -> (forall x, 0 <= ow x) -> get e (elems s) = Some y -> ob_nf y = Some a -> get (ob_st y) (stores s) = Some u ->
  1 <= refs s b -> get x (stores s) = None -> a <> b ->
  exists c t, clear s (ob_st y) = Val c /\ add_ref c b = Val t /\
    match release (put_elem t e {| ob_nf := Some b; ob_st := x |}) a with
    | Val w => (forall v, inv z0 ow (init w x v) /\ same_elems s (init w x v) [e] /\ content (init w x v) e = Some (b, v)) /\ handles w = handles s /\ static w = static s /\
        (forall q z v, source_of D H V s q = Val z -> ob_nf z = Some b -> get (ob_st z) (stores s) = Some v -> read D H V w (ob_st z) = Val v)
    | Fuel => True | _ => False end.
Proof.
  intros ow s e y a b x u I Po E Q Eu R Ex N.
  set (c := set_stores D H V s (del (ob_st y) (stores s))). exists c.
  pose proof (clear_ok _ _ s (ob_st y) u I Eu) as Ic. fold c in Ic.
  destruct (add_ref_ok _ _ c b Ic) as (t & Et & It & At); [change (refs c b) with (refs s b); unfold z0; lia|]. exists t.
  split; [unfold LifeModel.clear; rewrite Eu; reflexivity|]. split; [exact Et|].
  set (yn := {| ob_nf := Some b; ob_st := x |}). set (t2 := put_elem t e yn).
  pose proof At as (St & _ & Ht & Het & Hst & Ft).
  assert (Ee : get e (elems t) = Some y) by (rewrite Het; exact E).
  assert (Nxy : x <> ob_st y) by (intros ->; congruence).
  (* the new memory is not there yet: owned -1 *)
  assert (I2 : inv (inc z0 a) (fun z => ow z - one_at x z) t2).
  { apply (inv_ext _ _ _ _ _) with (3 := put_elem_inv _ _ t e yn It); intros w; rewrite Ee; cbn [wo]; unfold yn; cbn [ob_nf].
    - rewrite Q, !is_some_at. unfold inc. lia.
    - rewrite owns_at. unfold owns. rewrite Q. unfold one_at. lia. }
  assert (Xt : get x (stores t2) = None).
  { unfold t2. cbn [LifeModel.put_elem set_elems stores]. rewrite St. cbn [c set_stores stores]. rewrite get_del_other by congruence. exact Ex. }
  assert (Pt : forall z, 0 <= total (owns z) (elems t2) + (ow z - one_at x z)).
  { intros z. pose proof (total_ge (owns z) (elems t2) e yn (owns_pos z)) as T. unfold t2 in T at 1. cbn [LifeModel.put_elem set_elems elems] in T. rewrite get_put_same in T.
    specialize (T eq_refl). unfold yn in T. rewrite owns_at in T. fold yn in T. specialize (Po z). lia. }
  pose proof (release_ok' z0 _ t2 a I2 z0_pos Pt) as Rl. destruct (release t2 a) as [w| | |]; try contradiction; [|exact Logic.I]. destruct Rl as [Iw Kw].
  pose proof Kw as (Hw & Ew & Sw & Kst & Kno & Kf & _). cbn [t2 LifeModel.put_elem set_elems handles elems static stores fields] in Hw, Ew, Sw.
  assert (Xw : get x (stores w) = None) by (apply Kno; exact Xt).
  assert (Gw : get e (elems w) = Some yn) by (rewrite Ew; apply get_put_same).
  assert (Oth : forall j z, j <> e -> get j (elems s) = Some z -> get j (elems w) = Some z).
  { intros j z Nj Ej. rewrite Ew, get_put_other by congruence. rewrite Het. exact Ej. }
  assert (Mem : forall j z, j <> e -> get j (elems s) = Some z -> ob_nf z <> None -> get (ob_st z) (stores w) = get (ob_st z) (stores s)).
  { intros j z Nj Ej Nz. assert (Dz : ob_st y <> ob_st z) by (apply (own_diff _ _ _ e j _ _ I Po E Ej); [congruence|exact Nz|congruence]).
    assert (Dx : x <> ob_st z) by (destruct (own_alive _ _ _ _ _ I Po Ej Nz); congruence). rewrite Kst.
    - unfold t2. cbn [LifeModel.put_elem set_elems stores]. rewrite St. cbn [c set_stores stores]. apply get_del_other. exact Dz.
    - assert (Ej2 : get j (elems t2) = Some z) by (unfold t2; cbn [LifeModel.put_elem set_elems elems]; rewrite get_put_other by congruence; rewrite Het; exact Ej).
      pose proof (own_ge t2 j z Ej2 Nz). rewrite (one_at_other x) by exact Dx. specialize (Po (ob_st z)). lia. }
  split; [|split; [exact (eq_trans Hw Ht)|split; [exact (eq_trans Sw Hst)|]]].
  - intros v. split; [|split].
    + apply (inv_ext _ _ _ _ _) with (3 := init_ok _ _ w x v Iw Xw); [reflexivity|]. intros z. unfold inc. lia.
    + apply sm_gen.
      * intros j Nj. assert (j <> e) by (intros ->; apply Nj; left; reflexivity). cbn [LifeModel.init set_stores elems]. rewrite Ew, get_put_other by congruence. rewrite Het. reflexivity.
      * intros j z Nj Ej Nz. assert (j <> e) by (intros ->; apply Nj; left; reflexivity). cbn [LifeModel.init set_stores stores]. rewrite get_put_other; [apply (Mem j z); assumption|].
        destruct (own_alive _ _ _ _ _ I Po Ej Nz). congruence.
    + unfold content. cbn [LifeModel.init set_stores elems stores]. rewrite Gw. cbn [yn ob_nf ob_st]. rewrite get_put_same. reflexivity.
  - intros q z v Sq Nz Ev. unfold read. enough (M : get (ob_st z) (stores w) = get (ob_st z) (stores s)) by (rewrite M, Ev; reflexivity).
    destruct q as [j|h k]; cbn [source_of] in Sq.
    + unfold elem_at in Sq. destruct (get j (elems s)) as [z'|] eqn:Ej; [|discriminate]. injection Sq as ->. apply (Mem j z); [|exact Ej|congruence]. intros ->. congruence.
    + destruct (deref (get h (handles s))) as [b'| | |]; try discriminate Sq. cbn [bind] in Sq. unfold field_at in Sq. destruct (get b' (fields s)) as [f|] eqn:Ef; [|discriminate Sq]. cbn [bind] in Sq.
      destruct (nth_error (fd_cache f) k) as [x'|] eqn:Nx; [|discriminate Sq]. injection Sq as <-. cbn [ob_nf ob_st] in *. injection Nz as ->.
      pose proof (nth_error_In _ _ Nx) as Ix. specialize (Ft b). change (fields c) with (fields s) in Ft. rewrite Ef in Ft. destruct (get b (fields t)) as [f1|] eqn:Ef1; [|contradiction].
      destruct Ft as [_ Cf]. destruct (Kf b f1) as (f2 & _ & _ & Keep).
      * pose proof (elem_ref t2 e yn b) as Rt. unfold z0. enough (1 <= refs t2 b) by lia. apply Rt; [unfold t2; cbn [LifeModel.put_elem set_elems elems]; apply get_put_same|reflexivity].
      * exact Ef1.
      * rewrite Keep by (rewrite Cf; exact Ix). unfold t2. cbn [LifeModel.put_elem set_elems stores]. rewrite St. cbn [c set_stores stores]. apply get_del_other.
        apply (cached_other _ _ _ b f x' e y I Po Ef Ix E). congruence.
Qed.

(** Filling a moved-from element. *)
Lemma refill : forall ow s e y b x, inv z0 ow s -> (forall x, 0 <= ow x) -> get e (elems s) = Some y -> ob_nf y = None -> 1 <= refs s b -> get x (stores s) = None ->
  exists t, add_ref s b = Val t /\ stores t = stores s /\ handles t = handles s /\ static t = static s /\ forall v,
    let w := init (put_elem t e {| ob_nf := Some b; ob_st := x |}) x v in inv z0 ow w /\ same_elems s w [e] /\ content w e = Some (b, v).
Proof.
  intros ow s e y b x I Po E Q R Ex. destruct (add_ref_ok z0 ow s b I) as (t & Et & It & At); [unfold z0; lia|]. exists t. split; [exact Et|].
  pose proof At as (St & _ & Ht & Het & Hst & _). split; [exact St|]. split; [exact Ht|]. split; [exact Hst|]. intros v w.
  assert (Ex' : get x (stores t) = None) by (rewrite St; exact Ex). split; [|split].
  - assert (Iw : inv z0 (fun z => ow z - one_at x z) (put_elem t e {| ob_nf := Some b; ob_st := x |})).
    { apply (inv_ext _ _ _ _ _) with (3 := put_elem_inv _ _ t e {| ob_nf := Some b; ob_st := x |} It); intros c; rewrite Het, E; cbn [wo ob_nf].
      - rewrite Q, is_some_at. cbn [is]. unfold inc. lia.
      - rewrite owns_at. unfold owns. rewrite Q. lia. }
    apply (inv_ext _ _ _ _ _) with (3 := init_ok _ _ _ x v Iw Ex'); [reflexivity|]. intros z. unfold inc. lia.
  - apply (sm_trans s t); [apply alike_same; exact At|]. apply (sm_trans t (init t x v)); [apply (init_same _ _ _ _ _ _ It Po Ex')|].
    apply sm_gen; [|reflexivity]. intros j N. cbn [w LifeModel.init set_stores LifeModel.put_elem set_elems elems]. apply get_put_other. intros ->. apply N. left. reflexivity.
  - unfold content. cbn [w LifeModel.init set_stores LifeModel.put_elem set_elems elems stores]. rewrite get_put_same. cbn [ob_nf ob_st]. rewrite get_put_same. reflexivity.
Qed.

Lemma ok_eassign : forall ow s e q x, inv z0 ow s -> (forall x, 0 <= ow x) -> legal good cls s (EAssign e q x) -> good_out ow s (EAssign e q x) (run1 s (EAssign e q x)).
Proof.
  intros ow s e q x I Po (He & Sk & (_ & Fx)). grab He. cbn [LifeModel.run1]. unfold elem_at. rewrite E. cbn [bind].
  destruct (source_ok_of z0 ow s q I Po z0_pos Sk) as (z & b & v & Sq & Nz & Ev & Cq & R). rewrite Sq. cbn [bind]. rewrite Nz.
  assert (Ex : get x (stores s) = None) by (apply Fx; left; reflexivity). destruct (ob_nf y) as [a|] eqn:Q.
  - destruct (own_alive _ _ _ _ _ I Po E) as [u Eu]; [congruence|]. destruct (Nat.eqb_spec a b) as [->|N].
    + unfold read. rewrite Ev. cbn [bind]. destruct (write_elem ow s e y b u v I Po E Q Eu) as (A & B & C & F & G). rewrite A. cbn [bind done].
      apply good_done; [exact Po|exact B|]. split; [reflexivity|]. split; [apply sh_eq; reflexivity|]. split; [exact C|]. rewrite Cq. split; [discriminate|exact F].
    + destruct (rehome ow s e y a b x u I Po E Q Eu R Ex N) as (c & t & Ec & Et & W). rewrite Ec. cbn [bind]. rewrite Et. cbn [bind].
      destruct (release (put_elem t e {| ob_nf := Some b; ob_st := x |}) a) as [w| | |]; cbn [bind done]; try contradiction; [|exact Logic.I].
      destruct W as (W & Hw & _ & Rd). rewrite (Rd q z v Sq Nz Ev). cbn [bind]. destruct (W v) as (Iw & Sw & Cw).
      apply good_done; [exact Po|exact Iw|]. split; [reflexivity|]. split; [apply sh_eq; exact Hw|]. split; [exact Sw|]. rewrite Cq. split; [discriminate|exact Cw].
  - destruct (refill ow s e y b x I Po E Q R Ex) as (t & Et & St & Ht & _ & W). rewrite Et. cbn [bind]. unfold read. rewrite St, Ev. cbn [bind done].
    destruct (W v) as (Iw & Sw & Cw). apply good_done; [exact Po|exact Iw|]. split; [reflexivity|]. split; [apply sh_eq; exact Ht|]. split; [exact Sw|]. rewrite Cq. split; [discriminate|exact Cw].
Qed.
Lemma ok_enumber : forall ow s e v x r, inv z0 ow s -> (forall x, 0 <= ow x) -> legal good cls s (ENumber e v x r) -> good_out ow s (ENumber e v x r) (run1 s (ENumber e v x r)).
Proof.
  intros ow s e v x r I Po (He & Ru & Fr). cbn [LifeModel.run1]. pose proof (rationals_ok z0 ow s r [x] I Ru Fr) as M. destruct (free_app _ _ _ Fr) as [[_ Fx] Nx].
  destruct (rationals D H V hash heq deq zero one gen trivial debug s r) as [[t q]| | |]; cbn [bind done]; try contradiction; [|exact Logic.I].
  destruct M as (It & Gr & Sq). destruct (grown_same _ _ _ _ _ [e] Gr I Po) as [Sm _]. destruct Gr as (Hh & Het & _ & Fg & _).
  assert (Ex : get x (stores t) = None) by (apply Fg; [apply Fx; left; reflexivity|apply Nx; left; reflexivity]).
  unfold has_elem in He. rewrite <- Het in He. fold (has_elem t e) in He. grab He. unfold elem_at. rewrite E. cbn [bind]. pose proof (static_ref t q Sq) as R.
  assert (Fin : forall w, inv z0 ow w -> same_elems t w [e] -> handles w = handles t -> static w = static t -> content w e = Some (q, v) -> good_out ow s (ENumber e v x r) (Val (w, Done))).
  { intros w Iw Sw Hw Xw Cw. apply good_done; [exact Po|exact Iw|]. split; [reflexivity|]. split; [apply sh_eq; congruence|]. split; [apply (sm_trans s t); assumption|].
    exists q. split; [congruence|exact Cw]. }
  destruct (ob_nf y) as [a|] eqn:Q.
  - destruct (own_alive _ _ _ _ _ It Po E) as [u Eu]; [congruence|]. destruct (Nat.eqb_spec a q) as [->|N].
    + destruct (write_elem ow t e y q u v It Po E Q Eu) as (A & B & C & F & G). rewrite A. cbn [bind]. apply Fin; auto.
    + destruct (rehome ow t e y a q x u It Po E Q Eu R Ex N) as (c & t' & Ec & Et & W). rewrite Ec. cbn [bind]. rewrite Et. cbn [bind].
      destruct (release (put_elem t' e {| ob_nf := Some q; ob_st := x |}) a) as [w| | |]; cbn [bind done]; try contradiction; [|exact Logic.I].
      destruct W as (W & Hw & Xw & _). destruct (W v) as (Iw & Sw & Cw). apply Fin; auto.
  - destruct (refill ow t e y q x It Po E Q R Ex) as (t' & Et & St & Ht & Hs & W). rewrite Et. cbn [bind]. destruct (W v) as (Iw & Sw & Cw). apply Fin; auto.
Qed.

Lemma refine_at : forall ow s p d a f, inv z0 ow s -> (forall x, 0 <= ow x) -> good d -> get a (fields s) = Some f -> cls d = cls (fd_data f) -> 1 <= refs s a ->
  good_out ow s (FRefine p d) (done D H V (Val (put_field s a {| fd_data := d; fd_count := fd_count f; fd_cache := fd_cache f |}))).
Proof.
  intros ow s p d a f I Po G E C R. cbn [done bind]. apply good_done; [exact Po| |].
  - apply (put_field_ok z0 ow z0 s a f _ I E); cbn [fd_data fd_cache fd_count]; auto; unfold z0; lia.
  - split; [reflexivity|]. split; [apply sh_eq; reflexivity|]. apply sm_gen; reflexivity.
Qed.
Lemma ok_refine : forall ow s p d, inv z0 ow s -> (forall x, 0 <= ow x) -> legal good cls s (FRefine p d) -> good_out ow s (FRefine p d) (run1 s (FRefine p d)).
Proof.
  intros ow s p d I Po (G & Rf). cbn [LifeModel.run1]. destruct p as [h|e|r]; cbn [refines parent_of] in *.
  - destruct Rf as (a & d0 & Pt & (f & Ef & <-) & C). unfold pointee in Pt. destruct (get h (handles s)) as [p|] eqn:E; [|discriminate]. subst p. cbn [deref bind].
    unfold field_at. rewrite Ef. cbn [bind]. apply refine_at; auto. apply (handle_ref s h a E).
  - destruct Rf as (a & v & d0 & Ct & (f & Ef & <-) & C). unfold content in Ct. unfold elem_at. destruct (get e (elems s)) as [y|] eqn:E; [|discriminate].
    cbn [bind]. unfold nf_of. destruct (ob_nf y) as [a'|] eqn:Q; [|discriminate]. destruct (get (ob_st y) (stores s)); [|discriminate]. injection Ct as -> _. cbn [bind].
    unfold field_at. rewrite Ef. cbn [bind]. apply refine_at; auto. apply (elem_ref s e y a E Q).
  - destruct Rf as (a & d0 & St & (f & Ef & <-) & C). unfold rationals. rewrite St. cbn [bind]. unfold field_at. rewrite Ef. cbn [bind]. apply refine_at; auto. apply (static_ref s a St).
Qed.
Lemma ok_exit : forall ow s, inv z0 ow s -> (forall x, 0 <= ow x) -> legal good cls s Exit -> good_out ow s Exit (run1 s Exit).
Proof.
  intros ow s I Po Ru. cbn [LifeModel.run1]. pose proof (static_inv _ _ s None I) as It. destruct (static s) as [[a|]|] eqn:E.
  - assert (It' : inv (inc z0 a) ow (set_static D H V s (Some None))).
    { apply (inv_ext _ _ _ _ _) with (3 := It); [|reflexivity]. intros b. rewrite is_some_at. cbn [is]. unfold inc. lia. }
    pose proof (release_ok z0 ow _ a It' z0_pos Po) as R. destruct (release (set_static D H V s (Some None)) a) as [w| | |]; cbn [bind done]; try contradiction; [|exact Logic.I].
    destruct R as [Iw Kw]. destruct (kept_same _ _ _ _ [] Kw Po) as [Sw _]. destruct Kw as (Hw & _). apply good_done; [exact Po|exact Iw|].
    split; [reflexivity|]. split; [apply sh_eq; exact Hw|exact Sw].
  - contradiction.
  - cbn [done bind]. apply good_done; [exact Po| |].
    + apply (inv_ext _ _ _ _ _) with (3 := It); [|reflexivity]. intros b. cbn [is]. unfold z0. lia.
    + split; [reflexivity|]. split; [apply sh_eq; reflexivity|apply sm_gen; reflexivity].
Qed.

Lemma step_ok : forall ow s k, inv z0 ow s -> (forall x, 0 <= ow x) -> legal good cls s k -> good_out ow s k (run1 s k).
Proof.
  intros ow s k I Po L. destruct k; [apply ok_make|apply ok_null|apply ok_copy|apply ok_of|apply ok_hmove|apply ok_hassign|apply ok_hmassign|apply ok_hswap|apply ok_hdrop
    |apply ok_new|apply ok_string|apply ok_convert|apply ok_ecopy|apply ok_emove|apply ok_eassign|apply ok_emassign|apply ok_eswap|apply ok_enumber|apply ok_ewrite
    |apply ok_edrop|apply ok_refine|apply ok_exit]; assumption.
Qed.

(** ** Histories *)
Lemma start_ok : inv z0 z0 (start D H V).
Proof.
  constructor; cbn; try constructor; try discriminate; try reflexivity; intros a b; try contradiction; try discriminate.
Qed.
Lemma reachable_inv : forall s rs, reachable good cls run1 s rs ->
  exists ow, (forall x, 0 <= ow x) /\ inv z0 ow s /\ (Forall (eq Done) rs -> forall x, ow x = 0).
Proof.
  intros s rs R. induction R as [|s rs k s' r R (ow & Po & I & Z0) L E].
  - exists z0. split; [apply z0_pos|]. split; [apply start_ok|reflexivity].
  - pose proof (step_ok ow s k I Po L) as G. rewrite E in G. destruct G as (G1 & (ow' & Po' & G2) & _). destruct r.
    + exists ow. split; [exact Po|]. split; [apply G1; reflexivity|]. intros F. inversion F. auto.
    + exists ow'. split; [exact Po'|]. split; [exact G2|]. intros F. inversion F. discriminate.
Qed.

Lemma life_safe : forall s rs k, reachable good cls run1 s rs -> legal good cls s k -> run1 s k <> Undef /\ run1 s k <> Abort.
Proof.
  intros s rs k R L. destruct (reachable_inv s rs R) as (ow & Po & I & _). pose proof (step_ok ow s k I Po L) as G.
  destruct (run1 s k); try contradiction; split; discriminate.
Qed.
Lemma life_effect : forall s rs k s' r, reachable good cls run1 s rs -> legal good cls s k -> run1 s k = Val (s', r) -> effect s k s' r.
Proof.
  intros s rs k s' r R L E. destruct (reachable_inv s rs R) as (ow & Po & I & _). pose proof (step_ok ow s k I Po L) as G. rewrite E in G. apply G.
Qed.

Lemma referenced_refs : forall ex ow s a, inv ex ow s -> (referenced s a <-> 1 <= refs s a).
Proof.
  intros ex ow s a I. split.
  - intros [(h & E)|[(e & y & E & Q)|E]]; [apply (handle_ref s h a E)|apply (elem_ref s e y a E Q)|apply (static_ref s a E)].
  - intros R. unfold refs in R. destruct (Z_lt_le_dec 0 (total (is a) (handles s))) as [P|P].
    { destruct (total_some _ _ (is_pos a) P) as (h & p & Ih & W). left. exists h. rewrite (in_get _ _ _ (i_kh _ _ _ I) Ih).
      destruct p as [b|]; cbn in W; [|lia]. destruct (Nat.eqb_spec b a); [congruence|lia]. }
    destruct (Z_lt_le_dec 0 (total (nfi a) (elems s))) as [Pe|Pe].
    { destruct (total_some _ _ (fun y => is_pos a (ob_nf y)) Pe) as (e & y & Ie & W). right. left. exists e, y. split; [apply (in_get _ _ _ (i_ke _ _ _ I) Ie)|].
      destruct (ob_nf y) as [b|]; cbn in W; [|lia]. destruct (Nat.eqb_spec b a); [congruence|lia]. }
    right. right. destruct (static s) as [[b|]|]; cbn in R; try lia. destruct (Nat.eqb_spec b a); [congruence|lia].
Qed.
Lemma life_field : forall s rs a, reachable good cls run1 s rs -> (field_alive s a <-> referenced s a).
Proof.
  intros s rs a R. destruct (reachable_inv s rs R) as (ow & Po & I & _). rewrite (referenced_refs _ _ _ _ I). unfold field_alive. split.
  - intros N. destruct (get a (fields s)) as [f|] eqn:E; [|congruence]. destruct (i_field _ _ _ I a f E) as (_ & _ & P & _). unfold z0 in P. lia.
  - intros P E. pose proof (i_dead _ _ _ I a E). unfold z0 in *. lia.
Qed.
Lemma owned_owners : forall ex ow s x, inv ex ow s -> (owned s x <-> 1 <= owners s x).
Proof.
  intros ex ow s x I. destruct (owners_pos s x) as [A B]. unfold owners. split.
  - intros [(e & y & E & N & <-)|(a & f & E & Ix)].
    + pose proof (own_ge s e y E N). lia.
    + pose proof (total_ge (fun f => cnt x (fd_cache f)) _ a f (fun f => cnt_pos x _) E) as T. cbn beta in T. pose proof (cnt_in _ _ Ix). lia.
  - intros P. destruct (Z_lt_le_dec 0 (total (owns x) (elems s))) as [Q|Q].
    + destruct (total_some _ _ (owns_pos x) Q) as (e & y & Ie & W). left. exists e, y. split; [apply (in_get _ _ _ (i_ke _ _ _ I) Ie)|].
      unfold owns in W. destruct (ob_nf y); [|lia]. split; [discriminate|]. destruct (Nat.eqb_spec (ob_st y) x); [assumption|lia].
    + destruct (total_some (fun f => cnt x (fd_cache f)) (fields s) (fun f => cnt_pos x _)) as (a & f & If & W); [lia|]. right. exists a, f.
      split; [apply (in_get _ _ _ (i_kf _ _ _ I) If)|]. unfold cnt in W. apply (count_occ_In Nat.eq_dec). lia.
Qed.
Lemma life_memory : forall s rs x, reachable good cls run1 s rs -> (owned s x -> memory_alive s x) /\ (Forall (eq Done) rs -> memory_alive s x -> owned s x).
Proof.
  intros s rs x R. destruct (reachable_inv s rs R) as (ow & Po & I & Z0). rewrite (owned_owners _ _ _ _ I). unfold memory_alive.
  pose proof (i_store _ _ _ I x) as S. unfold live in S. specialize (Po x). split.
  - intros P N. rewrite N in S. lia.
  - intros F N. destruct (get x (stores s)); [|congruence]. rewrite (Z0 F x) in S. lia.
Qed.
Lemma empty_map : forall {A} (l : list (nat * A)), (forall k, get k l = None) -> l = [].
Proof. intros A [|[k a] l] E; [reflexivity|]. specialize (E k). cbn [get] in E. rewrite Nat.eqb_refl in E. discriminate. Qed.
Lemma life_end : forall s rs, reachable good cls run1 s rs -> all_gone s -> fields s = [] /\ registry s = [] /\ (Forall (eq Done) rs -> stores s = []).
Proof.
  intros s rs R (Eh & Ee & Es). assert (F : fields s = []).
  { apply empty_map. intros a. destruct (get a (fields s)) as [f|] eqn:E; [|reflexivity]. exfalso.
    destruct (proj1 (life_field s rs a R)) as [(h & X)|[(e & y & X & _)|X]]; [unfold field_alive; congruence|rewrite Eh in X; discriminate|rewrite Ee in X; discriminate|apply (Es a X)]. }
  split; [exact F|]. destruct (reachable_inv s rs R) as (ow & Po & I & Z0). split.
  - destruct (registry s) as [|[a h] l] eqn:E; [reflexivity|]. destruct (i_reg _ _ _ I a h) as (f & Ef & _); [rewrite E; left; reflexivity|]. rewrite F in Ef. discriminate.
  - intros Fo. apply empty_map. intros x. destruct (get x (stores s)) as [v|] eqn:E; [|reflexivity]. exfalso.
    destruct (proj2 (life_memory s rs x R) Fo) as [(e & y & X & _)|(a & f & X & _)]; [unfold memory_alive; congruence|rewrite Ee in X; discriminate|rewrite F in X; discriminate].
Qed.
Lemma life_once : forall s rs e f y z, reachable good cls run1 s rs -> get e (elems s) = Some y -> get f (elems s) = Some z -> e <> f ->
  ob_nf y <> None -> ob_nf z <> None -> ob_st y <> ob_st z.
Proof.
  intros s rs e f y z R E F N Ny Nz. destruct (reachable_inv s rs R) as (ow & Po & I & _). apply (own_diff _ _ _ _ _ _ _ I Po E F Ny Nz N).
Qed.
Lemma life_unique : forall s rs a b d e, reachable good cls run1 s rs -> data_at s a d -> data_at s b e -> (a = b <-> cls d = cls e).
Proof.
  intros s rs a b d e R (f & Ef & <-) (g & Eg & <-). destruct (reachable_inv s rs R) as (ow & Po & I & _). split; [intros ->; congruence|].
  apply (i_unique _ _ _ I a b f g Ef Eg).
Qed.
Lemma life_make : forall s rs h d r s' o, reachable good cls run1 s rs -> legal good cls s (HMake h d r) -> run1 s (HMake h d r) = Val (s', o) ->
  exists a d', pointee s' h = Some a /\ data_at s' a d' /\ cls d' = cls d /\ forall b e, data_at s b e -> (b = a <-> cls e = cls d).
Proof.
  intros s rs h d r s' o R (Nh & G & Fr) E. destruct (reachable_inv s rs R) as (ow & Po & I & _). cbn [LifeModel.run1] in E.
  pose proof (make_ok z0 ow s d r I G Fr) as M. destruct (make s d (fst r) (snd r)) as [[t a]| | |]; cbn [bind done] in E; try discriminate E. injection E as <- _.
  destruct M as (It & (_ & _ & _ & _ & Gf) & _ & f & Ef & Cf). exists a, (fd_data f). split; [apply pt_put|]. split; [exists f; auto|]. split; [exact Cf|].
  intros b e (g & Eg & <-). destruct (Gf b g Eg) as (g' & Eg' & Cg & _). split.
  - intros ->. congruence.
  - intros C. apply (i_unique _ _ _ It b a g' f Eg' Ef). congruence.
Qed.

End Proofs.
