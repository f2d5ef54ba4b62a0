(** Proofs about BufModel.v. *)
Require Import List ZArith Bool Ascii String Lia.
From Verif Require Import ArbModel StrModel BufModel BufSpec.
Import ListNotations.

Lemma strlen_holds : forall s rest, cstr s -> strlen (map Some (s ++ [nul]) ++ rest) = Val (List.length s).
Proof.
  induction s as [|c s IH]; intros rest H; [reflexivity|]. cbn [List.app map strlen].
  assert (N : c <> nul) by (intros ->; apply H; left; reflexivity). apply Ascii.eqb_neq in N. rewrite N.
  rewrite IH by (intros W; apply H; right; exact W). reflexivity.
Qed.

Lemma store_end : forall (s t : str) rest, (List.length t <= List.length rest)%nat ->
  store (map Some s ++ rest) (List.length s) t = Val (map Some (s ++ t) ++ skipn (List.length t) rest).
Proof.
  intros s t rest L. unfold store. rewrite List.app_length, List.map_length.
  destruct (Nat.leb_spec (List.length s + List.length t) (List.length s + List.length rest)); [|lia]. f_equal.
  replace (List.length s) with (List.length (map Some s)) at 1 by apply List.map_length.
  rewrite firstn_app, firstn_all, Nat.sub_diag. cbn [firstn]. rewrite app_nil_r, map_app, <- app_assoc. f_equal. f_equal.
  rewrite skipn_app, List.map_length. replace (List.length s + List.length t - List.length s)%nat with (List.length t) by lia.
  rewrite skipn_all2 by (rewrite List.map_length; lia). reflexivity.
Qed.

Lemma strcat_ok : forall s t rest, cstr s -> (List.length t <= List.length rest)%nat ->
  strcat (map Some (s ++ [nul]) ++ rest) t = Val (map Some ((s ++ t) ++ [nul]) ++ skipn (List.length t) rest).
Proof.
  intros s t rest H L. unfold strcat. rewrite strlen_holds by exact H. cbn [bind].
  rewrite map_app, <- app_assoc. rewrite store_end by (rewrite !List.app_length; cbn [List.length map]; lia).
  f_equal. rewrite app_assoc. f_equal. cbn [map List.app]. rewrite List.app_length. cbn [List.length].
  rewrite Nat.add_1_r. reflexivity.
Qed.

Lemma realloc_ok : forall s rest n, (List.length s + 1 <= n)%nat ->
  exists rest', realloc (map Some (s ++ [nul]) ++ rest) n = map Some (s ++ [nul]) ++ rest' /\
    List.length rest' = (n - (List.length s + 1))%nat.
Proof.
  intros s rest n L. unfold realloc. assert (E : List.length (map Some (s ++ [nul])) = (List.length s + 1)%nat) by (rewrite List.map_length, List.app_length; reflexivity).
  rewrite firstn_app, firstn_all2 by lia. rewrite <- app_assoc. eexists. split; [reflexivity|].
  rewrite !List.app_length, firstn_length, repeat_length, E. lia.
Qed.

Lemma cstr_app : forall s t, cstr s -> cstr t -> cstr (s ++ t).
Proof. intros s t A B W. apply in_app_or in W. destruct W; [exact (A H)|exact (B H)]. Qed.

Ltac lit_cstr := let W := fresh in intros W; cbn in W; decompose [or] W; try contradiction; discriminate.

Theorem get_str_holds : forall p e, cstr p -> cstr e -> exists b,
  renf_get_str p e = Val b /\
  is_text b (list_ascii_of_string "NumberField(" ++ p ++ list_ascii_of_string ", " ++ e ++ list_ascii_of_string ")").
Proof.
  intros p e Hp He. unfold renf_get_str. cbv zeta.
  set (n := (List.length p + List.length e)%nat).
  replace (calloc (15 + List.length p + List.length e + 1)) with (map Some [nul] ++ calloc (15 + n)).
  2:{ unfold calloc, n. replace (15 + List.length p + List.length e + 1)%nat with (S (15 + (List.length p + List.length e)))%nat by lia. reflexivity. }
  change (store (map Some [nul] ++ calloc (15 + n)) 0 [nul]) with (Val (map Some ([] ++ [nul]) ++ calloc (15 + n))). cbn [bind].
  assert (Lc : forall k, List.length (calloc k) = k) by (intros k; apply repeat_length).
  rewrite strcat_ok by (try (rewrite Lc; cbn [list_ascii_of_string List.length]; lia); intros W; exact W). cbn [bind].
  rewrite strcat_ok; [|lit_cstr|rewrite skipn_length, Lc; cbn [list_ascii_of_string List.length]; lia]. cbn [bind].
  rewrite strcat_ok; [|apply cstr_app; [lit_cstr|exact Hp]|rewrite !skipn_length, Lc; cbn [list_ascii_of_string List.length]; lia]. cbn [bind].
  rewrite strcat_ok; [|repeat apply cstr_app; try exact Hp; lit_cstr|rewrite !skipn_length, Lc; cbn [list_ascii_of_string List.length]; lia]. cbn [bind].
  rewrite strcat_ok; [|repeat apply cstr_app; try assumption; lit_cstr|rewrite !skipn_length, Lc; cbn [list_ascii_of_string List.length]; lia].
  eexists. split; [reflexivity|]. unfold is_text.
  match goal with |- ?A ++ ?B = _ => assert (EB : B = []) end.
  { apply length_zero_iff_nil. rewrite !skipn_length, Lc. cbn [list_ascii_of_string List.length]. lia. }
  rewrite EB, app_nil_r. rewrite <- !app_assoc. reflexivity.
Qed.

Lemma double_str_ok : forall d, double_str d = Val (double_is d).
Proof. intros [| |s]; reflexivity. Qed.

(** Appending after making room for exactly that. *)
Lemma append_ok : forall s t, cstr s ->
  bind (strlen (map Some (s ++ [nul]))) (fun n => strcat (realloc (map Some (s ++ [nul])) (n + List.length t + 1)) t) =
  Val (map Some ((s ++ t) ++ [nul])).
Proof.
  intros s t H. rewrite <- (app_nil_r (map Some (s ++ [nul]))). rewrite strlen_holds by exact H. cbn [bind].
  destruct (realloc_ok s [] (List.length s + List.length t + 1) ltac:(lia)) as (rest & E & L). rewrite E.
  rewrite strcat_ok by (try exact H; lia). f_equal.
  rewrite (skipn_all2 rest) by lia. apply app_nil_r.
Qed.

Lemma elem_get_str_eq : forall s d b alg dbl arb, cstr s -> cstr (double_is d) -> cstr b ->
  elem_get_str s d b alg dbl arb =
  Val (map Some (((if alg then s ++ (if dbl || arb then list_ascii_of_string " ~ " else []) else []) ++
                  (if dbl then double_is d else if arb then b else [])) ++ [nul])).
Proof.
  intros s d b alg dbl arb Hs Hd Hb. unfold elem_get_str. cbv zeta.
  change (store (malloc 1) 0 [nul]) with (Val (map Some ([] ++ [nul]))). cbn [bind].
  set (pre := if alg then s ++ (if dbl || arb then list_ascii_of_string " ~ " else []) else []).
  assert (Hpre : cstr pre).
  { unfold pre. destruct alg; [|intros []]. apply cstr_app; [exact Hs|]. destruct (dbl || arb); [lit_cstr|intros []]. }
  match goal with |- bind ?A _ = _ => assert (E : A = Val (map Some (pre ++ [nul]))) end.
  { unfold pre. destruct alg; [|reflexivity]. rewrite <- (app_nil_r (map Some ([] ++ [nul]))). destruct (dbl || arb).
    - destruct (realloc_ok [] [] (List.length s + 4) ltac:(cbn [List.length]; lia)) as (rest & -> & L). cbn [List.length] in L.
      rewrite strcat_ok; [|intros []|lia]. cbn [bind]. rewrite strcat_ok; [|exact Hs|rewrite skipn_length; cbn [list_ascii_of_string List.length]; lia].
      f_equal. rewrite (skipn_all2 (skipn _ _)) by (rewrite skipn_length; cbn [list_ascii_of_string List.length]; lia). rewrite !app_nil_r. reflexivity.
    - destruct (realloc_ok [] [] (List.length s + 1) ltac:(cbn [List.length]; lia)) as (rest & -> & L). cbn [List.length] in L.
      rewrite strcat_ok; [|intros []|lia]. f_equal. rewrite (skipn_all2 rest) by lia. rewrite !app_nil_r. reflexivity. }
  rewrite E. cbn [bind]. destruct dbl; [|destruct arb].
  - rewrite double_str_ok. cbn [bind]. apply append_ok, Hpre.
  - apply append_ok, Hpre.
  - rewrite app_nil_r. reflexivity.
Qed.

Theorem elem_get_str_holds : forall s d b alg dbl arb, cstr s -> cstr (double_is d) -> cstr b -> exists t blk,
  written s (double_is d) b alg dbl arb t /\ elem_get_str s d b alg dbl arb = Val blk /\ is_text blk t.
Proof.
  intros s d b alg dbl arb Hs Hd Hb. rewrite elem_get_str_eq by assumption.
  destruct alg, dbl, arb; cbn [orb]; (eexists; eexists; split; [|split; [reflexivity|]]);
  unfold is_text; cbn [List.app]; rewrite ?app_nil_r; try (rewrite <- (app_assoc s)); try reflexivity; try constructor.
Qed.

(** Memory that was never written has no text, also behind bytes other than zero. *)
Lemma unset_text : forall s n, cstr s -> strlen (map Some s ++ malloc n) = Undef /\ text_at (map Some s ++ malloc n) = Undef /\
  forall t, strcat (map Some s ++ malloc n) t = Undef.
Proof.
  intros s n. induction s as [|c s IH]; intros H.
  - destruct n; repeat split.
  - assert (N : Ascii.eqb c nul = false) by (apply Ascii.eqb_neq; intros ->; apply H; left; reflexivity).
    destruct (IH (fun W => H (or_intror W))) as (A & B & _).
    assert (L : strlen (map Some (c :: s) ++ malloc n) = Undef) by (cbn [map app strlen]; rewrite N, A; reflexivity).
    split; [exact L|]. split; [cbn [map app text_at]; rewrite N, B; reflexivity|]. intros t. unfold strcat. rewrite L. reflexivity.
Qed.
