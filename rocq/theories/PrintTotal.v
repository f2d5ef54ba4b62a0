(** Printing ends, see PropertiesPrint.v. *)
Require Import Reals List ZArith Bool Ascii String.
From Verif Require Import PolyR RootSpec Dyadic ArbModel ArbSpec ElemModel ElemSpec ElemProofs EndsSpec DefSpec DefMain GetdModel GetdSpec StrModel BufModel BufSpec MakeSpec
  BufProofs PrintModel PrintSpec PrintProofs.
Import ListNotations.
Open Scope R_scope.

Lemma put_answers : forall o n pol x, library o n pol x -> exists r0, 0 < r0 /\ forall debug nf, ready pol x r0 nf ->
  forall pr show8 show, (forall e, cstr (pr e)) -> show8_ok show8 -> (forall b k, cstr (show b k)) -> forall y, elem_ok pol x y ->
  answers (fun fuel => put o n debug pr show8 show fuel nf y)
    (fun '(nf', y', s) => elem_ok pol x y' /\ r_elem y' = r_elem y /\
      ((exists z, ev x (r_elem y) = IZR z) /\ s = pr (r_elem y) \/
       ~ (exists z, ev x (r_elem y) = IZR z) /\ exists t, approximates (ev x (r_elem y)) t /\
         s = list_ascii_of_string "(" ++ pr (r_elem y) ++ list_ascii_of_string " ~ " ++ t ++ list_ascii_of_string ")"))
    (word_overflow o pol (f_emb nf)).
Proof.
  intros o n pol x L. destruct (small_radius o n pol x L) as (r0 & R0 & Hs & H). exists r0. split; [exact R0|].
  intros debug nf Hr pr show8 show Hpr H8 Hsh y Hy. destruct (H debug) as [He Hd].
  assert (HS : setting o n pol x (fun a => rad_le a r0)) by (constructor; [apply L|apply L|apply L|exact Hs]).
  assert (P : forall fuel nf' y' s, put o n debug pr show8 show fuel nf y = Val (nf', y', s) -> elem_ok pol x y' /\ r_elem y' = r_elem y /\
      ((exists z, ev x (r_elem y) = IZR z) /\ s = pr (r_elem y) \/
       ~ (exists z, ev x (r_elem y) = IZR z) /\ exists t, approximates (ev x (r_elem y)) t /\
         s = list_ascii_of_string "(" ++ pr (r_elem y) ++ list_ascii_of_string " ~ " ++ t ++ list_ascii_of_string ")")).
  { intros fuel nf' y' s E. apply (put_text o n debug pol x _ HS pr show8 show Hpr H8 Hsh fuel nf y nf' y' s (proj1 Hr) Hy E). }
  assert (G : exists f0 r, (forall f, (f0 <= f)%nat -> put o n debug pr show8 show f nf y = r) /\ match r with Val _ => True | Undef => word_overflow o pol (f_emb nf) | _ => False end).
  { unfold put. destruct (is_integer (r_elem y)).
    - exists 0%nat. eexists. split; [intros f _; rewrite to_text_alg; reflexivity|].
      destruct (block_text (pr (r_elem y)) PlusInf (show (r_emb y) 10%Z) true false false (Hpr _) ltac:(lit_cstr) (Hsh _ _)) as (t & W & ->). exact I.
    - destruct (get_d_total o n pol x r0 debug nf L Hs He Hd Hr y RNear Hy) as (f0 & r & E & Q). exists f0.
      destruct r as [[[nf' y'] d]| | |]; try contradiction.
      + destruct (get_d_close o n debug pol x _ HS f0 nf y nf' y' d (proj1 Hr) Hy (E f0 (le_n _))) as (_ & _ & _ & C). destruct (close_text show8 H8 _ _ C) as [T1 _].
        destruct (block_text (pr (r_elem y)) (double_part show8 d) [] true true false (Hpr _) T1 ltac:(intros [])) as (t & W & B).
        eexists (Val (_, _, _)). split; [|exact I]. intros f Hf. unfold to_text, elem_text. rewrite !andb_false_r, (E f Hf). cbn [bind].
        destruct (elem_get_str _ _ _ _ _ _) as [blk| | |]; try discriminate B. cbn [bind] in *. rewrite B. cbn [bind]. reflexivity.
      + exists Undef. split; [|exact Q]. intros f Hf. unfold to_text, elem_text. rewrite !andb_false_r, (E f Hf). reflexivity. }
  destruct G as (f0 & r & E & Q). exists f0, r. split; [exact E|]. destruct r as [[[nf' y'] s]| | |]; try exact Q. apply (P f0 nf'). apply E, le_n.
Qed.
