(** eval.Parsing: C89. *)
From Coq Require Import String List NArith ZArith QArith Bool Lia Permutation.
From Verif Require Import PyStr PyList PyListFacts PyExn TreeModel TreeSpec TreeProps TreeExamples Props_Tree DeprelModel RehangModel Props_Rehang ParsModel ParsSpec ParsProofs.
Import ListNotations.
Local Close Scope Q_scope.
Local Open Scope string_scope.
Local Open Scope list_scope.
Local Open Scope Z_scope.

(** C89. The counters are the numbers of words with the same head, and the same head and label. *)
Theorem C89_counts : forall st l, (forall tg, In tg l -> comparable st tg) ->
  exists t, parsing_run st no_tally l = (t, Ok tt) /\ t_total t = Z.of_nat (length (compared st l)) /\
    number (same_head st) (compared st l) (t_uas t) /\ number (same_deprel st) (compared st l) (t_las t) /\ number (same_udeprel st) (compared st l) (t_ulas t).
Proof. exact counts. Qed.
Print Assumptions C89_counts.
(** C89. 0 <= LAS (deprel) <= LAS (udeprel) <= UAS <= 100 *)
Theorem C89_bounds : forall st l t, (forall tg, In tg l -> comparable st tg) -> parsing_run st no_tally l = (t, Ok tt) ->
  0 <= t_las t <= t_ulas t /\ t_ulas t <= t_uas t <= t_total t.
Proof. exact bounds. Qed.
Print Assumptions C89_bounds.
(** C89. A score of 100 means that all heads (and labels) agree. *)
Theorem C89_perfect : forall st l t, (forall tg, In tg l -> comparable st tg) -> parsing_run st no_tally l = (t, Ok tt) ->
  (t_uas t = t_total t <-> forall xy, In xy (compared st l) -> same_head st xy) /\ (t_las t = t_total t <-> forall xy, In xy (compared st l) -> same_deprel st xy) /\
  (t_ulas t = t_total t <-> forall xy, In xy (compared st l) -> same_udeprel st xy).
Proof. exact perfect. Qed.
Print Assumptions C89_perfect.
(** C89. Exchanging the two sides gives the same result. *)
Theorem C89_symmetric : forall st l, (forall tg, In tg l -> comparable st tg) ->
  parsing_run st no_tally (map (fun tg => (snd tg, fst tg)) l) = parsing_run st no_tally l.
Proof. exact symmetric. Qed.
Print Assumptions C89_symmetric.
(** C89. The order of the sentences does not matter. *)
Theorem C89_any_order : forall st l k, (forall tg, In tg l -> comparable st tg) -> Permutation l k -> parsing_run st no_tally k = parsing_run st no_tally l.
Proof. exact any_order. Qed.
Print Assumptions C89_any_order.
(** C89. Different numbers of words raise ValueError and count nothing. *)
Theorem C89_mismatch : forall st t x g, x <> g -> length (h_desc (l_heap st) x) <> length (h_desc (l_heap st) g) -> parsing_tree st t x g = (t, Raise ValueError).
Proof. exact mismatch. Qed.
Print Assumptions C89_mismatch.
(** C89. The end fails (division by zero) exactly if no word was compared. *)
Theorem C89_scores : forall t, scores t = None <-> t_total t = 0.
Proof. exact scores_none. Qed.
Print Assumptions C89_scores.
(** C89. The printed percentages *)
Theorem C89_percent : forall st l t uas las ulas, (forall tg, In tg l -> comparable st tg) -> parsing_run st no_tally l = (t, Ok tt) -> scores t = Some (uas, las, ulas) ->
  (uas * inject_Z (t_total t) == inject_Z (100 * t_uas t) /\ las * inject_Z (t_total t) == inject_Z (100 * t_las t) /\
   ulas * inject_Z (t_total t) == inject_Z (100 * t_ulas t) /\ 0 <= las /\ las <= ulas /\ ulas <= uas /\ uas <= 100)%Q.
Proof. exact scores_ok. Qed.
Print Assumptions C89_percent.

(** Two trees with three words: 0 (words 1-3) and 4 (words 5-7). *)
Definition two_ops : list tree_op := [OpCreate 4; OpCreate 4; OpCreate 4; OpParent 5 (Some 6%nat); OpParent 7 (Some 5%nat)].
Definition two_h : heap := fold_left (fun h o => fst (tree_step h o)) two_ops (fst (new_root (planted [2; 0; 2]%nat))).
Lemma two_world : world [4; 0]%nat two_h.
Proof.
  unfold two_h, two_ops. cbn [fold_left].
  do 5 (apply (world_op [4; 0]%nat _ 4%nat); [|simpl; auto|vm_compute; intuition (auto 20)]).
  apply (world_new [0%nat] (planted [2; 0; 2]%nat)).
  unfold planted, plant_ops; cbn [map combine seq length app fold_left fst snd];
  repeat (apply (world_op [0%nat] _ 0%nat); [|simpl; auto|vm_compute; intuition (auto 20)]);
  apply (world_new [] heap0); constructor.
Qed.
Definition two_st : lst := mkL two_h (fun x => nth x [None; Some (s "nsubj:pass"); Some (s "root"); Some (s "obj"); None; Some (s "nsubj"); Some (s "root"); Some (s "obj")] None)
  (fun _ => None) (fun _ => []).
Example C89_case : (forall tg, In tg [(0, 4); (4, 4)]%nat -> comparable two_st tg) /\
  parsing_run two_st no_tally [(0, 4); (4, 4)]%nat = (mkT 1 2 2 3, Ok tt) /\ compared two_st [(0, 4); (4, 4)]%nat = [(1, 5); (2, 6); (3, 7)]%nat /\
  (exists a b c, scores (mkT 1 2 2 3) = Some (a, b, c) /\ a == 200 # 3 /\ b == 100 # 3 /\ c == 200 # 3)%Q.
Proof.
  assert (C0 : consistent two_h 0) by (apply (world_consistent [4; 0]%nat); [exact two_world|simpl; auto]).
  assert (C4 : consistent two_h 4) by (apply (world_consistent [4; 0]%nat); [exact two_world|simpl; auto]).
  split.
  - intros tg [<-|[<-|[]]]; (split; [|split]; [assumption|assumption|vm_compute; reflexivity]).
  - split; [vm_compute; reflexivity|]. split; [vm_compute; reflexivity|]. eexists. eexists. eexists. split; [reflexivity|]. split; [|split]; vm_compute; reflexivity.
Qed.
