(** C46, C66, C67: moving words from one tree to another one. *)
From Coq Require Import String List NArith ZArith Bool Lia Permutation.
From Verif Require Import PyStr PyList PyListFacts PyExn TreeModel TreeSpec TreeProps TreeExamples DualDictModel DualDictSpec DocModel
  MwtSpec MwtProofs StealModel StealSpec StealProofs StealThms.
Import ListNotations.
Local Open Scope string_scope.
Local Open Scope list_scope.

(** Two trees: root 0 with the words 2 3 4 (3 is the top word), root 1 with the words 5 6 7 8 and the edges
    5 -> 6 -> root, 7 -> 8 -> 6. *)
Definition two_ops : list tree_op :=
  [OpCreate 0; OpCreate 0; OpCreate 0; OpCreate 1; OpCreate 1; OpCreate 1; OpCreate 1;
   OpParent 2 (Some 3); OpParent 4 (Some 3); OpParent 5 (Some 6); OpParent 8 (Some 6); OpParent 7 (Some 8)].
Definition two_heap : heap := fold_left (fun h o => fst (tree_step h o)) two_ops (fst (new_root (fst (new_root heap0)))).
Definition two : doc := with_h doc0 two_heap.
Lemma two_world : world [1; 0] two_heap.
Proof.
  unfold two_heap, two_ops. cbn [fold_left].
  repeat match goal with
  | |- world _ (fst (tree_step _ (OpParent ?x _))) => apply (world_op [1;0] _ (if Nat.leb x 4 then 0 else 1));
      [|simpl; auto|vm_compute; intuition (auto 20)]
  | |- world _ (fst (tree_step _ (OpCreate ?x))) => apply (world_op [1;0] _ x); [|simpl; auto|vm_compute; intuition (auto 20)]
  end.
  apply (world_new [0] (fst (new_root heap0))), (world_new [] heap0). constructor.
Qed.
Lemma two_0 : consistent (d_h two) 0.
Proof. apply (world_consistent _ _ two_world). simpl. auto. Qed.
Lemma two_1 : consistent (d_h two) 1.
Proof. apply (world_consistent _ _ two_world). simpl. auto. Qed.
(** the same with a multi-word token of the words 5 6 *)
Definition two_mwt : doc := fst (create_multiword_token two 1 [5; 6] (Some (s "zum")) (s "_")).
Lemma two_mwt_world : mwt_world two_mwt.
Proof.
  apply mw_create; [|vm_compute; lia|intros w [<-|[<-|[]]]; vm_compute; lia].
  apply mw_structure; [constructor|vm_compute; lia].
Qed.
(** the same with the words 7 8 *)
Definition two_mwt' : doc := fst (create_multiword_token two 1 [7; 8] (Some (s "zum")) (s "_")).
Lemma two_mwt'_world : mwt_world two_mwt'.
Proof.
  apply mw_create; [|vm_compute; lia|intros w [<-|[<-|[]]]; vm_compute; lia].
  apply mw_structure; [constructor|vm_compute; lia].
Qed.

Lemma two_mwt_0 : consistent (d_h two_mwt) 0.
Proof. assert (E : d_h two_mwt = d_h two) by reflexivity. rewrite E. exact two_0. Qed.
Lemma two_mwt_1 : consistent (d_h two_mwt) 1.
Proof. assert (E : d_h two_mwt = d_h two) by reflexivity. rewrite E. exact two_1. Qed.
Lemma two_mwt_words : h_desc (d_h two_mwt) 1 = [5; 6; 7; 8].
Proof. vm_compute. reflexivity. Qed.
(** the two trees with an empty node in the second one *)
Definition two_empty : doc := with_h two (fst (tree_step two_heap (OpEmptyChild 6 true))).
Lemma two_empty_world : world [1; 0] (d_h two_empty).
Proof. apply (world_op [1; 0] _ 1); [exact two_world|simpl; auto|vm_compute; auto]. Qed.
Lemma two_empty_words : h_desc (d_h two_empty) 1 = [5; 6; 7; 8].
Proof. vm_compute. reflexivity. Qed.

(** C46. *)
Theorem C46_whole_sentence : forall d r r2 nodes, consistent (d_h d) r -> consistent (d_h d) r2 -> r <> r2 ->
  nodes <> [] -> Permutation nodes (h_desc (d_h d) r2) ->
  exists d', steal_nodes d r nodes = (d', Ok tt) /\
    h_desc (d_h d') r = h_desc (d_h d) r ++ h_desc (d_h d) r2 /\ h_desc (d_h d') r2 = [] /\
    consistent (d_h d') r /\ consistent (d_h d') r2 /\
    (forall w, In w (h_desc (d_h d) r2) ->
       (h_par (d_h d) w = Some r2 -> h_par (d_h d') w = Some r) /\
       (h_par (d_h d) w <> Some r2 -> h_par (d_h d') w = h_par (d_h d) w)) /\
    (forall w, In w (h_desc (d_h d) r) -> h_par (d_h d') w = h_par (d_h d) w) /\
    (forall y, ~ live (d_h d) r y -> ~ live (d_h d) r2 y -> same_object (d_h d) (d_h d') y) /\
    d_at d' = d_at d /\ d_ri d' = d_ri d.
Proof. exact steal_whole. Qed.
Print Assumptions C46_whole_sentence.
Theorem C46_no_nodes : forall d r, steal_nodes d r [] = (d, Raise IndexError).
Proof. exact steal_none. Qed.
Print Assumptions C46_no_nodes.
Theorem C46_several_trees : forall d r nodes x y, In x nodes -> In y nodes -> h_root (d_h d) x <> h_root (d_h d) y ->
  steal_nodes d r nodes = (d, Raise ValueError).
Proof. exact steal_several. Qed.
Print Assumptions C46_several_trees.
Example C46_case : consistent (d_h two) 0 /\ consistent (d_h two) 1 /\ Permutation [7; 5; 8; 6] (h_desc (d_h two) 1) /\
  let d := fst (steal_nodes two 0 [7; 5; 8; 6]) in
  h_desc (d_h d) 0 = [2; 3; 4; 5; 6; 7; 8] /\ map (h_ord (d_h d)) [2; 3; 4; 5; 6; 7; 8] = [1; 2; 3; 4; 5; 6; 7]%Z /\
  map (h_par (d_h d)) [5; 6; 7; 8] = [Some 6; Some 0; Some 8; Some 6] /\ h_ch (d_h d) 0 = [3; 6] /\ h_ch (d_h d) 1 = [].
Proof.
  split; [exact two_0|]. split; [exact two_1|]. split; [|repeat split; vm_compute; reflexivity].
  change (h_desc (d_h two) 1) with [5; 6; 7; 8]. apply NoDup_Permutation; [repeat constructor; simpl; intuition discriminate..|].
  intros x. simpl. tauto.
Qed.

(** C67: part of a sentence. *)
Theorem C67_part_partial : forall d r r2 nodes, consistent (d_h d) r -> consistent (d_h d) r2 -> r <> r2 ->
  nodes <> [] -> NoDup nodes -> incl nodes (h_desc (d_h d) r2) -> last_free d r2 nodes ->
  exists d', steal_nodes d r nodes = (d', Ok tt) /\
    h_desc (d_h d') r = h_desc (d_h d) r ++ filter (fun w => mem w nodes) (h_desc (d_h d) r2) /\
    h_desc (d_h d') r2 = filter (fun w => negb (mem w nodes)) (h_desc (d_h d) r2) /\
    consistent (d_h d') r /\ consistent_with_gaps (d_h d') r2 /\
    (final_words (d_h d) r2 nodes -> consistent (d_h d') r2) /\
    (forall w p, In w (h_desc (d_h d) r2) -> h_par (d_h d) w = Some p ->
       h_par (d_h d') w = Some (match mem w nodes, mem p nodes with
                                | true, true | false, false => p
                                | true, false => r
                                | false, true => r2
                                end)) /\
    (forall w, In w (h_desc (d_h d) r) -> h_par (d_h d') w = h_par (d_h d) w) /\
    (forall y, ~ live (d_h d) r y -> ~ live (d_h d) r2 y -> same_object (d_h d) (d_h d') y) /\
    d_at d' = d_at d /\ d_ri d' = d_ri d.
Proof. exact steal_part. Qed.
Print Assumptions C67_part_partial.
(** The words left behind are not renumbered. *)
Theorem C67_consistent_refuted : ~ (forall d r r2 nodes, consistent (d_h d) r -> consistent (d_h d) r2 -> r <> r2 ->
  nodes <> [] -> NoDup nodes -> incl nodes (h_desc (d_h d) r2) -> last_free d r2 nodes ->
  consistent (d_h (fst (steal_nodes d r nodes))) r2).
Proof.
  intros H. specialize (H two 0 1 [5; 7] two_0 two_1 ltac:(discriminate) ltac:(discriminate)).
  assert (C : consistent (d_h (fst (steal_nodes two 0 [5; 7]))) 1).
  { apply H.
    - repeat constructor; simpl; intuition discriminate.
    - intros x. change (h_desc (d_h two) 1) with [5; 6; 7; 8]. simpl. tauto.
    - intros w _. reflexivity. }
  apply c_ords in C. vm_compute in C. discriminate.
Qed.
Print Assumptions C67_consistent_refuted.
(** If the last moved word is in a multi-word token, the call fails after the words have left the old tree. *)
Theorem C67_mwt_refuted : ~ (forall d r r2 nodes, consistent (d_h d) r -> consistent (d_h d) r2 -> r <> r2 -> mwt_world d ->
  nodes <> [] -> NoDup nodes -> incl nodes (h_desc (d_h d) r2) ->
  snd (steal_nodes d r nodes) = Ok tt).
Proof.
  intros H. specialize (H two_mwt' 0 1 [7; 8] two_0 two_1 ltac:(discriminate) two_mwt'_world ltac:(discriminate)).
  assert (C : snd (steal_nodes two_mwt' 0 [7; 8]) = Ok tt).
  { apply H.
    - repeat constructor; simpl; intuition discriminate.
    - intros x. change (h_desc (d_h two_mwt') 1) with [5; 6; 7; 8]. simpl. tauto. }
  vm_compute in C. discriminate.
Qed.
Print Assumptions C67_mwt_refuted.
Example C67_lost_words : let (d, o) := steal_nodes two_mwt' 0 [7; 8] in
  o = Raise ValueError /\ h_desc (d_h d) 0 = [2; 3; 4] /\ h_desc (d_h d) 1 = [5; 6].
Proof. vm_compute. auto. Qed.
Example C67_case : NoDup [7; 5] /\ last_free two 1 [7; 5] /\
  let d := fst (steal_nodes two 0 [7; 5]) in
  h_desc (d_h d) 0 = [2; 3; 4; 5; 7] /\ h_desc (d_h d) 1 = [6; 8] /\ map (h_ord (d_h d)) [5; 7; 6; 8] = [4; 5; 2; 4]%Z /\
  h_ch (d_h d) 0 = [3; 5; 7] /\ h_ch (d_h d) 6 = [8].
Proof. split; [repeat constructor; simpl; intuition discriminate|]. split; [intros w _; reflexivity|]. repeat split; vm_compute; reflexivity. Qed.
Example C67_case_final : final_words (d_h two) 1 [8; 6; 7] /\
  let d := fst (steal_nodes two 0 [8; 6; 7]) in
  h_par (d_h d) 5 = Some 1 /\ h_ch (d_h d) 1 = [5] /\ h_ch (d_h d) 0 = [3; 6].
Proof.
  split; [|repeat split; vm_compute; reflexivity]. exists [5], [6; 7; 8]. split; [reflexivity|]. split.
  - intros w. simpl. intuition lia.
  - intros w. simpl. tauto.
Qed.

(** C66: multi-word tokens and empty nodes of the moved sentence. *)
Theorem C66_lists_partial : forall d r r2 nodes, consistent (d_h d) r -> consistent (d_h d) r2 -> r <> r2 ->
  nodes <> [] -> Permutation nodes (h_desc (d_h d) r2) ->
  exists d', steal_nodes d r nodes = (d', Ok tt) /\
    d_mwts d' r = d_mwts d r ++ d_mwts d r2 /\ d_mwts d' r2 = [] /\
    (forall t, t <> r -> t <> r2 -> d_mwts d' t = d_mwts d t) /\
    d_m d' = d_m d /\ d_mwt d' = d_mwt d /\ h_emp (d_h d') = h_emp (d_h d).
Proof. exact steal_whole_mwts. Qed.
Print Assumptions C66_lists_partial.
Theorem C66_mwts_refuted : ~ (forall d r r2, consistent (d_h d) r -> consistent (d_h d) r2 -> r <> r2 -> mwt_world d ->
  h_desc (d_h d) r2 <> [] -> mwts_agree (fst (steal_nodes d r (h_desc (d_h d) r2)))).
Proof.
  intros H. specialize (H two_mwt 0 1 two_mwt_0 two_mwt_1 ltac:(discriminate) two_mwt_world).
  rewrite two_mwt_words in H. specialize (H ltac:(discriminate)).
  destruct (ma_listed _ H 0 0) as [E _]; [vm_compute; auto|]. vm_compute in E. discriminate.
Qed.
Print Assumptions C66_mwts_refuted.
(** The token of the moved words cannot be removed any more: remove() forgets the words and fails. *)
Theorem C66_remove_refuted : ~ (forall d r r2 m, consistent (d_h d) r -> consistent (d_h d) r2 -> r <> r2 -> mwt_world d ->
  h_desc (d_h d) r2 <> [] -> In m (d_mwts d r2) ->
  snd (mwt_remove (fst (steal_nodes d r (h_desc (d_h d) r2))) m) = Ok tt).
Proof.
  intros H. specialize (H two_mwt 0 1 0 two_mwt_0 two_mwt_1 ltac:(discriminate) two_mwt_world).
  rewrite two_mwt_words in H. specialize (H ltac:(discriminate)).
  assert (I : In 0 (d_mwts two_mwt 1)) by (vm_compute; auto). specialize (H I). vm_compute in H. discriminate.
Qed.
Print Assumptions C66_remove_refuted.
(** The empty nodes stay in the old tree. *)
Theorem C66_empty_refuted : ~ (forall d r r2, consistent (d_h d) r -> consistent (d_h d) r2 -> r <> r2 ->
  h_desc (d_h d) r2 <> [] ->
  h_emp (d_h (fst (steal_nodes d r (h_desc (d_h d) r2)))) r = h_emp (d_h d) r ++ h_emp (d_h d) r2).
Proof.
  intros H. specialize (H two_empty 0 1). rewrite two_empty_words in H.
  assert (C : h_emp (d_h (fst (steal_nodes two_empty 0 [5; 6; 7; 8]))) 0 = h_emp (d_h two_empty) 0 ++ h_emp (d_h two_empty) 1).
  { apply H; [apply (world_consistent _ _ two_empty_world); simpl; auto..|discriminate|discriminate]. }
  vm_compute in C. discriminate.
Qed.
Print Assumptions C66_empty_refuted.
Example C66_case : let d := fst (steal_nodes two_mwt 0 [5; 6; 7; 8]) in
  d_mwts d 0 = [0] /\ d_mwts d 1 = [] /\ m_words (d_m d 0) = [5; 6] /\
  d_mwt (fst (mwt_remove d 0)) 5 = None /\ d_mwts (fst (mwt_remove d 0)) 0 = [0].
Proof. repeat split; vm_compute; reflexivity. Qed.
