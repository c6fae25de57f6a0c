(** C82: corefud.MergeSameSpan. *)
From Coq Require Import String List NArith ZArith Bool Lia Permutation.
From Verif Require Import PyStr PyList PyListFacts PyExn TreeModel TreeSpec BundleModel CorefModel CorefSpec CorefLinks Props_Coref
  SameSpanModel SameSpanSpec SameSpanProofs.
Import ListNotations.

(** C82.  [mentions] is any order in which the set of mentions of the tree can be iterated. *)
Theorem C82_merge : forall only c r mentions, linked c -> Permutation mentions (tree_mentions c r) ->
  exists c' keep, merge_same_span only c mentions = (c', Ok tt) /\ merged_spans only c c' r keep.
Proof. exact same_span_ok. Qed.
Print Assumptions C82_merge.
(** C82.  The entity that keeps the span does not depend on this order. *)
Theorem C82_any_order : forall only c r l1 l2, linked c -> Permutation l1 (tree_mentions c r) -> Permutation l2 (tree_mentions c r) ->
  (forall e f, e_eid c e = e_eid c f -> e = f) ->
  exists c1 c2, merge_same_span only c l1 = (c1, Ok tt) /\ merge_same_span only c l2 = (c2, Ok tt) /\
    forall a b, of_tree c r a -> of_tree c r b -> duplicates only c a b -> listed c1 a -> listed c2 b -> m_ent c a = m_ent c b.
Proof. exact any_order. Qed.
Print Assumptions C82_any_order.
(** The set is the set of mentions with a node in the tree. *)
Theorem C82_mentions : forall c r m, linked c -> (In m (tree_mentions c r) <-> of_tree c r m).
Proof. exact tree_mentions_ok. Qed.
Print Assumptions C82_mentions.

(** In the second sentence of [co_spans] the entities e1 (mention 3) and e2 (mention 4) have the span 7-8, e2 twice (5),
    and e1 also has the word 7 (mention 6). *)
Definition span_ops : list coref_op := cops ++ [CoCreate 1 (Some 7) [7; 8] None; CoCreate 0 (Some 7) [] None].
Definition co_spans : coref := co_run co0 span_ops.
Lemma co_spans_linked : linked co_spans.
Proof. apply (C65_linked_partial co0); [split; [|split]; reflexivity|]. apply run_history; [constructor|]. unfold span_ops, cops. history. Qed.
Example C82_example : linked co_spans /\ Permutation [5; 6; 4; 3] (tree_mentions co_spans 1) /\
  map (m_words co_spans) [3; 4; 5; 6] = [[7; 8]; [7; 8]; [7; 8]; [7]] /\ map (m_ent co_spans) [3; 4; 5; 6] = [0; 1; 1; 0] /\
  (let c' := fst (merge_same_span false co_spans [5; 6; 4; 3]) in map (e_ments c') [0; 1] = [[0; 3; 6]; [1; 2]] /\ map (n_ments c') [7; 8] = [[3; 6]; [3]]) /\
  (let c' := fst (merge_same_span true co_spans [5; 6; 4; 3]) in map (e_ments c') [0; 1] = [[0; 3; 6]; [1; 2; 5]] /\ map (n_ments c') [7; 8] = [[3; 5; 6]; [3; 5]]).
Proof.
  split; [exact co_spans_linked|]. split; [|vm_compute; auto].
  apply NoDup_Permutation; [repeat constructor; simpl; intuition discriminate|apply NoDup_nodup|]. intros x. vm_compute. tauto.
Qed.
(** An entity whose only mention is removed stays in the document, without mentions. *)
Definition single_ops : list coref_op := cops ++ [CoCreateEntity None None; CoCreate 2 (Some 7) [7; 8] None].
Definition co_single : coref := co_run co0 single_ops.
Theorem C82_entity_refuted : ~ (forall only c r mentions e, linked c -> Permutation mentions (tree_mentions c r) ->
  e_ments c e <> [] -> In e (map snd (eids c)) ->
  let c' := fst (merge_same_span only c mentions) in e_ments c' e <> [] \/ ~ In e (map snd (eids c'))).
Proof.
  intros H. assert (L : linked co_single).
  { apply (C65_linked_partial co0); [split; [|split]; reflexivity|]. apply run_history; [constructor|]. unfold single_ops, cops. history. }
  destruct (H false co_single 1 (tree_mentions co_single 1) 2 L (Permutation_refl _)) as [A|A]; [vm_compute; discriminate|vm_compute; auto| |].
  - apply A. vm_compute. reflexivity.
  - apply A. vm_compute. auto.
Qed.
Print Assumptions C82_entity_refuted.
