(** Specification of merging mentions with the same span. *)
From Coq Require Import String List NArith ZArith Bool Permutation.
From Verif Require Import PyStr PyList PyExn TreeModel CorefModel CorefSpec.
Import ListNotations.

(** m is a mention with a word or an empty node in the tree r. *)
Definition of_tree (c : coref) (r m : nat) : Prop := listed c m /\ exists w, in_tree (co_h c) r w /\ In w (m_words c m).
(** The same words and, if it is asked for, the same entity. *)
Definition duplicates (same_entity_only : bool) (c : coref) (a b : nat) : Prop :=
  (forall w, In w (m_words c a) <-> In w (m_words c b)) /\ (same_entity_only = true -> m_ent c a = m_ent c b).
(** [keep] tells which mentions of the tree [r] survive. *)
Record merged_spans (only : bool) (c c' : coref) (r : nat) (keep : nat -> bool) : Prop := {
  (* of each group of duplicates one survives, and no other has an entity with a smaller id *)
  ms_one : forall m, of_tree c r m -> exists k, of_tree c r k /\ duplicates only c m k /\ keep k = true /\
    forall j, of_tree c r j -> duplicates only c m j -> (keep j = true -> j = k) /\ ~ str_lt (e_eid c (m_ent c j)) (e_eid c (m_ent c k));
  (* only mentions of the tree are removed *)
  ms_others : forall m, keep m = false -> of_tree c r m;
  (* entities and nodes have lost exactly the removed mentions *)
  ms_ents : forall e, e_ments c' e = filter keep (e_ments c e);
  ms_nodes : forall w, n_ments c' w = filter keep (n_ments c w);
  (* the survivors are not changed *)
  ms_words : forall m, keep m = true -> Permutation (m_words c' m) (m_words c m);
  ms_heads : forall m, m_head c' m = m_head c m /\ m_ent c' m = m_ent c m;
  ms_rest : co_h c' = co_h c /\ e_eid c' = e_eid c /\ eids c' = eids c /\ e_next c' = e_next c /\ m_next c' = m_next c;
  ms_linked : linked c'
}.
