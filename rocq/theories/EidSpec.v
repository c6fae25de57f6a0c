(** Specification of renaming and removing entities. *)
From Coq Require Import String List NArith ZArith Bool.
From Verif Require Import PyStr PyList PyExn TreeModel BundleModel CorefModel CorefSpec CorefIOModel CorefIOSpec NormSpec.
Import ListNotations.

(** The entities of the document, in order. *)
Definition entities (c : coref) : list nat := map snd (eids c).
(** They are different and have been created; their ids need not agree with the keys (entity.eid may have been assigned). *)
Definition entities_ok (c : coref) : Prop := NoDup (entities c) /\ forall e, In e (entities c) -> (e < e_next c)%nat.
(** Only ids are changed. *)
Definition same_but_ids (c c' : coref) : Prop :=
  co_doc c' = co_doc c /\ co_h c' = co_h c /\ co_tree c' = co_tree c /\ m_next c' = m_next c /\ e_next c' = e_next c /\
  m_words c' = m_words c /\ m_head c' = m_head c /\ m_ent c' = m_ent c /\ e_type c' = e_type c /\ e_ments c' = e_ments c /\ n_ments c' = n_ments c.
(** The entities of several documents together. *)
Definition total_entities (docs : list coref) : nat := fold_right (fun c n => (length (entities c) + n)%nat) O docs.
(** The id begins with NOCOREF. *)
Definition nocoref (x : str) : Prop := exists y, x = s "NOCOREF" ++ y.
(** node.coref_mentions is in the order of the mentions. *)
Definition nodes_in_order (c : coref) : Prop :=
  forall w pre m n post, n_ments c w = pre ++ m :: n :: post -> mention_lt c n m <> Ok true.
(** Every mention listed at a node belongs to an entity of the document. *)
Definition nodes_known (c : coref) : Prop := forall w m, In m (n_ments c w) -> In (m_ent c m) (entities c).
(** An entity that is not of this kind *)
Definition some_coref (c : coref) : Prop := exists x e, In (x, e) (eids c) /\ ~ nocoref x.
