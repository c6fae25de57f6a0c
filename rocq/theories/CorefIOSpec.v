(** Specification of storing coreference in MISC and loading it again. *)
From Coq Require Import String List NArith ZArith Bool Sorting.Permutation.
From Verif Require Import PyStr PyList PyExn TreeModel TreeSpec EmptySpec DualDictModel BundleModel BundleSpec CorefModel CorefSpec CorefIOModel.
Import ListNotations.

(** A document with the same trees and the same MISC, in which nothing has been loaded yet. *)
Definition reread (x : corefs) : corefs :=
  let c := cs_c x in
  mkCs (mkCo (co_doc c) (co_h c) (co_tree c) 0 0 (fun _ => []) (fun _ => 0) (fun _ => 0) (fun _ => []) (fun _ => None) (fun _ => [])
             (fun _ => []) []) (fun _ => []) (cs_misc x).

(** ---- pieces of a mention ---- *)
(** The maximal runs of words of the mention m in its tree: one if it is continuous. *)
Definition pieces (c : coref) (m : nat) (rs : list (list nat)) : Prop :=
  exists l, word_order (co_h c) (h_root (co_h c) (m_head c m)) l /\ maximal_runs (fun w => In w (m_words c m)) l rs.
Definition discontinuous (c : coref) (m : nat) : Prop := exists p q rs, pieces c m (p :: q :: rs).
Definition starts (p : list nat) (x : nat) : Prop := exists l, p = x :: l.
Definition ends (p : list nat) (x : nat) : Prop := exists l, p = l ++ [x].
(** p starts first, q starts inside p and ends after it *)
Definition crossing (c : coref) (d : nat) (p q : list nat) : Prop :=
  exists a b u v, starts p a /\ ends p b /\ starts q u /\ ends q v /\ node_before c d a u /\ node_before c d u b /\ node_before c d b v.
(** All of p is before all of q. *)
Definition all_before (c : coref) (d : nat) (p q : list nat) : Prop :=
  forall a b, In a p -> In b q -> node_before c d a b.

(** ---- texts ---- *)
Definition without (chars : str) (x : str) : Prop := forall a, In a x -> ~ In a chars.
Definition good_id (x : str) : Prop := x <> [] /\ ~ has_forbidden x /\ without (s "[") x /\ forall y, x <> y ++ s "]".
Definition good_type (t : option str) : Prop := match t with None => True | Some t => without (s "-()") t end.
Definition reserved : list str := [s "eid"; s "etype"; s "head"; s "other"].
Definition good_other (d : dict) : Prop :=
  NoDup (map fst d) /\
  forall k v, In (k, v) d -> k <> [] /\ ~ In k reserved /\ without (s "-(),:") k /\
    match v with
    | VTrue => True
    | VNone => False
    | VStr v => without (s "-(),") v
    end.

(** ---- the documents that survive ---- *)
(** [roots] are the roots of the trees of the document d, in its order. *)
Definition document_roots (c : coref) (d : nat) (roots : list nat) : Prop :=
  map (co_tree c) roots = flat_map (b_trees (co_doc c)) (d_bundles (co_doc c) d) /\ forall r, In r roots -> good_tree (co_h c) r.
(** m is a mention of an entity of the document *)
Definition doc_mention (c : coref) (m : nat) : Prop := exists x e, In (x, e) (eids c) /\ In m (e_ments c e).
Record storable (x : corefs) (d : nat) (z : str) (roots : list nat) : Prop := {
  st_trees : trees_of_document (cs_c x);
  st_roots : document_roots (cs_c x) d roots;
  st_linked : linked (cs_c x);
  (* ids of entities: keys of the table, without special characters *)
  st_unique : ids_unique (cs_c x);
  st_ids : forall k e, In (k, e) (eids (cs_c x)) -> good_id k;
  st_types : forall k e, In (k, e) (eids (cs_c x)) -> good_type (e_type (cs_c x) e);
  st_other : forall m, doc_mention (cs_c x) m -> good_other (cs_other x m);
  (* there is an entity, and each has a mention *)
  st_some : eids (cs_c x) <> [];
  st_used : forall k e, In (k, e) (eids (cs_c x)) -> e_ments (cs_c x) e <> [];
  (* words are in one zone of the document and in word order *)
  st_placed : forall m w, doc_mention (cs_c x) m -> In w (m_words (cs_c x) m) -> placed_node (cs_c x) d z w;
  st_words : forall m, doc_mention (cs_c x) m -> increasing (co_h (cs_c x)) (m_words (cs_c x) m);
  (* mentions of one entity: they are different, their pieces do not cross, discontinuous ones come one after another *)
  st_differ : forall m n, doc_mention (cs_c x) m -> doc_mention (cs_c x) n -> m_ent (cs_c x) m = m_ent (cs_c x) n ->
    m_words (cs_c x) m = m_words (cs_c x) n -> m = n;
  st_cross : forall m n p q rs rs', doc_mention (cs_c x) m -> doc_mention (cs_c x) n -> m_ent (cs_c x) m = m_ent (cs_c x) n ->
    pieces (cs_c x) m rs -> pieces (cs_c x) n rs' -> In p rs -> In q rs' -> ~ crossing (cs_c x) d p q;
  st_discontinuous : forall m n, doc_mention (cs_c x) m -> doc_mention (cs_c x) n -> m_ent (cs_c x) m = m_ent (cs_c x) n -> m <> n ->
    discontinuous (cs_c x) m -> discontinuous (cs_c x) n ->
    all_before (cs_c x) d (m_words (cs_c x) m) (m_words (cs_c x) n) \/ all_before (cs_c x) d (m_words (cs_c x) n) (m_words (cs_c x) m)
}.

(** ---- what is kept ---- *)
Definition same_mapping (a b : dict) : Prop := forall k, dict_get a k = dict_get b k.
Definition same_mention (x y : corefs) (m n : nat) : Prop :=
  m_words (cs_c y) n = m_words (cs_c x) m /\ m_head (cs_c y) n = m_head (cs_c x) m /\
  same_mapping (cs_other y n) (cs_other x m).
(** No type and the empty type are written in the same way. *)
Definition type_text (t : option str) : str := match t with None => [] | Some t => t end.
(** y has the entities and the mentions of x. *)
Record same_coref (x y : corefs) (d : nat) : Prop := {
  sc_ids : Permutation (map fst (eids (cs_c y))) (map fst (eids (cs_c x)));
  sc_types : forall k e f, In (k, e) (eids (cs_c x)) -> In (k, f) (eids (cs_c y)) -> type_text (e_type (cs_c y) f) = type_text (e_type (cs_c x) e);
  (* entity.mentions, up to the order; the list in y is sorted *)
  sc_mentions : forall k e f, In (k, e) (eids (cs_c x)) -> In (k, f) (eids (cs_c y)) ->
    sorted_mentions (cs_c y) d (e_ments (cs_c y) f) /\
    exists l, Permutation l (e_ments (cs_c x) e) /\ Forall2 (same_mention x y) l (e_ments (cs_c y) f);
  (* the keys of the table are the ids; entities, mentions and nodes are linked both ways *)
  sc_unique : ids_unique (cs_c y);
  sc_linked : linked (cs_c y);
  sc_nodes : co_doc (cs_c y) = co_doc (cs_c x) /\ co_h (cs_c y) = co_h (cs_c x) /\ co_tree (cs_c y) = co_tree (cs_c x)
}.

(** ---- for the documents that do not survive ---- *)
Definition survives (lower : str -> str) (x : corefs) (d : nat) (roots : list nat) : Prop :=
  exists x1 x2, store_coref lower x roots = (x1, Ok tt) /\ load_coref (reread x1) roots = (x2, Ok tt) /\ same_coref x x2 d.
(** What any history of calls gives, see C33 and C65, with words of one zone in word order. *)
Definition sound (x : corefs) (d : nat) (z : str) (roots : list nat) : Prop :=
  trees_of_document (cs_c x) /\ document_roots (cs_c x) d roots /\ linked (cs_c x) /\ ids_unique (cs_c x) /\
  forall m, doc_mention (cs_c x) m -> increasing (co_h (cs_c x)) (m_words (cs_c x) m) /\
    forall w, In w (m_words (cs_c x) m) -> placed_node (cs_c x) d z w.
Definition all_used (x : corefs) : Prop := eids (cs_c x) <> [] /\ forall k e, In (k, e) (eids (cs_c x)) -> e_ments (cs_c x) e <> [].
Definition good_ids (x : corefs) : Prop := forall k e, In (k, e) (eids (cs_c x)) -> good_id k.
Definition good_types (x : corefs) : Prop := forall k e, In (k, e) (eids (cs_c x)) -> good_type (e_type (cs_c x) e).
Definition no_other (x : corefs) : Prop := forall m, doc_mention (cs_c x) m -> cs_other x m = [].
(** Mentions of one entity have different words. *)
Definition differ (x : corefs) : Prop := forall m n, doc_mention (cs_c x) m -> doc_mention (cs_c x) n -> m_ent (cs_c x) m = m_ent (cs_c x) n ->
  m_words (cs_c x) m = m_words (cs_c x) n -> m = n.
Definition one_word (x : corefs) : Prop := differ x /\ forall m, doc_mention (cs_c x) m -> length (m_words (cs_c x) m) = 1.
