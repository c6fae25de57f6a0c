(** Specification of spans, mentions and entities. *)
From Coq Require Import String List NArith ZArith Bool Sorting.Sorted Sorting.Permutation.
From Verif Require Import PyStr PyList PyExn TreeModel TreeSpec EmptySpec BundleModel BundleSpec CorefModel.
Import ListNotations.
Local Open Scope Z_scope.

(** ---- spans ---- *)

(** A word or an empty node of the tree r. *)
Definition in_tree (h : heap) (r x : nat) : Prop := In x (h_desc h r) \/ In x (h_emp h r).
(** Its position in tenths: word 3 is at 30, empty node 3.1 at 31. *)
Definition position (h : heap) (x : nat) : Z :=
  match h_kind h x with KEmpty => h_eord h x | _ => 10 * h_ord h x end.
Definition increasing (h : heap) (l : list nat) : Prop := StronglySorted (fun a b => position h a < position h b) l.
(** The words and empty nodes of the tree r in word order. *)
Definition word_order (h : heap) (r : nat) (l : list nat) : Prop :=
  increasing h l /\ forall x, In x l <-> in_tree h r x.
(** The ID column: 3 or 3.1 *)
Definition id_text (t : Z) : str :=
  if t mod 10 =? 0 then str_of_Z (t / 10) else str_of_Z (t / 10) ++ s "." ++ str_of_Z (t mod 10).
(** A piece of a span: "3.1" or "3-5". *)
Inductive range_text : Z * Z -> str -> Prop :=
| range_one a : range_text (a, a) (id_text a)
| range_two a b : range_text (a, b) (id_text a ++ s "-" ++ id_text b).
(** [rs] are the maximal runs of consecutive elements of the list that satisfy P. *)
Inductive maximal_runs (P : nat -> Prop) : list nat -> list (list nat) -> Prop :=
| runs_none : maximal_runs P [] []
| runs_skip x l rs : ~ P x -> maximal_runs P l rs -> maximal_runs P (x :: l) rs
| runs_last run : run <> [] -> Forall P run -> maximal_runs P run [run]
| runs_more run y l rs : run <> [] -> Forall P run -> ~ P y -> maximal_runs P l rs -> maximal_runs P (run ++ y :: l) (run :: rs).
(** A run of one node is written as its ID, a longer one as the first and the last ID. *)
Definition run_text (h : heap) (run : list nat) : str :=
  match run with
  | [] => []
  | [x] => id_text (position h x)
  | x :: _ => id_text (position h x) ++ s "-" ++ id_text (position h (last run x))
  end.

(** ---- order of mentions ---- *)

(** The word or empty node x is in a tree of the document d and the zone z. *)
Definition placed_node (c : coref) (d : nat) (z : str) (x : nat) : Prop :=
  let r := h_root (co_h c) x in let t := co_tree c r in
  in_tree (co_h c) r x /\ consistent (co_h c) r /\ good_empties (co_h c) r /\
  exists b, in_document (co_doc c) d b t /\ has_zone (co_doc c) t z.
(** The trees are those of the document; different roots are different trees. *)
Definition trees_of_document (c : coref) : Prop :=
  doc_world (co_doc c) /\ forall r r', co_tree c r = co_tree c r' -> r = r'.
(** x comes before y in the document *)
Definition node_before (c : coref) (d : nat) (x y : nat) : Prop :=
  word_before (co_doc c) d (co_tree c (h_root (co_h c) x), position (co_h c) x)
                           (co_tree c (h_root (co_h c) y), position (co_h c) y).
(** m is a mention of words of the document d and the zone z. *)
Definition placed_mention (c : coref) (d : nat) (z : str) (m : nat) : Prop :=
  m_words c m <> [] /\ forall x, In x (m_words c m) -> placed_node c d z x.
(** The first and the last word of the mention, in the order in which its words are listed. *)
Definition first_word (c : coref) (m x : nat) : Prop := exists l, m_words c m = x :: l.
Definition last_word (c : coref) (m x : nat) : Prop := exists l, m_words c m = l ++ [x].
(** Code point order of strings *)
Inductive str_lt : str -> str -> Prop :=
| str_lt_nil a x : str_lt [] (a :: x)
| str_lt_head a b x y : (a < b)%N -> str_lt (a :: x) (b :: y)
| str_lt_tail a x y : str_lt x y -> str_lt (a :: x) (a :: y).
(** m comes before n: it starts earlier; or it starts at the same word and has more words; or it has the same
    number of words and ends earlier; or it ends at the same word and its entity has a smaller id. *)
Definition mention_before (c : coref) (d : nat) (m n : nat) : Prop :=
  exists fm fn lm ln, first_word c m fm /\ first_word c n fn /\ last_word c m lm /\ last_word c n ln /\
    (node_before c d fm fn \/
     (fm = fn /\ (length (m_words c n) < length (m_words c m))%nat) \/
     (fm = fn /\ length (m_words c m) = length (m_words c n) /\ node_before c d lm ln) \/
     (fm = fn /\ length (m_words c m) = length (m_words c n) /\ lm = ln /\ str_lt (e_eid c (m_ent c m)) (e_eid c (m_ent c n)))).
(** Equal as far as the order is concerned. *)
Definition same_place (c : coref) (m n : nat) : Prop :=
  exists f l, first_word c m f /\ first_word c n f /\ last_word c m l /\ last_word c n l /\
    length (m_words c m) = length (m_words c n) /\ e_eid c (m_ent c m) = e_eid c (m_ent c n).
(** The list is sorted by the order. *)
Definition sorted_mentions (c : coref) (d : nat) (l : list nat) : Prop := StronglySorted (mention_before c d) l.

(** ---- entities and mentions, linked both ways ---- *)

(** m is one of the mentions of its entity *)
Definition listed (c : coref) (m : nat) : Prop := In m (e_ments c (m_ent c m)).
Local Open Scope nat_scope.
Record linked (c : coref) : Prop := {
  (* entity.mentions are exactly the mentions of the entity, each once *)
  lk_ents : forall e m, In m (e_ments c e) -> m_ent c m = e;
  lk_ents_once : forall e, NoDup (e_ments c e);
  (* node.coref_mentions are exactly the mentions that contain the node, each once *)
  lk_nodes : forall w m, In m (n_ments c w) <-> listed c m /\ In w (m_words c m);
  lk_nodes_once : forall w, NoDup (n_ments c w);
  (* the words of a mention: at least one, no repetition, all of one tree, and the head is one of them *)
  lk_words : forall m, listed c m -> m_words c m <> [] /\ NoDup (m_words c m) /\ In (m_head c m) (m_words c m) /\
    forall x, In x (m_words c m) -> h_root (co_h c) x = h_root (co_h c) (m_head c m);
  (* entities, mentions and words have been created *)
  lk_known : forall e m, In m (e_ments c e) -> e < e_next c /\ m < m_next c /\ forall x, In x (m_words c m) -> x < h_next (co_h c)
}.

(** ---- calls ---- *)
Inductive coref_op :=
| CoCreateEntity (eid etype : option str)                                       (* doc.create_coref_entity(eid, etype) *)
| CoEid (e : nat) (x : str)                                                     (* e.eid = x *)
| CoCreate (e : nat) (head : option nat) (ws : list nat) (span : option str)    (* e.create_mention(head, words, span) *)
| CoWords (m : nat) (ws : list nat)                                             (* m.words = ws *)
| CoSpan (m : nat) (x : str)                                                    (* m.span = x *)
| CoReadWords (m : nat)                                                         (* m.words *)
| CoHead (m x : nat)                                                            (* m.head = x *)
| CoEntity (m e : nat)                                                          (* m.entity = e *)
| CoRemove (m : nat)                                                            (* m.remove() *)
| CoSort (e : nat)                                                              (* e.mentions.sort() *)
| CoTree (o : tree_op).                                                         (* an editing call on a tree *)
Definition unit_of {S A} (m : S * res A) : S * res unit :=
  match m with
  | (c, Ok _) => (c, Ok tt)
  | (c, Raise e) => (c, Raise e)
  | (c, Diverge) => (c, Diverge)
  end.
Definition coref_step (c : coref) (o : coref_op) : coref * res unit :=
  match o with
  | CoCreateEntity x t => unit_of (create_entity c x t)
  | CoEid e x => set_eid c e x
  | CoCreate e hd ws sp => unit_of (create_mention c e hd ws sp)
  | CoWords m ws => set_words c m ws
  | CoSpan m x => set_span c m x
  | CoReadWords m => (fst (words c m), Ok tt)
  | CoHead m x => set_head c m x
  | CoEntity m e => set_entity c m e
  | CoRemove m => mention_remove c m
  | CoSort e => bind (sort_mentions c (e_ments c e)) (fun c l => (put_ements c e l, Ok tt))
  | CoTree o => let (h, r) := tree_step (co_h c) o in (put_nodes c h, r)
  end.

(** The state at the beginning: no entities, no mentions. *)
Definition no_coref (c : coref) : Prop :=
  (forall e, e_ments c e = []) /\ (forall w, n_ments c w = []) /\ eids c = [].
(** The tree can be addressed by spans: it is consistent and its empty nodes are. *)
Definition good_tree (h : heap) (r : nat) : Prop := consistent h r /\ good_empties h r.
(** The words exist and are all in the tree of x. *)
Definition words_of_tree (c : coref) (x : nat) (ws : list nat) : Prop :=
  forall w, In w ws -> w < h_next (co_h c) /\ h_root (co_h c) w = h_root (co_h c) x.
(** The calls under which the links are kept: words are given in one tree and there is at least one; a span
    selects at least one node; a mention whose words are set is not removed; moving a mention to another entity
    does not raise. *)
Definition keeps_links (c : coref) (o : coref_op) : Prop :=
  match o with
  | CoCreate e hd ws sp =>
    e < e_next c /\
    (forall x, hd = Some x -> words_of_tree c x (x :: ws) /\
       forall t, sp = Some t -> good_tree (co_h c) (h_root (co_h c) x) /\ span_to_nodes (co_h c) (h_root (co_h c) x) t <> Ok []) /\
    (forall x l, ws = x :: l -> words_of_tree c x ws)
  | CoWords m ws => listed c m /\ ws <> [] /\ words_of_tree c (m_head c m) ws
  | CoSpan m t => listed c m /\ good_tree (co_h c) (h_root (co_h c) (m_head c m)) /\
                  span_to_nodes (co_h c) (h_root (co_h c) (m_head c m)) t <> Ok []
  | CoEntity m e => e < e_next c /\ snd (coref_step c o) = Ok tt
  | _ => True
  end.
Inductive coref_history (c : coref) : coref -> Prop :=
| ch_start : coref_history c c
| ch_step c' o : coref_history c c' -> keeps_links c' o -> coref_history c (fst (coref_step c' o)).
(** Creating entities only *)
Inductive entities_created (c : coref) : coref -> Prop :=
| ec_start : entities_created c c
| ec_step c' x t : entities_created c c' -> entities_created c (fst (create_entity c' x t)).
(** The keys of doc.eid_to_entity are the entity ids and occur once. *)
Definition ids_unique (c : coref) : Prop :=
  NoDup (map fst (eids c)) /\ forall x e, In (x, e) (eids c) -> e_eid c e = x /\ e < e_next c.
(** The id x is in use. *)
Definition used (c : coref) (x : str) : Prop := exists e, In (x, e) (eids c).
(** One of the characters an entity id may not contain. *)
Definition has_forbidden (x : str) : Prop := exists a, In a x /\ In a (PyStr.s "-=| ()" ++ [TAB]).
Definition auto_id (n : nat) : str := PyStr.s "e" ++ str_of_Z (Z.of_nat n).
(** The new entity: an id, no mentions; the others are as before. *)
Definition new_entity (c c' : coref) (x : str) (t : option str) : Prop :=
  let e := e_next c in
  e_eid c' e = x /\ e_type c' e = t /\ e_ments c' e = [] /\ eids c' = eids c ++ [(x, e)] /\ e_next c' = S e /\
  (forall k, k <> e -> e_eid c' k = e_eid c k /\ e_type c' k = e_type c k /\ e_ments c' k = e_ments c k).
