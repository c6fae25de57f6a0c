(** Model of udapi/block/corefud/mergesamespan.py.
    Simplifications: the warnings are left out; entities are loaded (Document._load_coref). *)
From Coq Require Import String List NArith ZArith Bool.
From Verif Require Import PyStr PyList PyExn TreeModel DepsModel BundleModel CorefModel.
Import ListNotations.

(** sA != sB for sets of words *)
Definition same_set (a b : list nat) : bool := forallb (fun x => mem x b) a && forallb (fun x => mem x a) b.
(** itertools.combinations(l, 2) *)
Fixpoint combinations2 (l : list nat) : list (nat * nat) :=
  match l with
  | [] => []
  | x :: l => map (pair x) l ++ combinations2 l
  end.
(** mergesamespan.py:25-52 the body of the loop *)
Definition merge_pair (same_entity_only : bool) (c : coref) (mA mB : nat) : coref * res unit :=
  if same_entity_only && negb (Nat.eqb (m_ent c mA) (m_ent c mB)) then (c, Ok tt)
  else
    let (mA, mB) := if str_ltb (e_eid c (m_ent c mB)) (e_eid c (m_ent c mA)) then (mB, mA) else (mA, mB) in
    let (c, sA) := words c mA in
    let (c, sB) := words c mB in
    if negb (same_set sA sB) then (c, Ok tt)
    else bind (set_words c mB []) (fun c _ =>
         match list_remove mB (e_ments c (m_ent c mB)) with
         | None => (c, Ok tt)
         | Some l => (put_ements c (m_ent c mB) l, Ok tt)
         end).
Fixpoint merge_pairs (same_entity_only : bool) (c : coref) (l : list (nat * nat)) : coref * res unit :=
  match l with
  | [] => (c, Ok tt)
  | (a, b) :: l => bind (merge_pair same_entity_only c a b) (fun c _ => merge_pairs same_entity_only c l)
  end.
(** mergesamespan.py:19-22 the set of mentions; its elements, in some order *)
Definition tree_mentions (c : coref) (r : nat) : list nat := nodup Nat.eq_dec (flat_map (n_ments c) (descendants_and_empty (co_h c) r)).
(** mergesamespan.py:18-52 process_tree; [mentions] are the elements of the set in the order in which they are iterated *)
Definition merge_same_span (same_entity_only : bool) (c : coref) (mentions : list nat) : coref * res unit :=
  merge_pairs same_entity_only c (combinations2 mentions).
