(** Model of udapi/core/block.py: which bundles, trees and nodes a block visits, and in which order.
    The methods a subclass overrides are arbitrary state transformers; every call of one is recorded.
    Python list objects that are iterated while user code runs are kept in the state, so that in-place changes
    are seen by the running loop and rebinding an attribute is not.
    Left out: the default process_bundle, process_tree and process_coref_entity (reached only through super()),
    and logging. *)
From Coq Require Import String List NArith ZArith Bool.
From Verif Require Import PyStr PyList PyExn TreeModel.
Import ListNotations.

Inductive call := CEntity (e : nat) | CMention (m : nat) | CBundle (b : nat) | CTree (t : nat) | CNode (n : nat) | CEmpty (n : nat).

(** What block.py reads of a document. *)
Record docst := mkD {
  o_list : nat -> list nat;      (* the list objects *)
  o_next : nat;                  (* the next list object *)
  o_doc : nat;                   (* document.bundles: a list object *)
  o_bundle : nat -> nat;         (* bundle.trees: a list object *)
  o_up : nat -> nat;             (* tree.bundle *)
  o_zone : nat -> option str;    (* tree.zone *)
  o_words : nat -> list nat;     (* tree.descendants, a copy on each access (root.py:126) *)
  o_emp : nat -> list nat;       (* tree.empty_nodes, the live list *)
  o_ents : list nat;             (* document.coref_entities, a copy (document.py:146) *)
  o_ment : nat -> list nat;      (* entity.mentions, the live list (coref.py:353) *)
  o_calls : list call            (* the calls made so far *)
}.
Definition record (w : docst) (c : call) : docst :=
  mkD (o_list w) (o_next w) (o_doc w) (o_bundle w) (o_up w) (o_zone w) (o_words w) (o_emp w) (o_ents w) (o_ment w) (o_calls w ++ [c]).

Definition method := nat -> docst -> docst * res unit.
(** A block: its parameters and the methods it overrides. *)
Record block := mkB {
  p_zones : str; p_if_empty : str;
  m_entity : option method; m_mention : option method; m_bundle : option method;
  m_tree : option method; m_node : option method; m_empty : option method
}.

(** for x in l: body(x), where l is a copy nobody changes *)
Fixpoint each (body : method) (l : list nat) (w : docst) : docst * res unit :=
  match l with
  | [] => (w, Ok tt)
  | x :: l => bind (body x w) (fun w _ => each body l w)
  end.
(** for x in l: body(x), where [get] gives the present content of the list object l *)
Fixpoint live (fuel : nat) (get : docst -> list nat) (body : method) (i : nat) (w : docst) : docst * res unit :=
  match nth_error (get w) i with
  | None => (w, Ok tt)
  | Some x => match fuel with
              | O => (w, Diverge)
              | S fuel => bind (body x w) (fun w _ => live fuel get body (S i) w)
              end
  end.
Definition object (o : nat) (w : docst) : list nat := o_list w o.

(** root.py:150 Root.remove *)
Definition root_remove (w : docst) (t : nat) : docst :=
  let b := o_up w t in
  mkD (upd (o_list w) (o_next w) (filter (fun x => negb (Nat.eqb x t)) (o_list w (o_bundle w b)))) (S (o_next w)) (o_doc w)
      (upd (o_bundle w) b (o_next w)) (o_up w) (o_zone w) (o_words w) (o_emp w) (o_ents w) (o_ment w) (o_calls w).

Definition str_in (x : str) (l : list str) : bool := existsb (str_eqb x) l.
(** block.py:145-166 _should_process_tree *)
Definition should_process (B : block) (t : nat) (w : docst) : docst * res bool :=
  if negb (str_eqb (p_if_empty B) (s "process")) && negb (nonempty (o_words w t)) then
    if str_eqb (p_if_empty B) (s "skip") then (w, Ok false)
    else if str_eqb (p_if_empty B) (s "delete") then (root_remove w t, Ok false)
    else if str_eqb (p_if_empty B) (s "skip_warn") then (w, Ok false)
    else if str_eqb (p_if_empty B) (s "fail") then (w, Raise RuntimeError)
    else (w, Raise ValueError)
  else if str_eqb (p_zones B) (s "all") then (w, Ok true)
  else match o_zone w t with
       | Some z => (w, Ok ((str_eqb (p_zones B) [] && str_eqb z []) || str_in z (split 44%N (p_zones B))))
       | None => (w, Ok false)
       end.

(** Calling an overridden method *)
Definition invoke (c : nat -> call) (m : method) : method := fun x w => m x (record w (c x)).
(** block.py:115-124 one tree *)
Definition visit_tree (fuel : nat) (B : block) : method := fun t w =>
  bind (should_process B t w) (fun w yes =>
    if negb yes then (w, Ok tt)
    else match m_tree B with
         | Some m => invoke CTree m t w
         | None =>
           bind (match m_node B with Some m => each (invoke CNode m) (o_words w t) w | None => (w, Ok tt) end) (fun w _ =>
             match m_empty B with Some m => live fuel (fun w => o_emp w t) (invoke CEmpty m) 0 w | None => (w, Ok tt) end)
         end).
(** block.py:107-114 one bundle *)
Definition visit_bundle (fuel : nat) (B : block) : method := fun b w =>
  match m_bundle B with
  | Some m => invoke CBundle m b w
  | None => live fuel (object (o_bundle w b)) (visit_tree fuel B) 0 w
  end.
(** block.py:96-102 one entity *)
Definition visit_entity (fuel : nat) (B : block) : method := fun e w =>
  match m_entity B with
  | Some m => invoke CEntity m e w
  | None => match m_mention B with
            | Some m => live fuel (fun w => o_ment w e) (invoke CMention m) 0 w
            | None => (w, Ok tt)
            end
  end.
Definition is_some {A} (o : option A) : bool := match o with Some _ => true | None => false end.
(** block.py:76-124 process_document *)
Definition process_document (fuel : nat) (B : block) (w : docst) : docst * res unit :=
  if negb (is_some (m_entity B) || is_some (m_mention B) || is_some (m_bundle B) || is_some (m_tree B) || is_some (m_node B) || is_some (m_empty B))
  then (w, Raise RuntimeError)
  else
    bind (if is_some (m_entity B) || is_some (m_mention B) then each (visit_entity fuel B) (o_ents w) w else (w, Ok tt)) (fun w _ =>
      if is_some (m_bundle B) || is_some (m_tree B) || is_some (m_node B) || is_some (m_empty B)
      then live fuel (object (o_doc w)) (visit_bundle fuel B) 0 w
      else (w, Ok tt)).
