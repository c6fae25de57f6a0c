(** Model of udapi/block/ud/basic2enhanced.py.
    Simplification: the deprels of the nodes are a function beside the tree (None for a node without deprel). *)
From Coq Require Import String List NArith ZArith Bool.
From Verif Require Import PyStr PyList PyExn TreeModel DepsModel.
Import ListNotations.

(** node.parent: node.py:306-309 and, for empty nodes, 1036-1038 *)
Definition parent_of (h : heap) (x : nat) : option nat := if is_empty h x then None else h_par h x.
(** f"{node.deprel}" *)
Definition fmt_deprel (d : option str) : str := match d with Some d => d | None => s "None" end.
(** basic2enhanced.py:22-23 the body of the loop; None.ord is an AttributeError *)
Definition b2e_node (deprel : nat -> option str) (st : dstate) (x : nat) : dstate * res unit :=
  bind (raw_deps st x) (fun st v =>
  if match v with Some v => str_eqb v (s "_") | None => false end then
    match parent_of (s_h st) x with
    | None => (st, Raise AttributeError)
    | Some p => (set_raw_deps st x (Some (str_of_Z (h_ord (s_h st) p) ++ s ":" ++ fmt_deprel (deprel x))), Ok tt)
    end
  else (st, Ok tt)).
Fixpoint b2e_nodes (deprel : nat -> option str) (st : dstate) (l : list nat) : dstate * res unit :=
  match l with
  | [] => (st, Ok tt)
  | x :: l => bind (b2e_node deprel st x) (fun st _ => b2e_nodes deprel st l)
  end.
(** basic2enhanced.py:20-23 process_tree *)
Definition basic2enhanced (deprel : nat -> option str) (st : dstate) (r : nat) : dstate * res unit :=
  b2e_nodes deprel st (descendants_and_empty (s_h st) r).
