(** Model of ud.FixPseudoCop. *)
From Coq Require Import String List NArith ZArith Bool.
From Verif Require Import PyStr PyList PyExn TreeModel DeprelModel RehangModel.
Import ListNotations.

(** node.upos = u *)
Definition set_upos (st : lst) (x : nat) (u : option str) : lst :=
  mkL (l_heap st) (l_dep st) (upd (l_upos st) x u) (l_pproj st).

(** udapi/block/ud/fixpseudocop.py:42 the alternatives of the regular expression *)
Definition clause_labels : list str :=
  map s ["nsubj"; "csubj"; "advmod"; "advcl"; "obj"; "iobj"; "obl"; "aux"; "mark"; "punct"; "cc"; "expl";
         "dislocated"; "vocative"; "discourse"; "parataxis"]%string.

(** udapi/block/ud/fixpseudocop.py:38-43 one child c of the original parent. re.match compares only
    the beginning of the label; it raises TypeError if the label is None. *)
Definition pcop_child (x : nat) (st : lst) (c : nat) : lst * res unit :=
  match udep st c with
  | None => (st, Raise TypeError)
  | Some d => if existsb (fun p => starts_with p d) clause_labels then assign_parent st c (Some x) else (st, Ok tt)
  end.

(** udapi/block/ud/fixpseudocop.py:20-46 process_node. The lemmas of the nodes are never changed, so
    they are an argument; the argument lemmas is the list that __init__ makes by splitting at commas. *)
Definition pcop_node (lemma : nat -> option str) (lemmas : list str) (noncopaux : bool) (st : lst) (x : nat) : lst * res unit :=
  if existsb (ostr_eqb (lemma x)) lemmas then
    if ostr_eqb (udep st x) (s "cop") || noncopaux && ostr_eqb (udep st x) (s "aux") then
      match the_parent st x with
      | Ok p =>
        bind (assign_parent st x (h_par (l_heap st) p)) (fun st _ =>
        let st := set_dep st x (l_dep st p) in
        bind (assign_parent st p (Some x)) (fun st _ =>
        let st := set_dep st p (Some (s "xcomp")) in
        let st := set_upos st x (Some (s "VERB")) in
        for_each (pcop_child x) (children (l_heap st) p) st))
      | Raise e => (st, Raise e)
      | Diverge => (st, Diverge)
      end
    else if noncopaux && ostr_eqb (l_upos st x) (s "AUX") then (set_upos st x (Some (s "VERB")), Ok tt)
    else (st, Ok tt)
  else (st, Ok tt).
(** ud.FixPseudoCop on a tree *)
Definition pcop lemma lemmas noncopaux := each_word (pcop_node lemma lemmas noncopaux).
