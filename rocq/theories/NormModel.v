(** Model of udapi/block/util/normalize.py. *)
From Coq Require Import String List NArith ZArith Bool.
From Verif Require Import PyStr PyList TreeModel DualDictModel.
Import ListNotations.
Local Open Scope Z_scope.

(** normalize.py:27-51 the parameters for sent_id (start_sent_id is an argument of the functions below). *)
Record norm_opts := mkNO { no_prefix : str; no_from_filename : bool; no_reset : bool }.
(** normalize.py:55-69 process_bundle with sent_id=1: the new bundle_id and the next number.  [stem] is
    Path(document.meta["loaded_from"]).stem, [newdoc] tells whether a tree of the bundle has newdoc.
    Simplification: newdoc_from_filename is left out. *)
Definition norm_bundle (o : norm_opts) (stem : str) (next : Z) (newdoc : bool) : Z * str :=
  let next := if no_reset o && newdoc then 1 else next in
  let prefix := if no_from_filename o then stem ++ no_prefix o else no_prefix o in
  (next + 1, prefix ++ str_of_Z next).
(** the bundles of a document *)
Fixpoint norm_bundles (o : norm_opts) (stem : str) (next : Z) (l : list bool) : Z * list str :=
  match l with
  | [] => (next, [])
  | b :: l => let (next, id) := norm_bundle o stem next b in
              let (next, ids) := norm_bundles o stem next l in (next, id :: ids)
  end.
(** the documents of a run; self.next_sent_id is kept between them *)
Fixpoint norm_docs (o : norm_opts) (next : Z) (docs : list (str * list bool)) : list (list str) :=
  match docs with
  | [] => []
  | (stem, l) :: docs => let (next, ids) := norm_bundles o stem next l in ids :: norm_docs o next docs
  end.

(** normalize.py:91-97 process_node, for FEATS or MISC *)
Definition dd_normalize (d : dualdict) : dualdict := mkDD None (dd_dict (deserialize_if_empty d)).

(** normalize.py:76-88 empty_node_ord.  [l] is tree.descendants_and_empty.
    Simplification: ords are in tenths (more than nine empty nodes after a word are outside the model); the deserialisation of
    enhanced dependencies before the change is left out. *)
Fixpoint renumber (h : heap) (node_ord empty_ord : Z) (l : list nat) : heap :=
  match l with
  | [] => h
  | x :: l => if is_empty h x then renumber (put_eord h x (10 * node_ord + (empty_ord + 1))) node_ord (empty_ord + 1) l
              else renumber h (h_ord h x) 0 l
  end.
Definition norm_empty_ords (h : heap) (r : nat) : heap := renumber h 0 0 (descendants_and_empty h r).
