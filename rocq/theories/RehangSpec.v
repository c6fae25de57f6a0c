(** What it means that a block only re-attached words inside one tree. *)
From Coq Require Import String List NArith ZArith Bool.
From Verif Require Import PyStr PyList PyExn TreeModel TreeSpec DeprelModel RehangModel.
Import ListNotations.

(** The tree r is still consistent, has the same words in the same order, and nothing
    outside the tree was touched. *)
Record rehung (h h' : heap) (r : nat) : Prop := {
  rh_consistent : consistent h' r;
  rh_words : h_desc h' r = h_desc h r;
  rh_next : h_next h' = h_next h;
  rh_frame : forall y, y < h_next h -> ~ live h r y -> same_object h h' y
}.
(** Every word now hangs on its old parent or on a former ancestor. *)
Definition lifted (h h' : heap) (r : nat) : Prop :=
  forall x p, In x (h_desc h r) -> h_par h' x = Some p -> up h x p.
(** No label changed. *)
Definition same_labels (st st' : lst) : Prop :=
  forall x, l_dep st' x = l_dep st x /\ l_upos st' x = l_upos st x /\ l_pproj st' x = l_pproj st x.
