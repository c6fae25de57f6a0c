(** Specification of moving words between trees. *)
From Coq Require Import String List NArith ZArith Bool Sorted.
From Verif Require Import PyStr PyList PyExn TreeModel TreeSpec DocModel.
Import ListNotations.

(** A consistent tree, except that the ords may have gaps: they only increase. *)
Record consistent_with_gaps (h : heap) (r : nat) : Prop := {
  g_once : NoDup (h_desc h r);
  g_rootout : ~ In r (h_desc h r);
  g_ords : StronglySorted (fun a b => (h_ord h a < h_ord h b)%Z) (r :: h_desc h r);
  g_parents : forall x, In x (h_desc h r) -> exists p, h_par h x = Some p /\ live h r p;
  g_top : h_par h r = None;
  g_children : forall y, live h r y -> h_ch h y = filter (has_parent h y) (h_desc h r);
  g_connected : forall x, In x (h_desc h r) -> up h x r;
  g_roots : forall y, live h r y -> h_root h y = r;
  g_kinds : (forall x, In x (h_desc h r) -> h_kind h x = KNode) /\ h_kind h r = KRoot;
  g_alloc : forall y, live h r y -> y < h_next h
}.

(** Are the words given as the argument all words of the tree r? *)
Definition all_words (h : heap) (r : nat) (nodes : list nat) : Prop := incl (h_desc h r) nodes.
(** The words moved are the last words of the tree r. *)
Definition final_words (h : heap) (r : nat) (nodes : list nat) : Prop :=
  exists stay moved, h_desc h r = stay ++ moved /\ (forall w, In w stay -> ~ In w nodes) /\ incl moved nodes.
(** The last of the given words (in word order) belongs to no multi-word token. *)
Definition last_free (d : doc) (r : nat) (nodes : list nat) : Prop :=
  forall w, last_opt (filter (fun w => mem w nodes) (h_desc (d_h d) r)) = Some w -> d_mwt d w = None.
