(** Specification of ud.Basic2Enhanced. *)
From Coq Require Import String List NArith ZArith Bool.
From Verif Require Import PyStr PyList PyExn TreeModel TreeSpec DepsModel DepsSpec.
Import ListNotations.

(** the DEPS column of the node is an underscore *)
Definition unfilled (st : dstate) (x : nat) : Prop := snd (raw_deps st x) = Ok (Some (s "_")).
(** the DEPS column of the node can be computed *)
Definition readable (st : dstate) (x : nat) : Prop := exists v, snd (raw_deps st x) = Ok v.
(** the text of a deprel that may be missing *)
Definition label (d : option str) : str := match d with Some d => d | None => s "None" end.
(** p is one of the enhanced heads of x *)
Definition enhanced_head (st : dstate) (x p : nat) : Prop := exists l d, snd (deps st x) = Ok (DList l) /\ In (p, d) l.
(** x is reachable from r in the enhanced graph *)
Inductive reachable (st : dstate) (r : nat) : nat -> Prop :=
| reach_root : reachable st r r
| reach_step x p : enhanced_head st x p -> reachable st r p -> reachable st r x.
