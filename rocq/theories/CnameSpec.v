(** What ud.FixCompoundName works on, independently of its code. *)
From Coq Require Import String List NArith ZArith Bool.
From Verif Require Import PyStr PyList PyExn TreeModel TreeSpec DeprelModel RehangModel.
Import ListNotations.

Definition propn (st : lst) (x : nat) : Prop := l_upos st x = Some (s "PROPN").
(** A word of the tree r that is a proper noun attached as a compound (with any subtype) to the proper noun p. *)
Definition compound_of (r : nat) (st : lst) (p x : nat) : Prop :=
  In x (h_desc (l_heap st) r) /\ propn st p /\ propn st x /\ h_par (l_heap st) x = Some p /\ udep st x = Some (s "compound").
(** y belongs to the name of p: p and its compounds. *)
Definition in_name (r : nat) (st : lst) (p y : nat) : Prop := (y = p /\ propn st p) \/ compound_of r st p y.
(** The form contains a digit. *)
Definition with_digit (digit : N -> bool) (form : nat -> str) (y : nat) : Prop := exists c, In c (form y) /\ digit c = true.
(** The name of p contains a number. *)
Definition numbered digit form (r : nat) (st : lst) (p : nat) : Prop := exists y, in_name r st p y /\ with_digit digit form y.
(** h is the first word of the name of p. *)
Definition first_of_name (r : nat) (st : lst) (p h : nat) : Prop :=
  in_name r st p h /\ forall y, in_name r st p y -> y <> h -> (h_ord (l_heap st) h < h_ord (l_heap st) y)%Z.
