(** Specification of enhanced dependencies. *)
From Coq Require Import String List NArith ZArith Bool.
From Verif Require Import PyStr PyList PyExn TreeModel TreeSpec EmptySpec DepsModel.
Import ListNotations.

(** p is a node of the tree r: the root, a word or an empty node. *)
Definition any_node (h : heap) (r p : nat) : Prop := live h r p \/ In p (h_emp h r).

(** The DEPS column for a list of heads and labels: ID:label, separated by bars. *)
Fixpoint deps_column (h : heap) (l : list (nat * str)) : str :=
  match l with
  | [] => []
  | [(p, d)] => id_str h p ++ s ":" ++ d
  | (p, d) :: l => id_str h p ++ s ":" ++ d ++ s "|" ++ deps_column h l
  end.

(** Heads and labels that a DEPS column can express. *)
Definition expressible (h : heap) (r : nat) (l : list (nat * str)) : Prop :=
  l <> [] /\ forall p d, In (p, d) l -> any_node h r p /\ ~ In 124%N d.

(** The string [head] is the ID of the node p of the tree r: either the ID of an empty node, or an
    integer literal (as Python's int accepts it) whose value is p's ord. *)
Definition denotes (h : heap) (r : nat) (head : str) (p : nat) : Prop :=
  (In 46%N head /\ In p (h_emp h r) /\ id_str h p = head) \/
  (~ In 46%N head /\ live h r p /\ py_int head = Some (h_ord h p)).
(** The piece is ID:label of a node. *)
Definition piece_of (h : heap) (r : nat) (piece : str) (pd : nat * str) : Prop :=
  exists head, piece = head ++ s ":" ++ snd pd /\ ~ In 58%N head /\ denotes h r head (fst pd).
(** The head of the piece is a negative number (accepted by Python's indexing). *)
Definition negative_head (piece : str) : Prop :=
  exists head d z, piece = head ++ s ":" ++ d /\ ~ In 58%N head /\ py_int head = Some z /\ (z < 0)%Z.

(** Empty node e has an empty node of the next word that its removal turns into an integer. *)
Definition blocked (h : heap) (r e : nat) : Prop :=
  (2 <= h_eord h e mod 10)%Z /\ taken h r (10 * (h_eord h e / 10 + 1) + 1)%Z.
