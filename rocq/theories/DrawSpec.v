(** Specification of drawn trees: how a reader finds the parent of a node in a picture. *)
From Coq Require Import String List NArith ZArith Bool.
From Verif Require Import PyStr PyList TreeModel TreeSpec CorefSpec DrawModel.
Import ListNotations.

(** The character in the given line and column *)
Definition cell (P : list str) (i c : nat) : option char := match nth_error P i with Some l => nth_error l c | None => None end.
Definition is_one_of (a : option char) (l : list char) : Prop := exists x, a = Some x /\ In x l.
(** ┾ ┮ ┶ ╼ *)
Definition node_signs : list char := [cMid; cDown; cUp; cLeaf].
(** The node of line i is drawn in column c. *)
Definition node_at (P : list str) (i c : nat) : Prop :=
  is_one_of (cell P i c) node_signs /\ forall c', c' < c -> ~ is_one_of (cell P i c') node_signs.
(** The picture connects the node in line i with its parent in line j: a horizontal line from the node to the left (possibly
    crossing other lines) ends in a corner or branch, from where a vertical line leads up or down to the parent. *)
Definition shows (P : list str) (i j : nat) : Prop :=
  exists c k, node_at P i c /\ node_at P j k /\ k < c /\
    (forall e, k < e < c -> is_one_of (cell P i e) [cH; cCross]) /\
    ((j < i /\ is_one_of (cell P i k) [cAfter; cBot] /\ forall n, j < n < i -> is_one_of (cell P n k) [cV; cCross; cAfter]) \/
     (i < j /\ is_one_of (cell P i k) [cBefore; cTop] /\ forall n, i < n < j -> is_one_of (cell P n k) [cV; cCross; cBefore])).

(** Characters of the drawing, other than the texts of the nodes *)
Definition drawing : list char := [SPACE; cH; cV; cTop; cBot; cCross; cAfter; cBefore] ++ node_signs.
Definition only_drawing (l : str) : Prop := forall a, In a l -> In a drawing.
(** The line consists of the drawing and the texts, in this order, each once. *)
Inductive has_texts : list str -> str -> Prop :=
| ht_nil g : only_drawing g -> has_texts [] g
| ht_cons g t ts l : only_drawing g -> has_texts ts l -> has_texts (t :: ts) (g ++ t ++ l).
(** The texts of a node: attribute values after a space, separated by spaces; each in a column of its own with layout=align *)
Definition texts_of (o : dopts) (h : heap) (marked : nat -> bool) (values : nat -> list str) (x : nat) : list str :=
  match o_layout o with
  | Align => map (fun j => node_text h marked [nth j (values x) []] x) (seq 0 (o_attrs o))
  | _ => [node_text h marked (values x) x]
  end.
(** The nodes in the picture of the subtree of x: the words of the subtree; with print_empty also the empty nodes of the sentence,
    if x is not the technical root only those between words of the subtree. *)
Definition in_picture (h : heap) (r : nat) (o : dopts) (x y : nat) : Prop :=
  (live h r y /\ in_subtree h y x) \/
  (o_empty o = true /\ In y (h_emp h r) /\
   (x = r \/ exists a b, (live h r a /\ in_subtree h a x) /\ (live h r b /\ in_subtree h b x) /\ (position h a < position h y < position h b)%Z)).
(** The lines of the picture: each node once, in word order *)
Definition picture_rows (h : heap) (r : nat) (o : dopts) (x : nat) (all : list nat) : Prop :=
  increasing h all /\ forall y, In y all <-> in_picture h r o x y.
