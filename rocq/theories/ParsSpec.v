(** Specification of attachment scores. *)
From Coq Require Import String List NArith ZArith Bool.
From Verif Require Import PyStr PyList PyExn TreeModel TreeSpec DeprelModel RehangModel ParsModel.
Import ListNotations.
Local Open Scope Z_scope.

(** n elements of the list have the property *)
Inductive number {A} (P : A -> Prop) : list A -> Z -> Prop :=
| num_none : number P [] 0
| num_yes x l n : P x -> number P l n -> number P (x :: l) (n + 1)
| num_no x l n : ~ P x -> number P l n -> number P (x :: l) n.
(** The parents of x and y have the same position (the root has 0). *)
Definition same_head (st : lst) (xy : nat * nat) : Prop :=
  exists p q, h_par (l_heap st) (fst xy) = Some p /\ h_par (l_heap st) (snd xy) = Some q /\ h_ord (l_heap st) p = h_ord (l_heap st) q.
Definition same_deprel (st : lst) (xy : nat * nat) : Prop := same_head st xy /\ l_dep st (fst xy) = l_dep st (snd xy).
Definition same_udeprel (st : lst) (xy : nat * nat) : Prop := same_head st xy /\ udep st (fst xy) = udep st (snd xy).
(** The i-th word of the one tree with the i-th word of the other tree; a gold tree is not compared with itself. *)
Definition words_of (st : lst) (tg : nat * nat) : list (nat * nat) :=
  if Nat.eqb (fst tg) (snd tg) then [] else combine (h_desc (l_heap st) (fst tg)) (h_desc (l_heap st) (snd tg)).
Definition compared (st : lst) (l : list (nat * nat)) : list (nat * nat) := flat_map (words_of st) l.
(** Trees with the same number of words *)
Definition comparable (st : lst) (tg : nat * nat) : Prop :=
  consistent (l_heap st) (fst tg) /\ consistent (l_heap st) (snd tg) /\ length (h_desc (l_heap st) (fst tg)) = length (h_desc (l_heap st) (snd tg)).
