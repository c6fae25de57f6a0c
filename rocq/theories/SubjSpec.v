(** Specification of subjects. *)
From Coq Require Import String List NArith ZArith Bool.
From Verif Require Import PyStr PyList PyExn TreeModel TreeSpec RehangModel.
Import ListNotations.

(** nsubj, csubj or a subtype *)
Definition subject (d : str) : Prop :=
  d = s "nsubj" \/ d = s "csubj" \/ exists t, d = s "nsubj:" ++ t \/ d = s "csubj:" ++ t.
Definition outer (d : str) : Prop := exists t, d = t ++ s ":outer".
(** The word x is a subject that counts. *)
Definition counts (st : lst) (x : nat) : Prop := exists d, l_dep st x = Some d /\ subject d /\ ~ outer d.
(** The word x is a subject of a word that has another subject before x. *)
Definition late_subject (st : lst) (r x : nat) : Prop :=
  counts st x /\ exists p y, In p (h_desc (l_heap st) r) /\ h_par (l_heap st) x = Some p /\ h_par (l_heap st) y = Some p /\
    In x (h_desc (l_heap st) r) /\ In y (h_desc (l_heap st) r) /\ (h_ord (l_heap st) y < h_ord (l_heap st) x)%Z /\ counts st y.
(** All words of the tree have a label, without line breaks. *)
Definition labelled (st : lst) (r : nat) : Prop := forall x, In x (h_desc (l_heap st) r) -> exists d, l_dep st x = Some d /\ ~ In LF d.
