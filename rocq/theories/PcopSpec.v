(** What ud.FixPseudoCop is for, independently of its code. *)
From Coq Require Import String List NArith ZArith Bool.
From Verif Require Import PyStr PyList PyExn TreeModel TreeSpec DeprelModel RehangModel.
Import ListNotations.

(** The word has one of the given lemmas. *)
Definition listed (lemma : nat -> option str) (lemmas : list str) (x : nat) : Prop :=
  exists l, lemma x = Some l /\ In l lemmas.
(** The word is labelled as a copula (or, if asked for, as an auxiliary), with any subtype. *)
Definition copular (noncopaux : bool) (st : lst) (x : nat) : Prop :=
  udep st x = Some (s "cop") \/ (noncopaux = true /\ udep st x = Some (s "aux")).
(** Labels that move to the verb: those that begin like one of these words. *)
Definition clausal (d : str) : Prop :=
  exists p rest, d = p ++ rest /\
    In p (map s ["nsubj"; "csubj"; "advmod"; "advcl"; "obj"; "iobj"; "obl"; "aux"; "mark"; "punct"; "cc"; "expl";
                 "dislocated"; "vocative"; "discourse"; "parataxis"]%string).
Definition moves (st : lst) (y : nat) : Prop := exists d, udep st y = Some d /\ clausal d.
(** Every word of the tree has a deprel. *)
Definition all_labelled (st : lst) (r : nat) : Prop := forall y, In y (h_desc (l_heap st) r) -> l_dep st y <> None.
(** No word to be fixed is attached to the technical root. *)
Definition none_at_top lemma lemmas noncopaux (st : lst) (r : nat) : Prop :=
  forall x, In x (h_desc (l_heap st) r) -> listed lemma lemmas x -> copular noncopaux st x -> h_par (l_heap st) x <> Some r.
