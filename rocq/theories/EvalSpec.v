(** Vocabulary of the properties of eval.F1. *)
From Coq Require Import List.
From Verif Require Import PyStr.
Import ListNotations.

(** [l] is a subsequence of [x]: [x] with some elements left out. *)
Inductive subseq {A} : list A -> list A -> Prop :=
| sub_nil : subseq [] []
| sub_keep a l x : subseq l x -> subseq (a :: l) (a :: x)
| sub_skip a l x : subseq l x -> subseq l (a :: x).

(** [l] is a longest common subsequence of [x] and [y]. *)
Definition longest_common (l x y : list str) : Prop :=
  subseq l x /\ subseq l y /\
  forall l', subseq l' x -> subseq l' y -> length l' <= length l.

(** How often [t] occurs in [l]. *)
Fixpoint occurrences (t : str) (l : list str) : nat :=
  match l with
  | [] => 0
  | x :: l => (if str_eqb x t then 1 else 0) + occurrences t l
  end.

(** The tokens eval.F1 is interested in: all, or those matched by the focus. *)
Definition focused (focus : option (str -> bool)) (t : str) : bool :=
  match focus with None => true | Some f => f t end.
(** [z] aligns a predicted sentence with its gold sentence: it is a common subsequence; without
    focus it is a longest one; its non-focused tokens are a longest common subsequence of the
    non-focused tokens of the two sentences; identical sentences are aligned completely. *)
Record alignment (focus : option (str -> bool)) (z : list str) (pg : list str * list str) : Prop := {
  al_pred : subseq z (fst pg);
  al_gold : subseq z (snd pg);
  al_longest : focus = None -> longest_common z (fst pg) (snd pg);
  al_others : let others := filter (fun t => negb (focused focus t)) in
              longest_common (others z) (others (fst pg)) (others (snd pg));
  al_same : fst pg = snd pg -> z = fst pg }.
