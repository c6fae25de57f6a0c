(** Specification of ud.FixMwtSpace. *)
From Coq Require Import String List NArith ZArith Bool.
From Verif Require Import PyStr PyList PyExn TreeModel TreeSpec DualDictModel DocModel MwtSpec.
Import ListNotations.

(** The forms of the words, with a space between each two. *)
Inductive spaced_forms (d : doc) : list nat -> str -> Prop :=
| sf_one x f : n_form (d_at d x) = Some f -> spaced_forms d [x] f
| sf_more x l f g : n_form (d_at d x) = Some f -> spaced_forms d l g -> spaced_forms d (x :: l) (f ++ [SP] ++ g).
(** The token has a space in its form, and the form is that of its words separated by spaces. *)
Definition needless (d : doc) (m : nat) : Prop :=
  exists f, m_form (d_m d m) = Some f /\ In SP f /\ spaced_forms d (m_words (d_m d m)) f.
(** The tokens before and after: needless multi-word tokens are replaced by their words. *)
Inductive unwrapped (d : doc) : list token -> list token -> Prop :=
| un_nil : unwrapped d [] []
| un_word x ts ts' : unwrapped d ts ts' -> unwrapped d (TWord x :: ts) (TWord x :: ts')
| un_keep m ts ts' : ~ needless d m -> unwrapped d ts ts' -> unwrapped d (TMwt m :: ts) (TMwt m :: ts')
| un_drop m ts ts' : needless d m -> unwrapped d ts ts' -> unwrapped d (TMwt m :: ts) (map TWord (m_words (d_m d m)) ++ ts').
(** SpaceAfter of the words of the token says the same as that of the token. *)
Definition same_spacing (d : doc) (m : nat) : Prop :=
  exists l z, m_words (d_m d m) = l ++ [z] /\ (forall x, In x l -> ~ no_space_after d (TWord x)) /\
    (no_space_after d (TWord z) <-> no_space_after d (TMwt m)).
