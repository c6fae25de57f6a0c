(** Specification of tokenization and of SpaceAfter. *)
From Coq Require Import String List NArith ZArith Bool.
From Verif Require Import PyStr PyList PyExn TreeModel DualDictModel DocModel MwtSpec.
Import ListNotations.

(** Whitespace only; no whitespace at all. *)
Definition blank (x : str) : Prop := forall c, In c x -> is_space c = true.
Definition solid (x : str) : Prop := forall c, In c x -> is_space c = false.
(** x is not empty and its first character is not whitespace, or it is empty. *)
Definition starts_solid (x : str) : Prop := match x with [] => True | c :: _ => is_space c = false end.

(** The words of a text: its maximal runs of characters other than whitespace. *)
Inductive words_of : str -> list str -> Prop :=
| wo_none x : blank x -> words_of x []
| wo_last a w : blank a -> w <> [] -> solid w -> words_of (a ++ w) [w]
| wo_more a w c x ws : blank a -> w <> [] -> solid w -> is_space c = true -> words_of (c :: x) ws ->
    words_of (a ++ w ++ c :: x) (w :: ws).

(** The characters of x that are not whitespace. *)
Definition ink (x : str) : str := filter (fun c => negb (is_space c)) x.

(** What the MISC attributes of a word say about the whitespace after it and before it, in the encoding
    of UDPipe: "\s" is a space, "\t" a tab, "\r" and "\n" the line breaks. *)
Fixpoint unescape (x : str) : str :=
  match x with
  | 92%N :: 115%N :: x => 32%N :: unescape x
  | 92%N :: 116%N :: x => 9%N :: unescape x
  | 92%N :: 114%N :: x => 13%N :: unescape x
  | 92%N :: 110%N :: x => 10%N :: unescape x
  | c :: x => c :: unescape x
  | [] => []
  end.
Inductive space_after (m : option dualdict) : str -> Prop :=
| sa_spaces x : x <> [] -> misc_get m (s "SpacesAfter") = VStr x -> space_after m (unescape x)
| sa_no : misc_get m (s "SpacesAfter") = VStr [] -> misc_get m (s "SpaceAfter") = VStr (s "No") -> space_after m []
| sa_default : misc_get m (s "SpacesAfter") = VStr [] -> misc_get m (s "SpaceAfter") = VStr [] -> space_after m (s " ").
Inductive space_before (m : option dualdict) : str -> Prop :=
| sb x : misc_get m (s "SpacesBefore") = VStr x -> space_before m (unescape x).
(** The text that the words encode. *)
Inductive encoded (d : doc) : list nat -> str -> Prop :=
| en_nil : encoded d [] []
| en_cons n l f g x : n_form (d_at d n) = Some f -> space_after (n_misc (d_at d n)) g -> encoded d l x ->
    encoded d (n :: l) (f ++ g ++ x).

(** Nothing but the word forms and the MISC of the words is used: the tree is flat and unlabelled. *)
Definition flat (d : doc) (r : nat) : Prop :=
  forall n, In n (h_desc (d_h d) r) -> h_par (d_h d) n = Some r /\ d_mwt d n = None /\
    exists f m, d_at d n = mkAttrs (Some f) None None None None None m (Some (s "_")) None.

(** A token of tokenize.Simple: a run of characters of the class \w, or one other character. *)
Definition simple_token (wd : char -> bool) (t : str) : Prop :=
  (t <> [] /\ forall c, In c t -> wd c = true) \/ (exists c, t = [c] /\ wd c = false /\ is_space c = false).

(** The text is the forms of the tokens in order with whitespace (possibly none) after each of them; y is
    the same with one space instead of each run of whitespace between tokens. *)
Inductive laid_out (d : doc) : list token -> str -> str -> Prop :=
| lo_last t f g : token_form d t = Some f -> blank g -> laid_out d [t] (f ++ g) f
| lo_joined t ts f x y : token_form d t = Some f -> laid_out d ts x y -> laid_out d (t :: ts) (f ++ x) (f ++ y)
| lo_spaced t ts f c g x y : token_form d t = Some f -> is_space c = true -> blank g -> laid_out d ts x y ->
    laid_out d (t :: ts) (f ++ c :: g ++ x) (f ++ s " " ++ y).
(** A form: not empty, neither the first nor the last character is whitespace. *)
Definition proper_form (d : doc) (t : token) : Prop :=
  exists f, token_form d t = Some f /\ f <> [] /\ starts_solid f /\ starts_solid (rev f).
(** Only SpaceAfter may differ in the MISC of the tokens, everything else is the same. *)
Definition only_space_after (d d' : doc) : Prop :=
  d_h d' = d_h d /\ d_mwt d' = d_mwt d /\ d_mwts d' = d_mwts d /\ d_mnext d' = d_mnext d /\ d_ri d' = d_ri d /\
  (forall x, same_but_misc (d_at d' x) (d_at d x)) /\
  (forall m, m_words (d_m d' m) = m_words (d_m d m) /\ m_form (d_m d' m) = m_form (d_m d m) /\
             m_root (d_m d' m) = m_root (d_m d m)) /\
  (forall t k, k <> s "SpaceAfter" -> misc_get (token_misc d' t) k = misc_get (token_misc d t) k).
