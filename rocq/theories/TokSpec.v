(** Specification for blocks that change the tokenization of a sentence. *)
From Coq Require Import String List NArith ZArith Bool.
From Verif Require Import PyStr PyList PyExn TreeModel TreeSpec DualDictModel DocModel MwtSpec.
Import ListNotations.

(** A sentence as a user expects it: a consistent tree whose multi-word tokens are blocks of consecutive words (MwtSpec),
    with empty nodes that are empty nodes; every word and token has a form. *)
Record sound_sentence (d : doc) (r : nat) : Prop := {
  so_tree : consistent (d_h d) r;
  so_mwts : mwts_agree d;
  so_blocks : contiguous d r;
  so_empty : forall e, In e (h_emp (d_h d) r) -> h_kind (d_h d) e = KEmpty /\ e < h_next (d_h d);
  so_forms : (forall w, In w (h_desc (d_h d) r) -> n_form (d_at d w) <> None) /\
             (forall m, In m (d_mwts d r) -> m_form (d_m d m) <> None)
}.

(** The first, third, fifth, ... member of a list. *)
Fixpoint every_other {A} (l : list A) : list A :=
  match l with
  | [] => []
  | [x] => [x]
  | x :: _ :: l => x :: every_other l
  end.
(** Two words following each other in the sentence. *)
Definition neighbours (d : doc) (r x y : nat) : Prop := exists pre post, h_desc (d_h d) r = pre ++ x :: y :: post.
(** FEATS and MISC values *)
Definition feat (d : doc) (x : nat) (k : str) : val := misc_get (n_feats (d_at d x)) k.
Definition misc_of (d : doc) (x : nat) (k : str) : val := misc_get (n_misc (d_at d x)) k.

(** A feature of the whole token: that of the last word which has it ('' if none has). *)
Fixpoint last_feat (d : doc) (ws : list nat) (k : str) : val :=
  match ws with
  | [] => VStr []
  | w :: ws => match last_feat d ws k with VStr [] => feat d w k | v => v end
  end.
(** FEATS as they come from a file or from assignments, without features that have an empty value. *)
Definition plain_feats (d : doc) (x : nat) : Prop :=
  misc_ok (n_feats (d_at d x)) /\
  forall k, snd (dd_contains (dd_prop (n_feats (d_at d x))) k) = true -> feat d x k <> VStr [] /\ feat d x k <> VNone.

(** ---- ud.JoinAsMwt ---- *)
Section join.
  (** isalpha of a character *)
  Variable alpha : N -> bool.
  (** No space between the words, and letters on both sides. *)
  Definition glued (d : doc) (x y : nat) : Prop :=
    misc_of d x (s "SpaceAfter") = VStr (s "No") /\
    exists f a b g, n_form (d_at d x) = Some (f ++ [a]) /\ n_form (d_at d y) = Some (b :: g) /\ alpha a = true /\ alpha b = true.
  Fixpoint chain (d : doc) (l : list nat) : Prop :=
    match l with
    | x :: (y :: _) as l' => glued d x y /\ chain d l'
    | _ => True
    end.
  Definition ends (d : doc) (x : nat) (ts : list token) : Prop :=
    match ts with TWord y :: _ => ~ glued d x y | _ => True end.
  Definition form_of (d : doc) (x : nat) : str := match n_form (d_at d x) with Some f => f | None => [] end.
  (** The tokens of a sentence before ([d]) and after ([d']): tokens that are multi-word tokens already and words that
      are not glued to a word next to them stay; each longest sequence of at least two words glued to each other becomes
      one multi-word token with the joined form, followed by a space iff the last word was. *)
  Inductive regrouped (d d' : doc) : list token -> list token -> Prop :=
  | rg_nil : regrouped d d' [] []
  | rg_mwt m ts ts' : regrouped d d' ts ts' -> regrouped d d' (TMwt m :: ts) (TMwt m :: ts')
  | rg_word x ts ts' : ends d x ts -> regrouped d d' ts ts' -> regrouped d d' (TWord x :: ts) (TWord x :: ts')
  | rg_join l z m ts ts' : l <> [] -> chain d (l ++ [z]) -> ends d z ts ->
      m_words (d_m d' m) = l ++ [z] -> m_form (d_m d' m) = Some (flat_map (form_of d) (l ++ [z])) ->
      (forall k, misc_get (m_misc (d_m d' m)) k =
         if str_eqb k (s "SpaceAfter") && val_is (misc_of d z (s "SpaceAfter")) (s "No") then VStr (s "No") else VStr []) ->
      regrouped d d' ts ts' -> regrouped d d' (map TWord (l ++ [z]) ++ ts) (TMwt m :: ts').
End join.
(** The attributes but FORM and MISC are the same. *)
Definition same_but_form_misc (a b : attrs) : Prop :=
  n_lemma a = n_lemma b /\ n_upos a = n_upos b /\ n_xpos a = n_xpos b /\
  n_feats a = n_feats b /\ n_deprel a = n_deprel b /\ n_raw_deps a = n_raw_deps b /\ n_deps a = n_deps b.

(** ---- ud.JoinToken ---- *)
(** The word has the MISC attribute (with the value, if one is given). *)
Definition marked (name : str) (value : option str) (d : doc) (x : nat) : Prop :=
  misc_of d x name <> VStr [] /\ match value with Some (c :: v) => misc_of d x name = VStr (c :: v) | _ => True end.
(** [x], the word after [p], is to be joined with it: it is marked, there is no space between them, neither is in a multi-word token. *)
Definition to_join (name : str) (value : option str) (d : doc) (p x : nat) : Prop :=
  marked name value d x /\ d_mwt d p = None /\ d_mwt d x = None /\ misc_of d p (s "SpaceAfter") = VStr (s "No").
Fixpoint linked (J : nat -> nat -> Prop) (l : list nat) : Prop :=
  match l with
  | x :: (y :: _) as l' => J x y /\ linked J l'
  | _ => True
  end.
(** The word before [w] in the list (the root if it is the first one). *)
Fixpoint word_before (l : list nat) (r w : nat) : nat :=
  match l with [] => r | x :: l => if Nat.eqb x w then r else word_before l x w end.
Definition bug (d : doc) (r w : nat) : str :=
  match d_mwt d w, d_mwt d (word_before (h_desc (d_h d) r) r w) with
  | None, None => s "JoiningTokensWithSpaceNotSupported"
  | _, _ => s "JoiningTokenNotSupportedHere"
  end.
(** A word of the result ([a] in [d']) which replaces the words [g] of [d], the first of which it was. *)
Record joined_word (name : str) (value : option str) (d : doc) (r w : nat) (g : list nat) (a : attrs) : Prop := {
  jw_form : n_form a = Some (flat_map (form_of d) g);
  jw_space : misc_get (n_misc a) (s "SpaceAfter") = misc_of d (last g w) (s "SpaceAfter");
  jw_same : n_lemma a = n_lemma (d_at d w) /\ n_upos a = n_upos (d_at d w) /\ n_xpos a = n_xpos (d_at d w) /\
            n_feats a = n_feats (d_at d w) /\ n_raw_deps a = n_raw_deps (d_at d w) /\ n_deps a = n_deps (d_at d w);
  jw_misc : forall k, k <> s "SpaceAfter" -> k <> s "Bug" -> misc_get (n_misc a) k = misc_of d w k;
  jw_unmarked : ~ marked name value d w -> misc_get (n_misc a) (s "Bug") = misc_of d w (s "Bug");
  jw_marked : marked name value d w -> misc_get (n_misc a) (s "Bug") = VStr (bug d r w)
}.
