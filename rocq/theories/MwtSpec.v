(** Specification for multi-word tokens. *)
From Coq Require Import String List NArith ZArith Bool.
From Verif Require Import PyStr PyList PyExn TreeModel TreeSpec DualDictModel DualDictSpec DocModel.
Import ListNotations.

(** node.multiword_token, mwt.words and root.multiword_tokens say the same. *)
Record mwts_agree (d : doc) : Prop := {
  (* no MWT is listed twice *)
  ma_once : forall r, NoDup (d_mwts d r);
  (* a listed MWT is a token of that tree and all its words know it *)
  ma_listed : forall r m, In m (d_mwts d r) -> m_root (d_m d m) = r /\
                forall w, In w (m_words (d_m d m)) -> d_mwt d w = Some m;
  (* the MWT of a word is listed and has that word *)
  ma_known : forall w m, d_mwt d w = Some m ->
                In m (d_mwts d (m_root (d_m d m))) /\ In w (m_words (d_m d m))
}.

(** Everything that can be built by creating trees, any changes of structure (creating,
    attaching, moving, removing nodes) and of attributes, create_multiword_token with
    existing nodes (also when it raises) and remove of the MWTs listed in their tree. *)
Inductive mwt_world : doc -> Prop :=
| mw_start : mwt_world doc0
| mw_root d : mwt_world d -> mwt_world (fst (doc_new_root d))
| mw_structure d h : mwt_world d -> h_next (d_h d) <= h_next h -> mwt_world (with_h d h)
| mw_attrs d f g : mwt_world d -> mwt_world (mkDoc (d_h d) f (d_mwt d) (d_mwts d) (d_m d) (d_mnext d) g)
| mw_create d r words form misc : mwt_world d -> r < h_next (d_h d) ->
    (forall w, In w words -> w < h_next (d_h d)) ->
    mwt_world (fst (create_multiword_token d r words form misc))
| mw_remove d m : mwt_world d -> In m (d_mwts d (m_root (d_m d m))) -> mwt_world (fst (mwt_remove d m)).

(** m has a word among the given ones *)
Definition overlaps (d : doc) (words : list nat) (m : nat) : bool :=
  existsb (fun w => mem w words) (m_words (d_m d m)).

(** Words of a token. *)
Definition token_words (d : doc) (t : token) : list nat :=
  match t with TWord x => [x] | TMwt m => m_words (d_m d m) end.
Definition token_form (d : doc) (t : token) : option str :=
  match t with TWord x => n_form (d_at d x) | TMwt m => m_form (d_m d m) end.
Definition token_misc (d : doc) (t : token) : option dualdict :=
  match t with TWord x => n_misc (d_at d x) | TMwt m => m_misc (d_m d m) end.

(** The MWTs of the tree r are non-empty blocks of consecutive words, in word order. *)
Definition contiguous (d : doc) (r : nat) : Prop :=
  (forall m, In m (d_mwts d r) -> m_words (d_m d m) <> [] /\
     exists pre post, h_desc (d_h d) r = pre ++ m_words (d_m d m) ++ post) /\
  (forall w m, In w (h_desc (d_h d) r) -> d_mwt d w = Some m -> m_root (d_m d m) = r).

(** The printed text of a token: its form and a space unless SpaceAfter=No. *)
Definition no_space_after (d : doc) (t : token) : Prop :=
  misc_get (token_misc d t) (s "SpaceAfter") = VStr (s "No").
Inductive printed (d : doc) : list token -> str -> Prop :=
| pr_nil : printed d [] []
| pr_space t ts f x : token_form d t = Some f -> ~ no_space_after d t -> printed d ts x ->
    printed d (t :: ts) (f ++ [SP] ++ x)
| pr_joined t ts f x : token_form d t = Some f -> no_space_after d t -> printed d ts x ->
    printed d (t :: ts) (f ++ x).

(** MISC of a node: never accessed, or a DualDict made by some sequence of calls. *)
Definition misc_ok (m : option dualdict) : Prop :=
  match m with None => True | Some dd => exists lower, reachable lower dd end.
(** All attributes but MISC are the same. *)
Definition same_but_misc (a b : attrs) : Prop :=
  n_form a = n_form b /\ n_lemma a = n_lemma b /\ n_upos a = n_upos b /\ n_xpos a = n_xpos b /\
  n_feats a = n_feats b /\ n_deprel a = n_deprel b /\ n_raw_deps a = n_raw_deps b /\ n_deps a = n_deps b.
