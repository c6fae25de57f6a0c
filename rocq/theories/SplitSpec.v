(** Specification of splitting a sentence. *)
From Coq Require Import String List NArith ZArith Bool.
From Verif Require Import PyStr PyList PyExn TreeModel TreeSpec DualDictModel DocModel MwtSpec TokSpec.
Import ListNotations.

(** In [d'] the first words [w1] of the sentence [r] of [d] are the sentence [r], the others, [w2], are the new sentence [r2].
    Dependencies inside one half stay; a word whose parent is in the other half (or was the root) hangs on the root.
    The words on a root have the relation root.  The tokens are divided, and the texts are those of the tokens.
    The empty nodes stay in the sentence [r]. *)
Record divided (d d' : doc) (r r2 : nat) (w1 w2 : list nat) : Prop := {
  dv_trees : consistent (d_h d') r /\ consistent (d_h d') r2 /\ h_next (d_h d) <= r2;
  dv_words : h_desc (d_h d) r = w1 ++ w2 /\ h_desc (d_h d') r = w1 /\ h_desc (d_h d') r2 = w2;
  dv_first : forall w p, In w w1 -> h_par (d_h d) w = Some p -> h_par (d_h d') w = Some (if mem p w1 then p else r);
  dv_second : forall w p, In w w2 -> h_par (d_h d) w = Some p -> h_par (d_h d') w = Some (if mem p w2 then p else r2);
  dv_deprel : forall w p, In w (w1 ++ w2) -> h_par (d_h d') w = Some p ->
                n_deprel (d_at d' w) = if Nat.eqb p r || Nat.eqb p r2 then Some (s "root") else n_deprel (d_at d w);
  dv_attrs : forall w, In w (w1 ++ w2) ->
               n_form (d_at d' w) = n_form (d_at d w) /\ n_lemma (d_at d' w) = n_lemma (d_at d w) /\
               n_upos (d_at d' w) = n_upos (d_at d w) /\ n_xpos (d_at d' w) = n_xpos (d_at d w) /\
               n_feats (d_at d' w) = n_feats (d_at d w) /\ n_raw_deps (d_at d' w) = n_raw_deps (d_at d w) /\
               n_deps (d_at d' w) = n_deps (d_at d w);
  dv_tokens : exists ts1 ts2 x1 x2, token_descendants d r = Ok (ts1 ++ ts2) /\ printed d ts1 x1 /\ printed d ts2 x2 /\
                token_descendants d' r = Ok ts1 /\ token_descendants d' r2 = Ok ts2 /\
                compute_text d' r true = Ok (rstrip x1) /\ compute_text d' r2 true = Ok (rstrip x2) /\
                ri_text (d_ri d' r) = Some (rstrip x1) /\ ri_text (d_ri d' r2) = Some (rstrip x2);
  dv_empty : h_emp (d_h d') r = h_emp (d_h d) r /\ h_emp (d_h d') r2 = [];
  dv_others : forall y, y < h_next (d_h d) -> ~ live (d_h d) r y ->
                same_object (d_h d) (d_h d') y /\ d_at d' y = d_at d y /\ d_ri d' y = d_ri d y;
  dv_mwts : (forall y, y < h_next (d_h d) -> d_mwt d' y = d_mwt d y) /\ forall m, d_m d' m = d_m d m
}.
(** No multi-word token has words on both sides. *)
Definition no_token_across (d : doc) (w1 w2 : list nat) : Prop :=
  forall a b m, In a w1 -> In b w2 -> d_mwt d a = Some m -> d_mwt d b <> Some m.
(** The word after which nothing follows is a token of its own. *)
Definition last_single (d : doc) (w2 : list nat) : Prop := forall w l, w2 = l ++ [w] -> d_mwt d w = None.
