(** Specification of joining sentences. *)
From Coq Require Import String List NArith ZArith Bool.
From Verif Require Import PyStr PyList PyExn TreeModel TreeSpec DualDictModel DocModel MwtSpec TokSpec.
Import ListNotations.

(** The text of the sentence [r] as its tokens give it (with the space after the last one). *)
Definition text_of (d : doc) (r : nat) (x : str) : Prop := exists ts, token_descendants d r = Ok ts /\ printed d ts x.
(** In [d'] the sentence [p] consists of the sentences [p :: l] of [d]: the words in this order, the same dependencies
    (top words depend on the root [p]), the multi-word tokens, and the text of all of them.  The empty nodes of the sentences [l]
    are not there. *)
Record appended (d d' : doc) (p : nat) (l : list nat) : Prop := {
  ap_tree : consistent (d_h d') p;
  ap_words : h_desc (d_h d') p = flat_map (h_desc (d_h d)) (p :: l);
  ap_par : forall r w q, In r (p :: l) -> In w (h_desc (d_h d) r) -> h_par (d_h d) w = Some q ->
             h_par (d_h d') w = Some (if Nat.eqb q r then p else q);
  ap_tokens : exists tss, Forall2 (fun r ts => token_descendants d r = Ok ts) (p :: l) tss /\ token_descendants d' p = Ok (concat tss);
  ap_text : exists xs, Forall2 (text_of d) (p :: l) xs /\ compute_text d' p true = Ok (rstrip (concat xs)) /\
              ri_text (d_ri d' p) = match l with [] => ri_text (d_ri d p) | _ => Some (rstrip (concat xs)) end;
  ap_mwts : d_mwts d' p = flat_map (d_mwts d) (p :: l);
  ap_empty : h_emp (d_h d') p = h_emp (d_h d) p
}.
(** The last word of the sentence ends with a semicolon. *)
Definition ends_semicolon (d : doc) (r : nat) : Prop :=
  exists w f, last_opt (h_desc (d_h d) r) = Some w /\ n_form (d_at d w) = Some (f ++ [59%N]).
(** The word has the MISC attribute (with the value, if one is given). *)
Definition has_command (name : str) (value : option str) (d : doc) (w : nat) : Prop :=
  match value with None => misc_of d w name <> VStr [] | Some v => misc_of d w name = VStr v end.
Definition has_commands (name : str) (value : option str) (d : doc) (r : nat) : Prop :=
  exists w, In w (h_desc (d_h d) r) /\ has_command name value d w.
(** Each element and the next one satisfy [J]. *)
Fixpoint chain {A} (J : A -> A -> Prop) (l : list A) : Prop :=
  match l with
  | x :: (y :: _) as l' => J x y /\ chain J l'
  | _ => True
  end.
