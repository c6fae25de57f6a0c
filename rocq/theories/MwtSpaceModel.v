(** Model of udapi/block/ud/fixmwtspace.py. *)
From Coq Require Import String List NArith ZArith Bool.
From Verif Require Import PyStr PyList PyExn TreeModel DualDictModel DocModel TokModel.
Import ListNotations.

(** [x.form for x in mwt.words]; ' '.join of it raises TypeError if a form is None *)
Fixpoint wordforms (d : doc) (l : list nat) : res (list str) :=
  match l with
  | [] => Ok []
  | x :: l => match n_form (d_at d x) with
              | None => Raise TypeError
              | Some f => rbind (wordforms d l) (fun fs => Ok (f :: fs))
              end
  end.
(** fixmwtspace.py:15-22 process_node *)
Definition mwt_space_node (d : doc) (x : nat) : doc * res unit :=
  match d_mwt d x with
  | None => (d, Ok tt)
  | Some m =>
    match m_form (d_m d m) with
    | None => (d, Raise TypeError)
    | Some f =>
      if has_char SP f then
        match m_words (d_m d m) with
        | [] => (d, Raise IndexError)
        | w :: _ =>
          if Nat.eqb x w then
            bind (d, wordforms d (m_words (d_m d m))) (fun d fs =>
            if str_eqb (join [SP] fs) f then mwt_remove d m else (d, Ok tt))
          else (d, Ok tt)
        end
      else (d, Ok tt)
    end
  end.
(** udapi/core/block.py:55-62 process_tree *)
Definition fix_mwt_space (d : doc) (r : nat) : doc * res unit := each_node mwt_space_node d (h_desc (d_h d) r).
