(** Model of Node.udeprel / Node.sdeprel (udapi/core/node.py:135-171).
    The attribute deprel is a str or None. *)
From Coq Require Import String List NArith ZArith Bool.
From Verif Require Import PyStr PyList.
Import ListNotations.

Definition COLON : char := 58%N.

(** node.py:135-141 udeprel getter: deprel.split(':')[0] *)
Definition udeprel (deprel : option str) : option str :=
  match deprel with
  | Some d => match split COLON d with h :: _ => Some h | [] => None end
  | None => None
  end.
(** node.py:151-163 sdeprel getter *)
Definition sdeprel (deprel : option str) : option str :=
  match deprel with
  | None => None
  | Some d => match split1 COLON d with
              | Some (_, r) => Some r
              | None => Some []
              end
  end.
(** node.py:143-149 udeprel setter; the argument is a str.
    Result: the new deprel. *)
Definition set_udeprel (deprel : option str) (value : str) : option str :=
  match sdeprel deprel with
  | Some (a :: r) => Some (value ++ COLON :: a :: r)
  | _ => Some value
  end.
(** node.py:165-171 sdeprel setter; [None] result is TypeError
    (deprel None and a non-empty value: None + ':'). *)
Definition set_sdeprel (deprel : option str) (value : option str) : option (option str) :=
  match value with
  | Some (a :: r) => match udeprel deprel with
                     | Some u => Some (Some (u ++ COLON :: a :: r))
                     | None => None
                     end
  | _ => Some (udeprel deprel)
  end.
