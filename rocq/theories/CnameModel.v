(** Model of ud.FixCompoundName. *)
From Coq Require Import String List NArith ZArith Bool.
From Verif Require Import PyStr PyList PyExn TreeModel DeprelModel RehangModel.
Import ListNotations.

(** udapi/block/ud/fixcompoundname.py:29 the condition in the list comprehension *)
Definition is_nameword (st : lst) (p x : nat) : bool :=
  ostr_eqb (l_upos st x) (s "PROPN") && (ostr_eqb (udep st x) (s "compound") || Nat.eqb x p).
(** udapi/block/ud/fixcompoundname.py:29 namewords *)
Definition namewords (st : lst) (p : nat) : list nat :=
  filter (is_nameword st p) (list_call (l_heap st) p (children (l_heap st) p) true false false).
(** udapi/block/ud/fixcompoundname.py:44-46 one of the other words of the name *)
Definition flat_word (head : nat) (st : lst) (n : nat) : lst * res unit :=
  bind (assign_parent st n (Some head)) (fun st _ => (set_dep st n (Some (s "flat:name")), Ok tt)).
(** udapi/block/ud/fixcompoundname.py:22-46 process_node. The forms are never changed, so they are an
    argument, and so is the set of digits that \d of the module regex matches. The message for enhanced
    dependencies (logging.fatal does not stop the run) is not modelled. *)
Definition cname_node (digit : N -> bool) (form : nat -> str) (st : lst) (x : nat) : lst * res unit :=
  if ostr_eqb (l_upos st x) (s "PROPN") && ostr_eqb (udep st x) (s "compound") then
    match the_parent st x with
    | Ok p =>
      if ostr_eqb (l_upos st p) (s "PROPN") then
        let grandparent := h_par (l_heap st) p in
        let outdeprel := l_dep st p in
        if existsb (fun y => existsb digit (form y)) (namewords st p) then
          match namewords st p with
          | [] => (st, Raise IndexError)
          | head :: rest =>
            bind (if Nat.eqb head p then (st, Ok tt)
                  else bind (assign_parent st head grandparent) (fun st _ => (set_dep st head outdeprel, Ok tt))) (fun st _ =>
            for_each (flat_word head) rest st)
          end
        else (st, Ok tt)
      else (st, Ok tt)
    | Raise e => (st, Raise e)
    | Diverge => (st, Diverge)
    end
  else (st, Ok tt).
(** ud.FixCompoundName on a tree *)
Definition cname digit form := each_word (cname_node digit form).
