(** Model of udapi/block/ud/fixmultisubjects.py. *)
From Coq Require Import String List NArith ZArith Bool.
From Verif Require Import PyStr PyList PyExn TreeModel RehangModel.
Import ListNotations.

(** $ of a regular expression: the end, or a line break at the end *)
Definition at_end (x : str) : bool := match x with [] => true | [c] => N.eqb c LF | _ => false end.
(** re.match(r"^[nc]subj(:|$)", d) *)
Definition match_subj (d : str) : bool :=
  match d with
  | c :: d => (N.eqb c 110 || N.eqb c 99) && starts_with (s "subj") d &&
              (let t := skipn 4 d in starts_with (s ":") t || at_end t)
  | [] => false
  end.
(** re.search(r":outer$", d) *)
Fixpoint search_outer (d : str) : bool :=
  (starts_with (s ":outer") d && at_end (skipn 6 d)) || match d with [] => false | _ :: d => search_outer d end.
Definition is_subject (d : str) : bool := match_subj d && negb (search_outer d).
(** fixmultisubjects.py:15 subjects; re.match of None raises TypeError *)
Fixpoint subjects (st : lst) (l : list nat) : res (list nat) :=
  match l with
  | [] => Ok []
  | x :: l => match l_dep st x with
              | None => Raise TypeError
              | Some d => rbind (subjects st l) (fun r => Ok (if is_subject d then x :: r else r))
              end
  end.
(** fixmultisubjects.py:20-23 *)
Definition new_label (d : option str) : str :=
  match d with Some d => if starts_with (s "n") d then s "obl" else s "advcl" | None => s "advcl" end.
Definition relabel (st : lst) (l : list nat) : lst := fold_left (fun st x => set_dep st x (Some (new_label (l_dep st x)))) l st.
(** fixmultisubjects.py:14-23 process_node *)
Definition multisubj_node (st : lst) (x : nat) : lst * res unit :=
  bind (st, subjects st (h_ch (l_heap st) x)) (fun st l =>
  match l with
  | _ :: ((_ :: _) as l') => (relabel st l', Ok tt)
  | _ => (st, Ok tt)
  end).
Definition multisubj := each_word multisubj_node.
