(** Model of udapi/block/eval/parsing.py. Simplifications: the tree of the gold zone of the bundle (Bundle.get_tree) is given;
    scores are exact rationals and are not formatted. *)
From Coq Require Import String List NArith ZArith QArith Bool.
From Verif Require Import PyStr PyList PyExn TreeModel DeprelModel RehangModel.
Import ListNotations.
Local Close Scope Q_scope.
Local Open Scope Z_scope.

(** parsing.py:12 the counters *)
Record tally := mkT { t_las : Z; t_ulas : Z; t_uas : Z; t_total : Z }.
Definition no_tally : tally := mkT 0 0 0 0.
(** == on str or None *)
Definition olabel_eqb (a b : option str) : bool :=
  match a, b with Some a, Some b => str_eqb a b | None, None => true | _, _ => false end.
Definition one (b : bool) : Z := if b then 1 else 0.
(** parsing.py:25-31 the loop over zip(pred_nodes, gold_nodes) *)
Fixpoint parsing_nodes (st : lst) (t : tally) (pred gold : list nat) : tally * res unit :=
  match pred, gold with
  | x :: pred, y :: gold =>
    match h_par (l_heap st) x, h_par (l_heap st) y with
    | Some p, Some q =>
      let t := if h_ord (l_heap st) p =? h_ord (l_heap st) q
               then mkT (t_las t + one (olabel_eqb (l_dep st x) (l_dep st y))) (t_ulas t + one (olabel_eqb (udep st x) (udep st y))) (t_uas t + 1) (t_total t)
               else t in
      parsing_nodes st t pred gold
    | _, _ => (t, Raise AttributeError)
    end
  | _, _ => (t, Ok tt)
  end.
(** parsing.py:14-31 process_tree *)
Definition parsing_tree (st : lst) (t : tally) (tree gold : nat) : tally * res unit :=
  if Nat.eqb tree gold then (t, Ok tt)
  else
    let pred_nodes := h_desc (l_heap st) tree in
    let gold_nodes := h_desc (l_heap st) gold in
    if negb (Nat.eqb (length pred_nodes) (length gold_nodes)) then (t, Raise ValueError)
    else parsing_nodes st (mkT (t_las t) (t_ulas t) (t_uas t) (t_total t + Z.of_nat (length pred_nodes))) pred_nodes gold_nodes.
(** a run: the trees with the gold trees of their bundles *)
Fixpoint parsing_run (st : lst) (t : tally) (l : list (nat * nat)) : tally * res unit :=
  match l with
  | [] => (t, Ok tt)
  | (x, g) :: l => bind (parsing_tree st t x g) (fun t _ => parsing_run st t l)
  end.
(** parsing.py:34-40 the numbers printed by process_end; None is a ZeroDivisionError *)
Definition percent (a b : Z) : Q := Qmake (100 * a) 1 / inject_Z b.
Definition scores (t : tally) : option (Q * Q * Q) :=
  if t_total t =? 0 then None
  else Some (percent (t_uas t) (t_total t), percent (t_las t) (t_total t), percent (t_ulas t) (t_total t)).
