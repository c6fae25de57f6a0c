(** Specification of the numbering of empty nodes (enhanced dependencies).
    Positions are in tenths: a word with ord 2 is at 20, an empty node 2.3 at 23. *)
From Coq Require Import String List ZArith Bool Sorting.Sorted Floats.SpecFloat.
From Verif Require Import PyStr PyList PyExn TreeModel TreeSpec.
Import ListNotations.
Local Open Scope Z_scope.

(** The empty nodes of the tree r are numbered as CoNLL-U requires: they are listed in increasing
    order of their IDs (so no two share an ID), no ID is that of a word, and each ID lies between
    the root (0) and the last word or directly after it. *)
Record good_empties (h : heap) (r : nat) : Prop := {
  ge_sorted : StronglySorted (fun a b => h_eord h a < h_eord h b) (h_emp h r);
  ge_frac : forall e, In e (h_emp h r) -> h_eord h e mod 10 <> 0;
  ge_range : forall e, In e (h_emp h r) -> 0 < h_eord h e < 10 * (Z.of_nat (length (h_desc h r)) + 1);
  ge_kind : forall e, In e (h_emp h r) -> h_kind h e = KEmpty;
  ge_alloc : forall e, In e (h_emp h r) -> (e < h_next h)%nat;
  ge_root : forall e, In e (h_emp h r) -> h_root h e = r
}.

(** Word w precedes empty node e. *)
Definition before_empty (h : heap) (w e : nat) : Prop := 10 * h_ord h w < h_eord h e.

(** The words that x.remove(children=m) leaves in the tree. *)
Definition survives (h : heap) (x : nat) (m : option str) (w : nat) : Prop :=
  match m with
  | Some mode => if starts_with (s "rehang") mode then w <> x else ~ in_subtree h w x
  | None => ~ in_subtree h w x
  end.

(** Enough decimals: whenever no surviving word stands between two empty nodes e and e' with k
    empty nodes between them, the decimal of e plus k + 1 is a decimal digit. *)
Definition room (h : heap) (r x : nat) (m : option str) : Prop :=
  forall pre e mid e' post, h_emp h r = pre ++ e :: mid ++ e' :: post ->
    (forall w, In w (h_desc h r) -> survives h x m w -> before_empty h w e' -> before_empty h w e) ->
    h_eord h e mod 10 + Z.of_nat (length mid) + 1 <= 9.

(** [o] is the position of an empty node of r. *)
Definition taken (h : heap) (r : nat) (o : Z) : Prop := exists e, In e (h_emp h r) /\ h_eord h e = o.

(** The word moved by a shift_* call, and whether it moves without its children. *)
Definition shift_of (o : tree_op) : option (nat * bool) :=
  match o with
  | OpAfterNode x _ wc _ | OpBeforeNode x _ wc _ | OpAfterSubtree x _ wc _ | OpBeforeSubtree x _ wc _ => Some (x, wc)
  | _ => None
  end.
(** There are empty nodes both directly before and directly after the word x. *)
Definition empties_around (h : heap) (r x : nat) : Prop :=
  (exists e, In e (h_emp h r) /\ 10 * (h_ord h x - 1) < h_eord h e < 10 * h_ord h x) /\
  (exists e, In e (h_emp h r) /\ 10 * h_ord h x < h_eord h e < 10 * (h_ord h x + 1)).

(** Several create_empty_child(after=...) calls in a row. *)
Fixpoint create_many (h : heap) (calls : list (nat * bool)) : heap :=
  match calls with
  | [] => h
  | (x, after) :: calls => create_many (fst (create_empty_child h x after)) calls
  end.

(** Editing calls that keep empty nodes numbered correctly: remove only with room, moving one word
    only without empty nodes on both its sides. *)
Definition harmless (h : heap) (r : nat) (o : tree_op) : Prop :=
  match o with
  | OpRemove x m => room h r x m
  | _ => match shift_of o with
         | Some (x, wc) => wc = true \/ h_ch h x = [] -> ~ empties_around h r x
         | None => True
         end
  end.

(** Everything that can be built by creating trees and harmless editing calls. *)
Inductive careful : list nat -> heap -> Prop :=
| careful_none : careful [] heap0
| careful_new rs h : careful rs h -> careful (snd (new_root h) :: rs) (fst (new_root h))
| careful_op rs h r o : careful rs h -> In r rs -> op_args_live h r o -> harmless h r o ->
    careful rs (fst (tree_step h o)).

(** The IEEE double nearest to [t] tenths, i.e. float('2.2') for 22, and the double of an integer. *)
Definition double_of (n : Z) : spec_float := binary_normalize 53 1024 n 0 false.
Definition double_tenths (t : Z) : spec_float := SFdiv 53 1024 (double_of t) (double_of 10).
(** node.py:598 en._ord -= 1 as computed on doubles (the tree model computes in exact tenths) *)
Definition double_minus_1 (x : spec_float) : spec_float := SFsub 53 1024 x (double_of 1).
