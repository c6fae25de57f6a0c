(** Specification of normalisation. *)
From Coq Require Import String List NArith ZArith Bool.
From Verif Require Import PyStr PyList TreeModel DualDictModel DualDictSpec CorefSpec.
Import ListNotations.
Local Open Scope Z_scope.

(** The same mapping without its text. *)
Definition forget_text (m : mapping) : mapping := mkMap (m_names m) (m_val m) None.
(** prefix1, prefix2, ... *)
Fixpoint numbered_ids (prefix : str) (n : Z) (k : nat) : list str :=
  match k with O => [] | S k => (prefix ++ str_of_Z n) :: numbered_ids prefix (n + 1) k end.
(** There are at most nine empty nodes in a row. *)
Definition short_runs (h : heap) (l : list nat) : Prop :=
  forall pre run post, l = pre ++ run ++ post -> Forall (fun x => h_kind h x = KEmpty) run -> (length run <= 9)%nat.
(** In the list of words and empty nodes, the i-th empty node after the word n (or after the beginning, n = 0) has the id n.i *)
Definition ids_in_order (h : heap) (l : list nat) : Prop :=
  forall pre run e post, l = pre ++ run ++ e :: post -> Forall (fun x => h_kind h x = KEmpty) (run ++ [e]) ->
    (forall p x, pre = p ++ [x] -> h_kind h x <> KEmpty) ->
    position h e = 10 * (match rev pre with [] => 0 | w :: _ => h_ord h w end) + Z.of_nat (length run) + 1.
