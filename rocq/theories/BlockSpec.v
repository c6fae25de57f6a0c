(** Specification of what a block visits. *)
From Coq Require Import String List NArith ZArith Bool.
From Verif Require Import PyStr PyList PyExn TreeModel BlockModel.
Import ListNotations.
Local Open Scope string_scope.
Local Open Scope list_scope.

(** The bundles of the document, the trees of a bundle, all trees in document order. *)
Definition bundles_of (w : docst) : list nat := o_list w (o_doc w).
Definition trees_of (w : docst) (b : nat) : list nat := o_list w (o_bundle w b).
Definition all_trees (w : docst) : list nat := flat_map (trees_of w) (bundles_of w).

Definition tree_empty (w : docst) (t : nat) : bool := match o_words w t with [] => true | _ => false end.
(** The zone of the tree is selected by the parameter zones. *)
Definition zone_selected (B : block) (w : docst) (t : nat) : bool :=
  str_eqb (p_zones B) (s "all") ||
  match o_zone w t with Some z => existsb (str_eqb z) (split 44%N (p_zones B)) | None => false end.
(** The tree is visited: its zone is selected and it is not empty, unless empty trees are to be processed. *)
Definition visited (B : block) (w : docst) (t : nat) : bool :=
  zone_selected B w t && (negb (tree_empty w t) || str_eqb (p_if_empty B) (s "process")).
(** The tree makes the block fail. *)
Definition blocking (B : block) (w : docst) (t : nat) : bool :=
  tree_empty w t && negb (existsb (str_eqb (p_if_empty B)) [s "process"; s "skip"; s "skip_warn"; s "delete"]).
(** The list up to the first element with a property. *)
Fixpoint before (f : nat -> bool) (l : list nat) : list nat :=
  match l with [] => [] | x :: l => if f x then [] else x :: before f l end.
Definition failure (B : block) : exn := if str_eqb (p_if_empty B) (s "fail") then RuntimeError else ValueError.

(** The calls for one visited tree. *)
Definition tree_calls (B : block) (w : docst) (t : nat) : list call :=
  match m_tree B with
  | Some _ => [CTree t]
  | None => (if is_some (m_node B) then map CNode (o_words w t) else []) ++
            (if is_some (m_empty B) then map CEmpty (o_emp w t) else [])
  end.
(** All calls of process_document, if no method raises an exception, and how it ends. *)
Definition expected_calls (B : block) (w : docst) : list call :=
  if is_some (m_bundle B) then map CBundle (bundles_of w)
  else flat_map (tree_calls B w) (filter (visited B w) (before (blocking B w) (all_trees w))).
Definition expected_end (B : block) (w : docst) : option exn :=
  if is_some (m_bundle B) then None
  else if existsb (blocking B w) (all_trees w) then Some (failure B) else None.

(** r is what the overridden method answered to the call c in some state. *)
Definition answered (B : block) (c : call) (r : res unit) : Prop :=
  exists v, match c with
  | CEntity x => exists m, m_entity B = Some m /\ snd (m x v) = r
  | CMention x => exists m, m_mention B = Some m /\ snd (m x v) = r
  | CBundle x => exists m, m_bundle B = Some m /\ snd (m x v) = r
  | CTree x => exists m, m_tree B = Some m /\ snd (m x v) = r
  | CNode x => exists m, m_node B = Some m /\ snd (m x v) = r
  | CEmpty x => exists m, m_empty B = Some m /\ snd (m x v) = r
  end.
(** The calls [exp] are made one after another, ending with [stop]; or one of the methods called answers with an
    exception, which then ends everything. *)
Definition outcome (B : block) (w : docst) (exp : list call) (stop : option exn) (p : docst * res unit) : Prop :=
  (o_calls (fst p) = o_calls w ++ exp /\ snd p = match stop with None => Ok tt | Some e => Raise e end) \/
  (exists l0 c l1, exp = l0 ++ c :: l1 /\ o_calls (fst p) = o_calls w ++ l0 ++ [c] /\ snd p <> Ok tt /\ answered B c (snd p)).

(** A change that adds nothing to the existing lists of bundles and trees. *)
Definition keeps_lists (w w' : docst) : Prop :=
  (forall o, o < o_next w -> o_list w' o = o_list w o) /\ o_next w <= o_next w' /\ o_calls w' = o_calls w.
(** A change of the tree t only (which may be taken out of its bundle). *)
Definition touches (t : nat) (w w' : docst) : Prop :=
  keeps_lists w w' /\ o_up w' = o_up w /\ (forall b, b <> o_up w t -> o_bundle w' b = o_bundle w b) /\
  (forall x, x <> t -> o_zone w' x = o_zone w x /\ o_words w' x = o_words w x /\ o_emp w' x = o_emp w x).
(** The methods only change the tree they are called for; [owner] gives the tree of a node. If empty nodes are
    processed, the list of empty nodes is not changed meanwhile. *)
Definition tame (B : block) (owner : nat -> nat) : Prop :=
  (forall m, m_bundle B = Some m -> forall b w, keeps_lists w (fst (m b w))) /\
  (forall m, m_tree B = Some m -> forall t w, touches t w (fst (m t w))) /\
  (forall m, m_node B = Some m \/ m_empty B = Some m -> forall n w, touches (owner n) w (fst (m n w)) /\
     (m_empty B <> None -> o_emp (fst (m n w)) (owner n) = o_emp w (owner n))).

(** A proper document: every tree is in one place, and knows its bundle; nodes belong to one tree. *)
Record doc_ok (w : docst) (owner : nat -> nat) : Prop := {
  ok_doc : o_doc w < o_next w;
  ok_bundle : forall b, In b (bundles_of w) -> o_bundle w b < o_next w;
  ok_bundles : NoDup (bundles_of w);
  ok_trees : NoDup (all_trees w);
  ok_up : forall b t, In b (bundles_of w) -> In t (trees_of w b) -> o_up w t = b;
  ok_owner : forall t n, In t (all_trees w) -> In n (o_words w t ++ o_emp w t) -> owner n = t
}.
(** Enough fuel: no list is longer. *)
Definition enough (fuel : nat) (w : docst) : Prop :=
  length (bundles_of w) <= fuel /\ (forall b, In b (bundles_of w) -> length (trees_of w b) <= fuel) /\
  (forall t, In t (all_trees w) -> length (o_emp w t) <= fuel).

(** Besides, the methods take no trees out of their bundles. *)
Definition keeps_trees (B : block) : Prop :=
  forall m, m_tree B = Some m \/ m_node B = Some m \/ m_empty B = Some m -> forall x w, o_bundle (fst (m x w)) = o_bundle w.
(** What is left of a bundle. *)
Definition remaining (B : block) (w : docst) (b : nat) : list nat :=
  if str_eqb (p_if_empty B) (s "delete") then filter (fun t => negb (tree_empty w t)) (trees_of w b) else trees_of w b.
