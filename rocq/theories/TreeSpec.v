(** Specification of dependency trees, independent of the algorithms of the model. *)
From Coq Require Import String List NArith ZArith Bool.
From Verif Require Import PyStr PyList PyExn TreeModel.
Import ListNotations.

(** An abstract sentence: technical root, words in word order, parent of each word. *)
Record atree := mkT { a_root : nat; a_words : list nat; a_par : nat -> nat }.

Definition node_of (T : atree) (x : nat) : Prop := x = a_root T \/ In x (a_words T).

(** [below T x a]: a is reached from word x by one or more parent steps. *)
Inductive below (T : atree) : nat -> nat -> Prop :=
| below_par x : In x (a_words T) -> below T x (a_par T x)
| below_up x a : In x (a_words T) -> below T (a_par T x) a -> below T x a.

(** Well-formed sentence: words listed once, parents inside, everything hangs on the root. *)
Record wf (T : atree) : Prop := {
  wf_nodup : NoDup (a_words T);
  wf_rootfresh : ~ In (a_root T) (a_words T);
  wf_parent : forall x, In x (a_words T) -> node_of T (a_par T x);
  wf_reach : forall x, In x (a_words T) -> below T x (a_root T)
}.

(** The heap holds exactly this tree. *)
Record Repr (h : heap) (T : atree) : Prop := {
  r_desc : h_desc h (a_root T) = a_words T;
  r_ord : forall i x, nth_error (a_words T) i = Some x -> h_ord h x = (Z.of_nat i + 1)%Z;
  r_ord0 : h_ord h (a_root T) = 0%Z;
  r_par : forall x, In x (a_words T) -> h_par h x = Some (a_par T x);
  r_parroot : h_par h (a_root T) = None;
  r_ch : forall y, node_of T y -> h_ch h y = filter (fun c => Nat.eqb (a_par T c) y) (a_words T);
  r_root : forall y, node_of T y -> h_root h y = a_root T;
  r_kind : forall x, In x (a_words T) -> h_kind h x = KNode;
  r_kindroot : h_kind h (a_root T) = KRoot;
  r_alloc : forall y, node_of T y -> y < h_next h
}.

(** ---- The same stated directly on the observable attributes of the objects. ---- *)

(** Nodes of the tree with root r, as listed by root.descendants. *)
Definition live (h : heap) (r x : nat) : Prop := x = r \/ In x (h_desc h r).

(** a is reached from x by following .parent one or more times. *)
Inductive up (h : heap) : nat -> nat -> Prop :=
| up_1 x p : h_par h x = Some p -> up h x p
| up_S x p a : h_par h x = Some p -> up h p a -> up h x a.

Definition has_parent (h : heap) (p c : nat) : bool :=
  match h_par h c with Some q => Nat.eqb q p | None => false end.

Record consistent (h : heap) (r : nat) : Prop := {
  (* every node is listed exactly once, the root is not listed *)
  c_once : NoDup (h_desc h r);
  c_rootout : ~ In r (h_desc h r);
  (* ords are 1..n in order, the root has 0 *)
  c_ords : map (h_ord h) (h_desc h r) = map Z.of_nat (seq 1 (length (h_desc h r)));
  c_ord0 : h_ord h r = 0%Z;
  (* every word has a parent in the tree, the root has none *)
  c_parents : forall x, In x (h_desc h r) -> exists p, h_par h x = Some p /\ live h r p;
  c_top : h_par h r = None;
  (* children are exactly the nodes with that parent, in word order *)
  c_children : forall y, live h r y -> h_ch h y = filter (has_parent h y) (h_desc h r);
  (* following parents reaches the root *)
  c_connected : forall x, In x (h_desc h r) -> up h x r;
  (* node.root *)
  c_roots : forall y, live h r y -> h_root h y = r;
  c_kinds : (forall x, In x (h_desc h r) -> h_kind h x = KNode) /\ h_kind h r = KRoot;
  c_alloc : forall y, live h r y -> y < h_next h
}.

(** ---- Editing calls ---- *)
Inductive tree_op :=
| OpCreate (self : nat)                                    (* self.create_child() *)
| OpParent (self : nat) (p : option nat)                   (* self.parent = p *)
| OpRemove (self : nat) (children : option str)            (* self.remove(children) *)
| OpAfterNode (self ref : nat) (wc skip : bool)            (* self.shift_after_node(ref, ...) *)
| OpBeforeNode (self ref : nat) (wc skip : bool)
| OpAfterSubtree (self ref : nat) (wc skip : bool)
| OpBeforeSubtree (self ref : nat) (wc skip : bool)
| OpFlatten (r : nat)                                      (* root.flatten() *)
| OpEmptyChild (self : nat) (after : bool).                (* self.create_empty_child(...) *)

Definition void {A} (m : heap * res A) : heap * res unit :=
  match m with
  | (h, Ok _) => (h, Ok tt)
  | (h, Raise e) => (h, Raise e)
  | (h, Diverge) => (h, Diverge)
  end.
Definition tree_step (h : heap) (o : tree_op) : heap * res unit :=
  match o with
  | OpCreate x => let (h, _) := create_child h x in (h, Ok tt)
  | OpParent x p => set_parent h x p
  | OpRemove x m => node_remove h x m
  | OpAfterNode x y wc sk => shift_after_node h x y wc sk
  | OpBeforeNode x y wc sk => shift_before_node h x y wc sk
  | OpAfterSubtree x y wc sk => shift_after_subtree h x y wc sk
  | OpBeforeSubtree x y wc sk => shift_before_subtree h x y wc sk
  | OpFlatten r => (flatten h r, Ok tt)
  | OpEmptyChild x after => void (create_empty_child h x after)
  end.

(** The arguments are nodes currently in the tree r: the receiver of remove and shift_*
    is a word; a new parent may also be None or an empty node of the tree. *)
Definition op_args_live (h : heap) (r : nat) (o : tree_op) : Prop :=
  match o with
  | OpCreate x => live h r x
  | OpParent x None => live h r x
  | OpParent x (Some p) => live h r x /\ (live h r p \/ (h_kind h p = KEmpty /\ p < h_next h))
  | OpRemove x _ => In x (h_desc h r)
  | OpAfterNode x y _ _ | OpBeforeNode x y _ _
  | OpAfterSubtree x y _ _ | OpBeforeSubtree x y _ _ => In x (h_desc h r) /\ live h r y
  | OpFlatten x => x = r
  | OpEmptyChild x _ => In x (h_desc h r)
  end.

(** Everything that can be built from nothing by creating trees and calling the editing
    methods, in any order, on nodes of any of the trees (each call stays within one tree);
    [rs] are the roots created so far.  Calls that raise are included. *)
Inductive world : list nat -> heap -> Prop :=
| world_none : world [] heap0
| world_new rs h : world rs h -> world (snd (new_root h) :: rs) (fst (new_root h))
| world_op rs h r o : world rs h -> In r rs -> op_args_live h r o -> world rs (fst (tree_step h o)).

(** The word order after moving x (without its subtree if [wc]) to a point: first the unmoved
    words satisfying [pre], then the moved words, then the other unmoved words, each group in
    its previous order. *)
Definition moves (h : heap) (x : nat) (wc : bool) (w : nat) : Prop :=
  w = x \/ (wc = false /\ up h w x).
Definition reordered (h h' : heap) (r x : nat) (wc : bool) (pre : nat -> Prop) : Prop :=
  exists mv pr : nat -> bool,
    (forall w, In w (h_desc h r) -> (mv w = true <-> moves h x wc w)) /\
    (forall w, In w (h_desc h r) -> (pr w = true <-> pre w)) /\
    h_desc h' r = filter (fun w => negb (mv w) && pr w) (h_desc h r) ++
                  filter mv (h_desc h r) ++
                  filter (fun w => negb (mv w) && negb (pr w)) (h_desc h r).
(** The words of the reference subtree that determine the point for shift_*_subtree:
    the reference node and its descendants other than the moved node itself. *)
Definition ref_word (h : heap) (x ref v : nat) : Prop := v = ref \/ (up h v ref /\ v <> x).

(** [steps h x n a]: a is reached from x by following .parent exactly n times. *)
Inductive steps (h : heap) : nat -> nat -> nat -> Prop :=
| steps_0 x : steps h x 0 x
| steps_S x p n a : h_par h x = Some p -> steps h p n a -> steps h x (S n) a.

(** x is a or a descendant of a *)
Definition in_subtree (h : heap) (x a : nat) : Prop := x = a \/ up h x a.

(** a is the lowest node that has all the given nodes in its subtree. *)
Definition lowest_common (h : heap) (nodes : list nat) (a : nat) : Prop :=
  (forall x, In x nodes -> in_subtree h x a) /\
  forall b, (forall x, In x nodes -> in_subtree h x b) -> in_subtree h a b.

(** [l] is exactly the nodes of the tree r that satisfy P, each once, in word order
    (the root comes first). *)
Definition lists (h : heap) (r : nat) (l : list nat) (P : nat -> Prop) : Prop :=
  exists f : nat -> bool, (forall w, live h r w -> (f w = true <-> P w)) /\ l = filter f (r :: h_desc h r).

(** The words of the tree r after an operation are exactly those satisfying P, in the
    previous order. *)
Definition kept (h h' : heap) (r : nat) (P : nat -> Prop) : Prop :=
  exists f : nat -> bool, (forall w, In w (h_desc h r) -> (f w = true <-> P w)) /\
    h_desc h' r = filter f (h_desc h r).

(** Nothing of the object y changed. *)
Definition same_object (h h' : heap) (y : nat) : Prop :=
  h_kind h' y = h_kind h y /\ h_ord h' y = h_ord h y /\ h_par h' y = h_par h y /\
  h_ch h' y = h_ch h y /\ h_root h' y = h_root h y /\ h_desc h' y = h_desc h y /\
  h_emp h' y = h_emp h y /\ h_eord h' y = h_eord h y.

(** The words met by calling next_node again and again (at most n times), starting from x. *)
Fixpoint walk (n : nat) (h : heap) (x : nat) : list nat :=
  match n with
  | O => []
  | S n => match next_node h x with
           | Some y => y :: walk n h y
           | None => []
           end
  end.

(** ---- Expected effect of the editing calls on the abstract tree ---- *)
Definition set_fun (f : nat -> nat) (k v : nat) : nat -> nat := fun x => if Nat.eqb x k then v else f x.

(** Proper ancestors of x, nearest first (at most n of them). *)
Fixpoint anc (T : atree) (n : nat) (x : nat) : list nat :=
  match n with
  | O => []
  | S n => if Nat.eqb x (a_root T) then [] else a_par T x :: anc T n (a_par T x)
  end.
(** Decision procedure for [below] (proved equivalent in TreeFacts). *)
Definition belowb (T : atree) (x a : nat) : bool :=
  mem x (a_words T) && mem a (anc T (length (a_words T)) x).
(** x is a or below a *)
Definition insubb (T : atree) (x a : nat) : bool := Nat.eqb x a || belowb T x a.

Definition t_create (T : atree) (p new : nat) : atree :=
  mkT (a_root T) (a_words T ++ [new]) (set_fun (a_par T) new p).
Definition t_reattach (T : atree) (x p : nat) : atree :=
  mkT (a_root T) (a_words T) (set_fun (a_par T) x p).
Definition t_remove (T : atree) (x : nat) : atree :=
  mkT (a_root T) (filter (fun y => negb (insubb T y x)) (a_words T)) (a_par T).
Definition t_remove_rehang (T : atree) (x : nat) : atree :=
  mkT (a_root T) (filter (fun y => negb (Nat.eqb y x)) (a_words T))
      (fun y => if Nat.eqb (a_par T y) x then a_par T x else a_par T y).
Definition t_flatten (T : atree) : atree := mkT (a_root T) (a_words T) (fun _ => a_root T).
(** Move the words selected by [mv] so that they follow exactly the unmoved words among
    the first [k] ones. *)
Definition t_move (T : atree) (mv : nat -> bool) (k : nat) : atree :=
  mkT (a_root T)
      (filter (fun y => negb (mv y)) (firstn k (a_words T)) ++
       filter mv (a_words T) ++
       filter (fun y => negb (mv y)) (skipn k (a_words T)))
      (a_par T).
