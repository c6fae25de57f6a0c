(** Model of the tree structure of udapi: udapi/core/node.py (Node, EmptyNode, ListOfNodes,
    find_minimal_common_treelet) and udapi/core/root.py (Root).
    Python objects are natural numbers; each attribute is a field of the heap.
    Attributes form, lemma, upos, ... do not influence anything in this file and are
    modelled elsewhere. *)
From Coq Require Import String List NArith ZArith Bool.
From Verif Require Import PyStr PyList PyExn.
Import ListNotations.
Local Open Scope Z_scope.

(** Class of an object: Node, Root or EmptyNode. *)
Inductive kind := KNode | KRoot | KEmpty.

(** node.py:70-86 and root.py:14-15 __slots__ (the structural ones). *)
Record heap := mkHeap {
  h_next : nat;                 (* objects with a number >= h_next are not allocated yet *)
  h_kind : nat -> kind;         (* class *)
  h_ord : nat -> Z;             (* _ord of words and roots *)
  h_par : nat -> option nat;    (* _parent *)
  h_ch : nat -> list nat;       (* _children *)
  h_root : nat -> nat;          (* _root *)
  h_desc : nat -> list nat;     (* _descendants (of roots) *)
  h_emp : nat -> list nat;      (* empty_nodes (of roots) *)
  h_eord : nat -> Z             (* _ord of empty nodes, in tenths: 2.3 is 23.
                                   Simplification: Python floats rounded to one decimal are
                                   idealised as exact tenths; OrdTuple is not modelled, its
                                   constructor call in create_empty_child raises TypeError. *)
}.

Definition upd {A} (f : nat -> A) (k : nat) (v : A) : nat -> A :=
  fun x => if Nat.eqb x k then v else f x.

Definition set_kind h f := mkHeap (h_next h) f (h_ord h) (h_par h) (h_ch h) (h_root h) (h_desc h) (h_emp h) (h_eord h).
Definition set_ord h f := mkHeap (h_next h) (h_kind h) f (h_par h) (h_ch h) (h_root h) (h_desc h) (h_emp h) (h_eord h).
Definition set_par h f := mkHeap (h_next h) (h_kind h) (h_ord h) f (h_ch h) (h_root h) (h_desc h) (h_emp h) (h_eord h).
Definition set_ch h f := mkHeap (h_next h) (h_kind h) (h_ord h) (h_par h) f (h_root h) (h_desc h) (h_emp h) (h_eord h).
Definition set_root h f := mkHeap (h_next h) (h_kind h) (h_ord h) (h_par h) (h_ch h) f (h_desc h) (h_emp h) (h_eord h).
Definition set_desc h f := mkHeap (h_next h) (h_kind h) (h_ord h) (h_par h) (h_ch h) (h_root h) f (h_emp h) (h_eord h).
Definition set_emp h f := mkHeap (h_next h) (h_kind h) (h_ord h) (h_par h) (h_ch h) (h_root h) (h_desc h) f (h_eord h).
Definition set_eord h f := mkHeap (h_next h) (h_kind h) (h_ord h) (h_par h) (h_ch h) (h_root h) (h_desc h) (h_emp h) f.

(** Single attribute assignments, e.g. x._ord = v. *)
Definition put_ord h x v := set_ord h (upd (h_ord h) x v).
Definition put_par h x v := set_par h (upd (h_par h) x v).
Definition put_ch h x v := set_ch h (upd (h_ch h) x v).
Definition put_root h x v := set_root h (upd (h_root h) x v).
Definition put_desc h x v := set_desc h (upd (h_desc h) x v).
Definition put_emp h x v := set_emp h (upd (h_emp h) x v).
Definition put_eord h x v := set_eord h (upd (h_eord h) x v).

(** Fuel for loops that walk over the objects of a heap; the theorems show it suffices. *)
Definition fuel (h : heap) : nat := S (h_next h).

Definition is_root (h : heap) (x : nat) : bool :=
  match h_kind h x with KRoot => true | _ => false end.     (* node.py:490-497, root.py:135-137 *)
Definition is_empty (h : heap) (x : nat) : bool :=
  match h_kind h x with KEmpty => true | _ => false end.    (* node.py:499-506, 1032-1034 *)

(** Empty heap (nothing allocated). *)
Definition heap0 : heap :=
  mkHeap 0 (fun _ => KNode) (fun _ => 0) (fun _ => None) (fun _ => []) (fun x => x)
         (fun _ => []) (fun _ => []) (fun _ => 0).

(** node.py:88-106 Node.__init__ (structural part): a new object of class [k] with _root=[r];
    _ord None is modelled as 0. *)
Definition alloc (h : heap) (k : kind) (r : nat) : heap * nat :=
  let x := h_next h in
  (mkHeap (S x) (upd (h_kind h) x k) (upd (h_ord h) x 0) (upd (h_par h) x None)
          (upd (h_ch h) x []) (upd (h_root h) x r) (upd (h_desc h) x []) (upd (h_emp h) x [])
          (upd (h_eord h) x 0), x).

(** root.py:18-40 Root.__init__ *)
Definition new_root (h : heap) : heap * nat := alloc h KRoot (h_next h).

(** node.py:433-440 create_child *)
Definition create_child (h : heap) (self : nat) : heap * nat :=
  let (h, n) := alloc h KNode (h_root h self) in
  let r := h_root h self in
  let h := put_ord h n (Z.of_nat (length (h_desc h r)) + 1) in
  let h := put_desc h r (h_desc h r ++ [n]) in
  let h := put_ch h self (h_ch h self ++ [n]) in
  (put_par h n (Some self), n).

(** Climbing loop of is_descendant_of (node.py:425-430): does following _parent from
    [climber] reach [node]? *)
Fixpoint climbs_to (fl : nat) (h : heap) (node : nat) (climber : option nat) : res bool :=
  match climber with
  | None => Ok false
  | Some c => if Nat.eqb c node then Ok true
              else match fl with
                   | O => Diverge
                   | S f => climbs_to f h node (h_par h c)
                   end
  end.
(** node.py:423-431 is_descendant_of and root.py:128-133 (root: always False) *)
Definition is_descendant_of (h : heap) (self node : nat) : res bool :=
  if is_root h self then Ok false
  else if nonempty (h_ch h node) then climbs_to (fuel h) h node (h_par h self)
  else Ok false.

(** list.sort() on words: by _ord (node.py:129-136 __lt__). *)
Definition sort_nodes (h : heap) (l : list nat) : list nat := sort_on (h_ord h) l.

(** node.py:311-349 parent setter; root.py:114-117 and node.py:1040-1043 for roots and
    empty nodes.  [new_parent] = None is Python None. *)
Definition set_parent (h : heap) (self : nat) (new_parent : option nat) : heap * res unit :=
  match h_kind h self with
  | KRoot | KEmpty => (h, Raise AttributeError)
  | KNode =>
    match h_par h self, new_parent with
    | None, None => (h, Ok tt)                              (* self._parent is new_parent *)
    | _, None => (h, Raise ValueError)
    | old, Some p =>
      if (match old with Some q => Nat.eqb q p | None => false end) then (h, Ok tt)
      else if is_empty h p then (h, Raise ValueError)
      else if Nat.eqb self p then (h, Raise CycleError)
      else
        match (if nonempty (h_ch h self) then is_descendant_of h p self else Ok false) with
        | Ok true => (h, Raise CycleError)
        | Raise e => (h, Raise e)
        | Diverge => (h, Diverge)
        | Ok false =>
          let detached :=
            match old with
            | None => (h, Ok tt)
            | Some q =>
              match list_remove self (h_ch h q) with
              | None => (h, Raise ValueError)               (* list.remove(x): x not in list *)
              | Some l =>
                let h := put_ch h q l in
                if Nat.eqb (h_root h q) (h_root h p) then (h, Ok tt)
                else (h, Raise ValueError)                  (* cross-tree: already detached! *)
              end
            end in
          bind detached (fun h _ =>
            let h := put_par h self (Some p) in
            let l := h_ch h p in
            match last_opt l with
            | None => (put_ch h p (l ++ [self]), Ok tt)
            | Some z =>
              if h_ord h z <? h_ord h self then (put_ch h p (l ++ [self]), Ok tt)
              else (put_ch h p (sort_nodes h (l ++ [self])), Ok tt)
            end)
        end
    end
  end.

(** The stack loop shared by descendants (node.py:412-421) and unordered_descendants
    (node.py:479-488).  The Python stack is kept with its top first. *)
Fixpoint desc_loop (fl : nat) (h : heap) (stack acc : list nat) : res (list nat) :=
  match stack with
  | [] => Ok acc
  | n :: rest => match fl with
                 | O => Diverge
                 | S f => desc_loop f h (rev (h_ch h n) ++ rest) (acc ++ h_ch h n)
                 end
  end.
Definition unordered_descendants (h : heap) (self : nat) : res (list nat) :=
  desc_loop (fuel h) h (rev (h_ch h self)) (h_ch h self).

(** node.py:389-421 Node.descendants (a sorted list); root.py:119-126 Root.descendants *)
Definition descendants (h : heap) (self : nat) : res (list nat) :=
  if is_root h self then Ok (h_desc h self)
  else rbind (unordered_descendants h self) (fun l => Ok (sort_nodes h l)).

(** node.py:1167-1176 ListOfNodes.__call__ *)
Definition list_call (h : heap) (origin : nat) (l : list nat)
           (add_self following_only preceding_only : bool) : list nat :=
  let l := if add_self then sort_nodes h (l ++ [origin]) else l in
  if preceding_only then filter (fun x => h_ord h x <=? h_ord h origin) l
  else if following_only then filter (fun x => h_ord h origin <=? h_ord h x) l
  else l.
(** node.py:351-371 children, 373-387 siblings ([None]: AttributeError, no parent) *)
Definition children (h : heap) (self : nat) : list nat := h_ch h self.
Definition siblings (h : heap) (self : nat) : res (list nat) :=
  match h_par h self with
  | Some p => Ok (filter (fun n => negb (Nat.eqb n self)) (h_ch h p))
  | None => Raise AttributeError
  end.
(** node.descendants(add_self=True) *)
Definition descendants_add_self (h : heap) (self : nat) : res (list nat) :=
  rbind (descendants h self) (fun l => Ok (list_call h self l true false false)).

(** Position on the common scale of words and empty nodes (tenths). *)
Definition okey (h : heap) (x : nat) : Z :=
  if is_empty h x then h_eord h x else 10 * h_ord h x.
(** root.py:262-264 descendants_and_empty *)
Definition descendants_and_empty (h : heap) (r : nat) : list nat :=
  sort_on (okey h) (h_desc h r ++ h_emp h r).

(** for (i, node) in enumerate(l, start): node._ord = i *)
Fixpoint renumber (h : heap) (start : Z) (l : list nat) : heap :=
  match l with
  | [] => h
  | x :: l => renumber (put_ord h x start) (start + 1) l
  end.
(** node.py:544-551, ords of empty nodes after removing the leaf with ord [my_ord]. *)
Fixpoint renumber_emp_leaf (h : heap) (my_ord last_ord : Z) (l : list nat) : heap :=
  match l with
  | [] => h
  | e :: l =>
    let h := if 10 * my_ord <? h_eord h e then
               let new_ord := h_eord h e - 10 in
               let new_ord := if new_ord <=? last_ord then last_ord + 1 else new_ord in
               put_eord h e new_ord
             else h in
    renumber_emp_leaf h my_ord (h_eord h e) l
  end.
(** node.py:555-563: the last surviving word before each empty node. *)
Fixpoint follow_map (h : heap) (removed : list nat) (prev : nat) (l : list nat) : list (nat * nat) :=
  match l with
  | [] => []
  | x :: l => if is_empty h x then (x, prev) :: follow_map h removed prev l
              else if mem x removed then follow_map h removed prev l
              else follow_map h removed x l
  end.
Fixpoint assoc (l : list (nat * nat)) (x : nat) : option nat :=
  match l with
  | [] => None
  | (k, v) :: l => if Nat.eqb k x then Some v else assoc l x
  end.
(** node.py:573-580; the inner while adds 0.1 until new_ord > last_ord, i.e. it ends with
    max(new_ord, last_ord + 0.1).  [None] would be KeyError. *)
Fixpoint renumber_emp (h : heap) (fm : list (nat * nat)) (last_ord : Z) (l : list nat) : heap * res unit :=
  match l with
  | [] => (h, Ok tt)
  | e :: l =>
    match assoc fm e with
    | None => (h, Raise KeyError)
    | Some prev =>
      let new_ord := 10 * h_ord h prev + (h_eord h e) mod 10 in
      let new_ord := if new_ord <=? last_ord then last_ord + 1 else new_ord in
      renumber_emp (put_eord h e new_ord) fm new_ord l
    end
  end.

(** for child in l: child._parent = p *)
Fixpoint reparent_all (h : heap) (l : list nat) (p : option nat) : heap :=
  match l with
  | [] => h
  | x :: l => reparent_all (put_par h x p) l p
  end.

(** node.py:508-580 Node.remove(children).  The logging calls have no effect on the tree.
    In the second branch [children] cannot start with 'rehang' (self._children would be
    empty), so will_be_removed is self.descendants(add_self=1). *)
Definition node_remove (h : heap) (self : nat) (children : option str) : heap * res unit :=
  match h_par h self with
  | None => (h, Raise AttributeError)
  | Some p =>
    match list_remove self (h_ch h p) with
    | None => (h, Raise ValueError)
    | Some l =>
      let h := put_ch h p l in
      let h := match children with
               | Some mode =>
                 if nonempty (h_ch h self) && starts_with (s "rehang") mode then
                   let h := reparent_all h (h_ch h self) (Some p) in
                   let h := put_ch h p (h_ch h p ++ h_ch h self) in
                   let h := put_ch h p (sort_nodes h (h_ch h p)) in
                   put_ch h self []
                 else h
               | None => h
               end in
      let r := h_root h self in
      if negb (nonempty (h_ch h self)) then
        match list_remove self (h_desc h r) with
        | None => (h, Ok tt)                                (* except ValueError: pass *)
        | Some d =>
          let h := put_desc h r d in
          let my_ord := h_ord h self in
          let h := renumber h my_ord (py_from d (my_ord - 1)) in
          (renumber_emp_leaf h my_ord 0 (h_emp h r), Ok tt)
        end
      else
        match (if nonempty (h_emp h r) then
                 rbind (descendants_add_self h self) (fun removed =>
                 Ok (follow_map h removed r (descendants_and_empty h r)))
               else Ok []) with
        | Raise e => (h, Raise e)
        | Diverge => (h, Diverge)
        | Ok fm =>
          match unordered_descendants h r with
          | Raise e => (h, Raise e)
          | Diverge => (h, Diverge)
          | Ok d =>
            let d := sort_nodes h d in
            let h := put_desc h r d in
            let h := renumber h 1 d in
            if nonempty fm then renumber_emp h fm 0 (h_emp h r) else (h, Ok tt)
          end
        end
    end
  end.

(** all_nodes[trg-1] = all_nodes[src-1]; all_nodes[trg-1]._ord = trg
    (node.py:592-593, 601-602, 624-625, 630-631, 650-651, 663-664) *)
Definition copy_node (h : heap) (r : nat) (trg src : Z) : heap * res unit :=
  match py_nth (h_desc h r) (src - 1) with
  | None => (h, Raise IndexError)
  | Some n => match py_set (h_desc h r) (trg - 1) n with
              | None => (h, Raise IndexError)
              | Some l => (put_ord (put_desc h r l) n trg, Ok tt)
              end
  end.
(** all_nodes[trg-1], node._ord = node, trg (node.py:594-595, 603-604, 636, 670) *)
Definition place_node (h : heap) (r n : nat) (trg : Z) : heap * res unit :=
  match py_set (h_desc h r) (trg - 1) n with
  | None => (h, Raise IndexError)
  | Some l => (put_ord (put_desc h r l) n trg, Ok tt)
  end.
(** Copying [k] nodes: positions trg, trg+1, ... from src, src+1, ... (node.py:591-593, 628-632);
    the number of iterations of the Python loop is max(0, reference_ord - src). *)
Fixpoint copy_left (k : nat) (h : heap) (r : nat) (trg src : Z) : heap * res Z :=
  match k with
  | O => (h, Ok trg)
  | S k => bind (copy_node h r trg src) (fun h _ => copy_left k h r (trg + 1) (src + 1))
  end.
(** The mirror image: trg, trg-1, ... from src, src-1, ... (node.py:600-602, 622-626). *)
Fixpoint copy_right (k : nat) (h : heap) (r : nat) (trg src : Z) : heap * res Z :=
  match k with
  | O => (h, Ok trg)
  | S k => bind (copy_node h r trg src) (fun h _ => copy_right k h r (trg - 1) (src - 1))
  end.
(** node.py:643-652, the same over a list with gaps: nodes in [movs] are skipped.
    The Python while / while-else pair is one loop with a test: in each round either the
    node at src is the next moving node, and only src and mov advance, or it is copied.
    The loop runs once for each src from its initial value down to reference_ord. *)
Fixpoint gap_right (k : nat) (h : heap) (r : nat) (movs : list nat) (trg src mov : Z) : heap * res Z :=
  match k with
  | O => (h, Ok trg)
  | S k =>
    match py_nth (h_desc h r) (src - 1), py_nth movs mov with
    | Some a, Some b =>
      if Nat.eqb a b then gap_right k h r movs trg (src - 1) (mov - 1)
      else bind (copy_node h r trg src) (fun h _ => gap_right k h r movs (trg - 1) (src - 1) mov)
    | _, _ => (h, Raise IndexError)
    end
  end.
(** node.py:656-665 *)
Fixpoint gap_left (k : nat) (h : heap) (r : nat) (movs : list nat) (trg src mov : Z) : heap * res Z :=
  match k with
  | O => (h, Ok trg)
  | S k =>
    let copy := bind (copy_node h r trg src)
                     (fun h _ => gap_left k h r movs (trg + 1) (src + 1) mov) in
    if mov <? Z.of_nat (length movs) then
      match py_nth (h_desc h r) (src - 1), py_nth movs mov with
      | Some a, Some b =>
        if Nat.eqb a b then gap_left k h r movs trg (src + 1) (mov + 1) else copy
      | _, _ => (h, Raise IndexError)
      end
    else copy
  end.
(** node.py:635-637, 669-671 *)
Fixpoint place_all (h : heap) (r : nat) (trg : Z) (l : list nat) : heap * res unit :=
  match l with
  | [] => (h, Ok tt)
  | n :: l => bind (place_node h r n trg) (fun h _ => place_all h r (trg + 1) l)
  end.
(** node.py:596-598, 605-609: ords of empty nodes strictly inside (lo, hi) change by d (tenths). *)
Fixpoint shift_emp (h : heap) (lo hi d : Z) (l : list nat) : heap :=
  match l with
  | [] => h
  | e :: l =>
    let h := if (10 * lo <? h_eord h e) && (h_eord h e <? 10 * hi)
             then put_eord h e (h_eord h e + d) else h in
    shift_emp h lo hi d l
  end.
(** self._parent._children.sort() *)
Definition sort_siblings (h : heap) (self : nat) : heap * res unit :=
  match h_par h self with
  | None => (h, Raise AttributeError)
  | Some p => (put_ch h p (sort_nodes h (h_ch h p)), Ok tt)
  end.

(** node.py:582-672 _shift_before_ord *)
Definition shift_before_ord (h : heap) (self : nat) (ref : Z) (without_children : bool) : heap * res unit :=
  let r := h_root h self in
  if without_children || negb (nonempty (h_ch h self)) then
    let my := h_ord h self in
    if my + 1 <? ref then
      bind (copy_left (Z.to_nat (ref - 1 - my)) h r my (my + 1)) (fun h _ =>
      bind (place_node h r self (ref - 1)) (fun h _ =>
      let h := shift_emp h my ref (-10) (h_emp h r) in
      sort_siblings h self))
    else if ref <? my then
      bind (copy_right (Z.to_nat (my - ref)) h r my (my - 1)) (fun h _ =>
      bind (place_node h r self ref) (fun h _ =>
      let h := shift_emp h ref my 10 (h_emp h r) in
      sort_siblings h self))
    else sort_siblings h self
  else
    match descendants_add_self h self with
    | Raise e => (h, Raise e)
    | Diverge => (h, Diverge)
    | Ok movs =>
      match py_nth movs 0, py_nth movs (-1) with
      | Some a, Some z =>
        let first := h_ord h a in
        let last := h_ord h z in
        let n := Z.of_nat (length movs) in
        if last - first + 1 =? n then
          bind (copy_right (Z.to_nat (first - ref)) h r last (first - 1)) (fun h _ =>
          bind (copy_left (Z.to_nat (ref - (last + 1))) h r first (last + 1)) (fun h trg =>
          let trg := if ref <? first then ref else trg in
          bind (place_all h r trg movs) (fun h _ => sort_siblings h self)))
        else
          bind (gap_right (Z.to_nat (last - ref)) h r movs last (last - 1) (n - 2)) (fun h _ =>
          bind (gap_left (Z.to_nat (ref - (first + 1))) h r movs first (first + 1) 1) (fun h trg =>
          let trg := if ref <? first then ref else trg in
          bind (place_all h r trg movs) (fun h _ => sort_siblings h self)))
      | _, _ => (h, Raise IndexError)
      end
    end.

(** Common refusal test of the shift_* methods (node.py:676-679, 686-689, 698-701, 716-719):
    Ok true = go on, Ok false = return silently. *)
Definition shift_allowed (h : heap) (self ref : nat) (without_children skip_if_descendant : bool) : res bool :=
  if without_children then Ok true
  else rbind (is_descendant_of h ref self) (fun d =>
       if d then (if skip_if_descendant then Ok false else Raise ValueError) else Ok true).
Definition if_allowed (h : heap) (a : res bool) (k : heap * res unit) : heap * res unit :=
  match a with
  | Ok true => k
  | Ok false => (h, Ok tt)
  | Raise e => (h, Raise e)
  | Diverge => (h, Diverge)
  end.
(** node.py:674-680 shift_after_node *)
Definition shift_after_node (h : heap) (self ref : nat) (wc skip : bool) : heap * res unit :=
  if_allowed h (shift_allowed h self ref wc skip)
    (shift_before_ord h self (h_ord h ref + 1) wc).
(** node.py:682-690 shift_before_node *)
Definition shift_before_node (h : heap) (self ref : nat) (wc skip : bool) : heap * res unit :=
  if is_root h ref then (h, Raise ValueError)
  else if_allowed h (shift_allowed h self ref wc skip)
         (shift_before_ord h self (h_ord h ref) wc).
(** node.py:692-706 shift_after_subtree *)
Definition shift_after_subtree (h : heap) (self ref : nat) (wc skip : bool) : heap * res unit :=
  if_allowed h (shift_allowed h self ref wc skip)
    match unordered_descendants h ref with
    | Ok l =>
      let ref_ord := fold_left (fun m x => if (m <? h_ord h x) && negb (Nat.eqb x self)
                                           then h_ord h x else m) l (h_ord h ref) in
      shift_before_ord h self (ref_ord + 1) wc
    | Raise e => (h, Raise e)
    | Diverge => (h, Diverge)
    end.
(** node.py:708-724 shift_before_subtree *)
Definition shift_before_subtree (h : heap) (self ref : nat) (wc skip : bool) : heap * res unit :=
  if is_root h ref then (h, Raise ValueError)
  else if_allowed h (shift_allowed h self ref wc skip)
    match unordered_descendants h ref with
    | Ok l =>
      let ref_ord := fold_left (fun m x => if (h_ord h x <? m) && negb (Nat.eqb x self)
                                           then h_ord h x else m) l (h_ord h ref) in
      shift_before_ord h self ref_ord wc
    | Raise e => (h, Raise e)
    | Diverge => (h, Diverge)
    end.

(** root.py:304-316 flatten (the argument deprel is not used by the code) *)
Fixpoint flatten_loop (h : heap) (r : nat) (l : list nat) : heap :=
  match l with
  | [] => h
  | x :: l => flatten_loop (put_ch (put_par h x (Some r)) x []) r l
  end.
Definition flatten (h : heap) (r : nat) : heap :=
  let h := put_ch h r (h_desc h r) in
  flatten_loop h r (h_ch h r).

(** node.py:442-476 create_empty_child on a word (position of the new empty node). *)
Fixpoint empty_slot (h : heap) (base new_ord : Z) (l : list nat) : option Z :=
  match l with
  | [] => Some new_ord
  | e :: l =>
    if new_ord <? h_eord h e then Some new_ord
    else if h_eord h e =? new_ord then
           (if new_ord =? base + 9 then None else empty_slot h base (new_ord + 1) l)
    else empty_slot h base new_ord l
  end.
Definition create_empty_child (h : heap) (self : nat) (after : bool) : heap * res nat :=
  let r := h_root h self in
  let (h, n) := alloc h KEmpty r in
  let base := 10 * (if after then h_ord h self else h_ord h self - 1) in
  match empty_slot h base (base + 1) (h_emp h r) with
  | None => (h, Raise TypeError)                            (* OrdTuple(base_ord, 10) *)
  | Some o =>
    let h := put_eord h n o in
    match last_opt (h_emp h r) with
    | None => (put_emp h r (h_emp h r ++ [n]), Ok n)
    | Some z =>
      if h_eord h z <? o then (put_emp h r (h_emp h r ++ [n]), Ok n)
      else (put_emp h r (sort_on (h_eord h) (h_emp h r ++ [n])), Ok n)
    end
  end.

(** node.py:726-734 prev_node, 736-743 next_node (on words and roots) *)
Definition prev_node (h : heap) (self : nat) : res (option nat) :=
  let new_ord := h_ord h self - 1 in
  if new_ord <? 0 then Ok None
  else if new_ord =? 0 then Ok (Some (h_root h self))
  else match py_nth (h_desc h (h_root h self)) (new_ord - 1) with
       | Some n => Ok (Some n)
       | None => Raise IndexError
       end.
Definition next_node (h : heap) (self : nat) : option nat :=
  py_nth (h_desc h (h_root h self)) (h_ord h self).

(** node.py:745-759 precedes, for nodes of one tree *)
Definition precedes_in_tree (h : heap) (a b : nat) : bool := h_ord h a <? h_ord h b.

(** node.py:765-784 _get_attr: 'dir', 'edge', 'children', 'siblings', 'depth' *)
Definition attr_dir (h : heap) (self : nat) : str :=
  match h_par h self with
  | None => s "root"
  | Some p => if is_root h p then s "root"
              else if precedes_in_tree h self p then s "left" else s "right"
  end.
Definition attr_edge (h : heap) (self : nat) : Z :=
  match h_par h self with
  | None => 0
  | Some p => if is_root h p then 0 else h_ord h self - h_ord h p
  end.
Definition attr_children (h : heap) (self : nat) : Z := Z.of_nat (length (h_ch h self)).
Definition attr_siblings (h : heap) (self : nat) : Z :=
  match h_par h self with
  | None => 0
  | Some p => Z.of_nat (length (h_ch h p)) - 1
  end.
Fixpoint depth_loop (fl : nat) (h : heap) (tmp : option nat) (value : Z) : res Z :=
  match tmp with
  | None => Ok value
  | Some x => if is_root h x then Ok value
              else match fl with
                   | O => Diverge
                   | S f => depth_loop f h (h_par h x) (value + 1)
                   end
  end.
Definition attr_depth (h : heap) (self : nat) : res Z := depth_loop (fuel h) h (Some self) 0.

(** node.py:925-952 is_nonprojective *)
Definition is_nonprojective (h : heap) (self : nat) : res bool :=
  match h_par h self with
  | None => Ok false
  | Some p =>
    if is_root h p then Ok false
    else
      let ord1 := Z.min (h_ord h self) (h_ord h p) in
      let ord2 := Z.max (h_ord h self) (h_ord h p) in
      let distance := ord2 - ord1 in
      if distance =? 1 then Ok false
      else rbind (unordered_descendants h p) (fun l =>
           let span := filter (fun n => (ord1 <? h_ord h n) && (h_ord h n <? ord2)) l in
           Ok (negb (Z.of_nat (length span) =? distance - 1)))
  end.

(** node.py:962-967: the set of ancestors (with self) and the topmost one. *)
Fixpoint climb_all (fl : nat) (h : heap) (node : nat) (acc : list nat) : res (nat * list nat) :=
  match h_par h node with
  | None => Ok (node, acc)
  | Some p => match fl with
              | O => Diverge
              | S f => climb_all f h p (p :: acc)
              end
  end.
(** node.py:954-974 is_nonprojective_gap; a missing parent would be AttributeError *)
Fixpoint gap_scan (h : heap) (test : nat -> bool) (anc : list nat) (l : list nat) : res bool :=
  match l with
  | [] => Ok false
  | x :: l => match h_par h x with
              | None => Raise AttributeError
              | Some p => if test p && negb (mem p anc) then Ok true else gap_scan h test anc l
              end
  end.
Definition is_nonprojective_gap (h : heap) (self : nat) : res bool :=
  rbind (climb_all (fuel h) h self [self]) (fun '(top, anc) =>
    let all_nodes := h_desc h top in
    rbind (gap_scan h (fun p => precedes_in_tree h self p) anc (py_to all_nodes (h_ord h self - 1)))
      (fun b => if b then Ok true
                else gap_scan h (fun p => precedes_in_tree h p self) anc
                              (py_from all_nodes (h_ord h self)))).

(** node.py:1179-1239 find_minimal_common_treelet.
    in_treelet maps _ord to 1 ([Sure]) or to the child from which we climbed ([Via c]);
    all Via nodes are truthy Python objects. *)
Inductive mark := Sure | Via (child : nat).
Fixpoint mget {V} (m : list (Z * V)) (k : Z) : option V :=
  match m with
  | [] => None
  | (k', v) :: m => if k =? k' then Some v else mget m k
  end.
Fixpoint mset {V} (m : list (Z * V)) (k : Z) (v : V) : list (Z * V) :=
  match m with
  | [] => [(k, v)]
  | (k', v') :: m => if k =? k' then (k', v) :: m else (k', v') :: mset m k v
  end.
Fixpoint mdel {V} (m : list (Z * V)) (k : Z) : option (list (Z * V)) :=
  match m with
  | [] => None
  | (k', v') :: m => if k =? k' then Some m
                     else match mdel m k with Some m' => Some ((k', v') :: m') | None => None end
  end.
(** node.py:1212-1222, Step 1: returns (nodes, in_treelet, new_nodes, highest) *)
Fixpoint treelet_up (fl : nat) (h : heap) (nodes : list nat) (marks : list (Z * mark))
         (news : list (Z * nat)) (highest : option nat)
  : res (list nat * list (Z * mark) * list (Z * nat) * option nat) :=
  match nodes with
  | node :: (_ :: _) as rest =>
    let rest := tl nodes in
    match fl with
    | O => Diverge
    | S f =>
      match h_par h node with
      | None => treelet_up f h rest marks news (Some node)
      | Some p =>
        match mget marks (h_ord h p) with
        | Some _ => treelet_up f h rest (mset marks (h_ord h p) Sure) news highest
        | None => treelet_up f h (rest ++ [p]) (mset marks (h_ord h p) (Via node))
                             (mset news (h_ord h p) p) highest
        end
      end
    end
  | _ => Ok (nodes, marks, news, highest)
  end.
(** node.py:1230-1236, Step 2 *)
Fixpoint treelet_down (fl : nat) (h : heap) (marks : list (Z * mark)) (news : list (Z * nat))
         (highest : nat) : res (nat * list (Z * nat)) :=
  match mget marks (h_ord h highest) with
  | None => Raise KeyError
  | Some Sure => Ok (highest, news)
  | Some (Via c) =>
    match mdel news (h_ord h highest) with
    | None => Raise KeyError
    | Some news => match fl with
                   | O => Diverge
                   | S f => treelet_down f h marks news c
                   end
    end
  end.
Definition find_minimal_common_treelet (h : heap) (nodes : list nat) : res (nat * list nat) :=
  let marks := fold_left (fun m x => mset m (h_ord h x) Sure) nodes [] in
  rbind (treelet_up (fuel h * fuel h) h nodes marks [] None) (fun '(nodes, marks, news, highest) =>
    match (match highest with Some x => Some x | None => nth_error nodes 0 end) with
    | None => Raise IndexError
    | Some top =>
      rbind (treelet_down (fuel h) h marks news top) (fun '(head, news) =>
        Ok (head, map snd news))
    end).
