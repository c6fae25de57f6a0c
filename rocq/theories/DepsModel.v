(** Model of enhanced dependencies: udapi/core/node.py raw_deps, deps and EmptyNode.remove. *)
From Coq Require Import String List NArith ZArith Bool.
From Verif Require Import PyStr PyList PyExn TreeModel.
Import ListNotations.

(** The value of node._deps: a list of {'parent': node, 'deprel': label}, or the set
    {('parent', 'deprel')} that EmptyNode.remove (node.py:1075-1077) stores.
    Simplification: no other values are assigned to node.deps. *)
Inductive deps_val :=
| DList (l : list (nat * str))
| DKeys.

(** node.py:70-86 the slots _raw_deps and _deps of every node, beside the tree. *)
Record dstate := mkD {
  s_h : heap;
  s_raw : nat -> option str;          (* _raw_deps *)
  s_deps : nat -> option deps_val     (* _deps *)
}.
Definition put_raw st x v := mkD (s_h st) (upd (s_raw st) x v) (s_deps st).
Definition put_deps st x v := mkD (s_h st) (s_raw st) (upd (s_deps st) x v).
Definition put_h st h := mkD h (s_raw st) (s_deps st).

(** node.py:100-101 Node.__init__: a new node has _raw_deps '_' and _deps None. *)
Definition dstate0 (h : heap) : dstate := mkD h (fun _ => Some (s "_")) (fun _ => None).

(** str(node._ord): an int, or a float rounded to one decimal (in tenths). *)
Definition id_str (h : heap) (x : nat) : str :=
  if is_empty h x then str_of_Z (h_eord h x / 10) ++ s "." ++ str_of_Z (h_eord h x mod 10)
  else str_of_Z (h_ord h x).

(** '|'.join(f"{dep['parent']._ord}:{dep['deprel']}" for dep in self._deps) *)
Definition deps_str (h : heap) (l : list (nat * str)) : str :=
  join (s "|") (map (fun pd => id_str h (fst pd) ++ s ":" ++ snd pd) l).

(** node.py:242-256 raw_deps getter; dep['parent'] on a tuple raises TypeError *)
Definition raw_deps (st : dstate) (x : nat) : dstate * res (option str) :=
  match s_deps st x with
  | Some DKeys => (st, Raise TypeError)
  | Some (DList ((_ :: _) as l)) =>
      let v := Some (deps_str (s_h st) l) in (put_raw st x v, Ok v)
  | _ => (st, Ok (s_raw st x))
  end.
(** node.py:258-266 raw_deps setter *)
Definition set_raw_deps (st : dstate) (x : nat) (v : option str) : dstate :=
  put_deps (put_raw st x v) x None.
(** node.py:300-304 deps setter *)
Definition set_deps (st : dstate) (x : nat) (l : list (nat * str)) : dstate :=
  put_raw (put_deps st x (Some (DList l))) x None.
(** In-place changes of the list returned by node.deps (append, remove, clear, ...). *)
Definition mutate_deps (st : dstate) (x : nat) (l : list (nat * str)) : dstate :=
  put_deps st x (Some (DList l)).

(** node.py:283-295: the node a head denotes *)
Definition head_node (h : heap) (self : nat) (head : str) : res nat :=
  let r := h_root h self in
  if has_char 46%N head then
    match find (fun e => str_eqb (id_str h e) head) (h_emp h r) with
    | Some e => Ok e
    | None => Raise ValueError
    end
  else
    match py_int head with
    | None => Raise ValueError
    | Some i => match py_nth (r :: h_desc h r) i with
                | Some n => Ok n
                | None => Raise IndexError
                end
    end.
(** node.py:284-296: the loop; what has been appended before an exception stays in _deps. *)
Fixpoint parse_deps (h : heap) (self : nat) (acc : list (nat * str)) (pieces : list str)
  : list (nat * str) * res unit :=
  match pieces with
  | [] => (acc, Ok tt)
  | p :: pieces =>
    match split1 58%N p with
    | None => (acc, Raise ValueError)                     (* not enough values to unpack *)
    | Some (head, deprel) =>
      match head_node h self head with
      | Ok n => parse_deps h self (acc ++ [(n, deprel)]) pieces
      | Raise e => (acc, Raise e)
      | Diverge => (acc, Diverge)
      end
    end
  end.
(** node.py:268-298 deps getter; None.split raises AttributeError *)
Definition deps (st : dstate) (x : nat) : dstate * res deps_val :=
  match s_deps st x with
  | Some v => (st, Ok v)
  | None =>
    match s_raw st x with
    | None => (put_deps st x (Some (DList [])), Raise AttributeError)
    | Some raw =>
      if str_eqb raw (s "_") then (put_deps st x (Some (DList [])), Ok (DList []))
      else
        let (l, o) := parse_deps (s_h st) x [] (split 124%N raw) in
        (put_deps st x (Some (DList l)),
         match o with Ok _ => Ok (DList l) | Raise e => Raise e | Diverge => Diverge end)
    end
  end.

(** node.py:1064-1070: empty nodes in the interval (ord, ord+1) are moved down by 0.1 *)
Definition close_gap (h : heap) (self : nat) : heap :=
  let o := h_eord h self in
  fold_left (fun h' e => put_eord h' e (h_eord h' e - 1)%Z)
    (filter (fun e => (o <? h_eord h e)%Z && (h_eord h e <? o + 10)%Z) (h_emp h (h_root h self))) h.
(** node.py:1075-1077: n._deps = {(deprel, parent) for deprel, parent in n._deps if parent != self}.
    Unpacking a dict gives its keys, so the pair is always ('parent', 'deprel'), and the string
    'deprel' is never equal to self. *)
Definition drop_deps (v : option deps_val) : option deps_val :=
  match v with
  | Some (DList (_ :: _)) => Some DKeys
  | v => v
  end.
Fixpoint drop_all (st : dstate) (l : list nat) : dstate :=
  match l with
  | [] => st
  | n :: l => drop_all (put_deps st n (drop_deps (s_deps st n))) l
  end.
(** node.py:1062-1077 EmptyNode.remove *)
Definition empty_remove (st : dstate) (self : nat) : dstate :=
  let st := put_h st (close_gap (s_h st) self) in
  let r := h_root (s_h st) self in
  match list_remove self (h_emp (s_h st) r) with
  | None => st                                            (* already deleted *)
  | Some l => let st := put_h st (put_emp (s_h st) r l) in
              drop_all st (l ++ h_desc (s_h st) r)
  end.
