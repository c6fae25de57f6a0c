(** Model of blocks that re-attach nodes and re-label edges: transform.Flatten, transform.Proj,
    transform.Deproj, ud.FixChain, ud.FixRightheaded, ud.FixLeaf, ud.FixPunctChild, ud.FixRoot,
    demo.RehangPrepositions, and the labels in Root.flatten. *)
From Coq Require Import String List NArith ZArith Bool.
From Verif Require Import PyStr PyList PyExn TreeModel DeprelModel.
Import ListNotations.

(** A document state: the tree structure and the attributes deprel, upos and misc['pproj'].
    Simplification: misc is reduced to its value for 'pproj' ('' when absent). *)
Record lst := mkL { l_heap : heap; l_dep : nat -> option str; l_upos : nat -> option str; l_pproj : nat -> str }.
Definition set_heap (st : lst) (h : heap) : lst := mkL h (l_dep st) (l_upos st) (l_pproj st).
(** node.deprel = d *)
Definition set_dep (st : lst) (x : nat) (d : option str) : lst :=
  mkL (l_heap st) (upd (l_dep st) x d) (l_upos st) (l_pproj st).
Definition set_pproj (st : lst) (x : nat) (v : str) : lst :=
  mkL (l_heap st) (l_dep st) (l_upos st) (upd (l_pproj st) x v).

(** node.parent = p *)
Definition assign_parent (st : lst) (x : nat) (p : option nat) : lst * res unit :=
  let (h, r) := set_parent (l_heap st) x p in (set_heap st h, r).
(** node.parent, when it is then used as a node: None raises AttributeError *)
Definition the_parent (st : lst) (x : nat) : res nat :=
  match h_par (l_heap st) x with Some p => Ok p | None => Raise AttributeError end.
(** node.parent = node.parent.parent *)
Definition lift_once (st : lst) (x : nat) : lst * res unit :=
  match the_parent st x with
  | Ok p => assign_parent st x (h_par (l_heap st) p)
  | Raise e => (st, Raise e)
  | Diverge => (st, Diverge)
  end.
(** for x in l: f(x) *)
Fixpoint for_each (f : lst -> nat -> lst * res unit) (l : list nat) (st : lst) : lst * res unit :=
  match l with
  | [] => (st, Ok tt)
  | x :: l => bind (f st x) (fun st _ => for_each f l st)
  end.
(** udapi/core/block.py:54-62 process_tree: process_node on every word *)
Definition each_word (f : lst -> nat -> lst * res unit) (st : lst) (r : nat) : lst * res unit :=
  for_each f (h_desc (l_heap st) r) st.
Definition udep (st : lst) (x : nat) : option str := udeprel (l_dep st x).
(** node.udeprel in l, for a list of strings *)
Definition ostr_eqb (a : option str) (b : str) : bool :=
  match a with Some a => str_eqb a b | None => false end.
Definition udep_in (st : lst) (x : nat) (l : list str) : bool := existsb (ostr_eqb (udep st x)) l.

(** udapi/core/root.py:304-316 flatten: the argument deprel is not used *)
Definition root_flatten (st : lst) (r : nat) (deprel : str) : lst := set_heap st (flatten (l_heap st) r).

(** udapi/block/transform/flatten.py:17-25 process_tree *)
Definition attach_all (p : nat) (dep : str) (l : list nat) (st : lst) : lst * res unit :=
  for_each (fun st x => bind (assign_parent st x (Some p)) (fun st _ => (set_dep st x (Some dep), Ok tt))) l st.
Definition flatten_tree (oneroot : bool) (st : lst) (tree : nat) : lst * res unit :=
  bind (for_each (fun st x => bind (assign_parent st x (Some (h_root (l_heap st) x)))
                                   (fun st _ => (set_dep st x (Some (s "root")), Ok tt)))
                 (h_desc (l_heap st) tree) st) (fun st _ =>
  if oneroot then
    match h_desc (l_heap st) tree with
    | [] => (st, Raise IndexError)
    | first :: rest => attach_all first (s "dep") rest st
    end
  else (st, Ok tt)).

(** udapi/block/ud/fixchain.py:15-18 process_node *)
Fixpoint fixchain_node (deprels : list str) (st : lst) (x : nat) : lst * res unit :=
  match deprels with
  | [] => (st, Ok tt)
  | d :: deprels =>
    if ostr_eqb (udep st x) d then
      match the_parent st x with
      | Ok p => if ostr_eqb (udep st p) d
                then bind (lift_once st x) (fun st _ => fixchain_node deprels st x)
                else fixchain_node deprels st x
      | Raise e => (st, Raise e)
      | Diverge => (st, Diverge)
      end
    else fixchain_node deprels st x
  end.
Definition fixchain (deprels : list str) := each_word (fixchain_node deprels).

(** udapi/block/ud/fixrightheaded.py:22-33 process_node *)
Fixpoint fixright_node (deprels : list str) (st : lst) (x : nat) : lst * res unit :=
  match deprels with
  | [] => (st, Ok tt)
  | d :: deprels =>
    if ostr_eqb (udep st x) d then
      match the_parent st x with
      | Ok p =>
        if precedes_in_tree (l_heap st) x p then
          bind (assign_parent st x (h_par (l_heap st) p)) (fun st _ =>
          bind (if negb (str_eqb d (s "conj"))
                then for_each (fun st c => assign_parent st c (Some x)) (children (l_heap st) p) st
                else (st, Ok tt)) (fun st _ =>
          bind (assign_parent st p (Some x)) (fun st _ =>
          let head_deprel := l_dep st p in
          let st := set_dep st p (l_dep st x) in
          let st := set_dep st x head_deprel in
          fixright_node deprels st x)))
        else fixright_node deprels st x
      | Raise e => (st, Raise e)
      | Diverge => (st, Diverge)
      end
    else fixright_node deprels st x
  end.
Definition fixright (deprels : list str) := each_word (fixright_node deprels).

(** udapi/block/ud/fixleaf.py:33-35, while ancestor.udeprel in deprels: ancestor = ancestor.parent *)
Fixpoint climb_over (fl : nat) (deprels : list str) (st : lst) (a : option nat) : res nat :=
  match a with
  | None => Raise AttributeError
  | Some a => if udep_in st a deprels then
                match fl with
                | O => Diverge
                | S f => climb_over f deprels st (h_par (l_heap st) a)
                end
              else Ok a
  end.
(** udapi/block/ud/fixleaf.py:23-42 process_node.
    Simplification: the redirection of enhanced dependencies (lines 38-42) is left out. *)
Definition leaf_allowed (d : str) : list str :=
  [s "fixed"; s "punct"; s "goeswith"; s "reparandum"] ++
  (if str_eqb d (s "cc") then [] else [s "conj"; s "cc"]).
Fixpoint fixleaf_node (all deprels : list str) (st : lst) (x : nat) : lst * res unit :=
  match deprels with
  | [] => (st, Ok tt)
  | d :: deprels =>
    if ostr_eqb (udep st x) d then
      let cs := filter (fun c => negb (udep_in st c (leaf_allowed d))) (children (l_heap st) x) in
      match climb_over (fuel (l_heap st)) all st (h_par (l_heap st) x) with
      | Ok a => bind (for_each (fun st c => assign_parent st c (Some a)) cs st)
                     (fun st _ => fixleaf_node all deprels st x)
      | Raise e => (st, Raise e)
      | Diverge => (st, Diverge)
      end
    else fixleaf_node all deprels st x
  end.
Definition fixleaf (deprels : list str) := each_word (fixleaf_node deprels deprels).

(** udapi/block/ud/fixpunctchild.py:8-10 process_node; fuel for the while loop *)
Fixpoint punctchild_loop (fl : nat) (st : lst) (x : nat) : lst * res unit :=
  match the_parent st x with
  | Ok p => if ostr_eqb (l_dep st p) (s "punct") then
              match fl with
              | O => (st, Diverge)
              | S f => bind (lift_once st x) (fun st _ => punctchild_loop f st x)
              end
            else (st, Ok tt)
  | Raise e => (st, Raise e)
  | Diverge => (st, Diverge)
  end.
Definition fixpunctchild := each_word (fun st x => punctchild_loop (fuel (l_heap st)) st x).

(** udapi/block/ud/fixroot.py:27-37 process_tree *)
Definition fixroot (st : lst) (r : nat) : lst * res unit :=
  match children (l_heap st) r with
  | [] => (st, Raise IndexError)
  | first :: rest =>
    bind (attach_all first (s "parataxis") rest st) (fun st _ =>
    let st := if ostr_eqb (udep st first) (s "root") then st else set_dep st first (Some (s "root")) in
    for_each (fun st x =>
      (if negb (match h_par (l_heap st) x with Some p => Nat.eqb p r | None => false end)
          && ostr_eqb (udep st x) (s "root")
       then set_dep st x (Some (s "parataxis")) else st, Ok tt)) (h_desc (l_heap st) r) st)
  end.

(** udapi/block/demo/rehangprepositions.py:8-12 process_node *)
Definition rehangprep_node (st : lst) (x : nat) : lst * res unit :=
  if ostr_eqb (l_upos st x) (s "ADP") then
    match the_parent st x with
    | Ok p => bind (assign_parent st x (h_par (l_heap st) p)) (fun st _ => assign_parent st p (Some x))
    | Raise e => (st, Raise e)
    | Diverge => (st, Diverge)
    end
  else (st, Ok tt).
Definition rehangprep := each_word rehangprep_node.

(** udapi/block/transform/proj.py:42-44 and 51-53: while node.is_nonprojective(): lift,
    counting the steps *)
Fixpoint lift_loop (fl : nat) (st : lst) (x : nat) (depth : Z) : lst * res Z :=
  match is_nonprojective (l_heap st) x with
  | Ok true => match fl with
               | O => (st, Diverge)
               | S f => bind (lift_once st x) (fun st _ => lift_loop f st x (depth + 1))
               end
  | Ok false => (st, Ok depth)
  | Raise e => (st, Raise e)
  | Diverge => (st, Diverge)
  end.
(** proj.py:36-46 nonproj_info: the sort key of a non-projective node *)
Definition nonproj_key (shortest : bool) (st : lst) (x : nat) : lst * res Z :=
  match the_parent st x with
  | Raise e => (st, Raise e)
  | Diverge => (st, Diverge)
  | Ok p =>
    if shortest then (st, Ok (Z.abs (h_ord (l_heap st) x - h_ord (l_heap st) p)))
    else bind (lift_once st x) (fun st _ =>
         bind (lift_loop (fuel (l_heap st)) st x 1) (fun st depth =>
         bind (assign_parent st x (Some p)) (fun st _ => (st, Ok (- depth)%Z))))
  end.
(** proj.py:32 [self.nonproj_info(n) for n in tree.descendants if n.is_nonprojective()] *)
Fixpoint nonproj_infos (shortest : bool) (l : list nat) (st : lst) : lst * res (list (Z * nat)) :=
  match l with
  | [] => (st, Ok [])
  | x :: l =>
    match is_nonprojective (l_heap st) x with
    | Ok true => bind (nonproj_key shortest st x) (fun st k =>
                 bind (nonproj_infos shortest l st) (fun st r => (st, Ok ((k, x) :: r))))
    | Ok false => nonproj_infos shortest l st
    | Raise e => (st, Raise e)
    | Diverge => (st, Diverge)
    end
  end.
(** proj.py:58-64 mark, for label 'misc', 'deprel' or anything else *)
Inductive plabel := LMisc | LDeprel | LOther.
Definition ostr (a : option str) : str := match a with Some x => x | None => s "None" end.
Definition mark (lab : plabel) (st : lst) (x : nat) (label : option str) : lst * res unit :=
  match lab with
  | LMisc => (set_pproj st x (match label with Some l => l | None => [] end), Ok tt)
  | LDeprel => (set_dep st x (Some (ostr (udep st x) ++ s ":" ++ ostr (sdeprel (l_dep st x)) ++ s "+" ++ ostr label)), Ok tt)
  | LOther => (st, Raise ValueError)
  end.
(** proj.py:48-56 lift *)
Definition proj_lift (lab : plabel) (st : lst) (x : nat) : lst * res unit :=
  let orig := h_par (l_heap st) x in
  bind (lift_loop (fuel (l_heap st)) st x 0) (fun st depth =>
  if (depth =? 0)%Z then (st, Ok tt)
  else match orig with
       | Some p => mark lab st x (udep st p)
       | None => (st, Raise AttributeError)
       end).
(** proj.py:31-34 process_tree *)
Definition proj_tree (shortest : bool) (lab : plabel) (st : lst) (r : nat) : lst * res unit :=
  bind (nonproj_infos shortest (h_desc (l_heap st) r) st) (fun st infos =>
  for_each (proj_lift lab) (map snd (sort_on fst infos)) st).

(** udapi/block/transform/deproj.py:36-43 head_strategy: breadth-first search; fuel for the
    while loop *)
Fixpoint deproj_search (fl : nat) (st : lst) (label : str) (queue : list nat) : res (option nat) :=
  match queue with
  | [] => Ok None
  | a :: queue => if ostr_eqb (udep st a) label then Ok (Some a)
                  else match fl with
                       | O => Diverge
                       | S f => deproj_search f st label (queue ++ children (l_heap st) a)
                       end
  end.
(** deproj.py:18-34 process_node with label 'misc' *)
Definition deproj_node (st : lst) (x : nat) : lst * res unit :=
  match l_pproj st x with
  | [] => (st, Ok tt)
  | label =>
    match the_parent st x with
    | Raise e => (st, Raise e)
    | Diverge => (st, Diverge)
    | Ok p =>
      match deproj_search (fuel (l_heap st)) st label
              (filter (fun n => negb (Nat.eqb n x)) (children (l_heap st) p)) with
      | Ok (Some q) => assign_parent st x (Some q)
      | Ok None => (st, Ok tt)
      | Raise e => (st, Raise e)
      | Diverge => (st, Diverge)
      end
    end
  end.
Definition deproj := each_word deproj_node.
