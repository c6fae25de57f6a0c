(** Model of udapi/block/corefud/indexclusters.py and udapi/block/corefud/removenocorefentities.py.
    Simplification: the entities are loaded (Document._load_coref). *)
From Coq Require Import String List NArith ZArith Bool.
From Verif Require Import PyStr PyList PyExn TreeModel DepsModel BundleModel CorefModel CorefIOModel.
Import ListNotations.
Local Open Scope Z_scope.

(** d[k] = v for a dict in insertion order *)
Fixpoint put_key (l : list (str * nat)) (k : str) (e : nat) : list (str * nat) :=
  match l with
  | [] => [(k, e)]
  | (k', e') :: l => if str_eqb k' k then (k, e) :: l else (k', e') :: put_key l k e
  end.
(** indexclusters.py:30-33 the loop; [new] is new_eid_to_entity *)
Fixpoint index_loop (prefix : str) (idx : Z) (c : coref) (new : list (str * nat)) (l : list nat) : coref * res (list (str * nat)) :=
  match l with
  | [] => (c, Ok new)
  | e :: l => let eid := prefix ++ str_of_Z idx in
              bind (set_eid c e eid) (fun c _ => index_loop prefix (idx + 1) c (put_key new eid e) l)
  end.
(** indexclusters.py:25-35 process_document; the answer is the new value of self.start *)
Definition index_clusters (prefix : str) (start : Z) (c : coref) : coref * res Z :=
  match map snd (eids c) with
  | [] => (c, Ok start)
  | entities => bind (index_loop prefix start c [] entities) (fun c new =>
                (put_eids c new, Ok (start + Z.of_nat (length entities))))
  end.
(** the documents of a run *)
Fixpoint index_docs (prefix : str) (start : Z) (docs : list coref) : list coref * res unit :=
  match docs with
  | [] => ([], Ok tt)
  | c :: docs =>
    match index_clusters prefix start c with
    | (c, Ok start) => let (docs, o) := index_docs prefix start docs in (c :: docs, o)
    | (c, Raise e) => (c :: docs, Raise e)
    | (c, Diverge) => (c :: docs, Diverge)
    end
  end.

(** re.match(r'^NOCOREF', eid) *)
Definition is_nocoref (eid : str) : bool := starts_with (s "NOCOREF") eid.
(** removenocorefentities.py:17-21 process_document *)
Definition remove_nocoref (c : coref) : coref :=
  match map snd (eids c) with
  | [] => c
  | entities => put_eids c (fold_left (fun new e => if is_nocoref (e_eid c e) then new else put_key new (e_eid c e) e) entities [])
  end.
