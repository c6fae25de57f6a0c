(** Model of blocks that join sentences: udapi/block/segment/merge.py and udapi/block/util/joinsentence.py.
    Simplifications: every bundle has one tree, with the empty zone (joinsentence.py:43-50 expects that); bundle numbers are
    left out; reading MISC, which may store it in another form, is not recorded. *)
From Coq Require Import String List NArith ZArith Bool.
From Verif Require Import PyStr PyList PyExn TreeModel DualDictModel DocModel StealModel TokModel.
Import ListNotations.

(** A bundle: bundle_id and the root of its tree. *)
Record bundle1 := mkB { b_id : option str; b_root : nat }.
(** tree.text = x (root.py:15) *)
Definition set_text (d : doc) (r : nat) (x : str) : doc :=
  let i := d_ri d r in
  put_ri d r (mkRI (ri_sent_id i) (ri_zone i) (Some x) (ri_comment i) (ri_newpar i) (ri_newdoc i) (ri_json i) (ri_doc_json i)).
(** merge.py:42-43, joinsentence.py:59-60, 71-72:
    prev_tree.steal_nodes(tree.descendants); prev_tree.text = prev_tree.compute_text() *)
Definition append_tree (d : doc) (p r : nat) : doc * res unit :=
  bind (steal_nodes d p (h_desc (d_h d) r)) (fun d _ =>
  bind (d, compute_text d p true) (fun d x => (set_text d p x, Ok tt))).

(** merge.py:12-17 should_merge_tokens: first.form[-1] == ';' *)
Definition semicolon : N := 59%N.
Definition should_merge_tokens (d : doc) (first second : nat) : res bool :=
  match n_form (d_at d first) with
  | None => Raise TypeError
  | Some f => match last_opt f with None => Raise IndexError | Some c => Ok (N.eqb c semicolon) end
  end.
(** merge.py:19-23 should_merge_bundles *)
Definition should_merge_bundles (d : doc) (first second : bundle1) : res bool :=
  match last_opt (h_desc (d_h d) (b_root first)), h_desc (d_h d) (b_root second) with
  | Some x, y :: _ => should_merge_tokens d x y
  | _, _ => Raise IndexError
  end.
(** merge.py:37-47 the loop over the bundles; the answer is new_bundles without the bundles before [prev] *)
Fixpoint merge_loop (d : doc) (prev : bundle1) (rest : list bundle1) : doc * res (list bundle1) :=
  match rest with
  | [] => (d, Ok [prev])
  | b :: rest =>
    bind (d, should_merge_bundles d prev b) (fun d y =>
    if y then bind (append_tree d (b_root prev) (b_root b)) (fun d _ => merge_loop d prev rest)
    else bind (merge_loop d b rest) (fun d l => (d, Ok (prev :: l))))
  end.
(** merge.py:33-48 process_document: doc.bundles is replaced by the answer *)
Definition merge_document (d : doc) (bundles : list bundle1) : doc * res (list bundle1) :=
  match bundles with
  | [] => (d, Raise IndexError)
  | b :: rest => merge_loop d b rest
  end.

(** joinsentence.py:55: n.misc[name] and value == None or n.misc[name] == value *)
Definition is_command (name : str) (value : option str) (d : doc) (x : nat) : bool :=
  let v := misc_get (n_misc (d_at d x)) name in
  match value with
  | None => truthy v || match v with VNone => true | _ => false end
  | Some y => is_value v y
  end.
(** joinsentence.py:62-63: for n in join_commands: n.misc[name] = '' *)
Fixpoint clear_commands (d : doc) (name : str) (l : list nat) : doc :=
  match l with [] => d | x :: l => clear_commands (put_misc d x name (VStr [])) name l end.
(** bundle.py:106-108 bundle.remove(): the list is replaced by a new one, so loops over the old list go on *)
Definition drop_bundle (bundles : list bundle1) (b : bundle1) : list bundle1 :=
  filter (fun x => negb (Nat.eqb (b_root x) (b_root b))) bundles.
(** joinsentence.py:40-67 with misc_name: the loop over the bundles the document had; [bundles] is document.bundles,
    [prev] is previous_tree *)
Fixpoint join_by_misc (name : str) (value : option str) (d : doc) (bundles : list bundle1) (prev : option nat) (rest : list bundle1)
  : doc * res (list bundle1) :=
  match rest with
  | [] => (d, Ok bundles)
  | b :: rest =>
    match filter (is_command name value d) (h_desc (d_h d) (b_root b)) with
    | [] => join_by_misc name value d bundles (Some (b_root b)) rest
    | l =>
      match prev with
      | None => (d, Raise AttributeError)                       (* None.steal_nodes; logging.fatal does not stop *)
      | Some p => bind (append_tree d p (b_root b)) (fun d _ =>
                  join_by_misc name value (clear_commands d name l) (drop_bundle bundles b) prev rest)
      end
    end
  end.
(** joinsentence.py:40-42, 68-76 without misc_name *)
Definition has_id (b : bundle1) (x : str) : bool := match b_id b with Some y => str_eqb y x | None => false end.
Fixpoint join_by_id (x : str) (d : doc) (bundles : list bundle1) (prev : option nat) (rest : list bundle1)
  : doc * res (list bundle1) :=
  match rest with
  | [] => (d, Ok bundles)
  | b :: rest =>
    if has_id b x then
      match prev with
      | None => (d, Raise AttributeError)
      | Some p => bind (append_tree d p (b_root b)) (fun d _ => (d, Ok (drop_bundle bundles b)))
      end
    else join_by_id x d bundles prev rest
  end.
