(** Model of udapi/block/util/splitsentence.py.
    Simplifications: as in ResegModel (one tree per bundle, no bundle numbers, no logging); reading MISC is not recorded. *)
From Coq Require Import String List NArith ZArith Bool.
From Verif Require Import PyStr PyList PyExn TreeModel DualDictModel DocModel StealModel TokModel ResegModel.
Import ListNotations.
Local Open Scope Z_scope.

Definition root_rel : str := s "root".
(** splitsentence.py:122-134 make_zeros_roots *)
Definition zero_root (d : doc) (x : nat) : doc :=
  match h_par (d_h d) x with
  | Some p => if is_root (d_h d) p then put_at d x (set_deprel (d_at d x) (Some root_rel)) else d
  | None => d
  end.
Definition zeros_roots (d : doc) (r : nat) : doc := fold_left zero_root (h_desc (d_h d) r) d.
(** splitsentence.py:75, 84, 117: root.text = root.compute_text() *)
Definition retext (d : doc) (r : nat) : doc * res unit := bind (d, compute_text d r true) (fun d x => (set_text d r x, Ok tt)).
(** bundle.bundle_id + letter (None + str is a TypeError) *)
Definition with_letter (b : bundle1) (c : N) : res str :=
  match b_id b with Some x => Ok (x ++ [c]) | None => Raise TypeError end.

(** splitsentence.py:93-118: the sentence is found *)
Definition split_words (d : doc) (b : bundle1) (word_id : Z) : doc * res (list bundle1) :=
  let r := b_root b in
  let nodes := filter (fun n => word_id <=? h_ord (d_h d) n) (h_desc (d_h d) r) in
  bind (d, with_letter b 66%N) (fun d idB =>
  bind (d, with_letter b 65%N) (fun d idA =>
  let (d, r2) := doc_new_root d in
  bind (steal_nodes d r2 nodes) (fun d _ =>
  let d := zeros_roots (zeros_roots d r) r2 in
  bind (retext d r) (fun d _ =>
  bind (retext d r2) (fun d _ =>
  (d, Ok [mkB (Some idA) r; mkB (Some idB) r2])))))).
(** splitsentence.py:43-50, 91-120 without misc_name; the answer is document.bundles *)
Fixpoint split_by_id (x : str) (word_id : Z) (d : doc) (bundles : list bundle1) : doc * res (list bundle1) :=
  match bundles with
  | [] => (d, Ok [])
  | b :: rest =>
    if has_id b x then bind (split_words d b word_id) (fun d l => (d, Ok (l ++ rest)))
    else bind (split_by_id x word_id d rest) (fun d l => (d, Ok (b :: l)))
  end.

(** splitsentence.py:53: n.ord > 1 and n.misc[name] and value == None or n.misc[name] == value *)
Definition is_split (name : str) (value : option str) (d : doc) (x : nat) : bool :=
  let v := misc_get (n_misc (d_at d x)) name in
  match value with
  | None => (1 <? h_ord (d_h d) x) && truthy v || match v with VNone => true | _ => false end
  | Some y => is_value v y
  end.
(** splitsentence.py:58-81 the loop over the split points; [letter] is idletter *)
Fixpoint split_points (name : str) (d : doc) (b : bundle1) (letter : N) (points : list nat) : doc * res (list bundle1) :=
  match points with
  | [] => (d, Ok [])
  | x :: rest =>
    let r := b_root b in
    bind (d, with_letter b letter) (fun d id =>
    let (d, r2) := doc_new_root d in
    let first := h_ord (d_h d) x in
    let nodes := filter (fun n => (first <=? h_ord (d_h d) n) && match rest with y :: _ => h_ord (d_h d) n <? h_ord (d_h d) y | [] => true end)
                        (h_desc (d_h d) r) in
    bind (steal_nodes d r2 nodes) (fun d _ =>
    let d := zeros_roots d r2 in
    bind (retext d r2) (fun d _ =>
    let d := put_misc d x name (VStr []) in
    bind (split_points name d b (N.succ letter) rest) (fun d l => (d, Ok (mkB (Some id) r2 :: l))))))
  end.
(** splitsentence.py:51-90 with misc_name, for one bundle.  (The new bundles are inserted into the list that is iterated, so
    they are visited too.) *)
Definition split_marked (name : str) (value : option str) (d : doc) (b : bundle1) : doc * res (list bundle1) :=
  match filter (is_split name value d) (h_desc (d_h d) (b_root b)) with
  | [] => (d, Ok [b])
  | points =>
    bind (split_points name d b 66%N points) (fun d l =>
    bind (d, with_letter b 65%N) (fun d id =>
    let d := zeros_roots d (b_root b) in
    bind (retext d (b_root b)) (fun d _ => (d, Ok (mkB (Some id) (b_root b) :: l)))))
  end.
