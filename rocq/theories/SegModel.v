(** Model of udapi/block/segment/simple.py: splitting of texts into sentences. *)
From Coq Require Import String List NArith ZArith Bool.
From Verif Require Import PyStr PyList PyExn TreeModel BundleModel.
Import ListNotations.

(** simple.py:58-70 segment_string; [bd] is is_boundary, which is left arbitrary. The list of segments is
    represented by the finished ones (the result of the recursion) and the last one, [cur]. *)
Fixpoint seg_loop (keep : bool) (bd : str -> str -> bool) (prev cur : str) (ts : list str) : list str :=
  match ts with
  | [] => [cur]
  | t :: ts => if bd prev t then (if keep then cur ++ PyStr.s " " else cur) :: seg_loop keep bd t t ts
               else seg_loop keep bd t (cur ++ PyStr.s " " ++ t) ts
  end.
Definition segment_string (keep : bool) (bd : str -> str -> bool) (x : str) : list str :=
  match split 32%N x with
  | [] => []
  | t :: ts => seg_loop keep bd t t ts
  end.

(** A document and the texts of its trees; [None]: text is None. *)
Record seg := mkSeg { g_s : store; g_text : nat -> option str }.
(** simple.py:87-90 one bundle for each sentence but the first *)
Fixpoint seg_new (g : seg) (d : nat) (zone : option str) (orig : str) (i : Z) (l : list str) : seg * res (list nat) :=
  match l with
  | [] => (g, Ok [])
  | x :: l =>
    let (s, b) := new_bundle (g_s g) d (orig ++ PyStr.s "-" ++ str_of_Z i) in
    bind (let (s, r) := create_tree s b zone in (mkSeg s (g_text g), r)) (fun g t =>
    bind (seg_new (mkSeg (g_s g) (upd (g_text g) t (Some x))) d zone orig (i + 1) l) (fun g bs => (g, Ok (b :: bs))))
  end.
(** simple.py:78-90 one tree of the bundle b. [sel] is _should_process_tree, [kids] tells whether the tree has
    children. *)
Definition seg_tree (keep : bool) (bd : str -> str -> bool) (sel kids : nat -> bool) (g : seg) (d b t : nat) : seg * res (list nat) :=
  if negb (sel t) then (g, Ok [])
  else if kids t then (g, Raise ValueError)
  else match g_text g t with
  | None => (g, Raise AttributeError)
  | Some x =>
    let sentences := segment_string keep bd x in
    match b_id (g_s g) b with
    | None => (g, Raise TypeError)
    | Some orig =>
      let g := mkSeg (set_bundle_id (g_s g) b (orig ++ PyStr.s "-1")) (g_text g) in
      match sentences with
      | x0 :: ((_ :: _) as rest) =>
        seg_new (mkSeg (g_s g) (upd (g_text g) t (Some x0))) d (t_zone (g_s g) t) orig 2 rest
      | _ => (g, Ok [])
      end
    end
  end.
(** simple.py:77 the trees of the bundle b; none are added to it meanwhile *)
Fixpoint seg_trees (keep : bool) (bd : str -> str -> bool) (sel kids : nat -> bool) (g : seg) (d b : nat) (l : list nat) : seg * res (list nat) :=
  match l with
  | [] => (g, Ok [])
  | t :: l => bind (seg_tree keep bd sel kids g d b t) (fun g bs =>
              bind (seg_trees keep bd sel kids g d b l) (fun g bs' => (g, Ok (bs ++ bs'))))
  end.
(** simple.py:75-76 *)
Fixpoint seg_bundles (keep : bool) (bd : str -> str -> bool) (sel kids : nat -> bool) (g : seg) (d : nat) (l : list nat) : seg * res (list nat) :=
  match l with
  | [] => (g, Ok [])
  | b :: l => bind (seg_trees keep bd sel kids g d b (b_trees (g_s g) b)) (fun g bs =>
              bind (seg_bundles keep bd sel kids g d l) (fun g bs' => (g, Ok (b :: bs ++ bs'))))
  end.
(** simple.py:73-91 process_document *)
Definition seg_document (keep : bool) (bd : str -> str -> bool) (sel kids : nat -> bool) (g : seg) (d : nat) : seg * res unit :=
  bind (seg_bundles keep bd sel kids g d (d_bundles (g_s g) d)) (fun g bs =>
    (mkSeg (put_bundles (g_s g) d bs) (g_text g), Ok tt)).
