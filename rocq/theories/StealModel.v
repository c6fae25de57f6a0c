(** Model of udapi/core/root.py:266-300 steal_nodes: words are moved from one tree to the end of another one.
    Simplification: the given nodes are words; an empty node or a root among them is not modelled. *)
From Coq Require Import String List NArith ZArith Bool.
From Verif Require Import PyStr PyList PyExn TreeModel DualDictModel DocModel.
Import ListNotations.
Local Open Scope Z_scope.

(** root.py:282-284: the children that are not moved are attached to the old root *)
Fixpoint leave_children (h : heap) (old : nat) (l : list nat) : heap :=
  match l with
  | [] => h
  | c :: l => let h := put_par h c (Some old) in
              leave_children (put_ch h old (sort_nodes h (h_ch h old ++ [c]))) old l
  end.
(** root.py:277-289 the loop over the nodes; [l] is the rest of the nodes *)
Fixpoint steal_loop (h : heap) (self old : nat) (whole : bool) (nodes : list nat) (new_ord : Z) (l : list nat)
  : heap * res unit :=
  match l with
  | [] => (h, Ok tt)
  | x :: l =>
    let new_ord := new_ord + 1 in
    let h := put_root (put_ord h x new_ord) x self in
    let h := if whole then h
             else let h := leave_children h old (filter (fun n => negb (mem n nodes)) (h_ch h x)) in
                  put_ch h x (filter (fun n => mem n nodes) (h_ch h x)) in
    match h_par h x with
    | None => if whole then steal_loop h self old whole nodes new_ord l
              else (h, Raise AttributeError)                              (* None._children *)
    | Some p =>
      let h := if Nat.eqb p old || (negb whole && negb (mem p nodes))
               then let h := put_ch h p (filter (fun n => negb (Nat.eqb n x)) (h_ch h p)) in
                    let h := put_par h x (Some self) in
                    put_ch h self (h_ch h self ++ [x])
               else h in
      steal_loop h self old whole nodes new_ord l
    end
  end.
(** root.py:296-300 the loop over the nodes again: [m] is the MWT of the last node *)
Fixpoint steal_mwt (d : doc) (self m : nat) (nodes l : list nat) : doc * res unit :=
  match l with
  | [] => (d, Ok tt)
  | _ :: l =>
    let words := filter (fun w => mem w nodes) (m_words (d_m d m)) in
    bind (mwt_remove d m) (fun d _ =>
    bind (create_mwt d self words (m_form (d_m d m)) (copy_misc (m_misc (d_m d m)))) (fun d _ =>
    steal_mwt d self m nodes l))
  end.
(** list equality of nodes *)
Fixpoint same_nodes (a b : list nat) : bool :=
  match a, b with
  | [], [] => true
  | x :: a, y :: b => Nat.eqb x y && same_nodes a b
  | _, _ => false
  end.
(** root.py:266-301 steal_nodes *)
Definition steal_nodes (d : doc) (self : nat) (nodes : list nat) : doc * res unit :=
  match nodes with
  | [] => (d, Raise IndexError)                                           (* nodes[0] *)
  | x :: rest =>
    let old := h_root (d_h d) x in
    if existsb (fun y => negb (Nat.eqb (h_root (d_h d) y) old)) rest then (d, Raise ValueError)
    else
      let nodes := sort_nodes (d_h d) nodes in
      let whole := same_nodes nodes (h_desc (d_h d) old) in
      let start := Z.of_nat (length (h_desc (d_h d) self)) in
      let (h, o) := steal_loop (d_h d) self old whole nodes start nodes in
      bind (with_h d h, o) (fun d _ =>
      bind (if whole then
              let d := with_h d (put_desc (d_h d) old []) in
              let d := put_mwts d self (d_mwts d self ++ d_mwts d old) in
              (put_mwts d old [], Ok tt)
            else
              let d := with_h d (put_desc (d_h d) old (filter (fun n => negb (mem n nodes)) (h_desc (d_h d) old))) in
              match last_opt nodes with
              | None => (d, Ok tt)
              | Some y => match d_mwt d y with
                          | None => (d, Ok tt)
                          | Some m => steal_mwt d self m nodes nodes
                          end
              end) (fun d _ =>
      (with_h d (put_desc (d_h d) self (h_desc (d_h d) self ++ nodes)), Ok tt)))
  end.
