(** C71: drawings of trees (write.TextModeTrees, node.draw). *)
From Coq Require Import String List NArith ZArith Bool Lia.
From Verif Require Import PyStr PyList PyExn TreeModel TreeSpec TreeProps EmptySpec CorefSpec DrawModel DrawSpec DrawProofs DrawTree Props_Tree.
Import ListNotations.

(** Every node has one line, in word order; the lines of the picture lead from each node to its parent and nowhere else; all texts
    are printed. *)
Theorem C71_drawing_partial : forall h r x o marked values, consistent h r -> (o_empty o = true -> good_empties h r) -> live h r x -> o_hints o = true ->
  exists P all, draw o h marked values x = Ok P /\ picture_rows h r o x all /\ length P = length all /\
    (forall i j y, nth_error all i = Some y -> live h r y -> (shows P i j <-> exists p, y <> x /\ h_par h y = Some p /\ nth_error all j = Some p)) /\
    (forall i y, nth_error all i = Some y -> exists l, nth_error P i = Some l /\ has_texts (texts_of o h marked values y) l).
Proof. exact draw_correct. Qed.
Print Assumptions C71_drawing_partial.
(** In any picture, the lines lead from a node to at most one parent. *)
Theorem C71_one_parent : forall P i j j', shows P i j -> shows P i j' -> j = j'.
Proof. exact shows_unique. Qed.
Print Assumptions C71_one_parent.
(** Trees with the same picture are the same. *)
Theorem C71_determines_partial : forall h1 r1 x1 o1 m1 v1 h2 r2 x2 o2 m2 v2 P all1 all2,
  consistent h1 r1 -> (o_empty o1 = true -> good_empties h1 r1) -> live h1 r1 x1 -> o_hints o1 = true -> picture_rows h1 r1 o1 x1 all1 -> draw o1 h1 m1 v1 x1 = Ok P ->
  consistent h2 r2 -> (o_empty o2 = true -> good_empties h2 r2) -> live h2 r2 x2 -> o_hints o2 = true -> picture_rows h2 r2 o2 x2 all2 -> draw o2 h2 m2 v2 x2 = Ok P ->
  forall i j y1 y2, nth_error all1 i = Some y1 -> live h1 r1 y1 -> nth_error all2 i = Some y2 -> live h2 r2 y2 ->
    ((exists p, y1 <> x1 /\ h_par h1 y1 = Some p /\ nth_error all1 j = Some p) <-> (exists p, y2 <> x2 /\ h_par h2 y2 = Some p /\ nth_error all2 j = Some p)).
Proof. exact draw_determines. Qed.
Print Assumptions C71_determines_partial.

(** With hints=False the line from a node to its parent may be broken: there is a space in it. *)
Definition gap_ops : list tree_op := [OpCreate 0; OpCreate 0; OpCreate 1; OpCreate 0].
Definition gap_tree : heap := fold_left (fun h o => fst (tree_step h o)) gap_ops (fst (new_root heap0)).
Lemma gap_world : world [0] gap_tree.
Proof.
  unfold gap_tree, gap_ops. cbn [fold_left].
  repeat (apply (world_op [0] _ 0); [|simpl; auto 20|vm_compute; auto 20]).
  apply (world_new [] heap0). constructor.
Qed.
Definition defaults (hints : bool) (l : layout) : dopts := mkDopts 1 hints true false l 3.
Theorem C71_hints_refuted : exists h r o marked values P i j y p c k e,
  consistent h r /\ o_hints o = false /\ draw o h marked values r = Ok P /\ nth_error (r :: h_desc h r) i = Some y /\ nth_error (r :: h_desc h r) j = Some p /\
  h_par h y = Some p /\ node_at P i c /\ node_at P j k /\ k < e < c /\ cell P i e = Some SPACE.
Proof.
  assert (C : consistent gap_tree 0) by (apply (world_consistent [0] gap_tree gap_world); simpl; auto).
  set (P := match draw (defaults false Classic) gap_tree (fun _ => false) (fun _ => [s "a"]) 0 with Ok P => P | _ => [] end).
  exists gap_tree, 0, (defaults false Classic), (fun _ => false), (fun _ => [s "a"]), P, 1, 0, 1, 0, 7, 1, 3.
  split; [exact C|]. split; [reflexivity|]. split; [vm_compute; reflexivity|]. split; [vm_compute; reflexivity|]. split; [vm_compute; reflexivity|]. split; [vm_compute; reflexivity|].
  assert (F : forall i c a, cell P i c = Some a -> existsb (N.eqb a) node_signs = true ->
    forallb (fun c' => match cell P i c' with Some b => negb (existsb (N.eqb b) node_signs) | None => false end) (seq 0 c) = true -> node_at P i c).
  { intros i c a A B D. split; [exists a; split; auto; apply existsb_exists in B as (b & J & B); apply N.eqb_eq in B; now subst b|]. intros c' L (b & Cb & Jb). rewrite forallb_forall in D. specialize (D c' ltac:(apply in_seq; lia)). rewrite Cb in D.
    apply negb_true_iff in D. assert (T : existsb (N.eqb b) node_signs = true) by (apply existsb_exists; exists b; split; auto; apply N.eqb_refl). congruence. }
  split; [apply (F 1 7 cDown); vm_compute; reflexivity|]. split; [apply (F 0 1 cDown); vm_compute; reflexivity|]. split; [lia|]. vm_compute. reflexivity.
Qed.
Print Assumptions C71_hints_refuted.

(** ─┮
     ┡─────┮ w
     │     ┡─╼ w
     ╰─┮   │ w
       ╰─╼ │ w
           ╰─╼ w *)
Example C71_example : consistent demo 0 /\ live demo 0 0 /\ o_hints (defaults true Compact) = true /\
  draw (defaults true Compact) demo (fun _ => false) (fun _ => [s "w"]) 0 =
  Ok [[cH; cDown];
      [SPACE; cAfter; cH; cH; cH; cH; cH; cDown] ++ s " w";
      [SPACE; cV; SPACE; SPACE; SPACE; SPACE; SPACE; cAfter; cH; cLeaf] ++ s " w";
      [SPACE; cBot; cH; cDown; SPACE; SPACE; SPACE; cV] ++ s " w";
      [SPACE; SPACE; SPACE; cBot; cH; cLeaf; SPACE; cV] ++ s " w";
      [SPACE; SPACE; SPACE; SPACE; SPACE; SPACE; SPACE; cBot; cH; cLeaf] ++ s " w"].
Proof.
  split; [exact demo_consistent|]. split; [now left|]. split; vm_compute; reflexivity.
Qed.
(** The subtree of word 1 only *)
Example C71_subtree_example : exists P, draw (defaults true Classic) demo (fun _ => false) (fun _ => [s "w"]) 1 = Ok P /\
  descendants_add_self demo 1 = Ok [1; 2; 5] /\ shows P 2 0 /\ shows P 1 0 /\ ~ shows P 0 1.
Proof.
  destruct (C71_drawing_partial demo 0 1 (defaults true Classic) (fun _ => false) (fun _ => [s "w"]) demo_consistent ltac:(discriminate) ltac:(right; vm_compute; auto) eq_refl) as (P & all & E & R & _ & SH & _).
  assert (ALL : all = [1; 2; 5]).
  { destruct (rows_ok demo 0 1 (defaults true Classic) demo_consistent ltac:(discriminate) ltac:(right; vm_compute; auto)) as (a2 & E2 & R2). rewrite (picture_unique _ _ _ _ _ _ R R2).
    assert (E3 : rows demo (defaults true Classic) 1 = Ok [1; 2; 5]) by (vm_compute; reflexivity). congruence. }
  subst all. exists P. split; [exact E|]. split; [vm_compute; reflexivity|]. assert (L : forall y, In y [1; 2; 3; 4; 5] -> live demo 0 y) by (intros y J; right; exact J).
  split; [|split].
  - apply (SH 2 0 5 eq_refl (L 5 ltac:(simpl; auto 10))). exists 1. split; [discriminate|]. split; reflexivity.
  - apply (SH 1 0 2 eq_refl (L 2 ltac:(simpl; auto 10))). exists 1. split; [discriminate|]. split; reflexivity.
  - intros S. apply (SH 0 1 1 eq_refl (L 1 ltac:(simpl; auto 10))) in S as (p & N & _). now apply N.
Qed.
