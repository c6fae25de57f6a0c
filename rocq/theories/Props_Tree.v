(** C06-C17: trees under arbitrary editing. *)
From Coq Require Import String List NArith ZArith Bool Permutation Sorted Lia.
From Verif Require Import PyStr PyList PyListFacts PyExn TreeModel TreeSpec TreeProps.
Import ListNotations.

(** A small tree for the examples: root 0; words 1..5 in this order; 1 and 3 hang on the
    root, 2 and 5 on 1, 4 on 3.  So the edge 1-5 is non-projective, 3 and 4 lie in its gap. *)
Definition demo_ops : list tree_op := [OpCreate 0; OpCreate 1; OpCreate 0; OpCreate 3; OpCreate 1].
Definition demo : heap := fold_left (fun h o => fst (tree_step h o)) demo_ops (fst (new_root heap0)).
Lemma demo_world : world [0] demo.
Proof.
  unfold demo, demo_ops. cbn [fold_left].
  repeat (apply (world_op [0] _ 0); [|simpl; auto 20|vm_compute; auto 20]).
  apply (world_new [] heap0). constructor.
Qed.
Lemma demo_consistent : consistent demo 0.
Proof. apply (world_consistent [0] demo demo_world). simpl; auto 20. Qed.

(** Refutes [H : up h x a] for a concrete heap. *)
Ltac no_up H :=
  let E := fresh in let U := fresh in
  inversion H as [? ? E|? ? ? E U]; subst; vm_compute in E; try discriminate;
  injection E as <-; no_up U.

(** C06. *)
Theorem C06_every_history_consistent : forall rs h, world rs h -> forall r, In r rs -> consistent h r.
Proof. exact world_consistent. Qed.
Print Assumptions C06_every_history_consistent.
Theorem C06_trees_disjoint : forall rs h, world rs h -> NoDup rs /\
  forall r1 r2 x, In r1 rs -> In r2 rs -> live h r1 x -> live h r2 x -> r1 = r2.
Proof. exact world_disjoint. Qed.
Print Assumptions C06_trees_disjoint.
Theorem C06_calls_terminate : forall rs h r o, world rs h -> In r rs -> op_args_live h r o ->
  snd (tree_step h o) <> Diverge.
Proof. exact world_total. Qed.
Print Assumptions C06_calls_terminate.
Theorem C06_other_trees_untouched : forall rs h r o q y, world rs h -> In r rs -> op_args_live h r o ->
  In q rs -> q <> r -> live h q y -> same_object h (fst (tree_step h o)) y.
Proof. exact world_local. Qed.
Print Assumptions C06_other_trees_untouched.
Example C06_example : exists h, world [6; 0] h /\ h_desc h 0 = [1; 4; 2; 5] /\ h_par h 4 = Some 1 /\ h_desc h 6 = [7].
Proof.
  set (ops := [OpParent 3 (Some 1); OpAfterNode 3 1 false false; OpParent 1 (Some 4); OpRemove 3 (Some (s "rehang"))]).
  set (h1 := fst (new_root (fold_left (fun h o => fst (tree_step h o)) ops demo))).
  exists (fst (tree_step h1 (OpCreate 6))). split.
  - apply (world_op [6; 0] _ 6); [|simpl; auto 20|vm_compute; auto 20].
    apply (world_new [0] (fold_left (fun h o => fst (tree_step h o)) ops demo)). unfold ops. cbn [fold_left].
    apply (world_op [0] _ 0); [|simpl; auto 20|vm_compute; auto 20].
    apply (world_op [0] _ 0); [|simpl; auto 20|vm_compute; auto 20].
    apply (world_op [0] _ 0); [|simpl; auto 20|vm_compute; auto 20].
    apply (world_op [0] _ 0); [|simpl; auto 20|vm_compute; auto 20].
    exact demo_world.
  - vm_compute. auto 20.
Qed.

(** C07. *)
Theorem C07_parent_assignment : forall h r, consistent h r -> forall a b, In a (h_desc h r) -> live h r b ->
  let (h', res) := set_parent h a (Some b) in
  (in_subtree h b a -> h' = h /\ res = Raise CycleError) /\
  (h_par h a = Some b -> h' = h /\ res = Ok tt) /\
  (~ in_subtree h b a -> h_par h a <> Some b ->
     res = Ok tt /\ consistent h' r /\ h_desc h' r = h_desc h r /\ h_par h' a = Some b /\
     (forall y, live h r y -> y <> a -> h_par h' y = h_par h y) /\
     (forall y, y < h_next h -> ~ live h r y -> same_object h h' y)).
Proof. exact set_parent_prop. Qed.
Print Assumptions C07_parent_assignment.
Theorem C07_no_parent : forall h r, consistent h r -> forall a, In a (h_desc h r) ->
  set_parent h a None = (h, Raise ValueError).
Proof. exact set_parent_none. Qed.
Print Assumptions C07_no_parent.
Theorem C07_root_has_no_parent : forall h r, consistent h r -> forall p, set_parent h r p = (h, Raise AttributeError).
Proof. exact set_parent_root. Qed.
Print Assumptions C07_root_has_no_parent.
Example C07_example : consistent demo 0 /\ In 1 (h_desc demo 0) /\ live demo 0 4 /\ ~ in_subtree demo 4 1 /\
  h_par demo 1 <> Some 4 /\ in_subtree demo 5 1 /\ h_ch (fst (set_parent demo 1 (Some 4))) 4 = [1].
Proof.
  split; [exact demo_consistent|]. split; [vm_compute; auto 20|]. split; [vm_compute; auto 20|].
  split; [|split; [vm_compute; discriminate|split; [right; constructor; reflexivity|vm_compute; auto 20]]].
  intros [H|H]; [discriminate|].
  no_up H.
Qed.

(** C08.  What users expect is refuted; what does hold: the call always raises ValueError, the
    other tree and all parents stay as they were, but the word vanishes from its parent's
    children. *)
Definition parent_fails_cleanly : Prop := forall rs h r1 r2 a b, world rs h -> In r1 rs -> In r2 rs -> r1 <> r2 ->
  In a (h_desc h r1) -> live h r2 b ->
  exists h', set_parent h a (Some b) = (h', Raise ValueError) /\ consistent h' r1 /\ consistent h' r2.
Theorem C08_failed_call_changes_nothing_refuted : ~ parent_fails_cleanly.
Proof.
  intros H. set (h := fst (new_root demo)).
  assert (Hw : world [6; 0] h) by (apply (world_new [0] demo demo_world)).
  destruct (H [6; 0] h 0 6 5 6 Hw) as [h' [E [C1 _]]]; try (vm_compute; auto 20; fail); try discriminate.
  assert (E1 : h_ch h' 1 = [2]) by (replace h' with (fst (set_parent h 5 (Some 6))) by (rewrite E; auto); vm_compute; auto).
  rewrite (c_children _ _ C1 1) in E1; [|replace h' with (fst (set_parent h 5 (Some 6))) by (rewrite E; auto); vm_compute; auto 20].
  replace h' with (fst (set_parent h 5 (Some 6))) in E1 by (rewrite E; auto). vm_compute in E1. discriminate.
Qed.
Print Assumptions C08_failed_call_changes_nothing_refuted.
Theorem C08_failed_call_partial : forall h r1 r2 a b p, consistent h r1 -> consistent h r2 -> r1 <> r2 ->
  In a (h_desc h r1) -> live h r2 b -> h_par h a = Some p ->
  set_parent h a (Some b) = (put_ch h p (filter (fun c => negb (Nat.eqb c a)) (h_ch h p)), Raise ValueError).
Proof. exact cross_parent. Qed.
Print Assumptions C08_failed_call_partial.
Example C08_example : let h := fst (new_root demo) in
  consistent h 0 /\ consistent h 6 /\ In 5 (h_desc h 0) /\ live h 6 6 /\ h_par h 5 = Some 1.
Proof.
  assert (Hw : world [6; 0] (fst (new_root demo))) by (apply (world_new [0] demo demo_world)).
  cbv zeta. repeat split; try (vm_compute; auto 20; fail); apply (world_consistent _ _ Hw); simpl; auto 20.
Qed.

(** C09. *)
Theorem C09_remove : forall h r, consistent h r -> forall x m,
  (forall e, In e (h_emp h r) -> h_kind h e = KEmpty /\ e < h_next h) -> In x (h_desc h r) ->
  exists h', node_remove h x m = (h', Ok tt) /\ consistent h' r /\
    ((exists mode, m = Some mode /\ starts_with (s "rehang") mode = true) ->
       kept h h' r (fun w => w <> x) /\
       forall w p, In w (h_desc h' r) -> h_par h w = Some p ->
         h_par h' w = if Nat.eqb p x then h_par h x else Some p) /\
    (~ (exists mode, m = Some mode /\ starts_with (s "rehang") mode = true) ->
       kept h h' r (fun w => ~ in_subtree h w x) /\
       forall w, In w (h_desc h' r) -> h_par h' w = h_par h w).
Proof. exact remove_prop. Qed.
Print Assumptions C09_remove.
Example C09_example : consistent demo 0 /\ (forall e, In e (h_emp demo 0) -> h_kind demo e = KEmpty /\ e < h_next demo) /\
  In 1 (h_desc demo 0) /\
  h_desc (fst (node_remove demo 1 None)) 0 = [3; 4] /\
  h_desc (fst (node_remove demo 1 (Some (s "rehang_warn")))) 0 = [2; 3; 4; 5] /\
  h_ch (fst (node_remove demo 1 (Some (s "rehang_warn")))) 0 = [2; 3; 5].
Proof.
  split; [exact demo_consistent|]. split; [vm_compute; tauto|]. vm_compute. auto 20.
Qed.

(** C10. *)
Theorem C10_shift_after_node : forall h r, consistent h r -> forall x y wc sk, In x (h_desc h r) -> live h r y ->
  let (h', res) := shift_after_node h x y wc sk in
  (wc = false /\ up h y x -> h' = h /\ res = if sk then Ok tt else Raise ValueError) /\
  (~ (wc = false /\ up h y x) -> res = Ok tt /\ consistent h' r /\
     reordered h h' r x wc (fun w => (h_ord h w <= h_ord h y)%Z) /\
     forall w, live h r w -> h_par h' w = h_par h w).
Proof. exact after_node_prop. Qed.
Print Assumptions C10_shift_after_node.
Theorem C10_shift_before_node : forall h r, consistent h r -> forall x y wc sk, In x (h_desc h r) -> In y (h_desc h r) ->
  let (h', res) := shift_before_node h x y wc sk in
  (wc = false /\ up h y x -> h' = h /\ res = if sk then Ok tt else Raise ValueError) /\
  (~ (wc = false /\ up h y x) -> res = Ok tt /\ consistent h' r /\
     reordered h h' r x wc (fun w => (h_ord h w < h_ord h y)%Z) /\
     forall w, live h r w -> h_par h' w = h_par h w).
Proof. exact before_node_prop. Qed.
Print Assumptions C10_shift_before_node.
Theorem C10_shift_after_subtree : forall h r, consistent h r -> forall x y wc sk, In x (h_desc h r) -> live h r y ->
  let (h', res) := shift_after_subtree h x y wc sk in
  (wc = false /\ up h y x -> h' = h /\ res = if sk then Ok tt else Raise ValueError) /\
  (~ (wc = false /\ up h y x) -> res = Ok tt /\ consistent h' r /\
     reordered h h' r x wc (fun w => exists v, live h r v /\ ref_word h x y v /\ (h_ord h w <= h_ord h v)%Z) /\
     forall w, live h r w -> h_par h' w = h_par h w).
Proof. exact after_subtree_prop. Qed.
Print Assumptions C10_shift_after_subtree.
Theorem C10_shift_before_subtree : forall h r, consistent h r -> forall x y wc sk, In x (h_desc h r) -> In y (h_desc h r) ->
  let (h', res) := shift_before_subtree h x y wc sk in
  (wc = false /\ up h y x -> h' = h /\ res = if sk then Ok tt else Raise ValueError) /\
  (~ (wc = false /\ up h y x) -> res = Ok tt /\ consistent h' r /\
     reordered h h' r x wc (fun w => forall v, live h r v -> ref_word h x y v -> (h_ord h w < h_ord h v)%Z) /\
     forall w, live h r w -> h_par h' w = h_par h w).
Proof. exact before_subtree_prop. Qed.
Print Assumptions C10_shift_before_subtree.
Theorem C10_shift_before_root_refused : forall h r, consistent h r -> forall x wc sk,
  shift_before_node h x r wc sk = (h, Raise ValueError) /\ shift_before_subtree h x r wc sk = (h, Raise ValueError).
Proof. exact before_root_prop. Qed.
Print Assumptions C10_shift_before_root_refused.
Example C10_example : consistent demo 0 /\ In 1 (h_desc demo 0) /\ In 3 (h_desc demo 0) /\
  ~ up demo 3 1 /\ up demo 2 1 /\
  h_desc (fst (shift_after_node demo 1 3 false false)) 0 = [3; 1; 2; 5; 4] /\
  h_desc (fst (shift_after_subtree demo 1 3 false false)) 0 = [3; 4; 1; 2; 5] /\
  h_desc (fst (shift_before_node demo 3 1 true false)) 0 = [3; 1; 2; 4; 5] /\
  h_desc (fst (shift_before_subtree demo 3 1 false false)) 0 = [3; 4; 1; 2; 5].
Proof.
  split; [exact demo_consistent|]. split; [vm_compute; auto 20|]. split; [vm_compute; auto 20|].
  split; [|split; [constructor; reflexivity|vm_compute; auto 20]].
  intros H. no_up H.
Qed.

(** C11. *)
Theorem C11_descendants : forall h r, consistent h r -> forall x, live h r x ->
  exists l, descendants h x = Ok l /\ lists h r l (fun w => up h w x) /\
  forall add_self following_only preceding_only,
    lists h r (list_call h x l add_self following_only preceding_only)
      (fun w => (up h w x \/ (add_self = true /\ w = x)) /\ (preceding_only = true -> (h_ord h w <= h_ord h x)%Z) /\
                (preceding_only = false -> following_only = true -> (h_ord h x <= h_ord h w)%Z)).
Proof. exact descendants_prop. Qed.
Print Assumptions C11_descendants.
Theorem C11_children : forall h r, consistent h r -> forall x, live h r x ->
  lists h r (children h x) (fun w => h_par h w = Some x) /\
  forall add_self following_only preceding_only,
    lists h r (list_call h x (children h x) add_self following_only preceding_only)
      (fun w => (h_par h w = Some x \/ (add_self = true /\ w = x)) /\ (preceding_only = true -> (h_ord h w <= h_ord h x)%Z) /\
                (preceding_only = false -> following_only = true -> (h_ord h x <= h_ord h w)%Z)).
Proof. exact children_prop. Qed.
Print Assumptions C11_children.
Theorem C11_siblings : forall h r, consistent h r -> forall x p, In x (h_desc h r) -> h_par h x = Some p ->
  exists l, siblings h x = Ok l /\ lists h r l (fun w => h_par h w = Some p /\ w <> x) /\
  forall add_self following_only preceding_only,
    lists h r (list_call h x l add_self following_only preceding_only)
      (fun w => ((h_par h w = Some p /\ w <> x) \/ (add_self = true /\ w = x)) /\ (preceding_only = true -> (h_ord h w <= h_ord h x)%Z) /\
                (preceding_only = false -> following_only = true -> (h_ord h x <= h_ord h w)%Z)).
Proof. exact siblings_prop. Qed.
Print Assumptions C11_siblings.
Example C11_example : consistent demo 0 /\ live demo 0 1 /\ In 1 (h_desc demo 0) /\ h_par demo 1 = Some 0 /\
  descendants demo 1 = Ok [2; 5] /\ list_call demo 1 [2; 5] true true false = [1; 2; 5] /\
  children demo 0 = [1; 3] /\ siblings demo 3 = Ok [1].
Proof. split; [exact demo_consistent|]. vm_compute. auto 20. Qed.

(** C12. *)
Theorem C12_is_descendant_of : forall h r, consistent h r -> forall x a, live h r x -> live h r a ->
  exists b, is_descendant_of h x a = Ok b /\ (b = true <-> up h x a).
Proof. exact is_descendant_prop. Qed.
Print Assumptions C12_is_descendant_of.
Theorem C12_irreflexive : forall h r, consistent h r -> forall x, live h r x -> is_descendant_of h x x = Ok false.
Proof.
  intros h r C x Hx. destruct (is_descendant_prop h r C x x Hx Hx) as [[|] [E H]]; auto 20.
  exfalso. apply (up_irrefl h r C x Hx), H. reflexivity.
Qed.
Print Assumptions C12_irreflexive.
Theorem C12_transitive : forall h r, consistent h r -> forall x y z, live h r x -> live h r y -> live h r z ->
  is_descendant_of h x y = Ok true -> is_descendant_of h y z = Ok true -> is_descendant_of h x z = Ok true.
Proof.
  intros h r C x y z Hx Hy Hz H1 H2.
  destruct (is_descendant_prop h r C x y Hx Hy) as [b1 [E1 F1]], (is_descendant_prop h r C y z Hy Hz) as [b2 [E2 F2]],
    (is_descendant_prop h r C x z Hx Hz) as [b3 [E3 F3]].
  rewrite E3. f_equal. apply F3. rewrite H1 in E1. rewrite H2 in E2.
  eapply up_trans; [apply F1|apply F2]; congruence.
Qed.
Print Assumptions C12_transitive.
Example C12_example : consistent demo 0 /\ live demo 0 5 /\ live demo 0 1 /\ live demo 0 0 /\
  is_descendant_of demo 5 1 = Ok true /\ is_descendant_of demo 1 0 = Ok true /\ is_descendant_of demo 5 3 = Ok false.
Proof. split; [exact demo_consistent|]. vm_compute. auto 20. Qed.

(** C13. *)
Theorem C13_neighbours : forall h r, consistent h r -> forall i x, nth_error (r :: h_desc h r) i = Some x ->
  next_node h x = nth_error (r :: h_desc h r) (S i) /\
  prev_node h x = Ok (match i with O => None | S j => nth_error (r :: h_desc h r) j end).
Proof. exact neighbours_prop. Qed.
Print Assumptions C13_neighbours.
Theorem C13_walk : forall h r, consistent h r -> walk (S (length (h_desc h r))) h r = h_desc h r.
Proof. exact walk_prop. Qed.
Print Assumptions C13_walk.
Example C13_example : consistent demo 0 /\ nth_error (0 :: h_desc demo 0) 3 = Some 3 /\
  next_node demo 3 = Some 4 /\ prev_node demo 1 = Ok (Some 0) /\ prev_node demo 0 = Ok None /\ next_node demo 5 = None.
Proof. split; [exact demo_consistent|]. vm_compute. auto 20. Qed.

(** C14. *)
Theorem C14_nonprojective : forall h r, consistent h r -> forall x p, In x (h_desc h r) -> h_par h x = Some p ->
  exists b, is_nonprojective h x = Ok b /\
  (b = true <-> exists w, In w (h_desc h r) /\
     ((h_ord h x < h_ord h w < h_ord h p)%Z \/ (h_ord h p < h_ord h w < h_ord h x)%Z) /\ ~ up h w p).
Proof. exact nonprojective_prop. Qed.
Print Assumptions C14_nonprojective.
Example C14_example : consistent demo 0 /\ In 5 (h_desc demo 0) /\ h_par demo 5 = Some 1 /\
  is_nonprojective demo 5 = Ok true /\ is_nonprojective demo 2 = Ok false.
Proof. split; [exact demo_consistent|]. vm_compute. auto 20. Qed.

(** C15. *)
Theorem C15_nonprojective_gap : forall h r, consistent h r -> forall x, In x (h_desc h r) ->
  exists b, is_nonprojective_gap h x = Ok b /\
  (b = true <-> exists X a c, live h r X /\ live h r a /\ live h r c /\ ~ in_subtree h x X /\
     in_subtree h a X /\ in_subtree h c X /\ (h_ord h a < h_ord h x < h_ord h c)%Z).
Proof. exact gap_prop. Qed.
Print Assumptions C15_nonprojective_gap.
Example C15_example : consistent demo 0 /\ In 3 (h_desc demo 0) /\
  is_nonprojective_gap demo 3 = Ok true /\ is_nonprojective_gap demo 2 = Ok false.
Proof. split; [exact demo_consistent|]. vm_compute. auto 20. Qed.
(** On the technical root the answer can be True, although nothing precedes the root. *)
Theorem C15_gap_of_root_refuted : exists rs h r, world rs h /\ In r rs /\ is_nonprojective_gap h r = Ok true.
Proof. exists [0], demo, 0. split; [exact demo_world|]. split; [simpl; auto 20|]. vm_compute. reflexivity. Qed.
Print Assumptions C15_gap_of_root_refuted.

(** C16.  The full statement fails: *)
Definition treelet_is_minimal (h : heap) (nodes : list nat) : Prop :=
  exists head added, find_minimal_common_treelet h nodes = Ok (head, added) /\
    lowest_common h nodes head /\
    forall y, In y added <-> ~ In y nodes /\ in_subtree h y head /\ exists x, In x nodes /\ in_subtree h x y.
(** (a) the head need not be a common ancestor: in the demo tree with nodes 1 and 4 *)
Theorem C16_head_refuted : exists rs h r nodes head added, world rs h /\ In r rs /\ NoDup nodes /\
  (forall x, In x nodes -> In x (h_desc h r)) /\
  find_minimal_common_treelet h nodes = Ok (head, added) /\
  exists x, In x nodes /\ ~ in_subtree h x head.
Proof.
  exists [0], demo, 0, [1; 4], 1, [3]. split; [exact demo_world|]. split; [simpl; auto 20|].
  split; [repeat constructor; simpl; intuition discriminate|].
  split; [intros x [<-|[<-|[]]]; vm_compute; auto 20|]. split; [vm_compute; reflexivity|].
  exists 4. split; [simpl; auto 20|]. intros [H|H]; [discriminate|].
  no_up H.
Qed.
Print Assumptions C16_head_refuted.
(** (b) even in a tree with a single word under the technical root, nodes of the path can be
    missing: root 0 -> 1 -> 2 -> 3 -> 4 with nodes 1 and 4 misses 2. *)
Theorem C16_path_refuted : exists rs h r nodes head added y, world rs h /\ In r rs /\ NoDup nodes /\
  length (h_ch h r) = 1 /\
  (forall x, In x nodes -> In x (h_desc h r)) /\
  find_minimal_common_treelet h nodes = Ok (head, added) /\ lowest_common h nodes head /\
  in_subtree h y head /\ (exists x, In x nodes /\ in_subtree h x y) /\ ~ In y nodes /\ ~ In y added.
Proof.
  set (h := fold_left (fun h o => fst (tree_step h o)) [OpCreate 0; OpCreate 1; OpCreate 2; OpCreate 3] (fst (new_root heap0))).
  assert (Hw : world [0] h).
  { unfold h. cbn [fold_left]. repeat (apply (world_op [0] _ 0); [|simpl; auto 20|vm_compute; auto 20]).
    apply (world_new [] heap0). constructor. }
  assert (U4 : up h 4 1).
  { apply (up_S h 4 3); [reflexivity|]. apply (up_S h 3 2); [reflexivity|]. apply up_1. reflexivity. }
  exists [0], h, 0, [1; 4], 1, [3], 2. split; [exact Hw|]. split; [simpl; auto 20|].
  split; [repeat constructor; simpl; intuition discriminate|]. split; [reflexivity|].
  split; [intros x [<-|[<-|[]]]; vm_compute; auto 20|]. split; [vm_compute; reflexivity|].
  split. { split; [intros x [<-|[<-|[]]]; [left; auto 20|right; auto 20]|]. intros b Hb. apply Hb. simpl; auto 20. }
  split; [right; apply up_1; reflexivity|].
  split; [exists 4; split; [simpl; auto 20|]; right; apply (up_S h 4 3); [reflexivity|]; apply up_1; reflexivity|].
  split; simpl; intuition discriminate.
Qed.
Print Assumptions C16_path_refuted.
(** What holds for all lists: the search ends without an exception, returns nodes of the tree, and adds no node twice. *)
Theorem C16_terminates : forall h r, consistent h r -> forall nodes, NoDup nodes -> nodes <> [] ->
  (forall x, In x nodes -> live h r x) ->
  exists head added, find_minimal_common_treelet h nodes = Ok (head, added) /\ live h r head /\ NoDup added /\
    (forall y, In y added -> live h r y /\ ~ In y nodes).
Proof. exact treelet_returns. Qed.
Print Assumptions C16_terminates.
(** The full claim whenever no given node is farther below the lowest common ancestor than
    any given node is below the technical root. *)
Theorem C16_treelet_partial : forall h r, consistent h r -> forall nodes a, NoDup nodes -> nodes <> [] ->
  (forall x, In x nodes -> live h r x) -> lowest_common h nodes a ->
  (forall x y n d, In x nodes -> In y nodes -> steps h x n a -> steps h y d r -> n <= d) ->
  exists added, find_minimal_common_treelet h nodes = Ok (a, added) /\ NoDup added /\
    (forall y, live h r y -> (In y added <-> ~ In y nodes /\ in_subtree h y a /\ exists x, In x nodes /\ in_subtree h x y)) /\
    (forall y, In y added -> live h r y).
Proof. exact treelet_near_prop. Qed.
Print Assumptions C16_treelet_partial.
Example C16_example : find_minimal_common_treelet demo [2; 5] = Ok (1, [1]) /\
  consistent demo 0 /\ lowest_common demo [2; 5] 1 /\
  (forall x y n d, In x [2; 5] -> In y [2; 5] -> steps demo x n 1 -> steps demo y d 0 -> n <= d).
Proof.
  split; [vm_compute; reflexivity|]. split; [exact demo_consistent|]. split.
  - split; [intros x [<-|[<-|[]]]; right; apply up_1; reflexivity|].
    intros b Hb. destruct (Hb 2) as [<-|H2]; [simpl; auto 20| |].
    + destruct (Hb 5) as [H5|H5]; [simpl; auto 20|discriminate|].
      no_up H5.
    + inversion H2 as [? ? E|? p ? E U]; subst; vm_compute in E; injection E as <-; [left; auto 20|right; auto 20].
  - intros x y n d Hx Hy S1 S2.
    assert (N1 : n = 1).
    { destruct Hx as [<-|[<-|[]]]; inversion S1 as [|? p ? ? E U]; subst; vm_compute in E; injection E as <-;
        inversion U as [|? p ? ? E U2]; subst; auto 20; vm_compute in E; injection E as <-;
        inversion U2 as [|? p ? ? E U3]; subst; vm_compute in E; discriminate. }
    assert (N2 : d <> 0) by (intros ->; inversion S2; subst; destruct Hy as [H|[H|[]]]; discriminate).
    lia.
Qed.

(** C17. *)
Theorem C17_depth : forall h r, consistent h r -> forall x, live h r x ->
  exists n, attr_depth h x = Ok (Z.of_nat n) /\ steps h x n r.
Proof. exact depth_prop. Qed.
Print Assumptions C17_depth.
Theorem C17_position : forall h r, consistent h r -> forall x p, In x (h_desc h r) -> h_par h x = Some p ->
  (p = r -> attr_dir h x = s "root" /\ attr_edge h x = 0%Z) /\
  (p <> r -> attr_edge h x = (h_ord h x - h_ord h p)%Z /\
     ((h_ord h x < h_ord h p)%Z -> attr_dir h x = s "left") /\
     ((h_ord h p < h_ord h x)%Z -> attr_dir h x = s "right") /\
     h_ord h x <> h_ord h p) /\
  attr_children h x = Z.of_nat (length (children h x)) /\
  exists l, siblings h x = Ok l /\ attr_siblings h x = Z.of_nat (length l).
Proof. exact attrs_prop. Qed.
Print Assumptions C17_position.
Example C17_example : consistent demo 0 /\ In 5 (h_desc demo 0) /\ h_par demo 5 = Some 1 /\
  attr_depth demo 5 = Ok 2%Z /\ attr_dir demo 5 = s "right" /\ attr_edge demo 5 = 4%Z /\ attr_children demo 1 = 2%Z.
Proof. split; [exact demo_consistent|]. vm_compute. auto 20. Qed.
