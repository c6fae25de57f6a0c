(** Properties of the numbering of empty nodes: C21, C22, C59. *)
From Coq Require Import String List ZArith Bool Sorting.Sorted Lia.
From Verif Require Import PyStr PyList PyExn TreeModel TreeSpec EmptySpec EmptyProofs.
Import ListNotations.
Local Open Scope Z_scope.

(** Words 1 2 3 4 (objects 1 2 3 4, 3 is a child of 2), empty nodes 1.1, 2.1, 2.2 and 3.1
    (objects 5 6 7 8). *)
Definition demo_ops : list tree_op :=
  [OpCreate 0; OpCreate 0; OpCreate 2; OpCreate 0; OpEmptyChild 1 true; OpEmptyChild 2 true; OpEmptyChild 3 false; OpEmptyChild 3 true].
Definition run_ops (h : heap) (l : list tree_op) : heap := fold_left (fun h o => fst (tree_step h o)) l h.
Definition edemo : heap := run_ops (fst (new_root heap0)) demo_ops.
(** Words 1 2 3, nine empty nodes 1.1 ... 1.9 and the empty node 2.1. *)
Definition full_ops : list tree_op :=
  [OpCreate 0; OpCreate 0; OpCreate 0] ++ repeat (OpEmptyChild 1 true) 9 ++ [OpEmptyChild 2 true].
Definition efull : heap := run_ops (fst (new_root heap0)) full_ops.
(** Words 1 2 3, empty nodes 1.1 and 2.1. *)
Definition pair_ops : list tree_op :=
  [OpCreate 0; OpCreate 0; OpCreate 0; OpEmptyChild 1 true; OpEmptyChild 2 true].
Definition epair : heap := run_ops (fst (new_root heap0)) pair_ops.

Ltac one_op := eapply (careful_op [0%nat] _ 0%nat); [|left; reflexivity|vm_compute; auto 10|exact I].
Lemma edemo_careful : careful [0%nat] edemo.
Proof. unfold edemo, run_ops, demo_ops. cbn [fold_left]. do 8 one_op. exact (careful_new [] heap0 careful_none). Qed.
Lemma efull_careful : careful [0%nat] efull.
Proof. unfold efull, run_ops, full_ops. cbn [fold_left repeat app]. do 13 one_op. exact (careful_new [] heap0 careful_none). Qed.
Lemma epair_careful : careful [0%nat] epair.
Proof. unfold epair, run_ops, pair_ops. cbn [fold_left]. do 5 one_op. exact (careful_new [] heap0 careful_none). Qed.

(** C21. One call. *)
Theorem C21_create_empty_partial : forall h r x (after : bool), consistent h r -> good_empties h r -> In x (h_desc h r) ->
  let base := 10 * (if after then h_ord h x else h_ord h x - 1) in
  exists h', fst (create_empty_child h x after) = h' /\ consistent h' r /\ good_empties h' r /\
    h_desc h' r = h_desc h r /\
    (forall y, (y < h_next h)%nat -> h_ord h' y = h_ord h y /\ h_eord h' y = h_eord h y /\ h_par h' y = h_par h y) /\
    ((snd (create_empty_child h x after) = Raise TypeError /\ h_emp h' r = h_emp h r /\ forall i, 1 <= i <= 9 -> taken h r (base + i)) \/
     (exists k, 1 <= k <= 9 /\ ~ taken h r (base + k) /\ (forall i, 1 <= i < k -> taken h r (base + i)) /\
        snd (create_empty_child h x after) = Ok (h_next h) /\
        (forall e, In e (h_emp h' r) <-> e = h_next h \/ In e (h_emp h r)) /\ h_eord h' (h_next h) = base + k)).
Proof. exact create_empty_spec. Qed.
Print Assumptions C21_create_empty_partial.
Example C21_example : consistent edemo 0 /\ good_empties edemo 0 /\ In 2%nat (h_desc edemo 0) /\
  map (h_eord edemo) (h_emp edemo 0) = [11; 21; 22; 31] /\
  map (h_eord (fst (create_empty_child edemo 2 false))) (h_emp (fst (create_empty_child edemo 2 false)) 0) = [11; 12; 21; 22; 31].
Proof.
  split; [apply (TreeProps.world_consistent _ _ (careful_world _ _ edemo_careful)); left; auto|].
  split; [apply (careful_good _ _ edemo_careful); left; auto|]. vm_compute. auto 10.
Qed.

(** C21. Any number of calls: existing empty nodes and words keep their IDs. *)
Theorem C21_sequence_partial : forall r calls h, consistent h r -> good_empties h r ->
  (forall c, In c calls -> In (fst c) (h_desc h r)) ->
  good_empties (create_many h calls) r /\ consistent (create_many h calls) r /\
  h_desc (create_many h calls) r = h_desc h r /\
  forall y, (y < h_next h)%nat -> h_ord (create_many h calls) y = h_ord h y /\ h_eord (create_many h calls) y = h_eord h y.
Proof. exact create_many_spec. Qed.
Print Assumptions C21_sequence_partial.
Example C21_sequence_example :
  let h := create_many edemo [(1%nat, true); (4%nat, false); (2%nat, false)] in
  map (h_eord h) (h_emp h 0) = [11; 12; 13; 21; 22; 31; 32].
Proof. vm_compute. reflexivity. Qed.

(** C21. Any history of harmless editing calls (see EmptySpec.harmless) keeps them well numbered. *)
Theorem C21_history_partial : forall rs h, careful rs h -> forall r, In r rs -> good_empties h r.
Proof. exact careful_good. Qed.
Print Assumptions C21_history_partial.
Example C21_history_example : careful [0%nat] efull /\
  map (h_eord efull) (h_emp efull 0) = [11; 12; 13; 14; 15; 16; 17; 18; 19; 21].
Proof. split; [exact efull_careful|vm_compute; reflexivity]. Qed.

(** C21. The tenth empty node after a word is not created. *)
Theorem C21_tenth_refuted : ~ (forall rs h r x after, world rs h -> In r rs -> good_empties h r -> In x (h_desc h r) ->
  exists e, snd (create_empty_child h x after) = Ok e).
Proof.
  intros H. destruct (H [0%nat] efull 0%nat 1%nat true (careful_world _ _ efull_careful)) as [e He].
  - left; auto.
  - apply (careful_good _ _ efull_careful). left; auto.
  - vm_compute. auto.
  - vm_compute in He. discriminate.
Qed.
Print Assumptions C21_tenth_refuted.

(** C22. *)
Theorem C22_remove_partial : forall h r x m, consistent h r -> good_empties h r -> In x (h_desc h r) -> room h r x m ->
  exists h', node_remove h x m = (h', Ok tt) /\ consistent h' r /\ h_emp h' r = h_emp h r /\ good_empties h' r /\
    (forall w, In w (h_desc h' r) <-> In w (h_desc h r) /\ survives h x m w) /\
    forall w e, In w (h_desc h' r) -> In e (h_emp h r) -> (before_empty h w e <-> before_empty h' w e).
Proof. exact remove_empties. Qed.
Print Assumptions C22_remove_partial.
Example C22_example : consistent edemo 0 /\ good_empties edemo 0 /\ In 2%nat (h_desc edemo 0) /\ room edemo 0 2 None /\
  map (h_eord (fst (node_remove edemo 2 None))) (h_emp edemo 0) = [11; 12; 13; 14] /\
  map (h_eord (fst (node_remove edemo 2 (Some (s "rehang"))))) (h_emp edemo 0) = [11; 12; 13; 21].
Proof.
  split; [apply (TreeProps.world_consistent _ _ (careful_world _ _ edemo_careful)); left; auto|].
  split; [apply (careful_good _ _ edemo_careful); left; auto|]. split; [vm_compute; auto|].
  split; [|vm_compute; auto].
  intros pre e mid e' post E _.
  assert (L : length (h_emp edemo 0) = 4%nat) by (vm_compute; reflexivity).
  assert (F : forall y, In y (h_emp edemo 0) -> h_eord edemo y mod 10 <= 2).
  { replace (h_emp edemo 0) with [5%nat; 6%nat; 7%nat; 8%nat] by (vm_compute; reflexivity).
    intros y [<-|[<-|[<-|[<-|[]]]]]; vm_compute; discriminate. }
  assert (He : In e (h_emp edemo 0)) by (rewrite E; apply in_app_iff; simpl; auto).
  specialize (F e He). rewrite E in L. rewrite app_length in L. cbn [length] in L. rewrite app_length in L. cbn [length] in L. lia.
Qed.

(** C22. Without room an empty node gets the ID of a word. *)
Theorem C22_remove_refuted : ~ (forall rs h r x m, world rs h -> In r rs -> good_empties h r -> In x (h_desc h r) ->
  forall e w, In e (h_emp h r) -> In w (h_desc (fst (node_remove h x m)) r) ->
    h_eord (fst (node_remove h x m)) e <> 10 * h_ord (fst (node_remove h x m)) w).
Proof.
  intros H. apply (H [0%nat] efull 0%nat 2%nat None (careful_world _ _ efull_careful)) with (e := 13%nat) (w := 3%nat).
  - left; auto.
  - apply (careful_good _ _ efull_careful). left; auto.
  - vm_compute. auto.
  - vm_compute. auto 20.
  - vm_compute. auto.
  - vm_compute. reflexivity.
Qed.
Print Assumptions C22_remove_refuted.

(** C59. Moving one word. *)
Theorem C59_shift_single_partial : forall h r o x wc, consistent h r -> good_empties h r -> op_args_live h r o ->
  shift_of o = Some (x, wc) -> wc = true \/ h_ch h x = [] ->
  let h' := fst (tree_step h o) in
  h_emp h' r = h_emp h r /\
  (forall w e, In w (h_desc h r) -> w <> x -> In e (h_emp h r) -> (before_empty h w e <-> before_empty h' w e)) /\
  (~ empties_around h r x -> good_empties h' r).
Proof. exact shift_single. Qed.
Print Assumptions C59_shift_single_partial.
Example C59_example : consistent epair 0 /\ good_empties epair 0 /\ op_args_live epair 0 (OpBeforeNode 3 1 false false) /\
  h_ch epair 3 = [] /\ ~ empties_around epair 0 3 /\
  map (h_eord (fst (tree_step epair (OpBeforeNode 3 1 false false)))) (h_emp epair 0) = [21; 31].
Proof.
  split; [apply (TreeProps.world_consistent _ _ (careful_world _ _ epair_careful)); left; auto|].
  split; [apply (careful_good _ _ epair_careful); left; auto|].
  split; [vm_compute; tauto|]. split; [vm_compute; auto|]. split; [|vm_compute; auto].
  intros [_ [e [He Hl]]].
  replace (h_emp epair 0) with [4%nat; 5%nat] in He by (vm_compute; reflexivity).
  destruct He as [<-|[<-|[]]]; vm_compute in Hl; destruct Hl; discriminate.
Qed.

(** C59. Moving a word with its subtree does not touch the empty nodes. *)
Theorem C59_shift_subtree : forall h r o x, consistent h r -> good_empties h r -> op_args_live h r o ->
  shift_of o = Some (x, false) -> h_ch h x <> [] ->
  let h' := fst (tree_step h o) in
  h_emp h' r = h_emp h r /\ (forall e, In e (h_emp h r) -> h_eord h' e = h_eord h e) /\ good_empties h' r.
Proof. exact shift_subtree. Qed.
Print Assumptions C59_shift_subtree.
Example C59_subtree_example : op_args_live edemo 0 (OpAfterNode 2 4 false false) /\ h_ch edemo 2 <> [] /\
  h_desc (fst (tree_step edemo (OpAfterNode 2 4 false false))) 0 = [1; 4; 2; 3]%nat.
Proof. vm_compute. repeat split; auto 10; discriminate. Qed.

(** C59. With empty nodes on both sides two of them get the same ID. *)
Theorem C59_unique_refuted : ~ (forall rs h r o x wc, world rs h -> In r rs -> good_empties h r -> op_args_live h r o ->
  shift_of o = Some (x, wc) ->
  forall e e', In e (h_emp h r) -> In e' (h_emp h r) -> e <> e' ->
    h_eord (fst (tree_step h o)) e <> h_eord (fst (tree_step h o)) e').
Proof.
  intros H. apply (H [0%nat] epair 0%nat (OpAfterNode 2 3 false false) 2%nat false (careful_world _ _ epair_careful))
    with (e := 4%nat) (e' := 5%nat).
  - left; auto.
  - apply (careful_good _ _ epair_careful). left; auto.
  - vm_compute. auto 10.
  - reflexivity.
  - vm_compute. auto.
  - vm_compute. auto.
  - discriminate.
  - vm_compute. reflexivity.
Qed.
Print Assumptions C59_unique_refuted.

Lemma top_not_below h w a : h_par h w = Some 0%nat -> h_par h 0 = None -> w <> a -> a <> 0%nat -> ~ in_subtree h w a.
Proof.
  intros P P0 N N0 [E|U]; [auto|].
  inversion U as [x p Q|x p b Q V]; subst; rewrite P in Q; injection Q as <-; [auto|].
  inversion V as [? ? Q|? ? ? Q]; subst; rewrite P0 in Q; discriminate.
Qed.
(** C59. Moving a subtree can move the words around an empty node. *)
Theorem C59_subtree_refuted : ~ (forall rs h r o x w e, world rs h -> In r rs -> good_empties h r -> op_args_live h r o ->
  shift_of o = Some (x, false) -> In w (h_desc h r) -> ~ in_subtree h w x -> In e (h_emp h r) ->
    (before_empty h w e <-> before_empty (fst (tree_step h o)) w e)).
Proof.
  intros H. assert (NS : ~ in_subtree edemo 4 2).
  { apply top_not_below; [vm_compute; reflexivity|vm_compute; reflexivity|discriminate|discriminate]. }
  destruct (H [0%nat] edemo 0%nat (OpAfterNode 2 4 false false) 2%nat 4%nat 6%nat (careful_world _ _ edemo_careful)) as [_ H2]; auto.
  - left; auto.
  - apply (careful_good _ _ edemo_careful). left; auto.
  - vm_compute. auto 10.
  - vm_compute. auto 10.
  - vm_compute. auto 10.
  - assert (B : before_empty (fst (tree_step edemo (OpAfterNode 2 4 false false))) 4 6) by (vm_compute; reflexivity).
    specialize (H2 B). vm_compute in H2. discriminate H2.
Qed.
Print Assumptions C59_subtree_refuted.

(** C59. On doubles, moving a word does not even give the right decimal: 2.2 - 1 is not 1.2, so the
    empty node no longer has the ID 1.2. *)
Theorem C59_double_refuted : ~ (forall q k, 1 <= q <= 1000 -> 1 <= k <= 9 ->
  double_minus_1 (double_tenths (10 * q + k)) = double_tenths (10 * (q - 1) + k)).
Proof. intros H. assert (E := H 2 2 ltac:(lia) ltac:(lia)). vm_compute in E. discriminate E. Qed.
Print Assumptions C59_double_refuted.
