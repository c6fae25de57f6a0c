(** Properties of ud.Basic2Enhanced: C84. *)
From Coq Require Import String List NArith ZArith Bool.
From Verif Require Import PyStr PyList PyExn TreeModel TreeSpec EmptySpec EmptyProofs DepsModel DepsSpec DepsProofs Props_Empty Props_Deps EnhModel EnhSpec EnhProofs.
Import ListNotations.

(** C84. If every empty node has enhanced dependencies, the block ends normally; every word whose DEPS column was an underscore
    gets its basic head and deprel, every other node (of this tree or another) keeps its enhanced dependencies, and the tree is
    not changed. *)
Theorem C84_fill : forall deprel r st, consistent (s_h st) r -> good_empties (s_h st) r ->
  (forall x, In x (h_desc (s_h st) r) \/ In x (h_emp (s_h st) r) -> readable st x) ->
  (forall e, In e (h_emp (s_h st) r) -> ~ unfilled st e) ->
  (forall x, In x (h_desc (s_h st) r) -> ~ In 124%N (label (deprel x))) ->
  exists st', basic2enhanced deprel st r = (st', Ok tt) /\ s_h st' = s_h st /\
    (forall x, In x (h_desc (s_h st) r) -> unfilled st x -> exists p, h_par (s_h st) x = Some p /\
       snd (deps st' x) = Ok (DList [(p, label (deprel x))]) /\ snd (raw_deps st' x) = Ok (Some (str_of_Z (h_ord (s_h st) p) ++ s ":" ++ label (deprel x)))) /\
    (forall x, ~ (In x (h_desc (s_h st) r) /\ unfilled st x) -> snd (raw_deps st' x) = snd (raw_deps st x) /\ snd (deps st' x) = snd (deps st x)).
Proof. exact b2e_run. Qed.
Print Assumptions C84_fill.

(** C84. One empty node without enhanced dependencies makes the block raise AttributeError (its "parent" is None). *)
Theorem C84_empty_node_error : forall deprel r st e, consistent (s_h st) r -> good_empties (s_h st) r ->
  (forall x, In x (h_desc (s_h st) r) \/ In x (h_emp (s_h st) r) -> readable st x) ->
  In e (h_emp (s_h st) r) -> unfilled st e -> snd (basic2enhanced deprel st r) = Raise AttributeError.
Proof. exact b2e_fails. Qed.
Print Assumptions C84_empty_node_error.

(** C84. The promise "all nodes must be reachable from the root in the enhanced-deps graph" is kept when every word that
    had enhanced dependencies has its basic head among them, and every empty node has a head that is a word or the root. *)
Theorem C84_reachable_partial : forall deprel r st st', consistent (s_h st) r -> good_empties (s_h st) r ->
  (forall x, In x (h_desc (s_h st) r) \/ In x (h_emp (s_h st) r) -> readable st x) ->
  (forall x, In x (h_desc (s_h st) r) -> ~ In 124%N (label (deprel x))) ->
  (forall e, In e (h_emp (s_h st) r) -> ~ unfilled st e /\ exists p, enhanced_head st e p /\ live (s_h st) r p) ->
  (forall x, In x (h_desc (s_h st) r) -> ~ unfilled st x -> exists p, h_par (s_h st) x = Some p /\ enhanced_head st x p) ->
  basic2enhanced deprel st r = (st', Ok tt) ->
  forall x, any_node (s_h st) r x -> reachable st' r x.
Proof. exact b2e_reach. Qed.
Print Assumptions C84_reachable_partial.

(** C84. A loop that the basic heads close stays unreachable, so the result may be invalid. *)
Definition enh_rel (x : nat) : option str := if Nat.eqb x 3 then None else Some (s "dep").
Definition enh_emp (st : dstate) : dstate :=
  set_raw_deps (set_deps (set_raw_deps (set_deps st 5 [(1%nat, s "obj")]) 6 (Some (s "0:root|1.1:conj"))) 7 [(3%nat, s "a:b"); (6%nat, s "c")]) 8 (Some (s "4:x")).
Definition enh_loop : dstate := set_deps (enh_emp (dstate0 edemo)) 2 [(3%nat, s "nsubj")].
Definition enh_after : dstate := fst (basic2enhanced enh_rel enh_loop 0).
Lemma pair_ok {A B} (p : A * B) v : snd p = v -> p = (fst p, v).
Proof. destruct p. cbn. congruence. Qed.
Ltac nodes H := vm_compute in H; repeat (destruct H as [H|H]; [subst|]); try destruct H.
Lemma enh_loop_out st : (forall p, enhanced_head st 2 p -> p = 3%nat) -> (forall p, enhanced_head st 3 p -> p = 2%nat) ->
  forall x, reachable st 0 x -> x <> 2%nat /\ x <> 3%nat.
Proof.
  intros A B x R. induction R as [|x p H R [N2 N3]]; [split; discriminate|]. split; intros ->; [apply N3, A; auto|apply N2, B; auto].
Qed.
Lemma enh_head_1 st x l : snd (deps st x) = Ok (DList l) -> forall p, enhanced_head st x p -> In p (map fst l).
Proof. intros E p (l' & d & E' & I). assert (l' = l) by congruence. subst l'. apply (in_map fst) in I. exact I. Qed.
Theorem C84_reachable_refuted : ~ (forall deprel r st st', consistent (s_h st) r -> good_empties (s_h st) r ->
  (forall x, In x (h_desc (s_h st) r) -> ~ In 124%N (label (deprel x))) ->
  basic2enhanced deprel st r = (st', Ok tt) ->
  forall x, any_node (s_h st) r x -> reachable st' r x).
Proof.
  intros H. destruct edemo_ok as [C G].
  specialize (H enh_rel 0%nat enh_loop enh_after C G).
  assert (R : reachable enh_after 0 2).
  { apply H.
    - intros x Hx I. nodes Hx; vm_compute in I; repeat (destruct I as [I|I]; [discriminate I|]); destruct I.
    - unfold enh_after. apply (pair_ok (basic2enhanced enh_rel enh_loop 0) (Ok tt)). vm_compute. reflexivity.
    - left. right. vm_compute. auto. }
  apply enh_loop_out in R; [destruct R as [R _]; apply R; reflexivity| |].
  - intros p I. apply (enh_head_1 _ 2 [(3%nat, s "nsubj")]) in I; [|vm_compute; reflexivity]. cbn [map fst In] in I. destruct I as [I|[]]; auto.
  - intros p I. apply (enh_head_1 _ 3 [(2%nat, s "None")]) in I; [|vm_compute; reflexivity]. cbn [map fst In] in I. destruct I as [I|[]]; auto.
Qed.
Print Assumptions C84_reachable_refuted.

(** C84. A node whose enhanced dependencies were deleted (node.deps = []) is not filled. *)
Theorem C84_cleared_refuted : ~ (forall deprel r st st', consistent (s_h st) r -> good_empties (s_h st) r ->
  basic2enhanced deprel st r = (st', Ok tt) -> forall x, In x (h_desc (s_h st) r) -> snd (deps st' x) <> Ok (DList [])).
Proof.
  intros H. destruct edemo_ok as [C G].
  apply (H enh_rel 0%nat (set_deps (enh_emp (dstate0 edemo)) 1 []) (fst (basic2enhanced enh_rel (set_deps (enh_emp (dstate0 edemo)) 1 []) 0)) C G) with (x := 1%nat).
  - apply pair_ok. vm_compute. reflexivity.
  - vm_compute. auto.
  - vm_compute. reflexivity.
Qed.
Print Assumptions C84_cleared_refuted.

(** A tree with four words and four empty nodes; only the empty nodes and the word 4 have enhanced dependencies. *)
Definition enh_st : dstate := set_raw_deps (enh_emp (dstate0 edemo)) 4 (Some (s "2:conj|0:root")).
Example C84_example :
  consistent (s_h enh_st) 0 /\ good_empties (s_h enh_st) 0 /\
  (forall x, In x (h_desc (s_h enh_st) 0) \/ In x (h_emp (s_h enh_st) 0) -> readable enh_st x) /\
  (forall x, In x (h_desc (s_h enh_st) 0) -> ~ In 124%N (label (enh_rel x))) /\
  (forall e, In e (h_emp (s_h enh_st) 0) -> ~ unfilled enh_st e /\ exists p, enhanced_head enh_st e p /\ live (s_h enh_st) 0 p) /\
  (forall x, In x (h_desc (s_h enh_st) 0) -> ~ unfilled enh_st x -> exists p, h_par (s_h enh_st) x = Some p /\ enhanced_head enh_st x p) /\
  snd (basic2enhanced enh_rel enh_st 0) = Ok tt /\
  map (fun x => snd (raw_deps (fst (basic2enhanced enh_rel enh_st 0)) x)) [1; 2; 3; 4; 7]%nat =
    map (fun x => Ok (Some (s x))) ["0:dep"; "0:dep"; "2:None"; "2:conj|0:root"; "3:a:b|2.1:c"]%string /\
  unfilled (dstate0 edemo) 5 /\ snd (basic2enhanced enh_rel (dstate0 edemo) 0) = Raise AttributeError.
Proof.
  destruct edemo_ok as [C G]. split; [exact C|]. split; [exact G|]. split; [|split; [|split; [|split]]].
  - intros x [Hx|Hx]; nodes Hx; eexists; vm_compute; reflexivity.
  - intros x Hx I. nodes Hx; vm_compute in I; repeat (destruct I as [I|I]; [discriminate I|]); destruct I.
  - intros e He. split; [intros U; nodes He; vm_compute in U; discriminate|].
    nodes He; [exists 1%nat|exists 0%nat|exists 3%nat|exists 4%nat]; (split; [eexists; eexists; split; [vm_compute; reflexivity|simpl; auto]|vm_compute; auto 10]).
  - intros x Hx U. nodes Hx; try (exfalso; apply U; vm_compute; reflexivity). exists 0%nat. split; [reflexivity|].
    eexists; eexists; split; [vm_compute; reflexivity|simpl; auto].
  - vm_compute. auto 10.
Qed.
