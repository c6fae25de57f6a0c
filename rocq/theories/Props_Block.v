(** What a block visits: C50, C64. *)
From Coq Require Import String List NArith ZArith Bool Lia.
From Verif Require Import PyStr PyList PyExn TreeModel BlockModel BlockSpec BlockProofs.
Import ListNotations.
Local Open Scope string_scope.
Local Open Scope list_scope.

(** A document with two bundles 7 and 8; bundle 7 has the trees 10 (en) and 11 (cs), bundle 8 has 12 (en, empty) and
    13 (en_2). *)
Definition ztab (t : nat) : option str := match t with 10 | 12 => Some (s "en") | 11 => Some (s "cs") | 13 => Some (s "en_2") | _ => None end.
Definition wtab (t : nat) : list nat := match t with 10 => [100; 101] | 11 => [110] | 13 => [130; 131] | _ => [] end.
Definition etab (t : nat) : list nat := match t with 10 => [105; 106] | _ => [] end.
Definition utab (t : nat) : nat := match t with 10 | 11 => 7 | _ => 8 end.
Definition ltab (o : nat) : list nat := match o with 0 => [7; 8] | 1 => [10; 11] | 2 => [12; 13] | _ => [] end.
Definition otab (b : nat) : nat := match b with 7 => 1 | _ => 2 end.
Definition demo : docst := mkD ltab 3 0 otab utab ztab wtab etab [50; 51] (fun e => if Nat.eqb e 50 then [60; 61] else [62]) [].
Definition own (n : nat) : nat := n / 10.
Lemma demo_ok : doc_ok demo own.
Proof.
  split.
  - cbn; lia.
  - cbn. intros b [<-|[<-|[]]]; cbn; lia.
  - cbn. repeat constructor; cbn; intuition discriminate.
  - cbn. repeat constructor; cbn; intuition discriminate.
  - cbn. intros b t [<-|[<-|[]]]; cbn; intuition subst; reflexivity.
  - cbn. intros t n Ht Hn. intuition subst; cbn in Hn; intuition subst; reflexivity.
Qed.
Lemma demo_enough : enough 5 demo.
Proof.
  split; [cbn; lia|]. split; [intros b [<-|[<-|[]]]; cbn; lia|]. cbn. intros t Ht. intuition subst; cbn; lia.
Qed.
(** Methods that take the tree they are called for out of its bundle and empty it, or do nothing. *)
Definition m_none : method := fun _ w => (w, Ok tt).
Definition m_wipe : method := fun t w =>
  let w := root_remove w t in
  (mkD (o_list w) (o_next w) (o_doc w) (o_bundle w) (o_up w) (o_zone w) (upd (o_words w) t []) (o_emp w) (o_ents w) (o_ment w) (o_calls w), Ok tt).
Definition blk_nodes : block := mkB (s "cs,en") (s "delete") None None None None (Some m_none) (Some m_none).
Definition blk_wipe : block := mkB (s "all") (s "skip") None None None (Some m_wipe) None None.
Definition blk_fail : block := mkB (s "cs") (s "fail") None None None (Some m_none) None None.
Lemma touches_refl t w : touches t w w. Proof. repeat split; auto. Qed.
Lemma wipe_touches t w : touches t w (fst (m_wipe t w)).
Proof.
  destruct (root_remove_touches w t) as ((A & B & C) & D & E & F). repeat split; auto; try (intros; apply F; auto).
  cbn. unfold upd. destruct (Nat.eqb_spec x t); [congruence|]. apply F; auto.
Qed.
Lemma blk_nodes_tame : tame blk_nodes own.
Proof. repeat split; try discriminate; cbn in *; destruct H as [H|H]; injection H as <-; auto. Qed.
Lemma blk_wipe_tame : tame blk_wipe own.
Proof.
  split; [discriminate|]. split; [intros m H; injection H as <-; intros; apply wipe_touches|]. intros m [H|H]; discriminate H.
Qed.
Lemma blk_fail_tame : tame blk_fail own.
Proof.
  split; [discriminate|]. split; [intros m H; injection H as <-; intros; apply touches_refl|]. intros m [H|H]; discriminate H.
Qed.

(** C50. A block without coreference methods: the overridden process_bundle is called exactly once for each bundle, or
    otherwise process_tree once for each tree whose zone is selected and that is not skipped as empty, or otherwise
    process_node once for each word and process_empty_node once for each empty node of those trees, all in document
    order; the run ends when a called method raises an exception, or before the first empty tree with
    if_empty_tree=fail (RuntimeError here, ValueError for unknown values). This holds for all documents and all
    methods that change nothing but the tree they are called for; they may take it out of its bundle. *)
Theorem C50_visits_partial : forall B owner, tame B owner -> forall w fuel, m_entity B = None -> m_mention B = None ->
  (m_bundle B <> None \/ m_tree B <> None \/ m_node B <> None \/ m_empty B <> None) ->
  doc_ok w owner -> enough fuel w -> outcome B w (expected_calls B w) (expected_end B w) (process_document fuel B w).
Proof. exact visits. Qed.
Print Assumptions C50_visits_partial.
Example C50_case :
  tame blk_nodes own /\ tame blk_wipe own /\ tame blk_fail own /\ doc_ok demo own /\ enough 5 demo /\
  expected_calls blk_nodes demo = [CNode 100; CNode 101; CEmpty 105; CEmpty 106; CNode 110] /\
  expected_calls blk_wipe demo = [CTree 10; CTree 11; CTree 13] /\
  expected_calls blk_fail demo = [CTree 11] /\ expected_end blk_fail demo = Some RuntimeError /\
  o_calls (fst (process_document 5 blk_wipe demo)) = [CTree 10; CTree 11; CTree 13].
Proof.
  split; [exact blk_nodes_tame|]. split; [exact blk_wipe_tame|]. split; [exact blk_fail_tame|]. split; [exact demo_ok|]. split; [exact demo_enough|].
  vm_compute. auto.
Qed.

(** C50. With if_empty_tree=delete the trees without words are removed - of all zones; otherwise all trees stay,
    provided the methods remove none. *)
Theorem C50_trees_left : forall B owner, tame B owner -> keeps_trees B -> forall w fuel, m_entity B = None -> m_mention B = None ->
  m_bundle B = None -> doc_ok w owner -> enough fuel w -> snd (process_document fuel B w) = Ok tt ->
  forall b, In b (bundles_of w) -> trees_of (fst (process_document fuel B w)) b = remaining B w b.
Proof. exact trees_left. Qed.
Print Assumptions C50_trees_left.
Example C50_trees_left_case : tame blk_nodes own /\ keeps_trees blk_nodes /\ snd (process_document 5 blk_nodes demo) = Ok tt /\
  remaining blk_nodes demo 8 = [13].
Proof.
  split; [exact blk_nodes_tame|]. split; [|vm_compute; auto].
  intros m [H|[H|H]]; [discriminate H|injection H as <-|injection H as <-]; reflexivity.
Qed.

(** C50. A block with coreference methods only: process_coref_entity once for each entity, or otherwise
    process_coref_mention once for each mention of each entity, in order. *)
Theorem C50_coref_visits : forall B w fuel, m_bundle B = None -> m_tree B = None -> m_node B = None -> m_empty B = None ->
  (m_entity B <> None \/ m_mention B <> None) ->
  (forall m, m_entity B = Some m -> forall x w, o_calls (fst (m x w)) = o_calls w) ->
  (forall m, m_mention B = Some m -> forall x w, o_calls (fst (m x w)) = o_calls w /\ o_ment (fst (m x w)) = o_ment w) ->
  (forall e, In e (o_ents w) -> length (o_ment w e) <= fuel) ->
  outcome B w (if is_some (m_entity B) then map CEntity (o_ents w) else map CMention (flat_map (o_ment w) (o_ents w))) None (process_document fuel B w).
Proof. exact coref_visits. Qed.
Print Assumptions C50_coref_visits.
Example C50_coref_case : o_calls (fst (process_document 5 (mkB (s "all") (s "process") None (Some m_none) None None None None) demo)) = [CMention 60; CMention 61; CMention 62].
Proof. vm_compute. auto. Qed.

(** C50. A process_empty_node that removes the node it is called for misses every second one. *)
Definition m_drop : method := fun n w =>
  (mkD (o_list w) (o_next w) (o_doc w) (o_bundle w) (o_up w) (o_zone w) (o_words w)
       (upd (o_emp w) (own n) (filter (fun x => negb (Nat.eqb x n)) (o_emp w (own n)))) (o_ents w) (o_ment w) (o_calls w), Ok tt).
Theorem C50_removed_empty_refuted : ~ (forall B owner w fuel, m_entity B = None -> m_mention B = None -> m_empty B <> None ->
  (forall m, m_bundle B = Some m \/ m_tree B = Some m \/ m_node B = Some m \/ m_empty B = Some m ->
     forall n w, touches (owner n) w (fst (m n w)) /\ snd (m n w) = Ok tt) ->
  doc_ok w owner -> enough fuel w -> outcome B w (expected_calls B w) (expected_end B w) (process_document fuel B w)).
Proof.
  intros H. pose (B := mkB (s "all") (s "process") None None None None None (Some m_drop)).
  destruct (H B own demo 5 eq_refl eq_refl) as [[O _]|(l0 & c & l1 & _ & _ & N & _)].
  - discriminate.
  - intros m [Q|[Q|[Q|Q]]]; try discriminate Q. injection Q as <-. intros n w. split; [|reflexivity].
    repeat split; auto. cbn [fst m_drop o_emp]. unfold upd. destruct (Nat.eqb_spec x (own n)); congruence.
  - exact demo_ok.
  - exact demo_enough.
  - vm_compute in O. discriminate O.
  - apply N. vm_compute. reflexivity.
Qed.
Print Assumptions C50_removed_empty_refuted.
(** C50. A process_tree that adds a tree to the bundle is also called for the new tree. *)
Definition m_copy : method := fun t w =>
  (if Nat.eqb t 10 then mkD (upd (o_list w) 1 (o_list w 1 ++ [20])) (o_next w) (o_doc w) (o_bundle w) (upd (o_up w) 20 7)
                            (upd (o_zone w) 20 (Some (s "copy"))) (o_words w) (o_emp w) (o_ents w) (o_ment w) (o_calls w)
   else w, Ok tt).
Theorem C50_added_tree_refuted : ~ (forall B w fuel m, B = mkB (s "all") (s "process") None None None (Some m) None None ->
  (forall t w, o_calls (fst (m t w)) = o_calls w /\ snd (m t w) = Ok tt /\
     forall x, In x (all_trees w) -> o_zone (fst (m t w)) x = o_zone w x /\ o_words (fst (m t w)) x = o_words w x) ->
  doc_ok w own -> enough fuel w -> o_calls (fst (process_document fuel B w)) = o_calls w ++ map CTree (all_trees w)).
Proof.
  intros H. pose (m := fun t w => if existsb (Nat.eqb 20) (all_trees w) then m_none t w else m_copy t w).
  specialize (H _ demo 5 m eq_refl).
  assert (E : [CTree 10; CTree 11; CTree 20; CTree 12; CTree 13] = [CTree 10; CTree 11; CTree 12; CTree 13]); [|discriminate E].
  refine (eq_trans _ (H _ demo_ok demo_enough)).
  - vm_compute. reflexivity.
  - intros t w. unfold m. destruct (existsb (Nat.eqb 20) (all_trees w)) eqn:X; [auto|].
    unfold m_copy. destruct (Nat.eqb t 10); auto. repeat split; auto. cbn. unfold upd. destruct (Nat.eqb_spec x 20); auto.
    subst. exfalso. apply not_true_iff_false in X. apply X. apply existsb_exists. exists 20. auto.
Qed.
Print Assumptions C50_added_tree_refuted.

(** C64. if_empty_tree=delete also removes the trees of zones that are not selected. *)
Definition blk_del : block := mkB (s "cs") (s "delete") None None None (Some m_none) None None.
Lemma blk_del_tame : tame blk_del own.
Proof.
  split; [discriminate|]. split; [intros m H; injection H as <-; intros; apply touches_refl|]. intros m [H|H]; discriminate H.
Qed.
Theorem C64_delete_refuted : ~ (forall B owner w fuel, tame B owner -> keeps_trees B -> m_entity B = None -> m_mention B = None ->
  m_bundle B = None -> doc_ok w owner -> enough fuel w -> snd (process_document fuel B w) = Ok tt ->
  forall b t, In b (bundles_of w) -> In t (trees_of w b) -> zone_selected B w t = false ->
  In t (trees_of (fst (process_document fuel B w)) b)).
Proof.
  intros H. specialize (H blk_del own demo 5 blk_del_tame).
  assert (In 12 [13]) as [Q|[]]; [|discriminate Q].
  refine (H _ eq_refl eq_refl eq_refl demo_ok demo_enough eq_refl 8 12 _ _ eq_refl); cbn; auto.
  intros m [Q|[Q|Q]]; try discriminate Q. injection Q as <-. reflexivity.
Qed.
Print Assumptions C64_delete_refuted.
(** C64. if_empty_tree=fail also fails on the trees of zones that are not selected. *)
Theorem C64_fail_refuted : ~ (forall B owner w fuel, tame B owner -> m_entity B = None -> m_mention B = None ->
  m_bundle B = None -> m_tree B <> None -> (forall m, m_tree B = Some m -> forall t w, snd (m t w) = Ok tt) -> p_if_empty B = s "fail" ->
  doc_ok w owner -> enough fuel w ->
  (forall t, In t (all_trees w) -> zone_selected B w t = true -> tree_empty w t = false) -> snd (process_document fuel B w) = Ok tt).
Proof.
  intros H. specialize (H blk_fail own demo 5 blk_fail_tame eq_refl eq_refl eq_refl ltac:(discriminate)).
  assert (E : @Raise unit RuntimeError = Ok tt); [|discriminate E].
  refine (H _ eq_refl demo_ok demo_enough _).
  - intros m Q. injection Q as <-. reflexivity.
  - cbn. intros t Ht. intuition subst; vm_compute in *; auto.
Qed.
Print Assumptions C64_fail_refuted.
(** C64. With process, skip and skip_warn the trees of the other zones are not visited and stay, whatever they contain. *)
Theorem C64_unselected_partial : forall B owner, tame B owner -> keeps_trees B -> forall w fuel, m_entity B = None -> m_mention B = None ->
  m_bundle B = None -> (m_tree B <> None \/ m_node B <> None \/ m_empty B <> None) -> doc_ok w owner -> enough fuel w ->
  In (p_if_empty B) [s "process"; s "skip"; s "skip_warn"] -> snd (process_document fuel B w) = Ok tt ->
  forall b t, In b (bundles_of w) -> In t (trees_of w b) -> zone_selected B w t = false ->
  In t (trees_of (fst (process_document fuel B w)) b) /\
  o_calls (fst (process_document fuel B w)) = o_calls w ++ flat_map (tree_calls B w) (filter (visited B w) (all_trees w)) /\ visited B w t = false.
Proof.
  intros B owner T K w fuel Me Mm Mb M OK F I E b t Hb Ht Z. split; [|split].
  - rewrite (trees_left B owner T K w fuel Me Mm Mb OK F E b Hb). unfold remaining.
    destruct I as [<-|[<-|[<-|[]]]]; exact Ht.
  - destruct (visits B owner T w fuel Me Mm ltac:(tauto) OK F) as [[C _]|(l0 & c & l1 & _ & _ & N & _)]; [|congruence].
    rewrite C. unfold expected_calls. rewrite Mb. cbn [is_some]. f_equal. f_equal. f_equal.
    assert (NB : forall x, blocking B w x = false).
    { intros x. unfold blocking. destruct I as [<-|[<-|[<-|[]]]]; cbn; apply andb_false_r. }
    clear -NB. induction (all_trees w) as [|x l IH]; auto. cbn [before]. rewrite NB, IH. auto.
  - unfold visited. rewrite Z. auto.
Qed.
Print Assumptions C64_unselected_partial.
