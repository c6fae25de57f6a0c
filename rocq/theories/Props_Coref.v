(** Coreference: C33, C34, C35, C65. *)
From Coq Require Import String List NArith ZArith Bool Lia Sorting.Permutation.
From Verif Require Import PyStr PyList PyExn TreeModel TreeSpec TreeProps EmptySpec EmptyProofs BundleModel BundleSpec
  PyListFacts CorefModel CorefSpec CorefSpan CorefOrder CorefLinks CorefIds Props_Bundle.
Import ListNotations.

(** A document with two bundles; trees 0 and 2 in the first one, 1 in the second one, in the zones en, cs, en.
    Nodes: roots 0, 1, 2; words 3 4 5 and the empty node 6 (2.1) of the tree 0; words 7 8 of the tree 1; word 9 of the tree 2. *)
Definition cdoc : store := doc_run store0
  [DNewDocument; DCreateBundle 0; DCreateBundle 0; DCreateTree 0 (Some (PyStr.s "en")); DCreateTree 1 (Some (PyStr.s "en"));
   DCreateTree 0 (Some (PyStr.s "cs"))].
Definition cheap : heap := fold_left (fun h o => fst (tree_step h o))
  [OpCreate 0; OpCreate 0; OpCreate 4; OpEmptyChild 4 true; OpCreate 1; OpCreate 7; OpCreate 2]
  (fst (new_root (fst (new_root (fst (new_root heap0)))))).
Definition co0 : coref := mkCo cdoc cheap (fun r => r) 0 0 (fun _ => []) (fun _ => 0) (fun _ => 0) (fun _ => []) (fun _ => None) (fun _ => []) (fun _ => []) [].
Lemma cdoc_world : doc_world cdoc.
Proof. apply doc_run_world; [constructor|vm_compute; reflexivity]. Qed.
Lemma cheap_careful : careful [2; 1; 0] cheap.
Proof.
  unfold cheap. cbn [fold_left].
  apply (careful_op [2; 1; 0] _ 2); [|vm_compute; auto|vm_compute; auto|exact I].
  do 2 (apply (careful_op [2; 1; 0] _ 1); [|vm_compute; auto|vm_compute; auto|exact I]).
  do 4 (apply (careful_op [2; 1; 0] _ 0); [|vm_compute; auto|vm_compute; auto 10|exact I]).
  exact (careful_new [1; 0] _ (careful_new [0] _ (careful_new [] heap0 careful_none))).
Qed.
Lemma cheap_good r : In r [2; 1; 0] -> good_tree cheap r.
Proof.
  intros H. split; [apply (world_consistent [2; 1; 0]); [apply careful_world; apply cheap_careful|auto]|].
  apply (careful_good [2; 1; 0]); auto using cheap_careful.
Qed.
Lemma cheap_trees : trees_of_document co0.
Proof. split; [exact cdoc_world|]. cbn. auto. Qed.
Definition co_run (c : coref) (l : list coref_op) : coref := fold_left (fun c o => fst (coref_step c o)) l c.
(** Entities e1 and e2. e1: 3-5 (mention 0) and 7-8 (mention 3). e2: 3-4 (mention 1), 4-6 (mention 2), 7-8 (mention 4). *)
Definition cops : list coref_op :=
  [CoCreateEntity None None; CoCreateEntity (Some []) (Some (PyStr.s "person"));
   CoCreate 0 (Some 4) [5; 4; 3; 4] None; CoCreate 1 (Some 3) [] (Some (PyStr.s "1-2")); CoCreate 1 None [4; 6] None;
   CoCreate 0 None [7; 8] None; CoCreate 1 (Some 8) [8; 7] None].
Definition co1 : coref := co_run co0 cops.
(** The same with a mention of the word of the zone cs. *)
Definition co2 : coref := co_run co1 [CoCreate 0 None [9] None].

(** Checking histories *)
Definition of_treeb (c : coref) (x : nat) (ws : list nat) : bool :=
  forallb (fun w => (w <? h_next (co_h c)) && (h_root (co_h c) w =? h_root (co_h c) x)) ws.
Lemma of_treeb_ok c x ws : of_treeb c x ws = true -> words_of_tree c x ws.
Proof.
  unfold of_treeb, words_of_tree. rewrite forallb_forall. intros H w Hw. specialize (H w Hw). apply andb_true_iff in H.
  rewrite Nat.ltb_lt, Nat.eqb_eq in H. exact H.
Qed.
Definition some_nodes (r : res (list nat)) : bool := match r with Ok [] => false | _ => true end.
Definition span_okb (c : coref) (x : nat) (t : str) : bool :=
  (h_root (co_h c) x <? 3) && some_nodes (span_to_nodes (co_h c) (h_root (co_h c) x) t).
Definition listedb (c : coref) (m : nat) : bool := mem m (e_ments c (m_ent c m)).
Definition is_ok {A} (r : res A) : bool := match r with Ok _ => true | _ => false end.
Definition keepsb (c : coref) (o : coref_op) : bool :=
  match o with
  | CoCreate e hd ws sp =>
    (e <? e_next c) && (match hd with Some x => of_treeb c x (x :: ws) && match sp with Some t => span_okb c x t | None => true end | None => true end)
    && match ws with x :: _ => of_treeb c x ws | [] => true end
  | CoWords m ws => listedb c m && nonempty ws && of_treeb c (m_head c m) ws
  | CoSpan m t => listedb c m && span_okb c (m_head c m) t
  | CoEntity m e => (e <? e_next c) && is_ok (snd (coref_step c o))
  | _ => true
  end.
Definition with_span (o : coref_op) : bool := match o with CoCreate _ _ _ (Some _) | CoSpan _ _ => true | _ => false end.
Lemma span_okb_ok c x t : co_h c = cheap -> span_okb c x t = true ->
  good_tree (co_h c) (h_root (co_h c) x) /\ span_to_nodes (co_h c) (h_root (co_h c) x) t <> Ok [].
Proof.
  intros E H. unfold span_okb in H. apply andb_true_iff in H. destruct H as [A B]. apply Nat.ltb_lt in A. split.
  - rewrite E in *. apply cheap_good. cbn [In]. lia.
  - destruct (span_to_nodes _ _ t) as [[|]| |]; try discriminate.
Qed.
Lemma keepsb_ok c o : keepsb c o = true -> (with_span o = true -> co_h c = cheap) -> keeps_links c o.
Proof.
  destruct o; cbn [keepsb keeps_links]; try (intros; exact I); intros H S.
  - rewrite !andb_true_iff in H. destruct H as [[H1 H2] H3]. split; [apply Nat.ltb_lt; exact H1|]. split.
    + intros x ->. apply andb_true_iff in H2. destruct H2 as [H2 H4]. split; [apply of_treeb_ok; exact H2|]. intros t ->.
      apply span_okb_ok; [apply S; reflexivity|exact H4].
    + intros x l ->. apply of_treeb_ok. exact H3.
  - rewrite !andb_true_iff in H. destruct H as [[H1 H2] H3]. split; [apply mem_In; exact H1|]. split; [destruct ws; discriminate|apply of_treeb_ok; exact H3].
  - rewrite !andb_true_iff in H. destruct H as [H1 H2]. split; [apply mem_In; exact H1|]. apply span_okb_ok; [apply S; reflexivity|exact H2].
  - rewrite !andb_true_iff in H. destruct H as [H1 H2]. split; [apply Nat.ltb_lt; exact H1|].
    destruct (snd (coref_step c (CoEntity m e))) as [[]| |]; [reflexivity|discriminate|discriminate].
Qed.
Fixpoint run_keeps (c : coref) (l : list coref_op) : Prop :=
  match l with
  | [] => True
  | o :: l => keepsb c o = true /\ (with_span o = true -> co_h c = cheap) /\ run_keeps (fst (coref_step c o)) l
  end.
Lemma run_history c0 l : forall c, coref_history c0 c -> run_keeps c l -> coref_history c0 (co_run c l).
Proof.
  induction l as [|o l IH]; intros c H R; [exact H|]. destruct R as (A & B & D). unfold co_run. cbn [fold_left]. apply IH; [|exact D].
  apply ch_step; [exact H|]. apply keepsb_ok; assumption.
Qed.
Ltac history := cbn [run_keeps app]; repeat (split; [vm_compute; reflexivity|split; [intros W; (discriminate W || (vm_compute; reflexivity))|]]); exact I.

(** C33. Without an id (or with the empty one) the entity gets the smallest unused one of e1, e2, ... *)
Theorem C33_fresh : forall c x t, x = None \/ x = Some [] -> exists n c', create_entity c x t = (c', Ok (e_next c)) /\
  new_entity c c' (auto_id n) t /\ 1 <= n /\ ~ used c (auto_id n) /\ forall k, 1 <= k < n -> used c (auto_id k).
Proof. exact create_auto. Qed.
Print Assumptions C33_fresh.
(** C33. An id in use is refused, and so is one with a forbidden character; nothing changes. *)
Theorem C33_taken : forall c x t, x <> [] -> used c x -> create_entity c (Some x) t = (c, Raise ValueError).
Proof. exact create_taken. Qed.
Print Assumptions C33_taken.
Theorem C33_forbidden : forall c x t, has_forbidden x -> create_entity c (Some x) t = (c, Raise ValueError).
Proof. exact create_bad. Qed.
Print Assumptions C33_forbidden.
(** C33. Any other id is taken as it is. *)
Theorem C33_given : forall c x t, x <> [] -> ~ used c x -> ~ has_forbidden x ->
  exists c', create_entity c (Some x) t = (c', Ok (e_next c)) /\ new_entity c c' x t.
Proof. exact create_given. Qed.
Print Assumptions C33_given.
(** C33. Ids stay unique under any sequence of creations. *)
Theorem C33_unique : forall c c', entities_created c c' -> ids_unique c -> ids_unique c'.
Proof. exact created_unique. Qed.
Print Assumptions C33_unique.
Definition co_ids : coref := co_run co0 [CoCreateEntity (Some (PyStr.s "e2")) None; CoCreateEntity None None; CoCreateEntity (Some (PyStr.s "e-4")) None;
  CoCreateEntity (Some (PyStr.s "e2")) None; CoCreateEntity None None].
Example C33_case : ids_unique co0 /\ entities_created co0 co_ids /\ eids co_ids = [(PyStr.s "e2", 0); (PyStr.s "e1", 1); (PyStr.s "e3", 2)] /\
  used co_ids (PyStr.s "e2") /\ ~ used co_ids (PyStr.s "e4") /\ has_forbidden (PyStr.s "e-4").
Proof.
  split; [split; [constructor|intros x e []]|]. split.
  - assert (G : forall c x t, fst (coref_step c (CoCreateEntity x t)) = fst (create_entity c x t)).
    { intros c x t. cbn [coref_step]. unfold unit_of. destruct (create_entity c x t) as [? []]; reflexivity. }
    unfold co_ids, co_run. cbn [fold_left]. rewrite !G. do 5 apply ec_step. apply ec_start.
  - split; [vm_compute; reflexivity|]. split; [exists 0; vm_compute; auto|]. split; [intros [e H]; vm_compute in H; intuition discriminate|].
    exists 45%N. vm_compute. auto.
Qed.
(** C33. Assigning entity.eid does not tell the document: the new id can be given to another entity, the old one cannot. *)
Definition co_twice : coref := co_run co0 [CoCreateEntity (Some (PyStr.s "a")) None; CoEid 0 (PyStr.s "b"); CoCreateEntity (Some (PyStr.s "b")) None].
Theorem C33_renamed_refuted : ~ (forall c ops, no_coref c -> e_next c = 0 ->
  let c' := co_run c ops in forall x e, In (x, e) (eids c') -> e_eid c' e = x /\ forall y e', In (y, e') (eids c') -> e_eid c' e' = e_eid c' e -> e' = e).
Proof.
  intros H. specialize (H co0 [CoCreateEntity (Some (PyStr.s "a")) None; CoEid 0 (PyStr.s "b"); CoCreateEntity (Some (PyStr.s "b")) None]).
  cbv zeta in H. fold co_twice in H. destruct (H ltac:(split; [|split]; reflexivity) eq_refl (PyStr.s "b") 1) as [_ A]; [vm_compute; auto|].
  assert (0 = 1) by (apply (A (PyStr.s "a") 0); vm_compute; auto). discriminate.
Qed.
Print Assumptions C33_renamed_refuted.

(** C34. A span and back: the same nodes, in word order, each once. *)
Local Open Scope Z_scope.
Theorem C34_round_trip : forall h r nodes, consistent h r -> good_empties h r -> nodes <> [] -> (forall x, In x nodes -> in_tree h r x) ->
  exists span l, nodes_to_span h nodes = Ok span /\ span_to_nodes h r span = Ok l /\ increasing h l /\ forall x, In x l <-> In x nodes.
Proof. exact span_round_trip. Qed.
Print Assumptions C34_round_trip.
(** C34. The span consists of the maximal ranges: the maximal runs of the given nodes in the word order of the tree. *)
Theorem C34_maximal_ranges : forall h r nodes l, consistent h r -> good_empties h r -> nodes <> [] ->
  (forall x, In x nodes -> in_tree h r x) -> word_order h r l ->
  exists rs, maximal_runs (fun x => In x nodes) l rs /\ nodes_to_span h nodes = Ok (join (PyStr.s ",") (map (run_text h) rs)).
Proof. exact nodes_to_span_runs. Qed.
Print Assumptions C34_maximal_ranges.
(** C34. Any list of ranges selects the nodes in one of them, in word order. *)
Theorem C34_any_span : forall h r rs xs, consistent h r -> good_empties h r -> rs <> [] -> Forall2 range_text rs xs ->
  (forall a, In a rs -> 0 <= fst a /\ 0 <= snd a) ->
  exists l, span_to_nodes h r (join (PyStr.s ",") xs) = Ok l /\ increasing h l /\
    forall x, In x l <-> in_tree h r x /\ exists a b, In (a, b) rs /\ a <= position h x <= b.
Proof. exact span_to_nodes_order. Qed.
Print Assumptions C34_any_span.
Example C34_case : consistent cheap 0 /\ good_empties cheap 0 /\ (forall x, In x [5; 6; 3]%nat -> in_tree cheap 0 x) /\
  nodes_to_span cheap [5; 6; 3; 6]%nat = Ok (PyStr.s "1,2.1-3") /\ span_to_nodes cheap 0 (PyStr.s "1,2.1-3") = Ok [3; 6; 5]%nat /\
  Forall2 range_text [(21, 30); (10, 10)] [PyStr.s "2.1-3"; PyStr.s "1"] /\ span_to_nodes cheap 0 (PyStr.s "2.1-3,1") = Ok [3; 6; 5]%nat.
Proof.
  destruct (cheap_good 0) as [A B]; [vm_compute; auto|]. split; [exact A|]. split; [exact B|].
  split; [intros x H; vm_compute; cbn in H; intuition|]. split; [vm_compute; reflexivity|]. split; [vm_compute; reflexivity|].
  split; [|vm_compute; reflexivity]. constructor; [apply (range_two 21 30)|]. constructor; [apply (range_one 10)|constructor].
Qed.
Local Close Scope Z_scope.

(** C35. The comparison of mentions of words of one zone of a document, in terms of word order. *)
Theorem C35_less_partial : forall c d z, trees_of_document c -> forall m n, placed_mention c d z m -> placed_mention c d z n ->
  exists v, mention_lt c m n = Ok v /\ (v = true <-> mention_before c d m n).
Proof. exact mention_lt_spec. Qed.
Print Assumptions C35_less_partial.
(** C35. It is irreflexive, transitive and total up to equality of what is compared. *)
Theorem C35_order_partial : forall c d z, trees_of_document c -> forall m n k, placed_mention c d z m -> placed_mention c d z n -> placed_mention c d z k ->
  ~ mention_before c d m m /\
  (mention_before c d m n -> mention_before c d n k -> mention_before c d m k) /\
  (mention_before c d m n \/ mention_before c d n m \/ same_place c m n).
Proof. exact mention_order. Qed.
Print Assumptions C35_order_partial.
(** C35. Sorting gives the sorted list, whatever the order of the input. *)
Theorem C35_sort_partial : forall c d z l, trees_of_document c -> (forall m, In m l -> placed_mention c d z m) -> NoDup l ->
  (forall m n, In m l -> In n l -> same_place c m n -> m = n) ->
  exists l', snd (sort_mentions c l) = Ok l' /\ Permutation l' l /\ sorted_mentions c d l' /\
    forall k, Permutation k l -> snd (sort_mentions c k) = Ok l'.
Proof. exact sort_mentions_spec. Qed.
Print Assumptions C35_sort_partial.
(** C35. Entities are compared by their first mentions. *)
Theorem C35_entities_partial : forall c d z a b, trees_of_document c ->
  (forall m, In m (e_ments c a) -> placed_mention c d z m) -> (forall m, In m (e_ments c b) -> placed_mention c d z m) ->
  exists v, entity_lt c a b = Ok v /\
    (v = true <-> match e_ments c a, e_ments c b with
                  | [], [] => str_lt (e_eid c a) (e_eid c b)
                  | [], _ => True
                  | _, [] => False
                  | m :: _, n :: _ => mention_before c d m n
                  end).
Proof. exact entity_lt_spec. Qed.
Print Assumptions C35_entities_partial.
Lemma co1_h : co_h co1 = cheap.
Proof. vm_compute. reflexivity. Qed.
Lemma co1_doc : co_doc co1 = cdoc.
Proof. vm_compute. reflexivity. Qed.
Lemma co1_tree : co_tree co1 = fun r => r.
Proof. vm_compute. reflexivity. Qed.
Lemma co1_trees : trees_of_document co1.
Proof. unfold trees_of_document. rewrite co1_doc, co1_tree. split; [exact cdoc_world|]. auto. Qed.
Lemma en_node c x b r : co_doc c = cdoc -> co_h c = cheap -> co_tree c = (fun r => r) ->
  h_root cheap x = r -> In r [0; 1] -> in_tree cheap r x -> In b [0; 1] -> In r (b_trees cdoc b) -> placed_node c 0 (PyStr.s "en") x.
Proof.
  intros E1 E2 E3 E R T B J. unfold placed_node. rewrite E1, E2, E3, E. destruct (cheap_good r) as [A D]; [cbn [In] in *; tauto|].
  cbv zeta. split; [exact T|]. split; [exact A|]. split; [exact D|].
  exists b. unfold in_document, has_zone. assert (EB : d_bundles cdoc 0 = [0; 1]) by (vm_compute; reflexivity). rewrite EB.
  split; [split; [exact B|exact J]|]. cbn [In] in R. destruct R as [<-|[<-|[]]]; vm_compute; reflexivity.
Qed.
Lemma en_words c l : co_doc c = cdoc -> co_h c = cheap -> co_tree c = (fun r => r) -> forallb (fun x => mem x [3; 4; 5; 6; 7; 8]) l = true ->
  forall x, In x l -> placed_node c 0 (PyStr.s "en") x.
Proof.
  intros E1 E2 E3 H x Hx. rewrite forallb_forall in H. specialize (H x Hx). apply mem_In in H. cbn [In] in H.
  destruct H as [<-|[<-|[<-|[<-|H]]]]; [apply (en_node c _ 0 0)..|]; try assumption; try (vm_compute; auto 10).
  destruct H as [<-|[<-|[]]]; apply (en_node c _ 1 1); try assumption; vm_compute; auto 10.
Qed.
Lemma en_mention c m : co_doc c = cdoc -> co_h c = cheap -> co_tree c = (fun r => r) -> nonempty (m_words c m) = true ->
  forallb (fun x => mem x [3; 4; 5; 6; 7; 8]) (m_words c m) = true -> placed_mention c 0 (PyStr.s "en") m.
Proof.
  intros E1 E2 E3 N F. split; [destruct (m_words c m); [discriminate N|discriminate]|]. apply (en_words c); assumption.
Qed.
Lemma co1_placed m : m < 5 -> placed_mention co1 0 (PyStr.s "en") m.
Proof.
  intros L. split.
  - assert (H : forallb (fun k => nonempty (m_words co1 k)) (seq 0 5) = true) by (vm_compute; reflexivity).
    rewrite forallb_forall in H. specialize (H m). destruct (m_words co1 m); [|discriminate]. assert (F : false = true) by (apply H; apply in_seq; lia). discriminate F.
  - apply (en_words co1); [exact co1_doc|exact co1_h|exact co1_tree|].
    assert (H : forallb (fun k => forallb (fun x => mem x [3; 4; 5; 6; 7; 8]) (m_words co1 k)) (seq 0 5) = true) by (vm_compute; reflexivity).
    rewrite forallb_forall in H. apply H. apply in_seq. lia.
Qed.
Example C35_case : trees_of_document co1 /\ (forall m, In m [4; 2; 0; 3; 1] -> placed_mention co1 0 (PyStr.s "en") m) /\
  snd (sort_mentions co1 [4; 2; 0; 3; 1]) = Ok [0; 1; 2; 3; 4] /\ snd (sort_mentions co1 [3; 1; 4; 0; 2]) = Ok [0; 1; 2; 3; 4] /\
  ~ same_place co1 3 4 /\ entity_lt co1 0 1 = Ok true.
Proof.
  split; [exact co1_trees|]. split; [intros m H; apply co1_placed; cbn in H; lia|]. split; [vm_compute; reflexivity|]. split; [vm_compute; reflexivity|].
  split; [|vm_compute; reflexivity]. intros (f & l & _ & _ & _ & _ & _ & E). vm_compute in E. discriminate.
Qed.
(** C35. Mentions in different zones cannot be compared, e.g. sorting the mentions of an entity raises. *)
Theorem C35_zones_refuted : ~ (forall c m n, trees_of_document c -> m_words c m <> [] -> m_words c n <> [] -> exists v, mention_lt c m n = Ok v).
Proof.
  intros H. destruct (H co2 0 5) as [v E].
  - unfold trees_of_document. assert (co_doc co2 = cdoc) as -> by (vm_compute; reflexivity). assert (co_tree co2 = fun r => r) as -> by (vm_compute; reflexivity).
    split; [exact cdoc_world|]. auto.
  - vm_compute. discriminate.
  - vm_compute. discriminate.
  - vm_compute in E. discriminate.
Qed.
Print Assumptions C35_zones_refuted.
(** C35. After words have been moved, reading mention.words changes the result of comparing the mention. *)
Definition moved_ops : list coref_op := cops ++ [CoTree (OpAfterNode 3 5 true false)].
Definition co_moved : coref := co_run co0 moved_ops.
Lemma co_moved_history : coref_history co0 co_moved.
Proof. apply run_history; [constructor|]. unfold moved_ops, cops. history. Qed.
Theorem C35_moved_refuted : ~ (forall c c' m n k, no_coref c -> coref_history c c' -> listed c' m -> listed c' n ->
  mention_lt (fst (words c' k)) m n = mention_lt c' m n).
Proof.
  intros H. assert (E : Ok true = @Ok bool false); [|discriminate E].
  assert (E1 : mention_lt co_moved 0 2 = Ok false) by (vm_compute; reflexivity).
  assert (E2 : mention_lt (fst (words co_moved 0)) 0 2 = Ok true) by (vm_compute; reflexivity).
  rewrite <- E1, <- E2. apply (H co0 co_moved 0 2 0); [split; [|split]; reflexivity|exact co_moved_history|vm_compute; auto|vm_compute; auto].
Qed.
Print Assumptions C35_moved_refuted.

(** C65. After any history of calls (with the exceptions listed in [keeps_links]), entity.mentions are exactly the mentions of
    the entity, node.coref_mentions are exactly the mentions that contain the node, the words of a mention are
    different nodes of one tree, and its head is one of them. *)
Theorem C65_linked_partial : forall c c', no_coref c -> coref_history c c' -> linked c'.
Proof. intros c c' N H. apply (history_linked c c' H). apply no_coref_linked. exact N. Qed.
Print Assumptions C65_linked_partial.
(** C65. The same from any linked state, e.g. that of a file that has been read. *)
Theorem C65_kept_partial : forall c o, linked c -> keeps_links c o -> linked (fst (coref_step c o)).
Proof. exact step_linked. Qed.
Print Assumptions C65_kept_partial.
Definition link_ops : list coref_op := cops ++ [CoWords 0 [4; 3; 6]; CoEntity 1 0; CoHead 0 3; CoSpan 0 (PyStr.s "1-2,3"); CoRemove 2;
  CoRemove 2; CoWords 3 [8]; CoWords 3 [7]; CoSort 0; CoTree (OpAfterNode 3 5 true false); CoReadWords 0; CoTree (OpCreate 5); CoCreateEntity None None].
Definition co_links : coref := co_run co0 link_ops.
Example C65_case : no_coref co0 /\ coref_history co0 co_links /\ map (e_ments co_links) [0; 1] = [[0; 1; 3]; [4]] /\
  map (n_ments co_links) [3; 4; 5; 6; 7; 8] = [[0; 1]; [0; 1]; [0]; []; [3; 4]; [4]] /\ map (m_words co_links) [0; 1; 3; 4] = [[4; 5; 3]; [3; 4]; [7]; [7; 8]] /\
  map (m_head co_links) [0; 1; 3; 4] = [3; 3; 7; 8].
Proof.
  split; [split; [|split]; reflexivity|]. split; [apply run_history; [constructor|]; unfold link_ops, cops; history|].
  vm_compute. auto.
Qed.
(** C65. Assigning an empty list of words (or a span in which there is no node) is accepted; the head comes back as the only
    word when the mention is compared, but not the link from it. *)
Theorem C65_no_words_refuted : ~ (forall c m ws, linked c -> listed c m -> (forall w, In w ws -> in_tree (co_h c) (h_root (co_h c) (m_head c m)) w) ->
  snd (set_words c m ws) = Ok tt -> forall e, let c' := fst (coref_step (fst (set_words c m ws)) (CoSort e)) in
  forall w, In m (n_ments c' w) <-> In w (m_words c' m)).
Proof.
  intros H. assert (L : linked co1).
  { apply (C65_linked_partial co0); [split; [|split]; reflexivity|]. apply run_history; [constructor|]. unfold cops. history. }
  destruct (H co1 1 [] L) with (e := 1) (w := 3) as [_ A]; [vm_compute; auto|intros w []|vm_compute; reflexivity|].
  assert (B : In 3 (m_words (fst (coref_step (fst (set_words co1 1 [])) (CoSort 1))) 1)) by (vm_compute; auto).
  apply A in B. vm_compute in B. intuition discriminate.
Qed.
Print Assumptions C65_no_words_refuted.
Theorem C65_span_refuted : ~ (forall c m x, linked c -> listed c m -> good_tree (co_h c) (h_root (co_h c) (m_head c m)) ->
  snd (set_span c m x) = Ok tt -> In (m_head c m) (m_words (fst (set_span c m x)) m)).
Proof.
  intros H. assert (L : linked co1).
  { apply (C65_linked_partial co0); [split; [|split]; reflexivity|]. apply run_history; [constructor|]. unfold cops. history. }
  assert (A : In (m_head co1 1) (m_words (fst (set_span co1 1 (PyStr.s "9"))) 1)).
  { apply H; [exact L|vm_compute; auto| |vm_compute; reflexivity]. rewrite co1_h.
    assert (h_root cheap (m_head co1 1) = 0) as -> by (vm_compute; reflexivity). apply cheap_good. cbn; auto. }
  vm_compute in A. exact A.
Qed.
Print Assumptions C65_span_refuted.
(** C65. create_mention that raises may leave a mention behind. *)
Theorem C65_create_refuted : ~ (forall c c' e hd ws sp x, no_coref c -> coref_history c c' -> keeps_links c' (CoCreate e hd ws sp) ->
  snd (create_mention c' e hd ws sp) = Raise x -> e_ments (fst (create_mention c' e hd ws sp)) e = e_ments c' e).
Proof.
  intros H. specialize (H co0 co1 0 (Some 3) [] (Some (PyStr.s "2-3")) ValueError).
  assert (E : e_ments (fst (create_mention co1 0 (Some 3) [] (Some (PyStr.s "2-3")))) 0 = e_ments co1 0).
  { apply H; [split; [|split]; reflexivity|apply run_history; [constructor|]; unfold cops; history| |vm_compute; reflexivity].
    apply keepsb_ok; [vm_compute; reflexivity|]. intros _. exact co1_h. }
  apply (f_equal (@length nat)) in E. vm_compute in E. discriminate E.
Qed.
Print Assumptions C65_create_refuted.
(** C65. Changing the words of a mention does not move it among the mentions of its entity. *)
Theorem C65_sorted_refuted : ~ (forall c c' e, no_coref c -> coref_history c c' -> trees_of_document c' ->
  (forall m, In m (e_ments c' e) -> placed_mention c' 0 (PyStr.s "en") m) -> sorted_mentions c' 0 (e_ments c' e)).
Proof.
  intros H. pose (c' := co_run co0 (cops ++ [CoWords 2 [3; 4; 5]])).
  assert (E1 : co_doc c' = cdoc) by (vm_compute; reflexivity). assert (E2 : co_h c' = cheap) by (vm_compute; reflexivity).
  assert (E3 : co_tree c' = fun r => r) by (vm_compute; reflexivity).
  assert (T : trees_of_document c') by (unfold trees_of_document; rewrite E1, E3; split; [exact cdoc_world|auto]).
  assert (P : forall m, In m (e_ments c' 1) -> placed_mention c' 0 (PyStr.s "en") m).
  { assert (Q1 : forallb (fun m => nonempty (m_words c' m)) (e_ments c' 1) = true) by (vm_compute; reflexivity).
    assert (Q2 : forallb (fun m => forallb (fun x => mem x [3; 4; 5; 6; 7; 8]) (m_words c' m)) (e_ments c' 1) = true) by (vm_compute; reflexivity).
    rewrite forallb_forall in Q1, Q2. intros m Hm. specialize (Q1 m Hm). specialize (Q2 m Hm).
    apply en_mention; assumption. }
  assert (S : sorted_mentions c' 0 (e_ments c' 1)).
  { apply (H co0 c' 1); [split; [|split]; reflexivity|apply run_history; [constructor|]; unfold cops; history|exact T|exact P]. }
  assert (E : e_ments c' 1 = [1; 2; 4]) by (vm_compute; reflexivity). rewrite E in S, P. inversion S as [|? ? _ F]; subst.
  assert (B : mention_before c' 0 1 2) by (rewrite Forall_forall in F; apply F; cbn; auto).
  destruct (C35_less_partial c' 0 (PyStr.s "en") T 1 2) as (v & V1 & V2); [apply P; cbn; auto|apply P; cbn; auto|].
  apply V2 in B. rewrite B in V1. assert (V3 : mention_lt c' 1 2 = Ok false) by (vm_compute; reflexivity).
  rewrite V3 in V1. discriminate V1.
Qed.
Print Assumptions C65_sorted_refuted.
(** C65. A removed node stays in the words of its mentions. *)
Theorem C65_removed_refuted : ~ (forall c c' m x, no_coref c -> coref_history c c' -> listed c' m -> In x (m_words c' m) ->
  in_tree (co_h c') (h_root (co_h c') x) x).
Proof.
  intros H. pose (c' := co_run co0 (cops ++ [CoTree (OpRemove 5 None)])).
  assert (A : in_tree (co_h c') (h_root (co_h c') 5) 5).
  { apply (H co0 c' 0 5); [split; [|split]; reflexivity|unfold c'; apply run_history; [constructor|]; unfold cops; history|vm_compute; auto|vm_compute; auto]. }
  unfold in_tree in A. vm_compute in A. intuition discriminate.
Qed.
Print Assumptions C65_removed_refuted.
