(** Giving new ids to entities (corefud.IndexClusters, C86) and removing entities (corefud.RemoveNoCorefEntities, C87). *)
From Coq Require Import String List NArith ZArith Bool Lia.
From Verif Require Import PyStr PyList PyListFacts PyExn TreeModel TreeSpec BundleModel CorefModel CorefSpec CorefIOModel CorefIOSpec CorefLinks NormSpec
  EidModel EidSpec EidProofs Props_Coref Props_CorefIO.
Import ListNotations.
Local Open Scope Z_scope.

(** C86. The entities are numbered in their order; nothing else is changed, and the ids of the table are again those of the entities. *)
Theorem C86_index : forall p start c, ~ has_forbidden p -> 0 <= start -> entities_ok c ->
  exists c', index_clusters p start c = (c', Ok (start + Z.of_nat (length (entities c)))) /\ entities c' = entities c /\
    map fst (eids c') = numbered_ids p start (length (entities c)) /\ ids_unique c' /\ same_but_ids c c' /\
    (forall e, ~ In e (entities c) -> e_eid c' e = e_eid c e).
Proof. exact index_ok. Qed.
Print Assumptions C86_index.
(** C86. Ids of all documents of a run are different. *)
Theorem C86_run : forall p docs start, ~ has_forbidden p -> 0 <= start -> (forall c, In c docs -> entities_ok c) ->
  exists docs', index_docs p start docs = (docs', Ok tt) /\ map entities docs' = map entities docs /\
    flat_map (fun c => map fst (eids c)) docs' = numbered_ids p start (total_entities docs) /\
    NoDup (flat_map (fun c => map fst (eids c)) docs') /\ (forall c', In c' docs' -> ids_unique c').
Proof. exact index_run. Qed.
Print Assumptions C86_run.
(** C86. A prefix with a forbidden character and a negative start raise, and nothing is changed. *)
Theorem C86_error : forall p start c, has_forbidden p \/ start < 0 -> entities c <> [] -> index_clusters p start c = (c, Raise ValueError).
Proof. exact index_error. Qed.
Print Assumptions C86_error.
(** C86. The hypothesis holds after any calls, whatever has been assigned to entity.eid. *)
Theorem C86_reached : forall c ops, no_coref c -> entities_ok (fold_left (fun c o => fst (coref_step c o)) ops c).
Proof. exact entities_reached. Qed.
Print Assumptions C86_reached.
(** C86. The links between mentions, entities and nodes stay. *)
Theorem C86_linked : forall c c', same_but_ids c c' -> linked c -> linked c'.
Proof. exact linked_ids. Qed.
Print Assumptions C86_linked.

(** Two entities with the id b (one of them renamed); the first one is listed under its old id a. *)
Example C86_case : let c := co_twice in ~ has_forbidden (s "x") /\ entities_ok c /\ ~ ids_unique c /\ eids c = [(s "a", 0%nat); (s "b", 1%nat)] /\
  eids (fst (index_clusters (s "x") 9 c)) = [(s "x9", 0%nat); (s "x10", 1%nat)] /\ snd (index_docs (s "x") 9 [c; co0; c]) = Ok tt /\
  map eids (fst (index_docs (s "x") 9 [c; co0; c])) = [[(s "x9", 0%nat); (s "x10", 1%nat)]; []; [(s "x11", 0%nat); (s "x12", 1%nat)]] /\
  has_forbidden (s "x|") /\ entities c <> [].
Proof.
  cbv zeta. split; [apply not_forbidden; reflexivity|]. split; [unfold co_twice, co_run; apply C86_reached; split; [|split]; reflexivity|].
  split; [intros [_ H]; assert (E : e_eid co_twice 0 = s "a") by (apply (H (s "a") 0%nat); vm_compute; auto); vm_compute in E; discriminate|].
  split; [vm_compute; reflexivity|]. split; [vm_compute; reflexivity|]. split; [vm_compute; reflexivity|]. split; [vm_compute; reflexivity|].
  split; [exists 124%N; vm_compute; auto 10|vm_compute; discriminate].
Qed.

(** C86. Mentions with the same words are ordered by the ids of their entities: node.coref_mentions is not sorted again. *)
Definition co_ba : coref := co_run co0 [CoCreateEntity (Some (s "b")) None; CoCreateEntity (Some (s "a")) None; CoCreate 0 (Some 3%nat) [] None; CoCreate 1 (Some 3%nat) [] None].
Lemma co_ba_at w : n_ments co_ba w = if Nat.eqb w 3 then [1%nat; 0%nat] else [].
Proof. destruct (Nat.eqb_spec w 3) as [->|N]; [vm_compute; reflexivity|]. do 4 (destruct w as [|w]; [vm_compute; congruence|]). vm_compute. reflexivity. Qed.
Theorem C86_order_refuted : ~ (forall p start c c' n, linked c -> ids_unique c -> nodes_in_order c -> index_clusters p start c = (c', Ok n) -> nodes_in_order c').
Proof.
  intros H. assert (L : linked co_ba) by (unfold co_ba; apply io_linked; history).
  assert (U : ids_unique co_ba) by (apply uniqueb_ok; vm_compute; reflexivity).
  assert (O : nodes_in_order co_ba).
  { intros w pre m n post E. rewrite co_ba_at in E. destruct (Nat.eqb w 3); [|destruct pre; discriminate E].
    destruct pre as [|a [|b [|? ?]]]; try discriminate E. injection E as <- <- <-. vm_compute. discriminate. }
  specialize (H (s "e") 1 co_ba (fst (index_clusters (s "e") 1 co_ba)) 3 L U O).
  assert (E : index_clusters (s "e") 1 co_ba = (fst (index_clusters (s "e") 1 co_ba), Ok 3)).
  { assert (S : snd (index_clusters (s "e") 1 co_ba) = Ok 3) by (vm_compute; reflexivity). rewrite <- S. apply surjective_pairing. }
  apply (H E 3%nat [] 1%nat 0%nat []); vm_compute; reflexivity.
Qed.
Print Assumptions C86_order_refuted.

(** C87. The entities whose id begins with NOCOREF leave the table, the others stay in their order; nothing else is changed. *)
Theorem C87_remove : forall c, ids_unique c -> let c' := remove_nocoref c in
  (forall x e, In (x, e) (eids c') <-> In (x, e) (eids c) /\ ~ nocoref x) /\ (exists f, eids c' = filter f (eids c)) /\
  ids_unique c' /\ same_but_ids c c' /\ e_eid c' = e_eid c.
Proof. exact remove_ok. Qed.
Print Assumptions C87_remove.
(** C87. The saved file has exactly the other entities, with their mentions.
    Missing: documents that are not [storable] (see C68), and those with no other entity, see C87_saved_refuted. *)
Theorem C87_saved_partial : forall lower x d z roots, storable x d z roots -> some_coref (cs_c x) ->
  let x' := with_c x (remove_nocoref (cs_c x)) in
  exists x1 y, store_coref lower x' roots = (x1, Ok tt) /\ load_coref (reread x1) roots = (y, Ok tt) /\ same_coref x' y d /\
    (forall k, In k (map fst (eids (cs_c y))) <-> In k (map fst (eids (cs_c x))) /\ ~ nocoref k).
Proof. exact remove_saved. Qed.
Print Assumptions C87_saved_partial.

Definition noc_ops : list coref_op :=
  [CoCreateEntity None None; CoCreateEntity (Some (s "NOCOREFperson")) (Some (s "person")); CoCreate 0 (Some 5%nat) [3%nat; 5%nat] None;
   CoCreate 1 (Some 4%nat) [3%nat; 4%nat; 6%nat] None; CoCreate 0 None [7%nat; 8%nat] None].
Definition noc_c : coref := co_run co0 noc_ops.
Definition noc_x : corefs := mkCs noc_c (fun _ => []) (fun _ => []).
Example C87_case : storable noc_x 0 (s "en") [0; 2; 1]%nat /\ some_coref noc_c /\ ids_unique noc_c /\ nocoref (s "NOCOREFperson") /\
  eids noc_c = [(s "e1", 0%nat); (s "NOCOREFperson", 1%nat)] /\ eids (remove_nocoref noc_c) = [(s "e1", 0%nat)] /\
  map (cs_misc (fst (store_coref (fun t => t) (with_c noc_x (remove_nocoref noc_c)) [0; 2; 1]%nat))) [3; 4; 6; 5; 9; 7; 8]%nat =
    [s "(e1[1/2]--2)"; []; []; s "(e1[2/2]--2)"; []; s "(e1--1"; s "e1)"].
Proof.
  assert (ED : co_doc noc_c = cdoc) by (vm_compute; reflexivity). assert (EH : co_h noc_c = cheap) by (vm_compute; reflexivity).
  assert (ET : co_tree noc_c = fun r => r) by (vm_compute; reflexivity). assert (LK : linked noc_c) by (unfold noc_c; apply io_linked; unfold noc_ops; history).
  assert (U : ids_unique noc_c) by (apply uniqueb_ok; vm_compute; reflexivity).
  assert (N : is_nocoref (s "e1") = false) by reflexivity.
  split; [|split; [|split; [exact U|split; [exists (s "person"); reflexivity|split; [vm_compute; reflexivity|split; vm_compute; reflexivity]]]]].
  - unfold noc_x. apply case_storable; [exact ED|exact EH|exact ET|exact LK|..].
    + vm_compute. reflexivity.
    + exact U.
    + vm_compute. reflexivity.
    + intros k e H. split; [revert k e H; apply ids_check; vm_compute; reflexivity|].
      split; revert k e H; [apply types_check|apply used_check]; vm_compute; reflexivity.
    + intros E. assert (X : length (eids noc_c) = 2%nat) by (vm_compute; reflexivity). rewrite E in X. discriminate X.
    + intros m _. split; [constructor|intros k v []].
  - exists (s "e1"), 0%nat. split; [vm_compute; auto|]. intros H. apply nocoref_iff in H. rewrite N in H. discriminate.
Qed.

(** C87. If all entities are removed, saving is skipped: the file still has them. *)
Definition noc_file : corefs := mkCs co0 (fun _ => []) (fun n => if Nat.eqb n 5 then s "(NOCOREF--1)" else []).
Theorem C87_saved_refuted : ~ (forall lower x0 x x1 y roots, load_coref (reread x0) roots = (x, Ok tt) -> ids_unique (cs_c x) ->
  store_coref lower (with_c x (remove_nocoref (cs_c x))) roots = (x1, Ok tt) -> load_coref (reread x1) roots = (y, Ok tt) ->
  forall k, In k (map fst (eids (cs_c y))) -> ~ nocoref k).
Proof.
  intros H. set (roots := [0; 2; 1]%nat). set (x := fst (load_coref (reread noc_file) roots)).
  set (x1 := fst (store_coref (fun t => t) (with_c x (remove_nocoref (cs_c x))) roots)). set (y := fst (load_coref (reread x1) roots)).
  assert (P : forall (A B : Type) (p : A * B) v, snd p = v -> p = (fst p, v)) by (intros A B [a b] v E; cbn in E; subst; reflexivity).
  assert (E1 : snd (load_coref (reread noc_file) roots) = Ok tt) by (vm_compute; reflexivity).
  assert (E2 : snd (store_coref (fun t => t) (with_c x (remove_nocoref (cs_c x))) roots) = Ok tt) by (vm_compute; reflexivity).
  assert (E3 : snd (load_coref (reread x1) roots) = Ok tt) by (vm_compute; reflexivity).
  refine (H (fun t => t) noc_file x x1 y roots (P _ _ _ _ E1) _ (P _ _ _ _ E2) (P _ _ _ _ E3) (s "NOCOREF") _ _).
  - apply uniqueb_ok. vm_compute. reflexivity.
  - vm_compute. auto.
  - exists []. reflexivity.
Qed.
Print Assumptions C87_saved_refuted.

(** C87. The mentions of a removed entity are still in node.coref_mentions. *)
Theorem C87_nodes_refuted : ~ (forall c, linked c -> ids_unique c -> nodes_known c -> nodes_known (remove_nocoref c)).
Proof.
  intros H. assert (LK : linked noc_c) by (unfold noc_c; apply io_linked; unfold noc_ops; history).
  assert (U : ids_unique noc_c) by (apply uniqueb_ok; vm_compute; reflexivity).
  assert (K : nodes_known noc_c).
  { assert (E : map snd (eids noc_c) = [0%nat; 1%nat]) by (vm_compute; reflexivity). intros w m I. unfold entities. rewrite E.
    assert (B : (m_ent noc_c m < 2)%nat).
    { clear I. do 3 (destruct m as [|m]; [vm_compute; lia|]). vm_compute. lia. }
    revert B. generalize (m_ent noc_c m). clear. intros [|[|k]] B; [left; auto|right; left; auto|lia]. }
  specialize (H noc_c LK U K 4%nat 1%nat).
  assert (A : In 1%nat (n_ments (remove_nocoref noc_c) 4)) by (vm_compute; auto). specialize (H A). vm_compute in H. destruct H as [H|[]]. discriminate H.
Qed.
Print Assumptions C87_nodes_refuted.
