(** Documents, bundles and zones: C31, C32, C47. *)
From Coq Require Import String List NArith ZArith Bool Lia.
From Verif Require Import PyStr PyList PyExn TreeModel BundleModel BundleSpec BundleProofs.
Import ListNotations.

(** Histories *)
Fixpoint doc_run (st : store) (l : list doc_op) : store :=
  match l with [] => st | o :: l => doc_run (doc_step st o) l end.
Definition existb (st : store) (o : doc_op) : bool :=
  match o with
  | DNewDocument | DNewTree _ => true
  | DCreateBundle d => d <? nd st
  | DCreateTree b _ | DBundleId b _ | DRemoveBundle b => b <? nb st
  | DAddTree b t => (b <? nb st) && (t <? nt st)
  | DZone t _ | DSentId t _ | DReadSentId t | DRemoveTree t => t <? nt st
  end.
Definition unplacedb (st : store) (o : doc_op) : bool :=
  match o with DAddTree _ t => match t_bundle st t with None => true | _ => false end | _ => true end.
Fixpoint any_okb (st : store) (l : list doc_op) : bool :=
  match l with [] => true | o :: l => existb st o && any_okb (doc_step st o) l end.
Fixpoint doc_okb (st : store) (l : list doc_op) : bool :=
  match l with [] => true | o :: l => existb st o && unplacedb st o && doc_okb (doc_step st o) l end.
Lemma existb_ok st o : existb st o = true -> args_exist st o.
Proof. destruct o; cbn [existb args_exist]; auto; rewrite ?andb_true_iff, ?Nat.ltb_lt; auto. Qed.
Lemma unplacedb_ok st o : doc_world st -> unplacedb st o = true -> not_stolen st o.
Proof.
  destruct o; cbn; auto. intros W E [c Hc]. destruct (i_tree st (doc_world_inv st W) c t Hc) as [Q _]. rewrite Q in E. discriminate.
Qed.
Lemma doc_run_world l : forall st, doc_world st -> doc_okb st l = true -> doc_world (doc_run st l).
Proof.
  induction l as [|o l IH]; cbn [doc_run doc_okb]; intros st W H; auto. rewrite !andb_true_iff in H. destruct H as [[A B] C]. apply IH; auto.
  constructor; auto using existb_ok, unplacedb_ok.
Qed.
Lemma any_run_world l : forall st, any_doc_world st -> any_okb st l = true -> any_doc_world (doc_run st l).
Proof.
  induction l as [|o l IH]; cbn [doc_run any_okb]; intros st W H; auto. rewrite !andb_true_iff in H. destruct H as [A C]. apply IH; auto.
  constructor; auto using existb_ok.
Qed.
Fixpoint agree_all (st : store) (l : list doc_op) : Prop :=
  match l with [] => True | o :: l => agreeing st o /\ agree_all (doc_step st o) l end.
Lemma agree_run_world l : forall st, doc_world st -> agreeing_world st -> doc_okb st l = true -> agree_all st l -> agreeing_world (doc_run st l).
Proof.
  induction l as [|o l IH]; cbn [doc_run doc_okb agree_all]; intros st W W' H G; auto. rewrite !andb_true_iff in H. destruct H as [[A B] C]. destruct G as [G G'].
  apply IH; auto; constructor; auto using existb_ok, unplacedb_ok.
Qed.

(** One document with three bundles, the second of which is removed again; trees in the zones en and cs. *)
Definition ops1 : list doc_op :=
  [DNewDocument; DCreateBundle 0; DCreateBundle 0; DCreateBundle 0;
   DCreateTree 0 (Some (PyStr.s "en")); DCreateTree 0 (Some (PyStr.s "cs")); DCreateTree 1 (Some (PyStr.s "en"));
   DNewTree (Some (PyStr.s "de")); DAddTree 2 3; DZone 3 (PyStr.s "en"); DCreateTree 2 None;
   DRemoveBundle 1; DCreateBundle 0; DRemoveTree 4; DBundleId 0 (PyStr.s "x"); DReadSentId 0;
   DSentId 3 (PyStr.s "y/en_2"); DZone 3 (PyStr.s "en")].
Definition doc1 : store := doc_run store0 ops1.
Lemma doc1_world : doc_world doc1.
Proof. apply doc_run_world; [constructor|vm_compute; reflexivity]. Qed.

(** C31. In everything the API can build - as long as no tree is added to a second bundle while it is in another
    one - the trees of a bundle have pairwise different zones, none of them is 'all', every zone is a well-formed name, has_tree(z) says whether
    there is a tree with zone z, get_tree(z) returns exactly that tree and raises an exception otherwise. *)
Theorem C31_zones_unique_partial : forall s, doc_world s -> forall b,
  (forall t t', In t (b_trees s b) -> In t' (b_trees s b) -> t <> t' -> t_zone s t <> t_zone s t') /\
  (forall t, In t (b_trees s b) -> t_bundle s t = Some b /\ exists z, has_zone s t z /\ z <> PyStr.s "all" /\ zone_shape z) /\
  (forall z, has_tree s b z = true <-> exists t, In t (b_trees s b) /\ has_zone s t z) /\
  (forall z t, get_tree s b z = Ok t <-> In t (b_trees s b) /\ has_zone s t z) /\
  (forall z, has_tree s b z = false -> get_tree s b z = Raise RuntimeError).
Proof. exact zones_unique. Qed.
Print Assumptions C31_zones_unique_partial.
Example C31_case : doc_world doc1 /\ b_trees doc1 0 = [0; 1] /\ get_tree doc1 0 (PyStr.s "cs") = Ok 1 /\ get_tree doc1 2 (PyStr.s "en") = Ok 3.
Proof. split; [exact doc1_world|]. vm_compute. auto. Qed.

(** C31. A tree that is added to a second bundle: its zone is only checked against the second one. *)
Definition doc_stolen : store := doc_run store0
  [DNewDocument; DCreateBundle 0; DCreateBundle 0; DCreateTree 0 (Some (PyStr.s "en")); DCreateTree 0 (Some (PyStr.s "cs"));
   DAddTree 1 1; DZone 1 (PyStr.s "en")].
Theorem C31_stolen_refuted : ~ (forall s, any_doc_world s -> forall b t t',
  In t (b_trees s b) -> In t' (b_trees s b) -> t <> t' -> t_zone s t <> t_zone s t').
Proof.
  intros H. refine (H doc_stolen _ 0 0 1 _ _ _ _).
  - apply any_run_world; [constructor|vm_compute; reflexivity].
  - vm_compute; auto.
  - vm_compute; auto.
  - discriminate.
  - vm_compute; reflexivity.
Qed.
Print Assumptions C31_stolen_refuted.
(** C31. A zone may end with a newline. *)
Definition doc_newline : store := doc_run store0 [DNewDocument; DCreateBundle 0; DCreateTree 0 (Some (PyStr.s "en" ++ [10%N]))].
Theorem C31_newline_refuted : ~ (forall s b t z, doc_world s -> In t (b_trees s b) -> has_zone s t z -> ~ In 10%N z).
Proof.
  intros H. refine (H doc_newline 0 0 (PyStr.s "en" ++ [10%N]) _ _ _ _).
  - apply doc_run_world; [constructor|vm_compute; reflexivity].
  - vm_compute; auto.
  - vm_compute; auto.
  - vm_compute; auto.
Qed.
Print Assumptions C31_newline_refuted.
(** C31. A tree in a bundle cannot be assigned the zone it has. *)
Theorem C31_same_zone_refuted : ~ (forall s b t z, doc_world s -> In t (b_trees s b) -> has_zone s t z ->
  snd (set_zone s t z) = Ok tt).
Proof.
  intros H. specialize (H doc1 0 0 (PyStr.s "en") doc1_world).
  assert (E : @Raise unit RuntimeError = Ok tt); [|discriminate E].
  refine (eq_trans _ (H _ _)); vm_compute; auto.
Qed.
Print Assumptions C31_same_zone_refuted.

(** C32. After any history of the API calls in which bundle ids and sent ids are assigned carefully ([agreeing]),
    the sent_id of every tree in a bundle is the bundle id, followed by '/' and the zone unless the zone is empty. *)
Theorem C32_ids_agree_partial : forall s, agreeing_world s -> forall b t, In t (b_trees s b) ->
  exists i z, b_id s b = Some i /\ has_zone s t z /\ snd (sent_id s t) = full_id i z.
Proof. exact ids_agree. Qed.
Print Assumptions C32_ids_agree_partial.
Lemma doc1_agreeing : agreeing_world doc1.
Proof.
  apply agree_run_world; [constructor|constructor|vm_compute; reflexivity|].
  unfold ops1. cbn [agree_all].
  repeat match goal with
  | |- agreeing ?st (DBundleId _ _) /\ _ => split
  | |- agreeing ?st (DSentId _ _) /\ _ => split
  | |- agreeing ?st _ /\ _ => split; [exact I|]
  | |- True => exact I
  end.
  - split; [intros Q; discriminate Q|]. intros t Ht Hz. vm_compute in Ht. destruct Ht as [<-|[<-|[]]]; vm_compute in Hz; discriminate Hz.
  - intros b H. vm_compute in H. injection H as <-. split; [vm_compute; auto|]. right. exists (PyStr.s "y"), (PyStr.s "en_2").
    split; [reflexivity|]. split; [vm_compute; intuition discriminate|]. split; [discriminate|]. split; [discriminate|].
    split; [|left; vm_compute; reflexivity]. intros t' Ht N. vm_compute in Ht. destruct Ht as [<-|[]]. congruence.
Qed.
Example C32_case : agreeing_world doc1 /\ snd (sent_id doc1 0) = PyStr.s "x/en" /\ snd (sent_id doc1 1) = PyStr.s "x/cs" /\
  snd (sent_id doc1 3) = PyStr.s "y/en" /\ b_id doc1 2 = Some (PyStr.s "y").
Proof. split; [exact doc1_agreeing|]. vm_compute. auto. Qed.

(** C32. Assigning the bundle id of a bundle with two trees gives the one with the empty zone the sent_id "x/". *)
Definition doc_slash : store := doc_run store0
  [DNewDocument; DCreateBundle 0; DCreateTree 0 None; DCreateTree 0 (Some (PyStr.s "cs")); DBundleId 0 (PyStr.s "x")].
Theorem C32_bundle_id_refuted : ~ (forall s, doc_world s -> forall b t, In t (b_trees s b) ->
  exists i z, b_id s b = Some i /\ has_zone s t z /\ snd (sent_id s t) = full_id i z).
Proof.
  intros H. destruct (H doc_slash) with (b := 0) (t := 0) as (i & z & A & B & C).
  - apply doc_run_world; [constructor|vm_compute; reflexivity].
  - vm_compute; auto.
  - vm_compute in A. injection A as <-. vm_compute in B. injection B as <-. vm_compute in C. discriminate C.
Qed.
Print Assumptions C32_bundle_id_refuted.
(** C32. Assigning a sent_id without '/' to a tree with a non-empty zone keeps the zone. *)
Definition doc_en : store := doc_run store0 [DNewDocument; DCreateBundle 0; DCreateTree 0 (Some (PyStr.s "en"))].
Lemma doc_en_world : doc_world doc_en.
Proof. apply doc_run_world; [constructor|vm_compute; reflexivity]. Qed.
Theorem C32_sent_id_refuted : ~ (forall s t v, doc_world s -> t < nt s -> snd (set_sent_id s t v) = Ok tt ->
  forall b, In t (b_trees s b) -> exists i z, b_id (fst (set_sent_id s t v)) b = Some i /\
    has_zone (fst (set_sent_id s t v)) t z /\ snd (sent_id (fst (set_sent_id s t v)) t) = full_id i z).
Proof.
  intros H. destruct (H doc_en 0 (PyStr.s "s2") doc_en_world) with (b := 0) as (i & z & A & B & C).
  - vm_compute; auto.
  - vm_compute; auto.
  - vm_compute; auto.
  - vm_compute in A. injection A as <-. vm_compute in B. injection B as <-. vm_compute in C. discriminate C.
Qed.
Print Assumptions C32_sent_id_refuted.
(** C32. Assigning a tree its own sent_id raises an exception if the zone is not empty. *)
Theorem C32_same_sent_id_refuted : ~ (forall s t, doc_world s -> t < nt s ->
  snd (set_sent_id (fst (sent_id s t)) t (snd (sent_id s t))) = Ok tt).
Proof.
  intros H. specialize (H doc_en 0 doc_en_world).
  assert (E : @Raise unit RuntimeError = Ok tt); [|discriminate E].
  refine (eq_trans _ (H _)); vm_compute; auto.
Qed.
Print Assumptions C32_same_sent_id_refuted.

(** C47. For two words of one document and zone, precedes never fails and says whether the first comes before the
    second: in the same tree by ord, in different trees by the order of their bundles in the document. *)
Theorem C47_precedes : forall s d z b c x y, doc_world s -> in_document s d b (fst x) -> in_document s d c (fst y) ->
  has_zone s (fst x) z -> has_zone s (fst y) z ->
  exists v, precedes s x y = Ok v /\ (v = true <-> word_before s d x y).
Proof. exact precedes_spec. Qed.
Print Assumptions C47_precedes.
(** C47. It is irreflexive, transitive and total. *)
Theorem C47_strict_order : forall s d z b1 b2 b3 x y w, doc_world s ->
  in_document s d b1 (fst x) -> in_document s d b2 (fst y) -> in_document s d b3 (fst w) ->
  has_zone s (fst x) z -> has_zone s (fst y) z -> has_zone s (fst w) z ->
  precedes s x x = Ok false /\
  (precedes s x y = Ok true -> precedes s y w = Ok true -> precedes s x w = Ok true) /\
  (precedes s x y = Ok true \/ precedes s y x = Ok true \/ (fst x = fst y /\ snd x = snd y)).
Proof. exact precedes_order. Qed.
Print Assumptions C47_strict_order.
Example C47_case : doc_world doc1 /\ d_bundles doc1 0 = [0; 2; 3] /\ in_document doc1 0 0 0 /\ in_document doc1 0 2 3 /\
  has_zone doc1 0 (PyStr.s "en") /\ has_zone doc1 3 (PyStr.s "en") /\ precedes doc1 (0, 5%Z) (3, 1%Z) = Ok true.
Proof. split; [exact doc1_world|]. vm_compute. auto 10. Qed.
