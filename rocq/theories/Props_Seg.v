(** Sentence splitting by segment.Simple: C63; and C47 for the documents it produces. *)
From Coq Require Import String List NArith ZArith Bool Lia.
From Verif Require Import PyStr PyList PyExn TreeModel BundleModel BundleSpec BundleProofs Props_Bundle SegModel SegSpec SegProofs.
Import ListNotations.

(** C63. Whatever the boundary test, the sentences joined by single spaces are the original text. *)
Theorem C63_join : forall bd x, join (PyStr.s " ") (segment_string false bd x) = x.
Proof. exact segment_join. Qed.
Print Assumptions C63_join.
(** C63. With keep_spaces, the sentences put together are the original text. *)
Theorem C63_concat : forall bd x, concat (segment_string true bd x) = x.
Proof. exact segment_concat. Qed.
Print Assumptions C63_concat.
(** C63. keep_spaces does nothing but add one space to each sentence except the last. *)
Theorem C63_keep_spaces : forall bd x, exists l y, segment_string false bd x = l ++ [y] /\
  segment_string true bd x = map (fun z => z ++ PyStr.s " ") l ++ [y].
Proof. exact segment_keep. Qed.
Print Assumptions C63_keep_spaces.
(** C63. The sentences are the groups of tokens obtained by cutting the text exactly where is_boundary says so. *)
Theorem C63_cut_at_boundaries : forall bd x, exists groups, concat groups = split 32%N x /\ cut_at bd groups /\
  segment_string false bd x = map (join (PyStr.s " ")) groups.
Proof. exact segment_groups. Qed.
Print Assumptions C63_cut_at_boundaries.
Definition ends_dot (a b : str) : bool := match rev a with c :: _ => N.eqb c 46 | [] => false end.
Example C63_case : segment_string false ends_dot (PyStr.s "A b.  C. D e") = [PyStr.s "A b."; PyStr.s " C."; PyStr.s "D e"] /\
  segment_string true ends_dot (PyStr.s "A b. C") = [PyStr.s "A b. "; PyStr.s "C"].
Proof. vm_compute. auto. Qed.

(** C63. Splitting a document: if all selected trees have a text and no words, the block succeeds, keeps the
    original bundles in their order, and the texts of each zone, read in document order, are the sentences of the
    original texts. Unselected trees keep their texts. *)
Theorem C63_document : forall keep bd sel kids s txt d, doc_world s ->
  (forall b t, in_document s d b t -> sel t = true -> kids t = false /\ exists x, txt t = Some x) ->
  exists g', seg_document keep bd sel kids (mkSeg s txt) d = (g', Ok tt) /\
    filter (fun b => b <? nb s) (d_bundles (g_s g') d) = d_bundles s d /\
    forall z, zone_texts g' (d_bundles (g_s g') d) z = zone_pieces keep bd sel (mkSeg s txt) (d_bundles s d) z.
Proof. exact seg_document_spec. Qed.
Print Assumptions C63_document.
Definition txt1 (t : nat) : option str :=
  match t with 0 => Some (PyStr.s "Hi. You.") | 1 => Some (PyStr.s "Aha.") | 3 => Some (PyStr.s "A. B. C") | _ => None end.
Definition seg1 : seg := fst (seg_document false ends_dot (fun _ => true) (fun _ => false) (mkSeg doc1 txt1) 0).
Example C63_document_case :
  (forall b t, in_document doc1 0 b t -> true = true -> false = false /\ exists x, txt1 t = Some x) /\
  zone_texts seg1 (d_bundles (g_s seg1) 0) (PyStr.s "en") = map (fun x => Some (PyStr.s x)) ["Hi."; "You."; "A."; "B."; "C"]%string /\
  length (d_bundles (g_s seg1) 0) = 6.
Proof.
  split; [|vm_compute; auto]. intros b t [Hb Ht] _. split; [reflexivity|]. vm_compute in Hb.
  destruct Hb as [<-|[<-|[<-|[]]]]; vm_compute in Ht; repeat (destruct Ht as [<-|Ht]; [eexists; vm_compute; reflexivity|]); destruct Ht.
Qed.

(** C47. In a document made by segment.Simple, precedes raises AttributeError for words of the new bundles: they have
    no number. *)
Theorem C47_segmented_refuted : ~ (forall keep bd sel kids s txt d g' z b c x y, doc_world s ->
  seg_document keep bd sel kids (mkSeg s txt) d = (g', Ok tt) ->
  in_document (g_s g') d b (fst x) -> in_document (g_s g') d c (fst y) ->
  has_zone (g_s g') (fst x) z -> has_zone (g_s g') (fst y) z -> exists v, precedes (g_s g') x y = Ok v).
Proof.
  intros H. destruct (H false ends_dot (fun _ => true) (fun _ => false) doc1 txt1 0 seg1 (PyStr.s "en") 0 4 (0, 1%Z) (5, 1%Z) doc1_world) as [v Hv].
  - unfold seg1. rewrite (surjective_pairing (seg_document _ _ _ _ _ _)) at 1. f_equal.
  - vm_compute; auto.
  - vm_compute; auto.
  - vm_compute; auto.
  - vm_compute; auto.
  - vm_compute in Hv. discriminate Hv.
Qed.
Print Assumptions C47_segmented_refuted.
