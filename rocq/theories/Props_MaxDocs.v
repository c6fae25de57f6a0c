(** C69: max_docs.  [first_docs] is in ReaderSpec, the layout of the files ([text_of], [good_block]) in ReaderTextSpec. *)
From Coq Require Import String List NArith ZArith Bool Lia.
From Verif Require Import PyStr PyList PyExn TreeModel BundleModel BundleSpec DualDictModel DocModel ConlluModel ReaderModel ReaderSpec ReaderFiles ReaderTextSpec
  ReaderFilesProofs ReaderMax Props_Files.
Import ListNotations.

(** CoNLL-U files with one empty line after each sentence, each starting with a document, read without bundles_per_doc,
    sent_id_filter and split_docs: the trees read with max_docs=N are those of the first N documents of the files, in
    order (all trees if there are fewer documents). *)
Theorem C69_first_documents_partial : forall cfg canon lower (o : opts) texts its fl files r docs,
  o_bpd o = 0 -> o_filter o = None -> o_split o = false -> o_max o <> 0 ->
  Forall2 (fun bs l => Forall good_block bs /\ Forall2 (fun b it => parse cfg canon lower b = Ok (Some it)) bs l /\ starts_doc l) texts its ->
  Forall2 (fun bs f => conllu_file cfg canon lower (o_max o) (text_of bs) = Ok f) texts files ->
  read_documents fl o no_after (new_reader files) [] = (r, Ok docs) ->
  exists p, first_docs (o_max o) (concat its) p /\ contents r (all_trees (rd_store r) docs) = items p.
Proof. exact conllu_max. Qed.
Print Assumptions C69_first_documents_partial.
Lemma good_doc_sent i : PyStr.s i <> [] -> forallb (fun a => negb (is_space a)) (PyStr.s i) = true -> good_block (doc_sent i).
Proof.
  intros H1 H2. split; [discriminate|]. constructor; [|apply (good_sent i H1 H2)].
  split; [|exists (PyStr.s "# newdo"), 99%N; split; reflexivity].
  intros I. assert (F : forallb (fun a => negb (N.eqb a LF)) (PyStr.s "# newdoc") = true) by reflexivity.
  rewrite forallb_forall in F. apply F in I. discriminate.
Qed.
Definition read_texts (o : opts) (texts : list (list (list str))) : reader (list str) * res (list nat) :=
  read_documents 9 o no_after
    (new_reader (map (fun bs => match as_file (o_max o) (text_of bs) with Ok f => f | _ => mkFile [] None end) texts)) [].
Definition three_docs : list (list (list str)) := [[doc_sent "a"; sent "b"]; [doc_sent "c"; sent "d"; doc_sent "e"; sent "f"]].
Example C69_case :
  Forall2 (fun bs l => Forall good_block bs /\ Forall2 (fun b it => parses b = Ok (Some it)) bs l /\ starts_doc l) three_docs (map (map item_of) three_docs) /\
  counted (read_texts (at_most 2) three_docs) = Ok [[1; 1]; [1; 1]] /\
  contents (fst (read_texts (at_most 2) three_docs)) (all_trees (rd_store (fst (read_texts (at_most 2) three_docs))) [0; 1]) =
    [Some (doc_sent "a"); Some (sent "b"); Some (doc_sent "c"); Some (sent "d")].
Proof.
  split; [|split; vm_compute; reflexivity].
  assert (S1 : forall i its, truthy (it_newdoc (item_of (doc_sent i))) = true -> starts_doc (item_of (doc_sent i) :: its)) by (intros i its H; now exists (item_of (doc_sent i)), its).
  repeat (apply Forall2_cons; [split; [repeat (apply Forall_cons; [first [apply good_sent; [discriminate|reflexivity]|apply good_doc_sent; [discriminate|reflexivity]]|]); apply Forall_nil|
    split; [repeat (apply Forall2_cons; [vm_compute; reflexivity|]); apply Forall2_nil|apply S1; vm_compute; reflexivity]]|]); apply Forall2_nil.
Qed.

(** The property does not hold in general.  If the second file goes on with the last document of the first one, its
    trees are read although documents of the first file have been left out. *)
Theorem C69_not_a_prefix_refuted :
  contents (fst (read_texts (at_most 1) [[doc_sent "a"; doc_sent "b"]; [sent "c"]]))
    (all_trees (rd_store (fst (read_texts (at_most 1) [[doc_sent "a"; doc_sent "b"]; [sent "c"]]))) [0; 1]) = [Some (doc_sent "a"); Some (sent "c")] /\
  snd (read_texts (at_most 1) [[doc_sent "a"; doc_sent "b"]; [sent "c"]]) = Ok [0; 1].
Proof. split; vm_compute; reflexivity. Qed.
Print Assumptions C69_not_a_prefix_refuted.
(** With split_docs only the first tree of the last document is read. *)
Definition splitting (n : nat) : opts := mkOpts None 0 None true false false n true.
Definition it_doc (n : nat) (i : string) : item nat := mkItem n (Some (PyStr.s i)) DocTrue.
Definition it_in (n : nat) (i : string) : item nat := mkItem n (Some (PyStr.s i)) NotDoc.
Definition two_docs : list (item nat) := [it_doc 0 "a"; it_in 1 "b"; it_doc 2 "c"; it_in 3 "d"; it_in 4 "e"].
Theorem C69_split_docs_refuted : first_docs 2 two_docs two_docs /\
  counted (read_documents 9 (splitting 2) no_after (new_reader [file_of true two_docs]) []) = Ok [[1; 1]; [1]].
Proof. split; [exists []; split; [reflexivity|split; [cbn; lia|now left]]|vm_compute; reflexivity]. Qed.
Print Assumptions C69_split_docs_refuted.
(** With bundles_per_doc there may be more documents than max_docs, and not all sentences. *)
Theorem C69_bundles_per_doc_refuted :
  counted (read_documents 9 (mkOpts None 2 None false false false 1 true) no_after
    (new_reader [file_of true [it_doc 0 "a"; it_in 1 "b"; it_in 2 "c"; it_in 3 "d"; it_in 4 "e"]]) []) = Ok [[1; 1]; [1]].
Proof. vm_compute. reflexivity. Qed.
Print Assumptions C69_bundles_per_doc_refuted.
(** If all files start with a document, one more, empty document may be returned. *)
Theorem C69_too_many_refuted : counted (read_texts (at_most 1) [[doc_sent "a"]; [doc_sent "b"]]) = Ok [[1]; []].
Proof. vm_compute. reflexivity. Qed.
Print Assumptions C69_too_many_refuted.
(** Without the last empty line the last sentence is lost, however big max_docs is; without max_docs it is read. *)
Definition read_open (n : nat) : res (list (list nat)) :=
  match as_file n (text_of [doc_sent "a"] ++ join [LF] (sent "b")) with
  | Ok f => counted (read_documents 9 (at_most n) no_after (new_reader [f]) [])
  | Raise e => Raise e
  | Diverge => Diverge
  end.
Theorem C69_last_sentence_refuted : read_open 9 = Ok [[1]] /\ read_open 0 = Ok [[1; 1]].
Proof. split; vm_compute; reflexivity. Qed.
Print Assumptions C69_last_sentence_refuted.
