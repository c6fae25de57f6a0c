(** C28: readers.  The input is given by the trees returned by the reader for each file (with their sent_id and
    newdoc); see ReaderSpec. *)
From Coq Require Import String List NArith ZArith Bool Lia.
From Verif Require Import PyStr PyList PyExn TreeModel BundleModel BundleSpec ReaderModel ReaderSpec ReaderProofs ReaderTerm ReaderThms.
Import ListNotations.

Definition plain : opts := mkOpts None 0 None false false false 0 true.
Definition per (k : nat) : opts := mkOpts None k None false false false 0 true.
Definition tr (n : nat) (sid : string) : item nat := mkItem n (Some (PyStr.s sid)) NotDoc.
Definition nid (n : nat) : item nat := mkItem n None NotDoc.
Definition doc_tr (n : nat) (sid : string) : item nat := mkItem n (Some (PyStr.s sid)) DocTrue.
Definition shown {A} (x : reader A * res (list nat)) : res (list (list (option str * list (option str * option A)))) :=
  match snd x with
  | Ok docs => Ok (map (fun d => map (fun b => (b_id (rd_store (fst x)) b,
                     map (fun t => (t_zone (rd_store (fst x)) t, rd_content (fst x) t)) (b_trees (rd_store (fst x)) b)))
                  (d_bundles (rd_store (fst x)) d)) docs)
  | Raise e => Raise e
  | Diverge => Diverge
  end.

(** Whatever the options and the input: the documents, their bundles and their trees are all different, and the
    trees of the documents, in order, are the trees of the files accepted by the filter, in order; with max_docs
    a tail of them may be missing, otherwise all of them are there. *)
Theorem C28_every_tree_once : forall A (o : opts) batch (fs : list (list (item A))) fl r0 r docs,
  reads batch fs r0 -> read_documents fl o no_after r0 [] = (r, Ok docs) ->
  NoDup docs /\ NoDup (bundles_of (rd_store r) docs) /\ NoDup (all_trees (rd_store r) docs) /\
  exists left, contents r (all_trees (rd_store r) docs) ++ items left = items (input o fs) /\ (o_max o = 0 -> left = []).
Proof. exact (fun A o batch fs fl r0 r docs => @placed_once A o batch fs fl r0 r docs no_after (@mild_no A)). Qed.
Print Assumptions C28_every_tree_once.
Example C28_every_tree_once_case :
  shown (read_documents 20 (mkOpts None 2 (Some (fun i => negb (str_eqb i (PyStr.s "c")))) true false false 0 true) no_after
    (new_reader (map (file_of false) [[tr 0 "a/en"; tr 1 "a/cs"; tr 2 "b"; tr 3 "c"; tr 4 "d"]; []; [tr 5 "e"; doc_tr 6 "f"]])) [])
  = Ok [[(Some (PyStr.s "a"), [(Some (PyStr.s "en"), Some 0); (Some (PyStr.s "cs"), Some 1)]); (Some (PyStr.s "b"), [(Some [], Some 2)])];
        [(Some (PyStr.s "d"), [(Some [], Some 4)]); (Some (PyStr.s "e"), [(Some [], Some 5)])];
        [(Some (PyStr.s "f"), [(Some [], Some 6)])]].
Proof. vm_compute. reflexivity. Qed.

(** If all trees have a sent_id "i" or "i/z" and the ids are not ignored, every bundle consists of trees whose
    sent_ids start with the id of the bundle, the zone of each is z (or the zone given to the reader), and these
    groups of trees, in order, are the input.  Without bundles_per_doc, split_docs and merge, neighbouring bundles
    have different ids, so consecutive trees with the same id are in the same bundle. *)
Theorem C28_bundles_partial : forall A (o : opts) batch (fs : list (list (item A))) fl r0 r docs,
  reads batch fs r0 -> read_documents fl o no_after r0 [] = (r, Ok docs) ->
  o_ignore o = false -> Forall (Forall identified) fs ->
  exists gss left,
    Forall2 (fun d gs => Forall2 (bundle_reads o r) (d_bundles (rd_store r) d) gs /\
                         (o_bpd o = 0 -> o_split o = false -> o_merge o = false -> separated gs)) docs gss /\
    concat (concat gss) ++ left = input o fs /\ (o_max o = 0 -> left = []).
Proof. exact (fun A o batch fs fl r0 r docs => @bundles_read A o batch fs fl r0 r docs no_after (@mild_no A)). Qed.
Print Assumptions C28_bundles_partial.
Definition two_zones : list (list (item nat)) := [[tr 0 "a/en"; tr 1 "a/cs"; tr 2 "b/en"; tr 3 "b/cs"]; [tr 4 "b/en"]].
Example C28_bundles_case :
  Forall (Forall identified) two_zones /\
  shown (read_documents 20 plain no_after (new_reader (map (file_of true) two_zones)) [])
  = Ok [[(Some (PyStr.s "a"), [(Some (PyStr.s "en"), Some 0); (Some (PyStr.s "cs"), Some 1)]);
         (Some (PyStr.s "b"), [(Some (PyStr.s "en"), Some 2); (Some (PyStr.s "cs"), Some 3)])];
        [(Some (PyStr.s "b"), [(Some (PyStr.s "en"), Some 4)])]].
Proof.
  split; [|vm_compute; reflexivity].
  assert (I : forall n i z, ~ In 47%N i -> i <> [] -> identified (mkItem n (Some (i ++ 47%N :: z)) NotDoc : item nat)).
  { intros n i z H1 H2. exists i, z. split; [auto|]. split; [auto|]. right. reflexivity. }
  repeat constructor;
    [apply (I 0 [97%N] [101%N; 110%N])|apply (I 1 [97%N] [99%N; 115%N])|apply (I 2 [98%N] [101%N; 110%N])|apply (I 3 [98%N] [99%N; 115%N])|apply (I 4 [98%N] [101%N; 110%N])];
    try discriminate; intros [H|[]]; discriminate.
Qed.

(** With bundles_per_doc (or split_docs) this fails for the tree kept in the buffer between two documents:
    the sentence "a" in two zones is split into two bundles with the same id. *)
Theorem C28_buffer_refuted :
  Forall (Forall identified) [[tr 0 "x"; tr 1 "y"; tr 2 "a/en"; tr 3 "a/cs"]] /\
  shown (read_documents 20 (per 2) no_after (new_reader (map (file_of true) [[tr 0 "x"; tr 1 "y"; tr 2 "a/en"; tr 3 "a/cs"]])) [])
  = Ok [[(Some (PyStr.s "x"), [(Some [], Some 0)]); (Some (PyStr.s "y"), [(Some [], Some 1)])];
        [(Some (PyStr.s "a"), [(Some (PyStr.s "en"), Some 2)]); (Some (PyStr.s "a"), [(Some (PyStr.s "cs"), Some 3)])]].
Proof.
  split; [|vm_compute; reflexivity].
  assert (I : forall n i z, ~ In 47%N i -> i <> [] -> identified (mkItem n (Some (i ++ 47%N :: z)) NotDoc : item nat)).
  { intros n i z H1 H2. exists i, z. split; [auto|]. split; [auto|]. right. reflexivity. }
  assert (J : forall n i, ~ In 47%N i -> i <> [] -> identified (mkItem n (Some i) NotDoc : item nat)).
  { intros n i H1 H2. exists i, []. split; [auto|]. split; [auto|]. left. auto. }
  repeat constructor; [apply (J 0 [120%N])|apply (J 1 [121%N])|apply (I 2 [97%N] [101%N; 110%N])|apply (I 3 [97%N] [99%N; 115%N])];
    try discriminate; intros [H|[]]; discriminate.
Qed.
Print Assumptions C28_buffer_refuted.
(** A tree without sent_id takes the id of the preceding one: two bundles "a", and the two trees of "a", which
    are not consecutive, are not together either. *)
Theorem C28_no_id_refuted :
  shown (read_documents 20 plain no_after (new_reader (map (file_of true) [[tr 0 "a/en"; nid 1; tr 2 "a/cs"]])) [])
  = Ok [[(Some (PyStr.s "a"), [(Some (PyStr.s "en"), Some 0)]);
         (Some (PyStr.s "a"), [(Some [], Some 1); (Some (PyStr.s "cs"), Some 2)])]].
Proof. vm_compute. reflexivity. Qed.
Print Assumptions C28_no_id_refuted.
(** With zone= and bundles_per_doc a buffered tree without sent_id gives a bundle called "?". *)
Theorem C28_question_mark_refuted :
  shown (read_documents 20 (mkOpts (Some (PyStr.s "cs")) 1 None false false false 0 true) no_after (new_reader (map (file_of true) [[nid 0; nid 1]])) [])
  = Ok [[(Some (PyStr.s "1"), [(Some (PyStr.s "cs"), Some 0)])]; [(Some (PyStr.s "?"), [(Some (PyStr.s "cs"), Some 1)])]].
Proof. vm_compute. reflexivity. Qed.
Print Assumptions C28_question_mark_refuted.

(** No reader creates an empty bundle; with ignore_sent_id every bundle has exactly one tree. *)
Theorem C28_no_empty_bundle : forall A (o : opts) batch (fs : list (list (item A))) fl r0 r docs,
  reads batch fs r0 -> read_documents fl o no_after r0 [] = (r, Ok docs) ->
  Forall (fun b => b_trees (rd_store r) b <> []) (bundles_of (rd_store r) docs).
Proof. exact (fun A o batch fs fl r0 r docs => @no_empty_bundle A o batch fs fl r0 r docs no_after (@mild_no A)). Qed.
Print Assumptions C28_no_empty_bundle.
Theorem C28_ignore_sent_id : forall A (o : opts) batch (fs : list (list (item A))) fl r0 r docs,
  reads batch fs r0 -> read_documents fl o no_after r0 [] = (r, Ok docs) ->
  o_ignore o = true -> Forall (fun b => length (b_trees (rd_store r) b) = 1) (bundles_of (rd_store r) docs).
Proof. exact (fun A o batch fs fl r0 r docs => @one_per_bundle A o batch fs fl r0 r docs no_after (@mild_no A)). Qed.
Print Assumptions C28_ignore_sent_id.
Example C28_ignore_sent_id_case :
  shown (read_documents 20 (mkOpts None 0 None false true false 0 true) no_after (new_reader (map (file_of true) two_zones)) [])
  = Ok [[(Some (PyStr.s "1"), [(Some [], Some 0)]); (Some (PyStr.s "2"), [(Some [], Some 1)]);
         (Some (PyStr.s "3"), [(Some [], Some 2)]); (Some (PyStr.s "4"), [(Some [], Some 3)])]; [(Some (PyStr.s "1"), [(Some [], Some 4)])]].
Proof. vm_compute. reflexivity. Qed.

(** bundles_per_doc=k: no document has more than k bundles. *)
Theorem C28_bundles_per_doc : forall A (o : opts) batch (fs : list (list (item A))) fl r0 r docs,
  reads batch fs r0 -> read_documents fl o no_after r0 [] = (r, Ok docs) ->
  o_bpd o <> 0 -> Forall (fun d => length (d_bundles (rd_store r) d) <= o_bpd o) docs.
Proof. exact (fun A o batch fs fl r0 r docs => @bundles_per_doc A o batch fs fl r0 r docs no_after (@mild_no A)). Qed.
Print Assumptions C28_bundles_per_doc.
(** split_docs: only the first tree of a document is marked with newdoc. *)
Theorem C28_split_docs : forall A (o : opts) batch (fs : list (list (item A))) fl r0 r docs,
  reads batch fs r0 -> read_documents fl o no_after r0 [] = (r, Ok docs) ->
  o_split o = true -> Forall (fun d => Forall (fun t => truthy (rd_newdoc r t) = false) (tl (trees_of (rd_store r) d))) docs.
Proof. exact (fun A o batch fs fl r0 r docs => @split_docs A o batch fs fl r0 r docs no_after (@mild_no A)). Qed.
Print Assumptions C28_split_docs.
Example C28_split_docs_case :
  shown (read_documents 20 (mkOpts None 0 None true false false 0 true) no_after
          (new_reader (map (file_of true) [[tr 0 "a"; tr 1 "b"; doc_tr 2 "c"; tr 3 "d"; doc_tr 4 "e"]])) [])
  = Ok [[(Some (PyStr.s "a"), [(Some [], Some 0)]); (Some (PyStr.s "b"), [(Some [], Some 1)])];
        [(Some (PyStr.s "c"), [(Some [], Some 2)]); (Some (PyStr.s "d"), [(Some [], Some 3)])]; [(Some (PyStr.s "e"), [(Some [], Some 4)])]].
Proof. vm_compute. reflexivity. Qed.

(** Without bundles_per_doc, split_docs, merge and max_docs, the documents are the files: leaving out empty
    documents and files (with no accepted tree), the trees of the i-th document are those of the i-th file. *)
Theorem C28_one_file_per_document : forall A (o : opts) batch (fs : list (list (item A))) fl r0 r docs,
  reads batch fs r0 -> read_documents fl o no_after r0 [] = (r, Ok docs) ->
  o_bpd o = 0 -> o_split o = false -> o_merge o = false -> o_max o = 0 ->
  filter nonempty_list (map (fun d => contents r (trees_of (rd_store r) d)) docs) = map items (filter nonempty_list (map (wanted o) fs)).
Proof. exact (fun A o batch fs fl r0 r docs => @one_file_per_doc A o batch fs fl r0 r docs no_after (@mild_no A)). Qed.
Print Assumptions C28_one_file_per_document.
(** The last tree of a file kept in the buffer makes the next document go on with the next file. *)
Theorem C28_split_continues_refuted :
  shown (read_documents 20 (mkOpts None 0 None true false false 0 true) no_after
          (new_reader (map (file_of true) [[tr 0 "a"; doc_tr 1 "b"]; [tr 2 "c"]])) [])
  = Ok [[(Some (PyStr.s "a"), [(Some [], Some 0)])]; [(Some (PyStr.s "b"), [(Some [], Some 1)]); (Some (PyStr.s "c"), [(Some [], Some 2)])]].
Proof. vm_compute. reflexivity. Qed.
Print Assumptions C28_split_continues_refuted.
(** A reader of an open file (filehandle=) returns one more, empty document. *)
Theorem C28_filehandle_refuted :
  shown (read_documents 20 plain no_after (new_reader_handle (file_of true [tr 0 "a"])) [])
  = Ok [[(Some (PyStr.s "a"), [(Some [], Some 0)])]; []].
Proof. vm_compute. reflexivity. Qed.
Print Assumptions C28_filehandle_refuted.

(** Reading into a document that has bundles: these stay where they are, and get the trees read in order, from
    the first bundle on; new bundles are added behind them only when all of them have got a tree. *)
Theorem C28_into_document : forall A (o : opts) batch (fs : list (list (item A))) r0 r d,
  reads batch fs r0 -> forall s0,
  d < nd s0 -> d_bundles s0 d <> [] -> NoDup (d_bundles s0 d) -> Forall (fun b => b < nb s0) (d_bundles s0 d) ->
  (forall b, nb s0 <= b -> b_trees s0 b = []) ->
  process_document o (with_store r0 s0) d = (r, Ok tt) ->
  exists more new left, d_bundles (rd_store r) d = d_bundles s0 d ++ more /\
    Forall2 (fun b ts => b_trees (rd_store r) b = b_trees s0 b ++ ts) (d_bundles (rd_store r) d) new /\
    NoDup (concat new) /\ contents r (concat new) ++ items left = items (input o fs) /\
    (exists l n, new = l ++ repeat [] n /\ Forall (fun ts => ts <> []) l) /\
    (o_ignore o = true -> Forall (fun ts => length ts <= 1) new) /\
    (o_max o = 0 -> rd_finished r = true -> left = []).
Proof. exact @into_document. Qed.
Print Assumptions C28_into_document.
(** A document with two English sentences gets their Czech translations, and one more. *)
Definition english : reader nat := fst (read_documents 20 (mkOpts (Some (PyStr.s "en")) 0 None false false false 0 true) no_after
  (new_reader (map (file_of true) [[tr 0 "a"; tr 1 "b"]])) []).
Definition czech : opts := mkOpts (Some (PyStr.s "cs")) 0 None false false false 0 true.
Definition czech_files : list (list (item nat)) := [[tr 7 "a"; tr 8 "b"; tr 9 "c"]].
Example C28_into_document_case :
  let s0 := rd_store english in
  0 < nd s0 /\ d_bundles s0 0 <> [] /\ NoDup (d_bundles s0 0) /\ Forall (fun b => b < nb s0) (d_bundles s0 0) /\
  (forall b, nb s0 <= b -> b_trees s0 b = []) /\
  (let (r, x) := process_document czech (with_store (new_reader (map (file_of true) czech_files)) s0) 0 in
   x = Ok tt /\ map (fun b => (b_id (rd_store r) b, map (fun t => (t_zone (rd_store r) t, rd_content r t)) (b_trees (rd_store r) b))) (d_bundles (rd_store r) 0)
   = [(Some (PyStr.s "a"), [(Some (PyStr.s "en"), None); (Some (PyStr.s "cs"), Some 7)]);
      (Some (PyStr.s "b"), [(Some (PyStr.s "en"), None); (Some (PyStr.s "cs"), Some 8)]);
      (Some (PyStr.s "c"), [(Some (PyStr.s "cs"), Some 9)])]).
Proof.
  cbv zeta. assert (E : nd (rd_store english) = 1 /\ nb (rd_store english) = 2 /\ d_bundles (rd_store english) 0 = [0; 1]) by (vm_compute; auto).
  destruct E as [E1 [E2 E3]]. rewrite E1, E2, E3. split; [lia|]. split; [discriminate|]. split; [repeat constructor; cbn; intuition discriminate|].
  split; [repeat constructor|]. split; [|vm_compute; auto].
  intros [|[|b]] H; [lia|lia|]. vm_compute. reflexivity.
Qed.

(** Reading always ends: the number of steps is bounded by the number of trees and files, for any files, also
    those on which read_tree returns None in the middle. *)
Theorem C28_reading_ends : forall A (o : opts) (files : list (file A)) fl, (forall f, In f files -> f_batch f <> Some Diverge) ->
  list_sum (map (fun f => S (length (f_trees f))) files) < fl ->
  snd (read_documents fl o no_after (new_reader files) []) <> Diverge.
Proof. exact @reading_files_ends. Qed.
Print Assumptions C28_reading_ends.
Example C28_reading_ends_case :
  let files := [mkFile [Some (tr 0 "a"); None; Some (tr 1 "b")] None; file_of true [nid 3]] in
  (forall f, In f files -> f_batch f <> Some Diverge) /\ list_sum (map (fun f => S (length (f_trees f))) files) = 6 /\
  shown (read_documents 7 plain no_after (new_reader files) [])
  = Ok [[(Some (PyStr.s "a"), [(Some [], Some 0)])]; [(Some (PyStr.s "b"), [(Some [], Some 1)])]; [(Some (PyStr.s "1"), [(Some [], Some 3)])]].
Proof. split; [|split; vm_compute; reflexivity]. intros f [<-|[<-|[]]]; discriminate. Qed.
