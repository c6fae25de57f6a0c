(** C29, C49: reading files tree by tree and at once; plain text files. *)
From Coq Require Import String List NArith ZArith Bool Lia.
From Verif Require Import PyStr PyList PyExn TreeModel BundleModel BundleSpec DualDictModel DocModel ConlluModel ReaderModel ReaderSpec ReaderFiles ReaderTextSpec
  ReaderFilesProofs ReaderSlow ReaderTotal SentencesProofs.
Import ListNotations.

(** ---- Examples ---- *)
Definition strict_cfg : rcfg := mkRcfg true false.
Definition same_str (x : str) : option str := Some x.
Definition keep_str (x : str) : str := x.
Definition word : str := PyStr.s "1" ++ [TAB] ++ PyStr.s "a" ++ [TAB; 95%N; TAB; 95%N; TAB; 95%N; TAB; 95%N; TAB] ++ PyStr.s "0" ++ [TAB; 95%N; TAB; 95%N; TAB; 95%N].
Definition sent (i : string) : list str := [PyStr.s "# sent_id = " ++ PyStr.s i; word].
Definition doc_sent (i : string) : list str := PyStr.s "# newdoc" :: sent i.
Definition all_opts : opts := mkOpts None 0 None false false false 0 true.
Definition merging : opts := mkOpts None 0 None false false true 0 true.
Definition at_most (n : nat) : opts := mkOpts None 0 None false false false n true.
Definition shown {A} (x : reader A * res (list nat)) : res (list (list (option str * list (option str * option A)))) :=
  match snd x with
  | Ok docs => Ok (map (fun d => map (fun b => (b_id (rd_store (fst x)) b,
                     map (fun t => (t_zone (rd_store (fst x)) t, rd_content (fst x) t)) (b_trees (rd_store (fst x)) b)))
                  (d_bundles (rd_store (fst x)) d)) docs)
  | Raise e => Raise e
  | Diverge => Diverge
  end.
Definition counted {A} (x : reader A * res (list nat)) : res (list (list nat)) :=
  match snd x with
  | Ok docs => Ok (map (fun d => map (fun b => length (b_trees (rd_store (fst x)) b)) (d_bundles (rd_store (fst x)) d)) docs)
  | Raise e => Raise e
  | Diverge => Diverge
  end.
Notation parses := (parse strict_cfg same_str keep_str).
Notation as_file := (conllu_file strict_cfg same_str keep_str).
Lemma good_sent i : PyStr.s i <> [] -> forallb (fun a => negb (is_space a)) (PyStr.s i) = true -> good_block (sent i).
Proof.
  intros H1 H2. split; [discriminate|]. assert (NL : forall x, forallb (fun a => negb (N.eqb a LF)) x = true -> ~ In LF x).
  { intros x F I. rewrite forallb_forall in F. apply F in I. discriminate. }
  constructor; [|constructor; [|constructor]].
  - split.
    + apply NL. rewrite forallb_app. apply andb_true_iff. split; [reflexivity|]. rewrite forallb_forall in *. intros a Ha. specialize (H2 a Ha).
      destruct (N.eqb_spec a LF) as [->|]; auto.
    + destruct (exists_last H1) as [x [a E]]. exists (PyStr.s "# sent_id = " ++ x), a. rewrite E, app_assoc. split; auto.
      rewrite forallb_forall in H2. specialize (H2 a). rewrite E in H2. specialize (H2 ltac:(apply in_or_app; right; now left)).
      now apply negb_true_iff.
  - split; [apply NL; reflexivity|]. exists (removelast word), 95%N. split; reflexivity.
Qed.
Definition item_of (b : list str) : item (list str) :=
  match parses b with Ok (Some it) => it | _ => mkItem [] None NotDoc end.

(** A CoNLL-U file whose sentences (at least one line each, no white space at the ends of lines) are each followed by
    exactly one empty line is cut into these sentences both by read_tree and by read_trees. *)
Theorem C29_well_formed_text : forall cfg canon lower (bs : list (list str)) (its : list (item (list str))),
  Forall good_block bs -> Forall2 (fun b it => parse cfg canon lower b = Ok (Some it)) bs its ->
  conllu_file cfg canon lower 0 (text_of bs) = Ok (mkFile (map Some its) (Some (Ok (map Some its)))).
Proof. exact conllu_text. Qed.
Print Assumptions C29_well_formed_text.
Example C29_well_formed_text_case : let bs := [sent "a/en"; sent "a/cs"; sent "b"] in
  Forall good_block bs /\ Forall2 (fun b it => parses b = Ok (Some it)) bs (map item_of bs) /\
  map (@it_sid _) (map item_of bs) = [Some (PyStr.s "a/en"); Some (PyStr.s "a/cs"); Some (PyStr.s "b")].
Proof.
  cbv zeta. split; [|split].
  - repeat (apply Forall_cons; [apply good_sent; [discriminate|reflexivity]|]). apply Forall_nil.
  - repeat (apply Forall2_cons; [vm_compute; reflexivity|]). apply Forall2_nil.
  - vm_compute. reflexivity.
Qed.

(** Nor is the last sentence lost if the file ends right after its last character, without any line end. *)
Theorem C29_no_final_newline : forall cfg canon lower (bs : list (list str)) (b : list str) (its : list (item (list str))) it,
  Forall good_block bs -> good_block b ->
  Forall2 (fun b it => parse cfg canon lower b = Ok (Some it)) bs its -> parse cfg canon lower b = Ok (Some it) ->
  conllu_file cfg canon lower 0 (text_of bs ++ join [LF] b) = Ok (mkFile (map Some (its ++ [it])) (Some (Ok (map Some (its ++ [it]))))).
Proof. exact conllu_open_text. Qed.
Print Assumptions C29_no_final_newline.
Example C29_no_final_newline_case : good_block (sent "a/en") /\ good_block (sent "b") /\
  parses (sent "a/en") = Ok (Some (item_of (sent "a/en"))) /\ parses (sent "b") = Ok (Some (item_of (sent "b"))) /\
  last (text_of [sent "a/en"] ++ join [LF] (sent "b")) 0%N = 95%N.
Proof.
  split; [apply good_sent; [discriminate|reflexivity]|]. split; [apply good_sent; [discriminate|reflexivity]|].
  split; [vm_compute; reflexivity|]. split; vm_compute; reflexivity.
Qed.

(** Such files, at least one sentence in each, give the same documents when read at once and tree by tree
    (without max_docs and merge). *)
Theorem C29_fast_is_slow_partial : forall cfg canon lower (o : opts) texts its fl,
  o_bpd o = 0 -> o_filter o = None -> o_split o = false -> o_max o = 0 -> o_merge o = false ->
  Forall2 (fun bs l => bs <> [] /\ Forall good_block bs /\ Forall2 (fun b it => parse cfg canon lower b = Ok (Some it)) bs l) texts its ->
  exists files, Forall2 (fun bs f => conllu_file cfg canon lower 0 (text_of bs) = Ok f) texts files /\
    files = map (file_of true) its /\
    same_result (read_documents fl o no_after (new_reader files) []) (read_documents fl o no_after (new_reader (map one_by_one files)) []).
Proof. exact conllu_fast_is_slow. Qed.
Print Assumptions C29_fast_is_slow_partial.
Example C29_fast_is_slow_case : let texts := [[sent "a/en"; sent "a/cs"; sent "b"]; [sent "b"]] in
  Forall2 (fun bs l => bs <> [] /\ Forall good_block bs /\ Forall2 (fun b it => parses b = Ok (Some it)) bs l) texts (map (map item_of) texts) /\
  counted (read_documents 9 all_opts no_after (new_reader (map (file_of true) (map (map item_of) texts))) []) = Ok [[2; 1]; [1]].
Proof.
  cbv zeta. split; [|vm_compute; reflexivity].
  repeat (apply Forall2_cons; [split; [discriminate|split; [repeat (apply Forall_cons; [apply good_sent; [discriminate|reflexivity]|]); apply Forall_nil|
    repeat (apply Forall2_cons; [vm_compute; reflexivity|]); apply Forall2_nil]]|]); apply Forall2_nil.
Qed.
(** With bundles_per_doc, a sent_id filter or split_docs, read_trees is never used: for all files the documents are the same. *)
Theorem C29_unbatched : forall A (o : opts) (files : list (file A)) fl,
  o_bpd o <> 0 \/ o_filter o <> None \/ o_split o = true ->
  same_result (read_documents fl o no_after (new_reader files) []) (read_documents fl o no_after (new_reader (map one_by_one files)) []).
Proof. exact @unbatched_same. Qed.
Print Assumptions C29_unbatched.

(** The property does not hold in general.  With merge, the last sentence of one file and the first of the next share
    a bundle only when the trees are read one by one. *)
Theorem C29_merge_refuted : exists fs : list (list (item nat)), Forall (fun l => l <> []) fs /\
  counted (read_documents 9 merging no_after (new_reader (map (file_of true) fs)) []) = Ok [[1; 1]] /\
  counted (read_documents 9 merging no_after (new_reader (map (file_of false) fs)) []) = Ok [[2]].
Proof.
  exists [[mkItem 0 (Some (PyStr.s "a/en")) NotDoc]; [mkItem 1 (Some (PyStr.s "a/cs")) NotDoc]].
  split; [repeat constructor; discriminate|]. split; vm_compute; reflexivity.
Qed.
Print Assumptions C29_merge_refuted.
(** An empty file gives an empty document, or none. *)
Theorem C29_empty_file_refuted : exists fs : list (list (item nat)),
  counted (read_documents 9 all_opts no_after (new_reader (map (file_of true) fs)) []) = Ok [[]; [1]] /\
  counted (read_documents 9 all_opts no_after (new_reader (map (file_of false) fs)) []) = Ok [[1]].
Proof. exists [[]; [mkItem 1 (Some (PyStr.s "a")) NotDoc]]. split; vm_compute; reflexivity. Qed.
Print Assumptions C29_empty_file_refuted.
(** max_docs counts documents without newdoc only when the trees are read one by one. *)
Theorem C29_max_docs_refuted : exists fs : list (list (item nat)), Forall (fun l => l <> []) fs /\
  counted (read_documents 9 (at_most 1) no_after (new_reader (map (file_of true) fs)) []) = Ok [[1]; [1]] /\
  counted (read_documents 9 (at_most 1) no_after (new_reader (map (file_of false) fs)) []) = Ok [[1]; []].
Proof.
  exists [[mkItem 0 (Some (PyStr.s "a")) NotDoc]; [mkItem 1 (Some (PyStr.s "b")) NotDoc]].
  split; [repeat constructor; discriminate|]. split; vm_compute; reflexivity.
Qed.
Print Assumptions C29_max_docs_refuted.
(** If the last empty line of the file is missing, reading at once raises; so it does when the file starts with an
    empty line or a line of spaces stands between the sentences.  Tree by tree, the same files are read to the end. *)
Theorem C29_layout_refuted :
  (exists its, as_file 0 (lines_text (sent "a")) = Ok (mkFile (map Some its) (Some (Raise IndexError))) /\ length its = 1) /\
  (exists its, as_file 0 (text_of [sent "a"] ++ lines_text (sent "b")) = Ok (mkFile (map Some its) (Some (Raise IndexError))) /\ length its = 2) /\
  (exists it, as_file 0 ([LF] ++ text_of [sent "a"]) = Ok (mkFile [None; Some it] (Some (Raise IndexError)))) /\
  (exists its, as_file 0 (lines_text (sent "a") ++ [SP] ++ [LF] ++ text_of [sent "b"]) = Ok (mkFile (map Some its) (Some (Raise RuntimeError))) /\ length its = 2).
Proof.
  split; [exists [item_of (sent "a")]; split; vm_compute; reflexivity|].
  split; [exists [item_of (sent "a"); item_of (sent "b")]; split; vm_compute; reflexivity|].
  split; [exists (item_of (sent "a")); vm_compute; reflexivity|].
  exists [item_of (sent "a"); item_of (sent "b")]; split; vm_compute; reflexivity.
Qed.
Print Assumptions C29_layout_refuted.
(** Two empty lines between two sentences end the document when trees are read one by one. *)
Theorem C29_two_empty_lines_refuted : exists f, as_file 0 (text_of [sent "a"] ++ [LF] ++ text_of [sent "b"]) = Ok f /\
  counted (read_documents 9 all_opts no_after (new_reader [f]) []) = Ok [[1; 1]] /\
  counted (read_documents 9 all_opts no_after (new_reader [one_by_one f]) []) = Ok [[1]].
Proof. eexists. split; [vm_compute; reflexivity|]. split; vm_compute; reflexivity. Qed.
Print Assumptions C29_two_empty_lines_refuted.

(** ---- C49 ---- *)
(** For every list of text files: write.Sentences prints the lines read by read.Sentences, in order, each without the
    characters to be stripped at its end; there is one tree per line.  With ignore_empty_lines or newdoc_if_empty_line
    empty lines are left out. *)
Theorem C49_sentences : forall ignore newdocs (strip : char -> bool), strip LF = true ->
  forall o o' files fl r docs, sentences_opts ignore newdocs o = Ok o' -> o_max o = 0 -> o_filter o = None -> Forall is_text files ->
  read_documents fl o' (sentences_after newdocs) (new_reader (map (fun f => sentences_file ignore newdocs strip (text_file f)) files)) [] = (r, Ok docs) ->
  let lines := concat (map (kept (ignore || newdocs)) files) in
  write_sentences false r docs = Ok (lines_text (map (rstrip_chars strip) lines)) /\
  length (all_trees (rd_store r) docs) = length lines.
Proof. exact sentences_round. Qed.
Print Assumptions C49_sentences.
(** Without newdoc_if_empty_line reading never fails. *)
Theorem C49_reading_succeeds : forall ignore newdocs (strip : char -> bool),
  forall o o' files fl, newdocs = false -> sentences_opts ignore newdocs o = Ok o' ->
  (forall z, o_zone o = Some z -> valid_zone z = true /\ z <> PyStr.s "all") -> Forall is_text files ->
  list_sum (map (fun f => S (S (length (fst f)))) files) < fl ->
  exists r docs, read_documents fl o' (sentences_after newdocs) (new_reader (map (fun f => sentences_file ignore newdocs strip (text_file f)) files)) [] = (r, Ok docs).
Proof. exact sentences_read. Qed.
Print Assumptions C49_reading_succeeds.
Definition line_end (c : char) : bool := N.eqb c LF || N.eqb c CR || N.eqb c SP.
Definition two_texts : list (list str * str) := [([PyStr.s "a b "; []; PyStr.s "c"], []); ([PyStr.s "d"; [CR]; []], PyStr.s "e")].
Example C49_case : Forall is_text two_texts /\
  (let x := read_documents 20 (mkOpts None 3 None false false false 0 false) (sentences_after true)
              (new_reader (map (fun f => sentences_file false true line_end (text_file f)) two_texts)) [] in
   write_sentences false (fst x) [0; 1] = Ok (PyStr.s "a b" ++ [LF] ++ PyStr.s "c" ++ [LF] ++ PyStr.s "d" ++ [LF] ++ PyStr.s "e" ++ [LF]) /\
   snd x = Ok [0; 1]) /\
  concat (map (kept true) two_texts) = [PyStr.s "a b "; PyStr.s "c"; PyStr.s "d"; PyStr.s "e"].
Proof.
  split; [|split; vm_compute; [split|]; reflexivity].
  repeat constructor; cbn; intuition discriminate.
Qed.
(** With newdoc_if_empty_line an empty file raises an exception. *)
Theorem C49_empty_file_refuted :
  snd (read_documents 9 all_opts (sentences_after true) (new_reader [sentences_file false true line_end []]) []) = Raise IndexError.
Proof. vm_compute. reflexivity. Qed.
Print Assumptions C49_empty_file_refuted.
(** So does a file whose number of lines is a multiple of bundles_per_doc. *)
Theorem C49_bundles_per_doc_refuted :
  snd (read_documents 9 (mkOpts None 2 None false false false 0 false) (sentences_after true)
         (new_reader [sentences_file false true line_end (lines_text [PyStr.s "a"; PyStr.s "b"])]) []) = Raise IndexError.
Proof. vm_compute. reflexivity. Qed.
Print Assumptions C49_bundles_per_doc_refuted.

(** ---- C28 again: trees without sent_id (or with ignore_sent_id) are always read, whatever the options ---- *)
Theorem C28_reading_succeeds : forall A (o : opts) batch (fs : list (list (item A))) fl,
  (forall z, o_zone o = Some z -> valid_zone z = true /\ z <> PyStr.s "all") ->
  o_ignore o = true \/ Forall (Forall (fun it => it_sid it = None)) fs ->
  list_sum (map (fun l => S (length l)) fs) < fl ->
  exists r docs, read_documents fl o no_after (new_reader (map (file_of batch) fs)) [] = (r, Ok docs).
Proof. exact @reading_total. Qed.
Print Assumptions C28_reading_succeeds.
Example C28_reading_succeeds_case :
  counted (read_documents 9 (mkOpts (Some (PyStr.s "en")) 2 None true true true 0 true) no_after
    (new_reader (map (file_of true) [[mkItem 0 (Some (PyStr.s "a")) NotDoc; mkItem 1 (Some (PyStr.s "a")) DocTrue]; [mkItem 2 None NotDoc; mkItem 3 None NotDoc]])) [])
  = Ok [[1]; [1; 1]; [1]].
Proof. vm_compute. reflexivity. Qed.
