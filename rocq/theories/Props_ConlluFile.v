(** C70: saving a document in CoNLL-U and loading it. *)
From Coq Require Import String List NArith ZArith Bool Lia Sorted Permutation.
From Verif Require Import PyStr PyList PyListFacts PyExn TreeModel TreeSpec DualDictModel DocModel TreeOps ConlluModel ConlluSpec ConlluRead ConlluLines ConlluTree
  ConlluRound BundleModel BundleSpec ReaderModel ReaderFiles ConlluFileModel ConlluFileSpec ConlluFrame ConlluFileProofs ConlluFileBundles Props_Conllu.
Import ListNotations.
Local Open Scope string_scope.
Local Open Scope list_scope.

(** The trees and the value of global.Entity *)
Theorem C70_trees : forall lower canon d ts vs, Forall2 (saved lower canon d) ts vs ->
  exists text, write_file wdefault lower d ts = Ok text /\
    forall cfg d0 ge, exists d' ge' rs, read_file cfg canon lower d0 ge text = ((d', ge'), Ok (map Some rs)) /\ all_loaded lower d0 rs vs d' /\
      forall e, Forall (fun v => sv_entity v = e) vs -> (Exists shows_entity vs -> ge' = e) /\ (~ Exists shows_entity vs -> ge' = ge).
Proof. exact file_round. Qed.
Print Assumptions C70_trees.

(** The bundles *)
Theorem C70_bundles : forall lower canon d D ts, ok_document D -> Forall2 (saved lower canon d) ts (sentences D) ->
  exists text, write_file wdefault lower d ts = Ok text /\
    forall cfg slow o fl, o_zone o = None -> o_bpd o = 0 -> o_filter o = None -> o_split o = false -> o_ignore o = false -> o_merge o = false -> o_max o = 0 ->
    exists r dd, read_documents (S fl) o no_after (new_reader [text_file_of cfg canon lower slow text]) [] = (r, Ok [dd]) /\
      Forall2 (same_bundle cfg canon lower r) (d_bundles (rd_store r) dd) D.
Proof. exact document_round. Qed.
Print Assumptions C70_bundles.

(** ---- A document with two bundles and three trees ---- *)
Definition renamed (v : sentv) (x : str) : sentv :=
  mkSentv (sv_words v) (sv_empties v) (sv_mwts v) (sv_comments v) x (sv_text v) (sv_newdoc v) (sv_newpar v) (sv_entity v) (sv_json v).
Lemma renamed_ok v x : representable keep same v -> x <> [] /\ no_spaces x -> representable keep same (renamed v x).
Proof. intros [A1 A2 A3 A4 A5 A6 A7 A8 A9 A10 A11 A12 A13 A14] H. split; auto. Qed.
Definition three : docv := [(s "t1", [([], good); (s "cs", renamed good (s "t1/cs"))]); (s "t2", [(s "en", renamed good (s "t2/en"))])].
Definition three_doc : doc := fst (fst (read_blocks strictly same keep doc0 None (map conllu_lines (sentences three)))).
Definition three_trees : list (wenv * nat) :=
  [(mkWenv (Some (s "t1")) (Some (s "eid-etype")), 0); (mkWenv (Some (s "t1")) (Some (s "eid-etype")), 5); (mkWenv (Some (s "t2")) (Some (s "eid-etype")), 10)].
Lemma good_unbroken x : unbroken (renamed good x).
Proof. intros y Hy. cbn in Hy. repeat (destruct Hy as [<-|Hy]; [split; intros J; cbn in J; intuition discriminate|]). destruct Hy. Qed.
Lemma sentences_representable : Forall (representable keep same) (sentences three).
Proof.
  change (sentences three) with [good; renamed good (s "t1/cs"); renamed good (s "t2/en")]. constructor; [exact good_representable|constructor; [|constructor; [|constructor]]]; (apply renamed_ok; [exact good_representable|]); (split; [discriminate|]); intros a J; cbn in J; intuition (subst; reflexivity).
Qed.
Lemma interleave_nil {A} (l k : list A) : interleave l [] k -> k = l.
Proof. revert k. induction l as [|x l IH]; intros k I; inversion I; subst; auto. f_equal. auto. Qed.
Lemma from_lines vs : Forall (fun v => representable keep same v /\ heads_ok (sv_words v) /\ missing v = []) vs ->
  exists d rs, Forall2 (fun r v => consistent (d_h d) r /\ forall env, some_nonempty (we_ge env) = sv_entity v -> sentence keep env d r v) rs vs.
Proof.
  intros H. assert (G : Forall2 (good_lines keep same) vs (map conllu_lines vs)).
  { induction H as [|v l (H1 & H2 & H3) _ IH]; [constructor|]. cbn [map]. constructor; [now apply complete_lines|exact IH]. }
  destruct (blocks_read keep same strictly _ _ G doc0 None) as (d' & ge' & rs & E & [_ L] & _). exists d', rs. clear G E.
  induction L as [|r v rs vs (_ & _ & C & items & I & SE) _ IH]; [constructor|]. inversion H as [|? ? (_ & _ & M) H3]; subst. constructor; [|auto]. split; [exact C|].
  rewrite M in I. apply interleave_nil in I. subst items. intros env EE. specialize (SE env EE). now destruct v.
Qed.
Lemma good_heads x : heads_ok (sv_words (renamed good x)).
Proof. destruct C23_example as (_ & H & _). exact H. Qed.
Definition env_of (x : string) : wenv := mkWenv (Some (s x)) (Some (s "eid-etype")).
Lemma three_saved : exists d a b c, Forall2 (saved keep same d) [(env_of "t1", a); (env_of "t1", b); (env_of "t2", c)] (sentences three).
Proof.
  pose proof sentences_representable as R. change (sentences three) with [renamed good (s "t1"); renamed good (s "t1/cs"); renamed good (s "t2/en")] in *.
  inversion R as [|? ? R1 RR]; subst. inversion RR as [|? ? R2 RR2]; subst. inversion RR2 as [|? ? R3 _]; subst. clear R RR RR2.
  destruct (from_lines [renamed good (s "t1"); renamed good (s "t1/cs"); renamed good (s "t2/en")]) as (d & rs & L).
  { constructor; [|constructor; [|constructor; [|constructor]]]; (split; [assumption|split; [apply good_heads|reflexivity]]). }
  inversion L as [|a ? ? ? [C1 S1] LL]; subst. inversion LL as [|b ? ? ? [C2 S2] LL2]; subst. inversion LL2 as [|c ? ? ? [C3 S3] _]; subst.
  exists d, a, b, c. constructor; [|constructor; [|constructor; [|constructor]]].
  - split; [exact R1|]. split; [exact (good_unbroken (s "t1"))|]. split; [exact C1|]. split; [apply S1; reflexivity|discriminate].
  - split; [exact R2|]. split; [exact (good_unbroken (s "t1/cs"))|]. split; [exact C2|]. split; [apply S2; reflexivity|discriminate].
  - split; [exact R3|]. split; [exact (good_unbroken (s "t2/en"))|]. split; [exact C3|]. split; [apply S3; reflexivity|discriminate].
Qed.
Example C70_example : ok_document three /\ exists d ts, Forall2 (saved keep same d) ts (sentences three).
Proof.
  split.
  - split.
    + constructor; [|constructor; [|constructor]].
      * split; [discriminate|]. split; [cbn; intuition discriminate|]. split; [discriminate|]. split; [constructor; [cbn; intuition discriminate|constructor; [cbn; tauto|constructor]]|].
        constructor; [|constructor; [|constructor]]; (split; [split; [reflexivity|discriminate]|]); [left; split; reflexivity|right; reflexivity].
      * split; [discriminate|]. split; [cbn; intuition discriminate|]. split; [discriminate|]. split; [constructor; [cbn; tauto|constructor]|].
        constructor; [|constructor]. split; [split; [reflexivity|discriminate]|]. right. reflexivity.
    + intros D1 b c D2 E. destruct D1 as [|b1 [|b2 [|b3 D1]]]; try discriminate E. injection E as <- <- _. discriminate.
  - destruct three_saved as (d & a & b & c & H). eexists _, _. exact H.
Qed.
(** Everything that is written: the file, read into a new document, has the three trees. *)
Example C70_case : match write_file wdefault keep three_doc three_trees with
  | Ok text => match read_file strictly same keep doc0 None text with ((_, ge), Ok rs) => ge = Some (s "eid-etype") /\ rs = [Some 0; Some 5; Some 10] | _ => False end
  | _ => False end.
Proof. vm_compute. split; reflexivity. Qed.

(** ---- Documents that do not survive ---- *)
Definition one_word (form : str) : wordv := mkWordv form (s "_") None None (s "_") 0 None (s "_") (s "_").
Definition one_sentence (form : str) : sentv := mkSentv [one_word form] [] [] [CSentId; CText] (s "t1") (s "ab") VNone VNone None [].
Definition one_doc (v : sentv) : doc := fst (fst (read_tree_from_lines strictly same keep doc0 None (conllu_lines v))).
(** A carriage return in a form ends the line when the file is read. *)
Theorem C70_line_end_refuted : let v := one_sentence (s "a" ++ CR :: s "b") in
  representable keep same v /\ consistent (d_h (one_doc v)) 0 /\ sentence keep (mkWenv (Some (s "t1")) None) (one_doc v) 0 v /\
  exists text, write_file wdefault keep (one_doc v) [(mkWenv (Some (s "t1")) None, 0)] = Ok text /\
    snd (read_file strictly same keep doc0 None text) = Raise RuntimeError.
Proof.
  cbn zeta. set (v := one_sentence (s "a" ++ CR :: s "b")).
  assert (RV : representable keep same v).
  { split; cbn [v one_sentence sv_words sv_empties sv_mwts sv_sent_id sv_text sv_newdoc sv_newpar sv_entity sv_json].
    - crunch.
    - intros w [= <-]. discriminate.
    - constructor.
    - constructor.
    - constructor.
    - constructor.
    - intros m w [].
    - split; [|split; [|split; [|split]]].
      + intros x [J|[J|[]]]; discriminate.
      + intros c Hc l1 l2 E. destruct l1 as [|a [|b [|]]]; try discriminate E; injection E; intros; subst; cbn; intuition discriminate.
      + intros [J|[J|[]]]; discriminate.
      + intros [J|[J|[]]]; discriminate.
      + intros [J|[J|[]]]; discriminate.
    - split; [discriminate|]. intros a J; cbn in J; intuition (subst; reflexivity).
    - split; [reflexivity|]. split; [reflexivity|]. crunch.
    - exact I.
    - exact I.
    - exact I.
    - split; [constructor|]. intros k x []. }
  split; [exact RV|].
  assert (HO : heads_ok (sv_words v)).
  { split; [repeat constructor; cbn; lia|]. intros i Hi. cbn in Hi. assert (i = 1) as -> by lia. apply reaches_up. cbn. apply reaches_here. }
  assert (H : consistent (d_h (one_doc v)) 0 /\ sentence keep (mkWenv (Some (s "t1")) None) (one_doc v) 0 v).
  { unfold one_doc. destruct (read_ok strictly keep same doc0 None v RV HO eq_refl) as (d & E & C & SE & _). rewrite E. split; [exact C|apply SE; reflexivity]. }
  destruct H as [H1 H2]. split; [exact H1|]. split; [exact H2|]. eexists. split; [vm_compute; reflexivity|]. vm_compute. reflexivity.
Qed.
Print Assumptions C70_line_end_refuted.
(** The value of global.Entity is lost if no tree starts a document or has a comment for it. *)
Theorem C70_entity_refuted : let v := one_sentence (s "ab") in
  exists text, write_file wdefault keep (one_doc v) [(mkWenv (Some (s "t1")) (Some (s "eid-etype")), 0)] = Ok text /\
    snd (fst (read_file strictly same keep doc0 None text)) = None.
Proof. cbn zeta. eexists. split; [vm_compute; reflexivity|]. vm_compute. reflexivity. Qed.
Print Assumptions C70_entity_refuted.
(** Two neighbouring bundles with the same id become one. *)
Definition two_lines (x : str) : list str := [s "# sent_id = " ++ x; s "# text = ab"; join [TAB] [s "1"; s "ab"; s "_"; s "_"; s "_"; s "_"; s "0"; s "_"; s "_"; s "_"]; []].
Definition all_plain : opts := mkOpts None 0 None false false false 0 true.
Theorem C70_same_id_refuted :
  let f := text_file_of strictly same keep [] (printed (two_lines (s "t1") ++ two_lines (s "t1/cs"))) in
  match read_documents 1 all_plain no_after (new_reader [f]) [] with
  | (r, Ok [dd]) => map (fun b => (b_id (rd_store r) b, length (b_trees (rd_store r) b))) (d_bundles (rd_store r) dd) = [(Some (s "t1"), 2)]
  | _ => False
  end.
Proof. vm_compute. reflexivity. Qed.
Print Assumptions C70_same_id_refuted.
