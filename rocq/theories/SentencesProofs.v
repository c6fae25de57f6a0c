(** Proofs about read.Sentences and write.Sentences (C49). *)
From Coq Require Import String List NArith ZArith Bool Lia.
From Verif Require Import PyStr PyStrFacts PyList PyListFacts PyExn TreeModel BundleModel ReaderModel ReaderSpec ReaderFiles
  ReaderTextSpec ReaderProofs ReaderTerm ReaderThms ReaderTotal.
Import ListNotations.

Lemma raw_line l : ~ In LF l -> forall cur x, raw_lines cur (l ++ x) = raw_lines (cur ++ l) x.
Proof.
  induction l as [|a l IH]; intros H cur x; cbn [app]; [now rewrite app_nil_r|]. cbn [raw_lines].
  destruct (N.eqb_spec a LF) as [->|N]; [exfalso; apply H; now left|]. rewrite IH by (intros ?; apply H; now right). now rewrite <- app_assoc.
Qed.
Lemma raw_text ls last : Forall (fun l => ~ In LF l) ls -> ~ In LF last ->
  raw_lines [] (lines_text ls ++ last) = map (fun l => l ++ [LF]) ls ++ (if nonempty last then [last] else []).
Proof.
  intros H HL. induction H as [|l ls H _ IH].
  - cbn [lines_text map concat app]. rewrite <- (app_nil_r last) at 1. rewrite raw_line by auto. cbn. destruct last; auto.
  - unfold lines_text in *. cbn [map concat]. rewrite <- !app_assoc. rewrite raw_line by auto. cbn [app raw_lines]. rewrite N.eqb_refl. cbn. now rewrite IH.
Qed.

Section S.
Variables (ignore newdocs : bool) (strip : char -> bool).
Hypothesis HS : strip LF = true.
Fixpoint sitems (preceded : bool) (lines : list str) : list (item str) :=
  match lines with
  | [] => []
  | l :: lines =>
    if (ignore || newdocs) && blank l then sitems true lines
    else mkItem (rstrip_chars strip l) None (if newdocs && preceded then DocTrue else NotDoc) :: sitems false lines
  end.
Lemma sitems_ok ls : forall pre, sentence_items ignore newdocs strip pre ls = map Some (sitems pre ls).
Proof. induction ls as [|l ls IH]; intros pre; auto. cbn. destruct (_ && _); auto. cbn. now rewrite IH. Qed.
Lemma sentences_file_of text : sentences_file ignore newdocs strip text = file_of false (sitems false (raw_lines [] text)).
Proof. unfold sentences_file, file_of. now rewrite sitems_ok. Qed.
Lemma sitems_sid ls : forall pre, Forall (fun it => it_sid it = None) (sitems pre ls).
Proof. induction ls as [|l ls IH]; intros pre; cbn; [constructor|]. destruct (_ && _); auto. Qed.
Lemma blank_lf l : ~ In LF l -> blank (l ++ [LF]) = (str_eqb l [] || str_eqb l [CR]).
Proof.
  intros H. unfold blank. apply eq_iff_eq_true. rewrite !orb_true_iff, !str_eqb_eq. split; intros [E|E].
  - left. destruct l as [|a [|b l]]; auto; discriminate.
  - right. destruct l as [|a [|b [|c l]]]; cbn in E; try discriminate. injection E as ->. auto.
  - subst. auto.
  - subst. auto.
Qed.
Lemma blank_last l : ~ In LF l -> blank l = false.
Proof.
  intros H. unfold blank. apply orb_false_iff. split; apply not_true_iff_false; rewrite str_eqb_eq; intros ->; apply H; cbn; auto.
Qed.
Lemma strip_lf l : rstrip_chars strip (l ++ [LF]) = rstrip_chars strip l.
Proof. unfold rstrip_chars. rewrite rev_app_distr. cbn. now rewrite HS. Qed.
Lemma sitems_kept last : ~ In LF last -> forall ls, Forall (fun l => ~ In LF l) ls -> forall pre,
  map (@it_content str) (sitems pre (map (fun l => l ++ [LF]) ls ++ (if nonempty last then [last] else []))) =
  map (rstrip_chars strip) (kept (ignore || newdocs) (ls, last)).
Proof.
  intros HL. unfold kept. cbn [fst snd]. induction 1 as [|l ls H _ IH]; intros pre; cbn [map app filter].
  - destruct (nonempty last); auto. cbn [sitems]. rewrite blank_last by auto. rewrite andb_false_r. auto.
  - cbn [sitems]. rewrite blank_lf by auto. destruct ((ignore || newdocs) && _); cbn [negb]; auto. cbn [map app it_content]. rewrite IH, strip_lf. auto.
Qed.

Lemma mild_after : mild (sentences_after newdocs).
Proof.
  intros r d r'. unfold sentences_after. destruct newdocs; [|intros E; injection E as <-; auto].
  destruct (d_bundles (rd_store r) d) as [|b bs] eqn:E1; [discriminate|]. destruct (b_trees (rd_store r) b) as [|t ts] eqn:E2; [discriminate|].
  intros E. injection E as <-. right. exists b, bs, t, ts, DocTrue. auto.
Qed.
Lemma write_ok r ts : forall xs, contents r ts = map Some xs -> write_all false r ts = Ok (lines_text xs).
Proof.
  induction ts as [|t ts IH]; intros [|x xs] E; try discriminate; auto. cbn in E. injection E as E1 E2. cbn [write_all]. unfold write_sentence.
  cbn [andb rbind]. rewrite E1, (IH xs E2). cbn [rbind]. unfold lines_text. cbn. now rewrite <- app_assoc.
Qed.

Theorem sentences_round o o' files fl r docs : sentences_opts ignore newdocs o = Ok o' -> o_max o = 0 -> o_filter o = None ->
  Forall is_text files ->
  read_documents fl o' (sentences_after newdocs) (new_reader (map (fun f => sentences_file ignore newdocs strip (text_file f)) files)) [] = (r, Ok docs) ->
  let lines := concat (map (fun f => kept (ignore || newdocs) f) files) in
  write_sentences false r docs = Ok (lines_text (map (rstrip_chars strip) lines)) /\
  length (all_trees (rd_store r) docs) = length lines.
Proof.
  intros HO HM HF HT HR. cbv zeta.
  set (fs := map (fun f => sitems false (raw_lines [] (text_file f))) files).
  assert (E : map (fun f => sentences_file ignore newdocs strip (text_file f)) files = map (file_of false) fs).
  { unfold fs. rewrite map_map. apply map_ext. intros f. apply sentences_file_of. }
  rewrite E in HR.
  assert (HO' : o_max o' = 0 /\ o_filter o' = None).
  { unfold sentences_opts in HO. destruct (ignore && newdocs); [discriminate|]. injection HO as <-. auto. }
  destruct HO' as [HM' HF'].
  destruct (placed_once o' false fs fl _ r docs _ mild_after (or_introl eq_refl) HR) as [_ [_ [_ [left [PC PL]]]]].
  specialize (PL HM'). subst left. cbn in PC. rewrite app_nil_r in PC.
  assert (IC : items (input o' fs) = map Some (map (rstrip_chars strip) (concat (map (fun f => kept (ignore || newdocs) f) files)))).
  { unfold items, input. rewrite <- (map_map (@it_content str) Some). f_equal.
    unfold fs. rewrite !concat_map, !map_map. f_equal. apply map_ext_in. intros f Hf. rewrite Forall_forall in HT. destruct (HT f Hf) as [T1 T2].
    unfold text_file. rewrite raw_text by auto.
    replace (wanted o' _) with (sitems false (map (fun l => l ++ [LF]) (fst f) ++ (if nonempty (snd f) then [snd f] else []))).
    - destruct f. now apply sitems_kept.
    - symmetry. now apply wanted_all. }
  rewrite IC in PC. split.
  - unfold write_sentences. apply write_ok. exact PC.
  - apply (f_equal (@length _)) in PC. unfold contents in PC. rewrite !map_length in PC. exact PC.
Qed.
(** Reading succeeds, unless a file has no lines and newdoc_if_empty_line is used *)
Theorem sentences_read o o' files fl : newdocs = false -> sentences_opts ignore newdocs o = Ok o' ->
  (forall z, o_zone o = Some z -> valid_zone z = true /\ z <> PyStr.s "all") -> Forall is_text files ->
  list_sum (map (fun f => S (S (length (fst f)))) files) < fl ->
  exists r docs, read_documents fl o' (sentences_after newdocs) (new_reader (map (fun f => sentences_file ignore newdocs strip (text_file f)) files)) [] = (r, Ok docs).
Proof.
  intros HN HO HZ HT HL.
  set (fs := map (fun f => sitems false (raw_lines [] (text_file f))) files).
  assert (E : map (fun f => sentences_file ignore newdocs strip (text_file f)) files = map (file_of false) fs).
  { unfold fs. rewrite map_map. apply map_ext. intros f. apply sentences_file_of. }
  rewrite E. assert (EN : sentences_after newdocs = no_after) by (rewrite HN; reflexivity). rewrite EN. apply reading_total.
  - unfold sentences_opts in HO. destruct (ignore && newdocs); [discriminate|]. injection HO as <-. auto.
  - right. unfold fs. rewrite Forall_map. apply Forall_forall. intros f _. apply sitems_sid.
  - eapply Nat.le_lt_trans; [|exact HL]. unfold fs. clear - HT. induction HT as [|f files [T1 T2] _ IH]; [cbn; lia|]. cbn [map].
    change (list_sum (?a :: ?b)) with (a + list_sum b).
    assert (LE : length (sitems false (raw_lines [] (text_file f))) <= S (length (fst f))).
    { unfold text_file. rewrite raw_text by auto. 
      assert (K : forall ls pre, length (sitems pre ls) <= length ls) by (induction ls as [|l ls IHl]; intros pre; cbn; [lia|]; destruct (_ && _); cbn; [pose proof (IHl true)|pose proof (IHl false)]; lia).
      etransitivity; [apply K|]. rewrite app_length, map_length. destruct (nonempty (snd f)); cbn [length]; [rewrite Nat.add_1_r; apply le_n|rewrite Nat.add_0_r; apply Nat.le_succ_diag_r]. }
    apply Nat.add_le_mono; [now apply le_n_S|exact IH].
Qed.
End S.
