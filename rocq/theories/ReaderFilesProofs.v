(** Proofs about the text of the files (C29, C49). *)
From Coq Require Import String List NArith ZArith Bool Lia.
From Verif Require Import PyStr PyStrFacts PyList PyListFacts PyExn DualDictModel DocModel ConlluModel ReaderModel ReaderSpec ReaderFiles
  ReaderTextSpec ReaderEq.
Import ListNotations.

Lemma good_strip l : good_line l -> rstrip l = l.
Proof. intros [_ [x [a [-> H]]]]. apply rstrip_id. rewrite rev_app_distr. cbn. auto. Qed.
Lemma good_nonempty l : good_line l -> nonempty l = true.
Proof. intros [_ [x [a [-> _]]]]. destruct x; auto. Qed.
Lemma good_first l : good_line l -> exists a x, l = a :: x /\ N.eqb a LF = false.
Proof.
  intros [H [x [a [-> _]]]]. destruct (x ++ [a]) as [|b y] eqn:E; [destruct x; discriminate|].
  exists b, y. split; auto. apply N.eqb_neq. intros ->. apply H. now left.
Qed.
Lemma split_lines ls : Forall (fun l => ~ In LF l) ls -> split LF (lines_text ls) = ls ++ [[]].
Proof.
  induction 1 as [|l ls H _ IH]; auto. unfold lines_text in *. cbn [map concat app]. rewrite <- app_assoc. cbn [app].
  rewrite split_app by auto. now rewrite IH.
Qed.
Lemma file_lines_of ls : Forall (fun l => ~ In LF l) ls -> file_lines (lines_text ls) = ls.
Proof.
  intros H. unfold file_lines. rewrite split_lines by auto. rewrite last_opt_app. now rewrite removelast_last.
Qed.
Definition all_lines (bs : list (list str)) : list str := concat (map (fun b => b ++ [[]]) bs).
Lemma lines_text_app a b : lines_text (a ++ b) = lines_text a ++ lines_text b.
Proof. unfold lines_text. now rewrite map_app, concat_app. Qed.
Lemma text_of_lines bs : text_of bs = lines_text (all_lines bs).
Proof.
  induction bs as [|b bs IH]; auto. unfold text_of, all_lines in *. cbn [map concat]. rewrite !lines_text_app, IH.
  reflexivity.
Qed.
Lemma all_lines_ok bs : Forall good_block bs -> Forall (fun l => ~ In LF l) (all_lines bs).
Proof.
  induction 1 as [|b bs [_ H] _ IH]; [constructor|]. unfold all_lines. cbn [map concat]. rewrite !Forall_app. split; [split|exact IH].
  - eapply Forall_impl; [|exact H]. now intros l [? _].
  - repeat constructor. auto.
Qed.
Lemma groups_block b : Forall good_line b -> forall cur rest, groups cur (b ++ [] :: rest) = (cur ++ b) :: groups [] rest.
Proof.
  induction 1 as [|l b H _ IH]; intros cur rest; cbn [app groups]; cbv zeta.
  - replace (rstrip []) with (@nil char) by reflexivity. cbn. now rewrite app_nil_r.
  - rewrite good_strip, good_nonempty by auto. rewrite IH. now rewrite <- app_assoc.
Qed.
Lemma slow_blocks bs : Forall good_block bs -> groups [] (file_lines (text_of bs)) = bs.
Proof.
  intros H. rewrite text_of_lines, file_lines_of by (now apply all_lines_ok). induction H as [|b bs [_ H] _ IH]; auto.
  unfold all_lines in *. cbn [map concat]. rewrite <- app_assoc. cbn [app]. rewrite groups_block by auto. now rewrite IH.
Qed.

Lemma re_split_line l : ~ In LF l -> forall cur x, re_split false cur (l ++ x) = re_split false (cur ++ l) x.
Proof.
  induction l as [|a l IH]; intros H cur x; cbn [app]; [now rewrite app_nil_r|]. cbn [re_split].
  destruct (N.eqb_spec a LF) as [->|N]; [exfalso; apply H; now left|]. rewrite IH by (intros ?; apply H; now right). now rewrite <- app_assoc.
Qed.
Lemma re_split_block b : good_block b -> forall cur rest,
  re_split false cur (lines_text b ++ LF :: rest) = (cur ++ join [LF] b) :: re_split true [] rest.
Proof.
  intros [NE H]. induction H as [|l b HL H IH]; [congruence|]. intros cur rest. unfold lines_text. cbn [map concat].
  rewrite <- !app_assoc. rewrite re_split_line by apply HL. cbn [app re_split]. rewrite N.eqb_refl. destruct b as [|l2 b].
  - cbn [map concat app join]. reflexivity.
  - inversion H as [|? ? H2 _]; subst. destruct (good_first l2 H2) as [a [x [-> EA]]]. cbn [map concat app]. rewrite EA.
    specialize (IH ltac:(discriminate) ((cur ++ l) ++ [LF]) rest). unfold lines_text in IH. cbn [map concat app] in IH.
    etransitivity; [exact IH|]. f_equal. cbn [join]. rewrite <- !app_assoc. cbn [app]. destruct b; reflexivity.
Qed.
Lemma re_split_text bs : Forall good_block bs -> forall sep,
  filter nonempty (re_split sep [] (text_of bs)) = map (join [LF]) bs.
Proof.
  induction 1 as [|b bs H _ IH]; intros sep; [reflexivity|]. unfold text_of. cbn [map concat]. rewrite <- app_assoc. cbn [app].
  assert (E : re_split sep [] (lines_text b ++ LF :: concat (map (fun b => lines_text b ++ [LF]) bs)) =
              re_split false [] (lines_text b ++ LF :: concat (map (fun b => lines_text b ++ [LF]) bs))).
  { destruct sep; auto. destruct H as [NE H]. destruct b as [|l b]; [congruence|]. inversion H as [|? ? HL _]; subst.
    destruct (good_first l HL) as [a [x [-> EA]]]. unfold lines_text. cbn [map concat app re_split]. now rewrite EA. }
  rewrite E, re_split_block by auto. cbn [app filter].
  assert (J : nonempty (join [LF] b) = true).
  { destruct H as [NE H]. destruct b as [|l b]; [congruence|]. inversion H as [|? ? HL _]; subst.
    destruct (good_first l HL) as [a [x [-> _]]]. destruct b; reflexivity. }
  rewrite J. cbn [map]. f_equal. apply IH.
Qed.
Lemma fast_blocks bs : Forall good_block bs -> map (split LF) (filter nonempty (re_split false [] (text_of bs))) = bs.
Proof.
  intros H. rewrite re_split_text by auto. rewrite map_map. induction H as [|b bs [NE H] _ IH]; auto. cbn [map]. rewrite IH. f_equal.
  apply split_join; auto. rewrite Forall_forall in H. intros x Hx. now destruct (H x Hx).
Qed.

(** A file that ends without a line end after its last sentence *)
Lemma all_lines_split bs x : Forall good_block bs -> split LF (text_of bs ++ x) = all_lines bs ++ split LF x.
Proof.
  intros H. rewrite text_of_lines. apply all_lines_ok in H. induction H as [|l ls HL _ IH]; auto.
  unfold lines_text in *. cbn [map concat app]. rewrite <- !app_assoc. cbn [app]. rewrite split_app by auto. now rewrite IH.
Qed.
Lemma good_block_split b : good_block b -> split LF (join [LF] b) = b.
Proof. intros [NE H]. apply split_join; auto. rewrite Forall_forall in H. intros x Hx. now destruct (H x Hx). Qed.
Lemma open_lines bs b : Forall good_block bs -> good_block b -> file_lines (text_of bs ++ join [LF] b) = all_lines bs ++ b.
Proof.
  intros H1 H2. unfold file_lines. rewrite all_lines_split, good_block_split by auto. destruct H2 as [NE H2].
  destruct (exists_last NE) as [b' [l ->]]. rewrite app_assoc, last_opt_app. apply Forall_app in H2 as [_ H2]. inversion H2 as [|? ? HL _]; subst.
  apply good_nonempty in HL. destruct l; [discriminate|reflexivity].
Qed.
Lemma groups_last b : Forall good_line b -> forall cur, cur ++ b <> [] -> groups cur b = [cur ++ b].
Proof.
  induction 1 as [|l b H _ IH]; intros cur NE; cbn [groups]; cbv zeta.
  - rewrite app_nil_r in *. destruct cur; [congruence|reflexivity].
  - rewrite good_strip, good_nonempty by auto. rewrite IH; rewrite <- app_assoc; auto.
Qed.
Lemma slow_open bs b : Forall good_block bs -> good_block b -> groups [] (file_lines (text_of bs ++ join [LF] b)) = bs ++ [b].
Proof.
  intros H1 H2. rewrite open_lines by auto. induction H1 as [|b1 bs [_ H] _ IH].
  - destruct H2. now apply groups_last.
  - unfold all_lines in *. cbn [map concat app]. rewrite <- !app_assoc. cbn [app]. rewrite groups_block by auto. cbn [app]. f_equal. exact IH.
Qed.
Lemma re_split_last b : good_block b -> forall cur, re_split false cur (join [LF] b) = [cur ++ join [LF] b].
Proof.
  intros [NE H]. induction H as [|l b HL H IH]; [congruence|]. intros cur. destruct b as [|l2 b].
  - cbn [join]. rewrite <- (app_nil_r l) at 1. now rewrite re_split_line by apply HL.
  - change (join [LF] (l :: l2 :: b)) with (l ++ [LF] ++ join [LF] (l2 :: b)). rewrite re_split_line by apply HL. cbn [app re_split]. rewrite N.eqb_refl.
    inversion H as [|? ? H2 _]; subst. destruct (good_first l2 H2) as [a [x [E EA]]].
    assert (J : exists y, join [LF] (l2 :: b) = a :: y) by (rewrite E; destruct b; eexists; reflexivity). destruct J as [y J].
    rewrite J at 1. cbv iota beta. rewrite EA. rewrite IH by discriminate. f_equal. now rewrite <- !app_assoc.
Qed.
Lemma block_text b : good_block b -> nonempty (join [LF] b) = true /\ (forall sep cur, re_split sep cur (join [LF] b) = re_split false cur (join [LF] b)).
Proof.
  intros [NE H]. destruct b as [|l b]; [congruence|]. inversion H as [|? ? HL _]; subst. destruct (good_first l HL) as [a [x [E EA]]].
  assert (J : exists y, join [LF] (l :: b) = a :: y) by (rewrite E; destruct b; eexists; reflexivity). destruct J as [y ->]. split; auto.
  intros [|] cur; auto. cbn [re_split]. now rewrite EA.
Qed.
Lemma re_split_open bs b : Forall good_block bs -> good_block b -> forall sep,
  filter nonempty (re_split sep [] (text_of bs ++ join [LF] b)) = map (join [LF]) (bs ++ [b]).
Proof.
  intros H HB. destruct (block_text b HB) as [J1 J2]. induction H as [|b1 bs H _ IH]; intros sep.
  - cbn [text_of map concat app]. rewrite J2, re_split_last by auto. cbn [app filter map]. now rewrite J1.
  - unfold text_of. cbn [map concat]. rewrite <- !app_assoc. cbn [app].
    assert (E : forall z, re_split sep [] (lines_text b1 ++ LF :: z) = re_split false [] (lines_text b1 ++ LF :: z)).
    { intros z. destruct sep; auto. destruct H as [NE H]. destruct b1 as [|l b1]; [congruence|]. inversion H as [|? ? HL _]; subst.
      destruct (good_first l HL) as [a [x [-> EA]]]. unfold lines_text. cbn [map concat app re_split]. now rewrite EA. }
    rewrite E, re_split_block by auto. cbn [app filter]. rewrite (proj1 (block_text b1 H)). cbn [map]. f_equal. apply IH.
Qed.
Lemma fast_open bs b : Forall good_block bs -> good_block b ->
  map (split LF) (filter nonempty (re_split false [] (text_of bs ++ join [LF] b))) = bs ++ [b].
Proof.
  intros H HB. rewrite re_split_open by auto. rewrite map_map. assert (HA : Forall good_block (bs ++ [b])) by (apply Forall_app; auto).
  induction HA as [|b1 l HB1 _ IH]; auto. cbn [map]. rewrite IH. f_equal. now apply good_block_split.
Qed.

Section C.
Variables (cfg : rcfg) (canon : str -> option str) (lower : str -> str).
Notation parse := (parse cfg canon lower).
Lemma parse_all_ok bs its : Forall2 (fun b it => parse b = Ok (Some it)) bs its -> parse_all cfg canon lower bs = Ok (map Some its).
Proof. induction 1 as [|b it bs its H _ IH]; auto. cbn [parse_all map]. rewrite H. cbn [rbind]. now rewrite IH. Qed.
Theorem conllu_text bs its : Forall good_block bs -> Forall2 (fun b it => parse b = Ok (Some it)) bs its ->
  conllu_file cfg canon lower 0 (text_of bs) = Ok (file_of true its).
Proof.
  intros H1 H2. unfold conllu_file, read_trees. rewrite slow_blocks, fast_blocks by auto. rewrite (parse_all_ok _ _ H2). reflexivity.
Qed.
Theorem conllu_open_text bs b its it : Forall good_block bs -> good_block b ->
  Forall2 (fun b it => parse b = Ok (Some it)) bs its -> parse b = Ok (Some it) ->
  conllu_file cfg canon lower 0 (text_of bs ++ join [LF] b) = Ok (file_of true (its ++ [it])).
Proof.
  intros H1 H2 H3 H4. unfold conllu_file, read_trees. rewrite slow_open, fast_open by auto.
  rewrite (parse_all_ok (bs ++ [b]) (its ++ [it])) by (apply Forall2_app; auto). reflexivity.
Qed.
Fixpoint up_to {A} (max loaded : nat) (l : list (item A)) : list (item A) :=
  match l with
  | [] => []
  | it :: l => if truthy (it_newdoc it) && (loaded =? max) then []
               else it :: up_to max (if truthy (it_newdoc it) then S loaded else loaded) l
  end.
Lemma trees_max_block max loaded b it : parse b = Ok (Some it) -> Forall good_line b -> forall rest cur b', b' = cur ++ b -> parse b' = Ok (Some it) ->
  trees_max cfg canon lower max loaded cur (b ++ [] :: rest) =
    if truthy (it_newdoc it) && (loaded =? max) then Ok []
    else rbind (trees_max cfg canon lower max (if truthy (it_newdoc it) then S loaded else loaded) [] rest) (fun xs => Ok (Some it :: xs)).
Proof.
  intros _. induction 1 as [|l b H _ IH]; intros rest cur b' -> HP; cbn [app trees_max]; cbv zeta.
  - replace (rstrip []) with (@nil char) by reflexivity. cbn [nonempty]. rewrite app_nil_r in HP. rewrite HP. reflexivity.
  - rewrite good_strip, good_nonempty by auto. apply IH with (b' := cur ++ l :: b); auto. now rewrite <- app_assoc.
Qed.
Lemma trees_max_ok max bs its : Forall good_block bs -> Forall2 (fun b it => parse b = Ok (Some it)) bs its -> forall loaded,
  trees_max cfg canon lower max loaded [] (all_lines bs) = Ok (map Some (up_to max loaded its)).
Proof.
  intros H1 H2. revert H1. induction H2 as [|b it bs its H _ IH]; intros H1 loaded; auto. inversion H1 as [|? ? [_ B1] B2]; subst.
  unfold all_lines in *. cbn [map concat up_to]. rewrite <- app_assoc. cbn [app]. rewrite (trees_max_block max loaded b it H B1 _ [] b eq_refl H).
  destruct (_ && _); auto. rewrite IH by auto. reflexivity.
Qed.
Theorem conllu_text_max max bs its : max <> 0 -> Forall good_block bs -> Forall2 (fun b it => parse b = Ok (Some it)) bs its ->
  conllu_file cfg canon lower max (text_of bs) = Ok (mkFile (map Some its) (Some (Ok (map Some (up_to max 0 its))))).
Proof.
  intros M H1 H2. unfold conllu_file, read_trees. rewrite slow_blocks by auto. rewrite (parse_all_ok _ _ H2). cbn [rbind].
  destruct max as [|max]; [congruence|]. rewrite text_of_lines, file_lines_of by (now apply all_lines_ok).
  rewrite (trees_max_ok _ _ _ H1 H2). reflexivity.
Qed.

(** The same files read tree by tree *)
Theorem conllu_fast_is_slow o texts its fl : o_bpd o = 0 -> o_filter o = None -> o_split o = false -> o_max o = 0 -> o_merge o = false ->
  Forall2 (fun bs l => bs <> [] /\ Forall good_block bs /\ Forall2 (fun b it => parse b = Ok (Some it)) bs l) texts its ->
  exists files, Forall2 (fun bs f => conllu_file cfg canon lower 0 (text_of bs) = Ok f) texts files /\
    files = map (file_of true) its /\
    same_result (read_documents fl o no_after (new_reader files) []) (read_documents fl o no_after (new_reader (map one_by_one files)) []).
Proof.
  intros H1 H2 H3 H4 H5 H. exists (map (file_of true) its). split; [|split; auto].
  - induction H as [|bs l texts its [_ [A1 A2]] _ IH]; constructor; auto. now apply conllu_text.
  - unfold same_result. replace (map one_by_one (map (file_of true) its)) with (map (file_of (A := list str) false) its) by (now rewrite map_map).
    assert (NE : Forall (fun l => l <> []) its).
    { clear - H. induction H as [|bs l texts its [A1 [_ A2]] _ IH]; constructor; auto. intros ->. inversion A2; subst. congruence. }
    destruct (fast_is_slow_new o H1 H2 H3 H4 H5 its NE fl) as [Q1 [Q2 [Q3 Q4]]]. auto.
Qed.
End C.
