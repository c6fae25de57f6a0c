(** Proofs about saving and loading documents in CoNLL-U (C70): the text. *)
From Coq Require Import String List NArith ZArith Bool Lia.
From Verif Require Import PyStr PyStrFacts PyList PyListFacts PyExn TreeModel TreeSpec DocModel DualDictModel ConlluModel ConlluSpec ConlluLines ConlluRead ConlluReadOk
  ConlluWrite ConlluRound BundleModel ReaderModel ReaderFiles ConlluFileModel ConlluFileSpec ConlluFrame.
Import ListNotations.

(** ---- Lines without line ends ---- *)
Definition clean (x : str) : Prop := ~ In LF x /\ ~ In CR x.
Definition solid (l : str) : Prop := l <> [] /\ clean l.
Definition solid_block (b : list str) : Prop := b <> [] /\ Forall solid b.
Lemma clean_app x y : clean x -> clean y -> clean (x ++ y).
Proof. unfold clean. rewrite !in_app_iff. tauto. Qed.
Lemma clean_const x : forallb (fun a => negb (N.eqb a LF) && negb (N.eqb a CR)) x = true -> clean x.
Proof.
  rewrite forallb_forall. intros H. split; intros I; apply H in I; [change (N.eqb LF LF) with true in I|change (N.eqb CR CR) with true in I]; cbn in I; discriminate.
Qed.
Lemma clean_spaces x : no_spaces x -> clean x.
Proof. intros H. split; intros I; apply H in I; discriminate. Qed.
Lemma clean_join l : (forall x, In x l -> clean x) -> clean (join [TAB] l).
Proof.
  intros H. split; intros I; apply in_join in I as [I|(x & I & J)]; try discriminate I; apply H in I as [I1 I2]; auto.
Qed.
Lemma clean_num n : clean (num n).
Proof. split; apply num_no; reflexivity. Qed.
Lemma join_solid a l : a <> [] -> join [TAB] (a :: l) <> [].
Proof. intros H. destruct l; cbn; auto. destruct a; [congruence|discriminate]. Qed.
Lemma num_ne n : num n <> [].
Proof. apply num_spec. Qed.

Section lines.
  Variables (lower : str -> str) (canon : str -> option str) (v : sentv).
  Hypothesis RV : representable lower canon v.
  Hypothesis UB : unbroken v.
  Lemma text_in x : In x (texts v) -> clean x.
  Proof. exact (UB x). Qed.
  Lemma word_solid i w : In w (sv_words v) -> solid (line_of (word_columns i w)).
  Proof.
    intros I. split; [apply join_solid, num_ne|]. apply clean_join. intros x [<-|J]; [apply clean_num|]. apply text_in. unfold texts. apply in_app_iff. left.
    apply in_concat. exists (word_columns 0 w). split; [now apply in_map|]. right. exact J.
  Qed.
  Lemma empty_solid e : In e (sv_empties v) -> solid (line_of (empty_columns e)).
  Proof.
    intros I. split; [apply join_solid; intros E; apply app_eq_nil in E as [E _]; now apply num_ne in E|]. apply clean_join. intros x J. apply text_in. unfold texts.
    rewrite !in_app_iff. right. left. apply in_concat. exists (empty_columns e). split; auto. now apply in_map.
  Qed.
  Lemma mwt_solid m : In m (sv_mwts v) -> solid (line_of (mwt_columns m)).
  Proof.
    intros I. split; [apply join_solid; intros E; apply app_eq_nil in E as [E _]; now apply num_ne in E|]. apply clean_join. intros x J. apply text_in. unfold texts.
    rewrite !in_app_iff. right. right. left. apply in_concat. exists (mwt_columns m). split; auto. now apply in_map.
  Qed.
  Lemma pardoc_solid p w : solid p -> (forall x, w = VStr x -> clean x) -> solid (with_id p w).
  Proof.
    intros [P1 P2] H. destruct w as [| |x]; unfold with_id; try (split; auto; fail). split; [destruct p; [congruence|discriminate]|].
    apply clean_app; auto. apply clean_app; auto; apply clean_const; reflexivity.
  Qed.
  Lemma comment_solid c : In c (sv_comments v) -> solid (comment_line v c).
  Proof.
    intros I. destruct c; cbn [comment_line].
    - split; [discriminate|]. apply clean_app; [apply clean_const; reflexivity|]. apply clean_spaces, (rv_sent_id _ _ _ RV).
    - split; [discriminate|]. apply clean_app; [apply clean_const; reflexivity|]. destruct (rv_text _ _ _ RV) as (_ & _ & H1 & H2). now split.
    - apply pardoc_solid; [split; [discriminate|apply clean_const; reflexivity]|]. intros x E. apply text_in. unfold texts. rewrite !in_app_iff. do 3 right. left. rewrite E. now left.
    - apply pardoc_solid; [split; [discriminate|apply clean_const; reflexivity]|]. intros x E. apply text_in. unfold texts. rewrite !in_app_iff. do 4 right. left. rewrite E. now left.
    - split; [discriminate|]. apply clean_app; [apply clean_const; reflexivity|]. pose proof (rv_entity _ _ _ RV) as H. destruct (sv_entity v); [apply clean_spaces, H|apply clean_const; reflexivity].
    - split; [discriminate|]. apply clean_app; [apply clean_const; reflexivity|]. destruct (rv_comments _ _ _ RV) as [H _]. destruct (H x I) as (_ & L & _).
      split; intros J; apply L in J; discriminate.
  Qed.
  Lemma json_solid kv : In kv (sv_json v) -> solid (json_line kv).
  Proof.
    intros I. split; [discriminate|]. unfold json_line.
    assert (C : clean (fst kv) /\ clean (snd kv)).
    { split; apply text_in; unfold texts; rewrite !in_app_iff; do 5 right; apply in_concat; exists [fst kv; snd kv]; (split; [now apply (in_map (fun kv => [fst kv; snd kv]))|cbn; auto]). }
    repeat apply clean_app; try apply C; apply clean_const; reflexivity.
  Qed.
  Lemma empties_solid k : Forall solid (empties_after v k).
  Proof.
    apply Forall_forall. intros l J. apply in_map_iff in J as (e & <- & J). apply filter_In in J as [J _]. now apply empty_solid.
  Qed.
  Lemma words_solid ws : incl ws (sv_words v) -> forall i, Forall solid (words_from v i ws).
  Proof.
    induction ws as [|w ws IH]; intros H i; cbn [words_from]; [constructor|]. rewrite !Forall_app. split; [|split; [|split]].
    - apply Forall_forall. intros l J. apply in_map_iff in J as (m & <- & J). apply filter_In in J as [J _]. now apply mwt_solid.
    - constructor; auto. apply word_solid, H. now left.
    - apply empties_solid.
    - apply IH. intros x Hx. apply H. now right.
  Qed.
  Lemma lines_solid : solid_block (conllu_lines v).
  Proof.
    split.
    - unfold conllu_lines. intros E. apply app_eq_nil in E as [_ E]. apply app_eq_nil in E as [_ E]. apply app_eq_nil in E as [_ E].
      destruct (sv_words v) as [|w ws]; cbn [words_from] in E; [discriminate|]. apply app_eq_nil in E as [E _]. apply app_eq_nil in E as [_ E]. discriminate.
    - unfold conllu_lines. rewrite !Forall_app. split; [|split; [|split; [|split]]].
      + apply Forall_forall. intros l J. apply in_map_iff in J as (c & <- & J). now apply comment_solid.
      + apply Forall_forall. intros l J. apply in_map_iff in J as (c & <- & J). now apply json_solid.
      + apply empties_solid.
      + apply words_solid. apply incl_refl.
      + destruct (sv_words v); constructor; auto. split; [discriminate|apply clean_const; reflexivity].
  Qed.
End lines.

(** ---- The text of a file with solid lines ---- *)
Definition blocks_text (bs : list (list str)) : str := concat (map (fun b => printed b ++ [LF]) bs).
Lemma printed_app a b : printed (a ++ b) = printed a ++ printed b.
Proof. unfold printed. now rewrite map_app, concat_app. Qed.
Lemma newlines_id x : ~ In CR x -> newlines x = x.
Proof.
  induction x as [|a x IH]; cbn [newlines]; auto. intros H. destruct (N.eqb_spec a CR) as [->|N]; [exfalso; apply H; now left|].
  f_equal. apply IH. intros I. apply H. now right.
Qed.
Lemma printed_no_CR ls : Forall clean ls -> ~ In CR (printed ls).
Proof.
  induction 1 as [|l ls H _ IH]; unfold printed in *; cbn; auto. rewrite !in_app_iff. intros [[I|[I|[]]]|I]; [now apply (proj2 H) in I|discriminate|auto].
Qed.
Lemma blocks_no_CR bs : Forall solid_block bs -> ~ In CR (blocks_text bs).
Proof.
  induction 1 as [|b bs [_ H] _ IH]; unfold blocks_text in *; cbn; auto. rewrite !in_app_iff. intros [[I|[I|[]]]|I]; [|discriminate|auto].
  revert I. apply printed_no_CR. eapply Forall_impl; [|exact H]. now intros l [_ C].
Qed.
Lemma solid_first l : solid l -> exists a x, l = a :: x /\ N.eqb a LF = false.
Proof.
  intros [NE [H _]]. destruct l as [|a x]; [congruence|]. exists a, x. split; auto. apply N.eqb_neq. intros ->. apply H. now left.
Qed.
Lemma split_line l : ~ In LF l -> forall cur x, re_split false cur (l ++ x) = re_split false (cur ++ l) x.
Proof.
  induction l as [|a l IH]; intros H cur x; cbn [app]; [now rewrite app_nil_r|]. cbn [re_split].
  destruct (N.eqb_spec a LF) as [->|N]; [exfalso; apply H; now left|]. rewrite IH by (intros ?; apply H; now right). now rewrite <- app_assoc.
Qed.
Lemma split_block b : solid_block b -> forall cur rest,
  re_split false cur (printed b ++ LF :: rest) = (cur ++ join [LF] b) :: re_split true [] rest.
Proof.
  intros [NE H]. induction H as [|l b HL H IH]; [congruence|]. intros cur rest. unfold printed. cbn [map concat].
  rewrite <- !app_assoc. rewrite split_line by apply HL. cbn [app re_split]. rewrite N.eqb_refl. destruct b as [|l2 b].
  - cbn [map concat app join]. reflexivity.
  - inversion H as [|? ? H2 _]; subst. destruct (solid_first l2 H2) as [a [x [-> EA]]]. cbn [map concat app]. rewrite EA.
    specialize (IH ltac:(discriminate) ((cur ++ l) ++ [LF]) rest). unfold printed in IH. cbn [map concat app] in IH.
    etransitivity; [exact IH|]. f_equal. cbn [join]. rewrite <- !app_assoc. cbn [app]. destruct b; reflexivity.
Qed.
Lemma split_text bs : Forall solid_block bs -> forall sep,
  filter nonempty (re_split sep [] (blocks_text bs)) = map (join [LF]) bs.
Proof.
  induction 1 as [|b bs H _ IH]; intros sep; [reflexivity|]. unfold blocks_text. cbn [map concat]. rewrite <- app_assoc. cbn [app].
  assert (E : forall z, re_split sep [] (printed b ++ LF :: z) = re_split false [] (printed b ++ LF :: z)).
  { intros z. destruct sep; auto. destruct H as [NE H]. destruct b as [|l b]; [congruence|]. inversion H as [|? ? HL _]; subst.
    destruct (solid_first l HL) as [a [x [-> EA]]]. unfold printed. cbn [map concat app re_split]. now rewrite EA. }
  rewrite E, split_block by auto. cbn [app filter].
  assert (J : nonempty (join [LF] b) = true).
  { destruct H as [NE H]. destruct b as [|l b]; [congruence|]. inversion H as [|? ? HL _]; subst.
    destruct (solid_first l HL) as [a [x [-> _]]]. destruct b; reflexivity. }
  rewrite J. cbn [map]. f_equal. apply IH.
Qed.
Lemma sentences_of_text bs : Forall solid_block bs -> sentences_of (blocks_text bs) = bs.
Proof.
  intros H. unfold sentences_of. rewrite newlines_id by now apply blocks_no_CR. rewrite split_text by auto. rewrite map_map.
  induction H as [|b bs [NE H] _ IH]; auto. cbn [map]. rewrite IH. f_equal.
  apply split_join; auto. rewrite Forall_forall in H. intros x Hx. destruct (H x Hx) as [_ [C _]]. exact C.
Qed.

(** ---- MWT numbers grow ---- *)
Lemma forget_mnext l : forall d, d_mnext (forget d l) = d_mnext d.
Proof. induction l as [|w l IH]; intros d; cbn; auto. now rewrite IH. Qed.
Lemma remove_old_mnext l : forall d, d_mnext (fst (remove_old d l)) = d_mnext d.
Proof.
  induction l as [|w l IH]; intros d; cbn [remove_old]; auto. destruct (d_mwt d w) as [m|]; auto. unfold mwt_remove.
  destruct (list_remove _ _) as [k|]; cbn [bind fst]; [rewrite IH; cbn|]; apply forget_mnext.
Qed.
Lemma belong_mnext m l : forall d, d_mnext (belong d m l) = d_mnext d.
Proof. induction l as [|w l IH]; intros d; cbn; auto. now rewrite IH. Qed.
Lemma clear_mnext l : forall d, d_mnext (clear_space_after d l) = d_mnext d.
Proof. induction l as [|w l IH]; intros d; cbn; auto. now rewrite IH. Qed.
Lemma create_mnext d r words form misc : d_mnext d <= d_mnext (fst (create_mwt d r words form misc)).
Proof.
  unfold create_mwt. pose proof (remove_old_mnext words d) as R. destruct (remove_old d words) as [d1 [u| |]]; cbn [bind fst] in *; try lia.
  destruct (last_opt words) as [w|]; cbn [fst]; [|cbn; rewrite belong_mnext; cbn; lia].
  destruct (dd_get _ _) as [dd x]. cbn [fst]. rewrite clear_mnext. destruct (val_is x No); cbn; rewrite belong_mnext; cbn; lia.
Qed.
Lemma mwt_loop_mnext r nodes l : forall d, d_mnext d <= d_mnext (fst (mwt_loop d r nodes l)).
Proof.
  induction l as [|f l IH]; intros d; cbn [mwt_loop]; auto.
  destruct (split MINUS (field f 0)) as [|a [|b [|]]]; cbn [fst]; auto. destruct (py_int a), (py_int b); cbn [fst]; auto.
  unfold create_multiword_token. match goal with |- context [create_mwt ?d ?r ?w ?f ?m] => pose proof (create_mnext d r w f m) as C; destruct (create_mwt d r w f m) as [d1 [u| |]] end;
    cbn [bind fst] in *; auto. specialize (IH d1). lia.
Qed.
Lemma read_line_mnext cfg canon r st l : d_mnext (rd_d (fst (read_line cfg canon r st l))) = d_mnext (rd_d st).
Proof.
  destruct l as [|c x]; cbn [read_line]; auto. destruct (N.eqb c HASH).
  - destruct (parse_comment _ _ _ _) as [[ri ge] y]. reflexivity.
  - set (F := split TAB (c :: x)). destruct (_ && _); auto. set (G := F ++ _). destruct (has_char MINUS (field G 0)); auto. destruct (has_char DOT (field G 0)).
    + unfold read_empty. cbn [new_node alloc]. destruct (float_tenths _); reflexivity.
    + unfold read_word. cbn [new_node alloc]. destruct (py_int (field G 0)); [|reflexivity]. destruct (str_eqb (field G 8) US); destruct (py_int (field G 6)); try reflexivity; destruct (_ && _); reflexivity.
Qed.
Lemma read_lines_mnext cfg canon r ls : forall st, d_mnext (rd_d (fst (read_lines cfg canon r st ls))) = d_mnext (rd_d st).
Proof.
  induction ls as [|l ls IH]; intros st; cbn [read_lines]; auto. pose proof (read_line_mnext cfg canon r st l) as R.
  destruct (read_line cfg canon r st l) as [st1 [u| |]]; cbn [bind fst] in *; auto. now rewrite IH.
Qed.
Lemma read_mnext cfg canon lower d ge ls : d_mnext d <= d_mnext (fst (fst (read_tree_from_lines cfg canon lower d ge ls))).
Proof.
  unfold read_tree_from_lines. destruct (doc_new_root d) as [d1 r] eqn:E. assert (M : d_mnext d1 = d_mnext d) by (unfold doc_new_root in E; destruct (new_root (d_h d)); injection E as <- _; reflexivity).
  pose proof (read_lines_mnext cfg canon r ls (mkRd d1 ge [r] [0%Z] [])) as R. destruct (read_lines _ _ _ _ _) as [st [u| |]]; cbn [fst rd_d] in *; try lia.
  assert (G : forall d2 nodes, d_mnext d2 = d_mnext (rd_d st) -> d_mnext d <= d_mnext (fst (fst
    match attach_loop (rc_fix_cycles cfg) (d_h d2) r nodes (combine (tl nodes) (tl (rd_parents st))) with
      | (h, Raise e) => ((with_h d2 h, rd_ge st), Raise e)
      | (h, Diverge) => ((with_h d2 h, rd_ge st), Diverge)
      | (h, Ok _) =>
        match mwt_loop (with_h d2 h) r nodes (rd_mwts st) with
        | (d, Ok _) => ((d, rd_ge st), Ok (Some r))
        | (d, Raise e) => ((d, rd_ge st), Raise e)
        | (d, Diverge) => ((d, rd_ge st), Diverge)
        end
      end))).
  { intros d2 nodes M2. destruct (attach_loop _ _ _ _ _) as [h [w| |]]; cbn [fst]; cbn; try lia.
    pose proof (mwt_loop_mnext r nodes (rd_mwts st) (with_h d2 h)) as W. destruct (mwt_loop _ _ _ _) as [d3 [w'| |]]; cbn in *; lia. }
  destruct (rd_nodes st) as [|a [|b [|c l]]]; try (apply G; auto; fail).
  - cbn. lia.
  - destruct (str_eqb _ _); apply G; reflexivity.
Qed.

Lemma Forall2_In_l {A B} (P : A -> B -> Prop) l k x : Forall2 P l k -> In x l -> exists y, P x y.
Proof. induction 1 as [|a b l k H _ IH]; [intros []|]. intros [<-|I]; eauto. Qed.

(** ---- One tree ---- *)
Lemma keeps_trans d0 d1 d2 : h_next (d_h d0) <= h_next (d_h d1) -> d_mnext d0 <= d_mnext d1 -> keeps d0 d1 -> keeps d1 d2 -> keeps d0 d2.
Proof.
  intros L1 L2 [A1 A2] [B1 B2]. split.
  - intros y Hy. destruct (A1 y Hy) as ((a1 & a2 & a3 & a4 & a5 & a6 & a7 & a8) & b & c & e & f).
    destruct (B1 y ltac:(lia)) as ((g1 & g2 & g3 & g4 & g5 & g6 & g7 & g8) & h & i & j & k).
    unfold unchanged, same_object. repeat split; congruence.
  - intros m Hm. rewrite B2 by lia. auto.
Qed.
Lemma keeps_refl d : keeps d d.
Proof. split; auto. intros y _. unfold unchanged, same_object. repeat split. Qed.

Lemma entity_shown v items : ok_comments v -> interleave (sv_comments v) (missing v) items ->
  (shows_entity v -> existsb (same_special CEntity) items = true) /\ (~ shows_entity v -> existsb (same_special CEntity) items = false).
Proof.
  intros OK I. assert (II : forall x, In x items <-> In x (sv_comments v) \/ In x (missing v)) by (intros x; now apply interleave_In).
  assert (EX : existsb (same_special CEntity) items = true <-> In CEntity items).
  { rewrite existsb_exists. split; [intros (x & J & E); destruct x; try discriminate; auto|]. intros J. exists CEntity. auto. }
  assert (MS : In CEntity (missing v) <-> set_val (sv_newdoc v) = true /\ sv_entity v <> None /\ ~ In CEntity (sv_comments v)).
  { rewrite missing_spec. unfold specials. rewrite !in_app_iff. destruct (set_val (sv_newdoc v)), (sv_entity v), (set_val (sv_newpar v)); simpl; intuition (try discriminate; try congruence). }
  split; intros H.
  - apply EX, II. destruct H as [H|[H1 H2]]; auto. destruct (in_dec citem_dec CEntity (sv_comments v)); auto. right. apply MS. auto.
  - apply not_true_iff_false. intros E. apply EX, II in E as [E|E]; apply H; [now left|]. right. apply MS in E. tauto.
Qed.
Definition good_lines (lower : str -> str) (canon : str -> option str) (v : sentv) (lines : list str) : Prop :=
  forall cfg d0 ge, exists d' ge' r', read_tree_from_lines cfg canon lower d0 ge lines = ((d', ge'), Ok (Some r')) /\ loaded lower d0 d' r' v /\
    ri_sent_id (d_ri d' r') = Some (sv_sent_id v) /\ ri_text (d_ri d' r') <> None /\ h_next (d_h d0) <= h_next (d_h d') /\ d_mnext d0 <= d_mnext d' /\
    (shows_entity v -> ge' = sv_entity v) /\ (~ shows_entity v -> ge' = ge).
Lemma lines_good lower canon v items : ok_comments v -> representable lower canon (with_comments v items) -> heads_ok (sv_words v) ->
  missing (with_comments v items) = [] -> interleave (sv_comments v) (missing v) items -> good_lines lower canon v (conllu_lines (with_comments v items)).
Proof.
  intros OC RV' HO M' I cfg d0 ge.
  destruct (read_ok cfg lower canon d0 ge _ RV' HO M') as (d' & E & C' & S' & U & UM). exists d', (final_ge (with_comments v items) ge), (h_next (d_h d0)).
  split; [exact E|]. assert (L : h_next (d_h d0) < h_next (d_h d')) by (apply (c_alloc _ _ C'); now left).
  pose proof (read_mnext cfg canon lower d0 ge (conllu_lines (with_comments v items))) as MN. rewrite E in MN. cbn [fst] in MN.
  split; [|split; [|split; [|split; [lia|split; [exact MN|]]]]].
  - split; [lia|]. split; [split; [exact U|exact UM]|]. split; [exact C'|]. exists items. split; [exact I|exact S'].
  - destruct (read_good cfg lower canon d0 ge _ RV' HO) as (d2 & E2 & _ & _ & R2 & _). rewrite E in E2. injection E2 as <-. rewrite R2.
    pose proof (apply_items_spec (with_comments v items) (sv_comments (with_comments v items)) no_rinfo None) as A. cbn zeta in A.
    destruct A as (_ & A2 & _). unfold final_ri. cbn [ConlluRe.with_json ri_sent_id]. rewrite A2.
    assert (IS : In CSentId (specials (with_comments v items))) by (unfold specials; rewrite !in_app_iff; simpl; auto).
    now rewrite (missing_nil (with_comments v items) CSentId M' IS eq_refl).
  - destruct (read_good cfg lower canon d0 ge _ RV' HO) as (d2 & E2 & _ & _ & R2 & _). rewrite E in E2. injection E2 as <-. rewrite R2.
    pose proof (apply_items_spec (with_comments v items) (sv_comments (with_comments v items)) no_rinfo None) as A. cbn zeta in A.
    destruct A as (_ & _ & A2 & _). unfold final_ri. cbn [ConlluRe.with_json ri_text]. rewrite A2.
    assert (IS : In CText (specials (with_comments v items))) by (unfold specials; rewrite !in_app_iff; simpl; auto 10).
    rewrite (missing_nil (with_comments v items) CText M' IS eq_refl). discriminate.
  - unfold final_ge. cbn [sv_comments sv_entity with_comments]. destruct (entity_shown v items OC I) as [X1 X2].
    split; intros H; [now rewrite X1|now rewrite X2].
Qed.
Lemma complete_lines lower canon v : representable lower canon v -> heads_ok (sv_words v) -> missing v = [] -> good_lines lower canon v (conllu_lines v).
Proof.
  intros RV HO M. assert (E : with_comments v (sv_comments v) = v) by now destruct v. rewrite <- E at 2. apply lines_good; rewrite ?E; auto; [apply (rv_comments _ _ _ RV)|].
  rewrite M. clear. induction (sv_comments v); constructor; auto.
Qed.
Lemma one_tree lower canon v : representable lower canon v -> unbroken v -> forall env d r, consistent (d_h d) r -> sentence lower env d r v ->
  (In CEntity (sv_comments v) \/ set_val (sv_newdoc v) = true -> we_bundle env <> None) ->
  exists lines, process_tree wdefault env lower d r = Ok (lines ++ [[]]) /\ solid_block lines /\ good_lines lower canon v lines.
Proof.
  intros RV UB env d r C SE BU. destruct (write_ok lower canon env d r v RV C SE BU) as (items & I & W).
  exists (conllu_lines (with_comments v items)). split; auto. destruct (items_ok lower canon v RV items I) as [RV' M']. split.
  { apply (lines_solid lower canon); auto. }
  apply lines_good; auto; [apply (rv_comments _ _ _ RV)|]. apply (tokens_heads lower d r); auto. apply (se_tokens _ _ _ _ _ SE).
Qed.

(** ---- The whole file ---- *)
Section whole.
  Variables (lower : str -> str) (canon : str -> option str) (d : doc).
  Local Notation saved := (saved lower canon d).
  Lemma saved_blocks ts vs : Forall2 saved ts vs -> exists bs, write_trees wdefault lower d ts = Ok (concat (map (fun b => b ++ [[]]) bs)) /\
    Forall solid_block bs /\ Forall2 (good_lines lower canon) vs bs.
  Proof.
    induction 1 as [|[env r] v ts vs (RV & UB & C & SE & BU) _ IH]; [exists []; split; auto|]. destruct IH as (bs & W & SB & G).
    destruct (one_tree lower canon v RV UB env d r C SE (fun _ => BU)) as (lines & P & S1 & R). exists (lines :: bs). cbn [write_trees]. rewrite P, W. cbn [rbind].
    split; [reflexivity|]. split; constructor; auto.
  Qed.
  Lemma printed_blocks bs : printed (concat (map (fun b => b ++ [[]]) bs)) = blocks_text bs.
  Proof.
    induction bs as [|b bs IH]; auto. cbn [map concat]. rewrite !printed_app, IH. reflexivity.
  Qed.
  Lemma shows_dec v : shows_entity v \/ ~ shows_entity v.
  Proof.
    unfold shows_entity. destruct (in_dec citem_dec CEntity (sv_comments v)); [auto|]. destruct (set_val (sv_newdoc v)); [|right; intuition discriminate].
    destruct (sv_entity v); [left; right; split; congruence|right; intuition].
  Qed.
  Lemma blocks_read cfg vs bs : Forall2 (good_lines lower canon) vs bs -> forall d0 ge, exists d' ge' rs,
    read_blocks cfg canon lower d0 ge bs = ((d', ge'), Ok (map Some rs)) /\ all_loaded lower d0 rs vs d' /\
    h_next (d_h d0) <= h_next (d_h d') /\ d_mnext d0 <= d_mnext d' /\ keeps d0 d' /\
    forall e, Forall (fun v => sv_entity v = e) vs -> (Exists shows_entity vs -> ge' = e) /\ (~ Exists shows_entity vs -> ge' = ge).
  Proof.
    induction 1 as [|v b vs bs G _ IH]; intros d0 ge.
    - exists d0, ge, []. split; [reflexivity|]. split; [split; constructor|]. split; auto. split; auto. split; [apply keeps_refl|]. intros e _. split; auto. intros H. inversion H.
    - destruct (G cfg d0 ge) as (d1 & ge1 & r & E & L & _ & TX & N1 & N2 & S1 & S2). destruct (IH d1 ge1) as (d' & ge' & rs & E' & [ND L'] & M1 & M2 & K & EN).
      pose proof (fresh_read _ _ _ _ _ _ _ _ _ E) as FR. destruct L as (L1 & L2 & L3 & L4). assert (K0 : keeps d0 d') by (apply (keeps_trans d0 d1 d'); auto).
      exists d', ge', (r :: rs). cbn [read_blocks]. rewrite E, E'. split; [reflexivity|]. split; [|split; [lia|split; [lia|split; [exact K0|]]]].
      + split.
        * constructor; auto. intros I. apply (Forall2_In_l _ _ _ _ L') in I as (x & J). destruct J as [J _]. pose proof (fr_root _ _ FR). lia.
        * constructor.
          -- split; [lia|]. split; [exact K0|]. split; [now apply (consistent_grow d1)|]. destruct L4 as (items & I & SE). exists items. split; auto. intros env EE.
             apply (sentence_grow d1); auto.
          -- apply (Forall2_in_weak _ _ _ _ L'). intros x y _ (J1 & _ & J2). split; [lia|]. split; [exact K0|exact J2].
      + intros e HE. inversion HE as [|? ? E1 E2]; subst. destruct (EN _ E2) as [Y1 Y2].
        assert (DE : Exists shows_entity vs \/ ~ Exists shows_entity vs).
        { clear. induction vs as [|v vs IH]; [right; intros H; inversion H|]. destruct (shows_dec v); [left; now left|]. destruct IH; [left; now right|right].
          intros J. inversion J; auto. }
        split; intros H.
        * destruct DE as [DE|DE]; auto. rewrite Y2 by auto. inversion H; subst; [apply S1; auto|contradiction].
        * rewrite Y2 by (intros J; apply H; now right). apply S2. intros J. apply H. now left.
  Qed.
  Theorem file_round ts vs : Forall2 saved ts vs -> exists text, write_file wdefault lower d ts = Ok text /\
    forall cfg d0 ge, exists d' ge' rs, read_file cfg canon lower d0 ge text = ((d', ge'), Ok (map Some rs)) /\ all_loaded lower d0 rs vs d' /\
      forall e, Forall (fun v => sv_entity v = e) vs -> (Exists shows_entity vs -> ge' = e) /\ (~ Exists shows_entity vs -> ge' = ge).
  Proof.
    intros H. destruct (saved_blocks ts vs H) as (bs & W & SB & G). exists (blocks_text bs). split.
    - unfold write_file. rewrite W. cbn [rbind]. now rewrite printed_blocks.
    - intros cfg d0 ge. unfold read_file. rewrite sentences_of_text by auto. destruct (blocks_read cfg vs bs G d0 ge) as (d' & ge' & rs & E & L & _ & _ & _ & EN).
      exists d', ge', rs. auto.
  Qed.

  (** The trees as seen by BaseReader *)
  Lemma items_read cfg vs bs : Forall2 (good_lines lower canon) vs bs -> exists its, parse_all cfg canon lower bs = Ok (map Some its) /\
    Forall2 (fun v it => it_sid it = Some (sv_sent_id v) /\ lines_hold cfg canon lower (it_content it) v) vs its.
  Proof.
    induction 1 as [|v b vs bs G _ IH]; [exists []; split; auto|]. destruct IH as (its & P & F).
    destruct (G cfg doc0 None) as (d1 & ge1 & r & E & _ & S & _).
    exists (mkItem b (Some (sv_sent_id v)) (newdoc_of (ri_newdoc (d_ri d1 r))) :: its). cbn [parse_all]. unfold parse. rewrite E, P, S. cbn [rbind]. split; [reflexivity|].
    constructor; auto. split; [reflexivity|]. cbn [it_content]. intros d0 ge. destruct (G cfg d0 ge) as (d2 & ge2 & r2 & E2 & L & _). exists d2, ge2, r2. auto.
  Qed.
  Theorem items_of_file ts vs : Forall2 saved ts vs -> exists text, write_file wdefault lower d ts = Ok text /\
    forall cfg slow, exists its, text_file_of cfg canon lower slow text = mkFile slow (Some (Ok (map Some its))) /\
      Forall2 (fun v it => it_sid it = Some (sv_sent_id v) /\ lines_hold cfg canon lower (it_content it) v) vs its.
  Proof.
    intros H. destruct (saved_blocks ts vs H) as (bs & W & SB & G). exists (blocks_text bs). split.
    - unfold write_file. rewrite W. cbn [rbind]. now rewrite printed_blocks.
    - intros cfg slow. destruct (items_read cfg vs bs G) as (its & P & F). exists its. split; auto. unfold text_file_of, read_trees.
      fold (sentences_of (blocks_text bs)). rewrite sentences_of_text by auto. now rewrite P.
  Qed.
End whole.
