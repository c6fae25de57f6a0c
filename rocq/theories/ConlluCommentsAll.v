(** Comment lines in general: what reading keeps of any comment line, and where the writer
    prints it. *)
From Coq Require Import String List NArith ZArith Bool Lia Sorted Permutation.
From Verif Require Import PyStr PyStrFacts PyList PyListFacts PyExn TreeModel TreeSpec TreeFacts TreeRepr TreeOps TreeCalls
  DualDictModel DualDictSpec DualDictProofs DocModel MwtSpec MwtProofs ConlluModel ConlluSpec ConlluRe ConlluComments ConlluWrite
  ConlluAttach ConlluRead ConlluLines ConlluTree ConlluSent ConlluReadOk ConlluRound.
Import ListNotations.

(** ---- the regular expressions match every line of the special form ---- *)
Lemma lstrip_spaces : forall s1 x, spaces s1 -> lstrip (s1 ++ x) = lstrip x.
Proof.
  induction s1 as [|a s1 IH]; intros x H; simpl; auto. rewrite (H a) by (simpl; auto). apply IH. intros b I. apply H. simpl; auto.
Qed.
Lemma sent_id_complete l : sent_id_line l -> re_sent_id l <> None.
Proof.
  intros (s1 & e & s2 & a & x & -> & S1 & E & S2 & A). unfold re_sent_id. rewrite after_app, lstrip_spaces by auto.
  destruct E as [-> | ->].
  - simpl app. rewrite lstrip_spaces by auto. rewrite lstrip_nonspace by auto.
    destruct (eat_eq (a :: x)) as [z|]; [destruct (lstrip z)|]; discriminate.
  - change (lstrip (s "=" ++ s2 ++ a :: x)) with (EQ :: s2 ++ a :: x). unfold eat_eq. cbn [after].
    rewrite N.eqb_refl, lstrip_spaces, lstrip_nonspace by auto. discriminate.
Qed.
Lemma text_complete l : text_line l -> re_text l <> None.
Proof.
  intros (s1 & x & -> & S1). unfold re_text. rewrite after_app, lstrip_spaces by auto.
  change (lstrip (s "=" ++ x)) with (EQ :: x). unfold eat_eq. cbn [after]. rewrite N.eqb_refl. discriminate.
Qed.
Lemma space_value_Some x : x <> [] -> space_value x <> None.
Proof.
  intros H. unfold space_value. destruct (lstrip x); [|discriminate]. destruct (last_opt x) eqn:E; [discriminate|].
  unfold last_opt in E. rewrite last_opt_nth in *. apply nth_error_None in E. destruct x; [congruence|simpl in E; lia].
Qed.
Lemma tail_complete s1 s2 x : spaces s1 -> s1 <> [] -> spaces s2 -> x <> [] ->
  pardoc_tail (s1 ++ s "id" ++ s2 ++ s "=" ++ x) <> None.
Proof.
  intros H1 N1 H2 NX. destruct s1 as [|a s1]; [congruence|]. unfold pardoc_tail. cbn [app]. rewrite (H1 a) by (simpl; auto).
  change (a :: s1 ++ s "id" ++ s2 ++ s "=" ++ x) with ((a :: s1) ++ s "id" ++ s2 ++ s "=" ++ x).
  rewrite lstrip_spaces by auto. change (lstrip (s "id" ++ s2 ++ s "=" ++ x)) with (s "id" ++ s2 ++ s "=" ++ x). rewrite after_app.
  rewrite lstrip_spaces by auto. change (lstrip (s "=" ++ x)) with (EQ :: x). unfold eat_eq. cbn [after]. rewrite N.eqb_refl.
  pose proof (space_value_Some x NX). destruct (space_value x); [discriminate|congruence].
Qed.
Lemma newpar_complete l : named_line (s "# newpar") l -> exists v, re_newpardoc l = Some (true, v).
Proof.
  intros [->|(s1 & s2 & x & -> & H1 & N1 & H2 & NX)]; [eexists; reflexivity|]. unfold re_newpardoc. rewrite after_app.
  pose proof (tail_complete s1 s2 x H1 N1 H2 NX). destruct (pardoc_tail _); [eauto|congruence].
Qed.
Lemma newdoc_complete l : named_line (s "# newdoc") l -> exists v, re_newpardoc l = Some (false, v).
Proof.
  intros [->|(s1 & s2 & x & -> & H1 & N1 & H2 & NX)]; [eexists; reflexivity|]. unfold re_newpardoc.
  change (after (s "# newpar") (s "# newdoc" ++ s1 ++ s "id" ++ s2 ++ s "=" ++ x)) with (@None str). rewrite after_app.
  pose proof (tail_complete s1 s2 x H1 N1 H2 NX). destruct (pardoc_tail _); [eauto|congruence].
Qed.
Lemma newpardoc_kind l b v : re_newpardoc l = Some (b, v) -> named_line (if b then s "# newpar" else s "# newdoc") l.
Proof.
  intros H. destruct (re_newpardoc_line _ _ H) as (n & [-> | ->] & L).
  - destruct (newpar_complete l L) as [v' E]. rewrite E in H. injection H as <- _. exact L.
  - destruct (newdoc_complete l L) as [v' E]. rewrite E in H. injection H as <- _. exact L.
Qed.
Lemma pardoc_complete l : ConlluSpec.pardoc_line l -> re_newpardoc l <> None.
Proof.
  intros (n & [-> | ->] & L); [destruct (newpar_complete l L) as [v E]|destruct (newdoc_complete l L) as [v E]]; congruence.
Qed.
Lemma key_run_app : forall k x, ~ In SP k -> ~ In EQ k -> key_run (k ++ x) = k ++ key_run x.
Proof.
  induction k as [|a k IH]; intros x H1 H2; simpl; auto. destruct (N.eqb_spec a SP); [subst; exfalso; simpl in *; auto|].
  destruct (N.eqb_spec a EQ); [subst; exfalso; simpl in *; auto|]. simpl. rewrite IH; auto; intros I; simpl in *; auto.
Qed.
Lemma key_run_spaces : forall s1 x, spaces s1 -> exists s2 s3, s1 = s2 ++ s3 /\ key_run (s1 ++ EQ :: x) = s2.
Proof.
  induction s1 as [|a s1 IH]; intros x H; [exists [], []; auto|]. simpl.
  destruct (N.eqb a SP || N.eqb a EQ); [exists [], (a :: s1); auto|].
  destruct (IH x) as (s2 & s3 & E1 & E2); [intros b I; apply H; simpl; auto|]. exists (a :: s2), s3. rewrite E2, E1 at 1. auto.
Qed.
Lemma json_tail_complete d k s1 x : k <> [] -> ~ In SP k -> ~ In EQ k -> spaces s1 -> x <> [] ->
  json_tail d (k ++ s1 ++ s "=" ++ x) <> None.
Proof.
  intros NK H1 H2 S1 NX. unfold json_tail. rewrite key_run_app by auto.
  destruct (key_run_spaces s1 x S1) as (s2 & s3 & E1 & E2). change (s "=" ++ x) with (EQ :: x). rewrite E2.
  destruct (k ++ s2) as [|a k'] eqn:EK; [destruct k; [congruence|discriminate]|]. rewrite <- EK. clear a k' EK.
  replace (k ++ s1 ++ EQ :: x) with ((k ++ s2) ++ s3 ++ EQ :: x) by (rewrite E1, <- !app_assoc; auto).
  rewrite skipn_app, skipn_all, Nat.sub_diag. cbn [skipn app]. rewrite lstrip_spaces.
  2:{ intros a I. apply S1. rewrite E1. apply in_app_iff. auto. }
  change (lstrip (EQ :: x)) with (EQ :: x). unfold eat_eq. cbn [after]. rewrite N.eqb_refl.
  pose proof (space_value_Some x NX). destruct (space_value x); [discriminate|congruence].
Qed.
Lemma json_complete l : json_comment l -> re_json l <> None.
Proof.
  intros (p & k & s1 & x & [-> | ->] & -> & NK & H1 & H2 & S1 & NX); unfold re_json.
  - change (after (s "# doc_json_") (s "# json_" ++ k ++ s1 ++ s "=" ++ x)) with (@None str). rewrite after_app.
    now apply json_tail_complete.
  - rewrite after_app. now apply json_tail_complete.
Qed.
Lemma entity_complete l : entity_line l -> re_global_entity l <> None.
Proof.
  intros (a & s1 & s2 & b & x & -> & S1 & S2 & B). unfold re_global_entity. rewrite after_app. rewrite after_app.
  rewrite lstrip_spaces by auto. change (lstrip (s "=" ++ s2 ++ b :: x)) with (EQ :: s2 ++ b :: x). unfold eat_eq. cbn [after].
  rewrite N.eqb_refl, lstrip_spaces, lstrip_nonspace by auto. discriminate.
Qed.

(** ---- reading any comment line ---- *)
Lemma parse_any canon ri ge l ri' ge' : is_comment l = true -> parse_comment canon ri ge l = ((ri', ge'), Ok tt) ->
  exists c, line_item l c /\ ri_comment ri' = ri_comment ri ++ placeholder_text (somes [c]).
Proof.
  intros IC. assert (PT : forall c, placeholder_text (somes [Some c]) = placeholder c ++ [LF]).
  { intros c. unfold placeholder_text. simpl. now rewrite app_nil_r. }
  assert (HL : exists x, l = s "#" ++ x).
  { destruct l as [|a l]; [discriminate|]. simpl in IC. apply N.eqb_eq in IC. subst a. now exists l. }
  unfold parse_comment. destruct (re_sent_id l) as [x1|] eqn:E1.
  { intros [= <- <-]. exists (Some CSentId). rewrite PT. split; [apply li_sent_id; eapply re_sent_id_line; eauto|reflexivity]. }
  destruct (re_text l) as [x2|] eqn:E2.
  { intros [= <- <-]. exists (Some CText). rewrite PT. split; [apply li_text; eapply re_text_line; eauto|reflexivity]. }
  destruct (re_newpardoc l) as [[[|] x3]|] eqn:E3.
  { intros [= <- <-]. exists (Some CNewpar). rewrite PT. split; [apply li_newpar; apply (newpardoc_kind _ _ _ E3)|reflexivity]. }
  { intros [= <- <-]. exists (Some CNewdoc). rewrite PT. split; [apply li_newdoc; apply (newpardoc_kind _ _ _ E3)|reflexivity]. }
  destruct (re_json l) as [[[b k] x]|] eqn:E4.
  { destruct (canon x); [|discriminate]. intros [= <- <-]. exists None. split; [apply li_json; eapply re_json_line; eauto|].
    destruct b; simpl; now rewrite app_nil_r. }
  destruct (re_global_entity l) as [x5|] eqn:E5.
  { intros [= <- <-]. exists (Some CEntity). rewrite PT. split; [apply li_entity; eapply re_entity_line; eauto|reflexivity]. }
  intros [= <- <-]. destruct HL as [x ->]. exists (Some (COther x)). rewrite PT. split; [|reflexivity].
  apply li_other; intros L; [apply sent_id_complete in L|apply text_complete in L|apply pardoc_complete in L|apply json_complete in L|apply entity_complete in L]; congruence.
Qed.

Lemma read_empty_ri d r f : d_ri (fst (read_empty d r f)) = d_ri d.
Proof. unfold read_empty. cbn [new_node alloc fst snd]. destruct (float_tenths (field f 0)); reflexivity. Qed.
Lemma read_word_ri b d r f : d_ri (fst (read_word b d r f)) = d_ri d.
Proof.
  unfold read_word. cbn [new_node alloc fst snd]. destruct (py_int (field f 0)); [|reflexivity].
  destruct (py_int (field f 6)); [|destruct (negb b && str_eqb (field f 6) US)]; destruct (str_eqb (field f 8) US); reflexivity.
Qed.
Lemma line_comments cfg canon r st l st' : read_line cfg canon r st l = (st', Ok tt) ->
  exists items, Forall2 line_item (filter is_comment [l]) items /\
    ri_comment (d_ri (rd_d st') r) = ri_comment (d_ri (rd_d st) r) ++ placeholder_text (somes items).
Proof.
  unfold read_line. destruct l as [|c l]; [discriminate|]. set (ln := c :: l).
  assert (IC : is_comment ln = N.eqb c HASH) by reflexivity. cbn [filter]. rewrite IC.
  destruct (N.eqb c HASH).
  - destruct (parse_comment canon (d_ri (rd_d st) r) (rd_ge st) ln) as [[ri ge] o] eqn:E. intros [= <- ->].
    destruct (parse_any _ _ _ _ _ _ IC E) as (i & L & H). exists [i]. split; auto. simpl. now upds.
  - assert (G : forall st1, d_ri (rd_d st1) = d_ri (rd_d st) -> (st1, Ok tt) = (st', Ok tt) -> exists items, Forall2 line_item [] items /\
      ri_comment (d_ri (rd_d st') r) = ri_comment (d_ri (rd_d st) r) ++ placeholder_text (somes items)).
    { intros st1 E [= ->]. exists []. split; auto. rewrite E. unfold placeholder_text, somes. cbn [flat_map]. now rewrite app_nil_r. }
    destruct (negb (Nat.eqb (length (split TAB ln)) 10) && rc_strict cfg); [discriminate|].
    match goal with |- context [field ?x 0] => set (f := x) end. clearbody f. clear IC.
    destruct (has_char MINUS (field f 0)); [now apply G|].
    destruct (has_char DOT (field f 0)).
    + pose proof (read_empty_ri (rd_d st) r f) as Q. destruct (read_empty (rd_d st) r f) as [d o]. cbn [fst] in Q.
      intros E. assert (o = Ok tt) by congruence. subst o. revert E. now apply G.
    + pose proof (read_word_ri (rc_strict cfg) (rd_d st) r f) as Q. destruct (read_word (rc_strict cfg) (rd_d st) r f) as [d o]. cbn [fst] in Q.
      destruct o as [[n p]|e|]; try discriminate. now apply G.
Qed.
Lemma lines_comments cfg canon r : forall ls st st', read_lines cfg canon r st ls = (st', Ok tt) ->
  exists items, Forall2 line_item (filter is_comment ls) items /\
    ri_comment (d_ri (rd_d st') r) = ri_comment (d_ri (rd_d st) r) ++ placeholder_text (somes items).
Proof.
  induction ls as [|l ls IH]; intros st st'; cbn [read_lines].
  - intros [= ->]. exists []. split; [constructor|]. symmetry. apply app_nil_r.
  - destruct (read_line cfg canon r st l) as [st1 [[]|e|]] eqn:E; cbn [bind]; try discriminate. intros H.
    destruct (line_comments _ _ _ _ _ _ E) as (i1 & F1 & H1). destruct (IH _ _ H) as (i2 & F2 & H2).
    exists (i1 ++ i2). split.
    + change (l :: ls) with ([l] ++ ls). rewrite filter_app. apply Forall2_app; auto.
    + rewrite H2, H1, <- app_assoc. f_equal. unfold placeholder_text, somes. now rewrite !flat_map_app.
Qed.

Lemma remove_old_ri : forall l d, d_ri (fst (remove_old d l)) = d_ri d.
Proof.
  induction l as [|w l IH]; intros d; simpl; auto. destruct (d_mwt d w) as [m|]; auto.
  unfold mwt_remove. assert (F : forall l d, d_ri (forget d l) = d_ri d) by (clear; induction l; intros; simpl; auto; now rewrite IHl).
  destruct (list_remove m _); cbn [bind fst]; [rewrite IH|]; simpl; now rewrite F.
Qed.
Lemma create_ri d r ws form misc : d_ri (fst (create_multiword_token d r ws form misc)) = d_ri d.
Proof.
  unfold create_multiword_token, create_mwt. pose proof (remove_old_ri ws d) as Q. destruct (remove_old d ws) as [d1 o]. cbn [fst] in Q.
  destruct o as [u|e|]; cbn [bind]; auto.
  assert (B : forall l m d, d_ri (belong d m l) = d_ri d) by (clear; induction l; intros; simpl; auto; now rewrite IHl).
  assert (CL : forall l d, d_ri (clear_space_after d l) = d_ri d) by (clear; induction l; intros; simpl; auto; now rewrite IHl).
  destruct (last_opt ws); [|cbn [fst put_mwts d_ri]; rewrite B; exact Q].
  match goal with |- context [dd_get ?a ?b] => destruct (dd_get a b) as [dd vv] end. cbn [fst]. rewrite CL.
  destruct (val_is vv No); cbn [put_m put_at put_mwts d_ri]; rewrite B; exact Q.
Qed.
Lemma mwt_loop_ri r nodes : forall l d, d_ri (fst (mwt_loop d r nodes l)) = d_ri d.
Proof.
  induction l as [|f l IH]; intros d; simpl; auto. destruct (split MINUS (field f 0)) as [|a [|b [|]]]; auto.
  destruct (py_int a), (py_int b); auto.
  match goal with |- context [create_multiword_token ?d ?r ?a ?b ?c] =>
    pose proof (create_ri d r a b c) as Q; destruct (create_multiword_token d r a b c) as [d1 [m|e|]]; cbn [bind fst] in * end; auto.
  now rewrite IH.
Qed.

Lemma read_comments cfg canon lower d0 ge lines d ge' r :
  read_tree_from_lines cfg canon lower d0 ge lines = ((d, ge'), Ok (Some r)) ->
  (forall l a, In l lines -> is_comment l = true -> In a l -> is_linebreak a = false) ->
  exists items, Forall2 line_item (filter is_comment lines) items /\
    splitlines (ri_comment (d_ri d r)) = map placeholder (somes items).
Proof.
  intros H NB. set (r0 := h_next (d_h d0)).
  destruct (read_lines cfg canon r0 (mkRd (fst (doc_new_root d0)) ge [r0] [0%Z] []) lines) as [st o] eqn:E.
  destruct o as [[]|e|].
  2,3: unfold read_tree_from_lines in H; rewrite (surjective_pairing (doc_new_root d0)) in H;
       change (snd (doc_new_root d0)) with r0 in H; rewrite E in H; discriminate.
  rewrite (read_tree_unfold _ _ _ _ _ _ _ E) in H. fold r0 in H.
  assert (Q : r = r0 /\ d_ri d = d_ri (rd_d st)).
  { pose proof (prepared_frame lower r0 st) as (_ & _ & _ & _ & P & _).
    destruct (prepared lower r0 st) as [d1 nodes]. cbn [fst] in P.
    assert (H' : match attach_loop (rc_fix_cycles cfg) (d_h d1) r0 nodes (combine (tl nodes) (tl (rd_parents st))) with
      | (h, Raise e) => ((with_h d1 h, rd_ge st), Raise e)
      | (h, Diverge) => ((with_h d1 h, rd_ge st), Diverge)
      | (h, Ok _) =>
        match mwt_loop (with_h d1 h) r0 nodes (rd_mwts st) with
        | (d, Ok _) => ((d, rd_ge st), Ok (Some r0))
        | (d, Raise e) => ((d, rd_ge st), Raise e)
        | (d, Diverge) => ((d, rd_ge st), Diverge)
        end
      end = (d, ge', Ok (Some r))) by (destruct (rd_nodes st) as [|n1 [|n2 ns]]; [exact H|discriminate|exact H]).
    clear H. destruct (attach_loop _ _ _ _ _) as [h1 [u|e|]]; try discriminate.
    pose proof (mwt_loop_ri r0 nodes (rd_mwts st) (with_h d1 h1)) as Q.
    destruct (mwt_loop (with_h d1 h1) r0 nodes (rd_mwts st)) as [d2 [u2|e|]]; try discriminate.
    cbn [fst] in Q. simpl in Q. split; congruence. }
  destruct Q as [-> ->]. destruct (lines_comments _ _ _ _ _ _ E) as (items & F & Ec). exists items. split; auto.
  cbn [rd_d] in Ec. assert (NI : d_ri (fst (doc_new_root d0)) r0 = no_rinfo) by (unfold r0; simpl; now upds).
  rewrite NI in Ec. rewrite Ec. change (ri_comment no_rinfo) with (@nil char). cbn [app]. apply splitlines_placeholders.
  intros x I a Ia. unfold somes in I. apply in_flat_map in I as (i & Ii & I). destruct i as [c|]; [|destruct I].
  destruct I as [->|[]]. destruct (Forall2_In_r _ _ _ _ F Ii) as (l & Il & L). apply filter_In in Il as [Il IC].
  apply (NB l a Il IC). inversion L; subst. simpl. auto.
Qed.

(** ---- writing any comments ---- *)
Section any_header.
  Variables (env : wenv) (d : doc) (r : nat) (v : sentv).
  Hypothesis HD : header env d r v.
  Hypothesis OO : forall x c, In (COther x) (sv_comments v) -> is_special c = true -> x <> placeholder c.
  Hypothesis BU : In CEntity (sv_comments v) \/ set_val (sv_newdoc v) = true -> we_bundle env <> None.

  Lemma truthy_set x y : pardoc_is x y -> truthy x = set_val y /\ (set_val y = true -> x = y).
  Proof. intros [->|[-> ->]]; split; auto; try discriminate; destruct y as [| |[|]]; auto. Qed.
  Definition rendered (c : citem) : option str :=
    if is_special c && negb (set_now v c) then None else Some (tl (comment_line v c)).
  Lemma render_any c : In c (sv_comments v) -> render wdefault env d r (placeholder c) = Ok (rendered c).
  Proof.
    intros I. destruct HD. unfold rendered.
    destruct c as [| | | | |x]; unfold render, placeholder, comment_line; cbn [wc_sent_id wc_text wdefault is_special set_now negb andb].
    - change (str_eqb (s "$SENT_ID") P_SENT_ID) with true. cbv iota. rewrite (shown_sent_id_is _ _ _ hd_sent_id). reflexivity.
    - change (str_eqb (s "$TEXT") P_SENT_ID) with false. change (str_eqb (s "$TEXT") P_TEXT) with true. cbv iota.
      rewrite hd_text. reflexivity.
    - change (str_eqb (s "$NEWDOC") P_SENT_ID) with false. change (str_eqb (s "$NEWDOC") P_TEXT) with false.
      change (str_eqb (s "$NEWDOC") P_NEWDOC) with true. cbv iota.
      destruct (truthy_set _ _ hd_newdoc) as [T E]. rewrite T. destruct (set_val (sv_newdoc v)); [|reflexivity].
      rewrite E by auto. cbn [negb]. change (s "# newdoc") with (HASH :: s " newdoc"). now rewrite ConlluWrite.pardoc_line.
    - change (str_eqb (s "$NEWPAR") P_SENT_ID) with false. change (str_eqb (s "$NEWPAR") P_TEXT) with false.
      change (str_eqb (s "$NEWPAR") P_NEWDOC) with false. change (str_eqb (s "$NEWPAR") P_NEWPAR) with true. cbv iota.
      destruct (truthy_set _ _ hd_newpar) as [T E]. rewrite T. destruct (set_val (sv_newpar v)); [|reflexivity].
      rewrite E by auto. cbn [negb]. change (s "# newpar") with (HASH :: s " newpar"). now rewrite ConlluWrite.pardoc_line.
    - change (str_eqb (s "$GLOBAL.ENTITY") P_SENT_ID) with false. change (str_eqb (s "$GLOBAL.ENTITY") P_TEXT) with false.
      change (str_eqb (s "$GLOBAL.ENTITY") P_NEWDOC) with false. change (str_eqb (s "$GLOBAL.ENTITY") P_NEWPAR) with false.
      change (str_eqb (s "$GLOBAL.ENTITY") P_GE) with true. cbv iota.
      unfold shown_ge. destruct (we_bundle env); [|exfalso; now apply BU; auto]. cbn [rbind]. rewrite hd_entity.
      destruct (sv_entity v) as [g|]; reflexivity.
    - pose proof (fun c => OO x c I) as NP.
      rewrite (proj2 (str_eqb_neq x P_SENT_ID)) by (apply (NP CSentId); auto).
      rewrite (proj2 (str_eqb_neq x P_TEXT)) by (apply (NP CText); auto).
      rewrite (proj2 (str_eqb_neq x P_NEWDOC)) by (apply (NP CNewdoc); auto).
      rewrite (proj2 (str_eqb_neq x P_NEWPAR)) by (apply (NP CNewpar); auto).
      rewrite (proj2 (str_eqb_neq x P_GE)) by (apply (NP CEntity); auto). reflexivity.
  Qed.
  Lemma print_any c : print_comment (rendered c) = if set_now v c then [comment_line v c] else [].
  Proof.
    unfold rendered. destruct c as [| | | | |x]; try reflexivity; cbn [is_special set_now negb andb].
    - destruct (set_val (sv_newdoc v)) eqn:E; [|reflexivity]. unfold comment_line, with_id. destruct (sv_newdoc v); reflexivity.
    - destruct (set_val (sv_newpar v)) eqn:E; [|reflexivity]. unfold comment_line, with_id. destruct (sv_newpar v); reflexivity.
    - destruct (sv_entity v); reflexivity.
    - destruct x; reflexivity.
  Qed.
  Lemma render_all : forall l, incl l (sv_comments v) ->
    map_res (render wdefault env d r) (map placeholder l) = Ok (map rendered l) /\
    printed_lines (map rendered l) = map (comment_line v) (filter (set_now v) l).
  Proof.
    induction l as [|c l IH]; intros I; [split; auto|]. destruct IH as [I1 I2]; [intros x J; apply I; simpl; auto|].
    split; cbn [map map_res].
    - rewrite render_any by (apply I; simpl; auto). cbn [rbind]. rewrite I1. reflexivity.
    - cbn [flat_map filter]. rewrite print_any, I2. destruct (set_now v c); reflexivity.
  Qed.
  Lemma placeholder_any c : is_special c = true -> In (placeholder c) (map placeholder (sv_comments v)) -> In c (sv_comments v).
  Proof.
    intros S I. apply in_map_iff in I as [c' [E I]]. destruct (is_special c') eqn:S'.
    - destruct c', c; try discriminate; auto; vm_compute in E; discriminate.
    - destruct c' as [| | | | |x]; try discriminate. exfalso. exact (OO x c I S E).
  Qed.
  Lemma addition_any c : is_special c = true ->
    addition (splitlines (ri_comment (d_ri d r))) (placeholder c) (comment_line v c) =
    map (comment_line v) (if negb (existsb (same_special c) (sv_comments v)) then [c] else []).
  Proof.
    intros S. unfold addition. rewrite (hd_comment _ _ _ _ HD).
    destruct (Nat.eqb_spec (upto (placeholder c) (map placeholder (sv_comments v))) 0) as [E|E].
    - apply upto_0 in E. destruct (existsb _ _) eqn:X; auto. apply existsb_exists in X as [c' [I Q]].
      apply same_special_eq in Q; auto. subst. elim E. now apply in_map.
    - destruct (existsb _ _) eqn:X; auto. elim E. apply upto_0. intros I. apply placeholder_any in I; auto.
      rewrite <- not_true_iff_false in X. apply X. apply existsb_exists. exists c. split; auto.
      now apply same_special_eq.
  Qed.
  Lemma added_any : added_lines wdefault env (d_ri d r) (sv_entity v) (sv_text v) = map (comment_line v) (missing v).
  Proof.
    destruct HD. unfold added_lines. cbn [wc_sent_id wc_text wdefault].
    destruct (truthy_set _ _ hd_newdoc) as [Td Ed].
    destruct (truthy_set _ _ hd_newpar) as [Tp Ep]. rewrite Td, Tp, (shown_sent_id_is _ _ _ hd_sent_id).
    change (s "# sent_id = " ++ sv_sent_id v) with (comment_line v CSentId).
    change (s "# text = " ++ sv_text v) with (comment_line v CText).
    change P_SENT_ID with (placeholder CSentId). change P_TEXT with (placeholder CText).
    rewrite !addition_any by auto.
    unfold missing, specials.
    assert (N1 : set_val (sv_newdoc v) = true ->
      addition (splitlines (ri_comment (d_ri d r))) P_NEWDOC (HASH :: pardoc (s " newdoc") (ri_newdoc (d_ri d r))) =
      map (comment_line v) (if negb (existsb (same_special CNewdoc) (sv_comments v)) then [CNewdoc] else [])).
    { intros SV. rewrite (Ed SV). rewrite <- addition_any by auto. f_equal. unfold comment_line.
      change (s "# newdoc") with (HASH :: s " newdoc"). rewrite <- ConlluWrite.pardoc_line. destruct (sv_newdoc v); reflexivity. }
    assert (N2 : set_val (sv_newpar v) = true ->
      addition (splitlines (ri_comment (d_ri d r))) P_NEWPAR (HASH :: pardoc (s " newpar") (ri_newpar (d_ri d r))) =
      map (comment_line v) (if negb (existsb (same_special CNewpar) (sv_comments v)) then [CNewpar] else [])).
    { intros SV. rewrite (Ep SV). rewrite <- addition_any by auto. f_equal. unfold comment_line.
      change (s "# newpar") with (HASH :: s " newpar"). rewrite <- ConlluWrite.pardoc_line. destruct (sv_newpar v); reflexivity. }
    assert (N3 : forall x, sv_entity v = Some x ->
      addition (splitlines (ri_comment (d_ri d r))) P_GE (s "# global.Entity = " ++ x) =
      map (comment_line v) (if negb (existsb (same_special CEntity) (sv_comments v)) then [CEntity] else [])).
    { intros x E. rewrite <- addition_any by auto. f_equal. unfold comment_line. rewrite E. reflexivity. }
    rewrite !filter_app, !map_app. rewrite <- !app_assoc. f_equal; [|f_equal].
    - destruct (set_val (sv_newdoc v)); auto. rewrite N1 by auto. rewrite filter_app, map_app. f_equal.
      destruct (sv_entity v); auto.
    - destruct (set_val (sv_newpar v)); auto.
    - simpl filter. destruct (existsb (same_special CSentId) _), (existsb (same_special CText) _); reflexivity.
  Qed.
  Lemma comments_any : (forall c l, sv_comments v = c :: l -> is_special c = true -> set_now v c = true) ->
    exists items, comment_lines wdefault env d r = Ok (map (comment_line v) items) /\
      interleave (filter (set_now v) (sv_comments v)) (missing v) items.
  Proof.
    intros H1. destruct (render_all (sv_comments v)) as [M P]; [apply incl_refl|].
    destruct (comment_lines_ok wdefault env d r (map rendered (sv_comments v)) (sv_entity v) (sv_text v)) as [out [E I]].
    - rewrite (hd_comment _ _ _ _ HD). auto.
    - destruct (sv_comments v) as [|c l]; [discriminate|]. simpl. unfold rendered. specialize (H1 c l eq_refl).
      destruct (is_special c); simpl; [rewrite H1 by auto|]; discriminate.
    - intros _ T. destruct HD. destruct (truthy_set _ _ hd_newdoc) as [Td Ed]. rewrite Td in T.
      unfold shown_ge. destruct (we_bundle env) eqn:B; [|exfalso; now apply BU; auto]. now rewrite hd_entity.
    - intros _ _. apply (hd_text _ _ _ _ HD).
    - rewrite P, added_any in I. apply interleave_map in I as [items [-> I]]. exists items. auto.
  Qed.
  Lemma comments_first c l : sv_comments v = c :: l -> is_special c = true -> set_now v c = false ->
    comment_lines wdefault env d r = Raise AttributeError.
  Proof.
    intros E S N. destruct (render_all (sv_comments v)) as [M P]; [apply incl_refl|].
    unfold comment_lines. rewrite (hd_comment _ _ _ _ HD), M. rewrite E. cbn [rbind map]. unfold rendered. rewrite S, N. reflexivity.
  Qed.
End any_header.

(** ---- lines that are not comments ---- *)
Lemma str_of_Z_head z : exists a y, str_of_Z z = a :: y /\ N.eqb a HASH = false.
Proof.
  destruct z as [|p|p].
  - exists 48%N, []. auto.
  - destruct (num_head (Pos.to_nat p)) as (a & y & E & D). unfold num in E. rewrite positive_nat_Z in E. exists a, y. split; auto.
    unfold is_digit in D. destruct (N.eqb_spec a HASH); auto. subst. discriminate.
  - exists 45%N. eexists. split; reflexivity.
Qed.
Lemma ord_str_head h x : exists a y, ord_str h x = a :: y /\ N.eqb a HASH = false.
Proof.
  unfold ord_str. destruct (is_empty h x); [|apply str_of_Z_head].
  destruct (str_of_Z_head (h_eord h x / 10)%Z) as (a & y & -> & E). simpl. eauto.
Qed.
Lemma head_line cols : (exists a y, hd [] cols = a :: y /\ N.eqb a HASH = false) -> is_comment (join [TAB] cols) = false.
Proof.
  intros (a & y & E & N). destruct cols as [|c cols]; [discriminate|]. simpl in E. subst c. destruct cols; exact N.
Qed.
Lemma token_not_comment lower d : forall l last out, token_lines lower d last l = Ok out -> Forall (fun x => is_comment x = false) out.
Proof.
  induction l as [|x l IH]; intros last out; simpl; [intros [= <-]; constructor|].
  assert (NL : is_comment (node_line lower d x) = false) by (apply head_line; simpl; apply ord_str_head).
  assert (RS : forall last out, rbind (token_lines lower d last l) (fun ls => Ok (node_line lower d x :: ls)) = Ok out ->
    Forall (fun x => is_comment x = false) out).
  { intros la o H. apply rbind_Ok in H as (ls & H & E). injection E as <-. constructor; eauto. }
  destruct (d_mwt d x) as [m|]; [|apply RS]. destruct (last <? okey (d_h d) x)%Z; [|apply RS].
  intros H. apply rbind_Ok in H as (rg & HR & H). destruct (last_opt (mwt_sorted d m)) eqn:L; [|discriminate].
  apply rbind_Ok in H as (ls & H & E). injection E as <-. constructor; [|eapply RS; eauto].
  apply head_line. simpl. unfold ord_range in HR. destruct (mwt_sorted d m) as [|w ws]; [discriminate|]. rewrite L in HR.
  injection HR as <-.
  destruct (str_of_Z_head (h_ord (d_h d) w)) as (a & y & -> & E). simpl. eauto.
Qed.

Lemma write_comments env lower d r v out : header env d r v ->
  (forall x c, In (COther x) (sv_comments v) -> is_special c = true -> x <> placeholder c) ->
  (In CEntity (sv_comments v) \/ set_val (sv_newdoc v) = true -> we_bundle env <> None) ->
  process_tree wdefault env lower d r = Ok out ->
  exists items js rest, out = map (comment_line v) items ++ map json_line js ++ rest /\
    interleave (filter (set_now v) (sv_comments v)) (missing v) items /\
    Permutation js (ri_json (d_ri d r)) /\ Forall (fun l => is_comment l = false) rest.
Proof.
  intros HD OO BU. unfold process_tree. cbn [wc_empty_trees wdefault]. rewrite andb_false_r. intros H.
  apply rbind_Ok in H as (cs & H1 & H). apply rbind_Ok in H as (ts & H2 & H). injection H as <-.
  destruct (comments_any env d r v HD OO BU) as (items & E & I).
  { intros c l Ec S. destruct (set_now v c) eqn:N; auto. rewrite (comments_first env d r v HD OO BU c l) in H1 by auto. discriminate. }
  rewrite E in H1. injection H1 as <-. unfold json_lines.
  eexists items, _, _. split; [|split; [exact I|split; [apply isort_perm|]]].
  - f_equal.
  - apply Forall_app. split; [eapply token_not_comment; eauto|]. apply Forall_app. split; [|repeat constructor].
    destruct (nonempty (h_desc (d_h d) r)); repeat constructor.
Qed.
