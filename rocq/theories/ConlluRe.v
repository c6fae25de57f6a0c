(** The regular expressions of the reader on the comment lines of the format. *)
From Coq Require Import String List NArith ZArith Bool Lia.
From Verif Require Import PyStr PyStrFacts PyList PyListFacts PyExn TreeModel DualDictModel DocModel ConlluModel ConlluSpec.
Import ListNotations.

Lemma after_Some p x r : after p x = Some r -> x = p ++ r.
Proof.
  revert x; induction p as [|a p IH]; intros x; simpl; [congruence|].
  destruct x as [|b x]; [discriminate|]. destruct (N.eqb_spec a b) as [->|]; [|discriminate].
  intros H. now rewrite (IH _ H).
Qed.
Lemma after_app p r : after p (p ++ r) = Some r.
Proof. induction p as [|a p IH]; simpl; auto. now rewrite N.eqb_refl. Qed.
Lemma lstrip_split x : exists l, x = l ++ lstrip x /\ spaces l.
Proof.
  destruct (lstrip_prefix x) as [l [E F]]. exists l. split; auto. intros a I.
  rewrite forallb_forall in F. auto.
Qed.
Lemma lstrip_nonspace x : match x with [] => True | a :: _ => is_space a = false end -> lstrip x = x.
Proof. destruct x as [|a x]; auto. intros H. simpl. now rewrite H. Qed.
Lemma lstrip_sp x : lstrip (SP :: x) = lstrip x.
Proof. reflexivity. Qed.
Lemma nonspace_run_all x : no_spaces x -> nonspace_run x = x.
Proof.
  induction x as [|a x IH]; simpl; auto. intros H. rewrite (H a) by (simpl; auto).
  rewrite IH; auto. intros b I. apply H. simpl; auto.
Qed.
Lemma key_run_all x r : ~ In SP x -> ~ In EQ x -> key_run (x ++ SP :: r) = x.
Proof.
  induction x as [|a x IH]; simpl; intros H1 H2; auto.
  destruct (N.eqb_spec a SP); [subst; tauto|]. destruct (N.eqb_spec a EQ); [subst; tauto|].
  simpl. rewrite IH; tauto.
Qed.
Lemma eat_eq_Some x y : eat_eq x = Some y -> x = EQ :: y.
Proof. apply (after_Some [EQ]). Qed.

(** A match implies that the line has the special form. *)
Lemma re_sent_id_line l x : re_sent_id l = Some x -> sent_id_line l.
Proof.
  unfold re_sent_id. destruct (after _ l) as [y|] eqn:A; [|discriminate]. apply after_Some in A.
  destruct (lstrip_split y) as [s1 [Ey S1]]. pose proof (lstrip_head y) as HD.
  destruct (lstrip y) as [|a z] eqn:L; [discriminate|]. unfold eat_eq. simpl after.
  destruct (N.eqb_spec EQ a) as [<-|].
  - destruct (lstrip_split z) as [s2 [Ez S2]]. pose proof (lstrip_head z) as HD2.
    destruct (lstrip z) as [|b w] eqn:L2; intros _.
    + exists s1, [], [], EQ, z. simpl app. rewrite A, Ey. repeat split; auto. intros ? [].
    + exists s1, (s "="), s2, b, w. rewrite A, Ey, Ez. repeat split; auto.
  - intros _. exists s1, [], [], a, z. simpl app. rewrite A, Ey. repeat split; auto. intros ? [].
Qed.
Lemma re_text_line l x : re_text l = Some x -> text_line l.
Proof.
  unfold re_text. destruct (after _ l) as [y|] eqn:A; [|discriminate]. apply after_Some in A.
  destruct (lstrip_split y) as [s1 [Ey S1]].
  destruct (eat_eq (lstrip y)) as [z|] eqn:E; [|discriminate]. apply eat_eq_Some in E. intros _.
  exists s1, z. rewrite A, Ey, E. auto.
Qed.
Lemma space_value_nonempty z v : space_value z = Some v -> z <> [].
Proof. intros H ->. discriminate. Qed.
Lemma re_newpardoc_line l x : re_newpardoc l = Some x -> pardoc_line l.
Proof.
  unfold re_newpardoc.
  assert (T : forall n y v, l = n ++ y -> pardoc_tail y = Some v -> (n = s "# newpar" \/ n = s "# newdoc") -> pardoc_line l).
  { intros n y v El. unfold pardoc_tail. destruct y as [|a y].
    - intros _ Hn. exists n. rewrite app_nil_r in El. auto.
    - destruct (is_space a) eqn:SA; [|discriminate]. set (y' := a :: y) in *.
      destruct (lstrip_split y') as [s1 [Ey S1]].
      destruct (after (s "id") (lstrip y')) as [z|] eqn:A; [|discriminate]. apply after_Some in A.
      destruct (lstrip_split z) as [s2 [Ez S2]].
      destruct (eat_eq (lstrip z)) as [w|] eqn:E; [|discriminate]. apply eat_eq_Some in E.
      destruct (space_value w) as [v'|] eqn:V; [|discriminate]. intros _ Hn.
      exists n. split; auto. right. exists s1, s2, w. rewrite El, Ey, A, Ez, E.
      repeat split; auto; [|now apply space_value_nonempty in V].
      intros ->. cbn [app] in Ey. rewrite <- Ey in A. unfold y' in A. injection A as -> _. discriminate. }
  destruct (after (s "# newpar") l) as [y|] eqn:A1.
  - apply after_Some in A1. destruct (pardoc_tail y) eqn:E; [|discriminate]. intros _. eapply T; eauto.
  - destruct (after (s "# newdoc") l) as [y|] eqn:A2; [|discriminate].
    apply after_Some in A2. destruct (pardoc_tail y) eqn:E; [|discriminate]. intros _. eapply T; eauto.
Qed.
Lemma key_run_split x : exists r, x = key_run x ++ r /\ ~ In SP (key_run x) /\ ~ In EQ (key_run x).
Proof.
  induction x as [|a x [r [E [H1 H2]]]]; simpl.
  - exists []; auto.
  - destruct (N.eqb_spec a SP); simpl; [exists (a :: x); auto|].
    destruct (N.eqb_spec a EQ); simpl; [exists (a :: x); auto|].
    exists r. rewrite E at 1. repeat split; auto; intros [?|?]; auto; congruence.
Qed.
Lemma re_json_line l x : re_json l = Some x -> json_comment l.
Proof.
  unfold re_json.
  assert (T : forall p d y v, l = p ++ y -> json_tail d y = Some v -> (p = s "# json_" \/ p = s "# doc_json_") -> json_comment l).
  { intros p d y v El. unfold json_tail. destruct (key_run_split y) as [r [E [K1 K2]]].
    destruct (key_run y) as [|a k] eqn:KR; [discriminate|].
    assert (skipn (length (a :: k)) y = r) as ->.
    { rewrite E. rewrite skipn_app, skipn_all, Nat.sub_diag. auto. }
    destruct (lstrip_split r) as [s1 [Er S1]].
    destruct (eat_eq (lstrip r)) as [w|] eqn:EE; [|discriminate]. apply eat_eq_Some in EE.
    destruct (space_value w) as [v'|] eqn:V; [|discriminate]. intros _ Hp.
    exists p, (a :: k), s1, w. rewrite El, E, Er, EE. repeat split; auto; try congruence.
    now apply space_value_nonempty in V. }
  destruct (after (s "# doc_json_") l) as [y|] eqn:A1.
  - apply after_Some in A1. intros H. eapply T; eauto.
  - destruct (after (s "# json_") l) as [y|] eqn:A2; [|discriminate].
    apply after_Some in A2. intros H. eapply T; eauto.
Qed.
Lemma re_entity_line l x : re_global_entity l = Some x -> entity_line l.
Proof.
  unfold re_global_entity. destruct (after _ l) as [[|a y]|] eqn:A; try discriminate. apply after_Some in A.
  destruct (after (s "Entity") y) as [z|] eqn:B; [|discriminate]. apply after_Some in B.
  destruct (lstrip_split z) as [s1 [Ez S1]].
  destruct (eat_eq (lstrip z)) as [w|] eqn:E; [|discriminate]. apply eat_eq_Some in E.
  destruct (lstrip_split w) as [s2 [Ew S2]]. pose proof (lstrip_head w) as HD.
  destruct (lstrip w) as [|b u]; [discriminate|]. intros _.
  exists a, s1, s2, b, u. rewrite A, B, Ez, E, Ew. auto 10.
Qed.

(** ---- Parsing the comment lines of the format ---- *)
Definition with_sent_id ri x := mkRI (Some x) (ri_zone ri) (ri_text ri) (ri_comment ri) (ri_newpar ri) (ri_newdoc ri) (ri_json ri) (ri_doc_json ri).
Definition with_text ri x := mkRI (ri_sent_id ri) (ri_zone ri) (Some x) (ri_comment ri) (ri_newpar ri) (ri_newdoc ri) (ri_json ri) (ri_doc_json ri).
Definition with_newpar ri v := mkRI (ri_sent_id ri) (ri_zone ri) (ri_text ri) (ri_comment ri) v (ri_newdoc ri) (ri_json ri) (ri_doc_json ri).
Definition with_newdoc ri v := mkRI (ri_sent_id ri) (ri_zone ri) (ri_text ri) (ri_comment ri) (ri_newpar ri) v (ri_json ri) (ri_doc_json ri).
Definition with_json ri j := mkRI (ri_sent_id ri) (ri_zone ri) (ri_text ri) (ri_comment ri) (ri_newpar ri) (ri_newdoc ri) j (ri_doc_json ri).

(** what reading the comment item does *)
Definition apply_item (v : sentv) (ri : rinfo) (ge : option str) (c : citem) : rinfo * option str :=
  (add_line (match c with
             | CSentId => with_sent_id ri (sv_sent_id v)
             | CText => with_text ri (sv_text v)
             | CNewdoc => with_newdoc ri (sv_newdoc v)
             | CNewpar => with_newpar ri (sv_newpar v)
             | CEntity | COther _ => ri
             end) (placeholder c),
   match c with CEntity => sv_entity v | _ => ge end).

Section parse.
  Variable lower : str -> str.
  Variable canon : str -> option str.
  Variable v : sentv.
  Hypothesis RV : representable lower canon v.

  Lemma parse_item ri ge c : In c (sv_comments v) ->
    parse_comment canon ri ge (comment_line v c) = (apply_item v ri ge c, Ok tt).
  Proof.
    intros I. destruct RV. destruct rv_comments as (OO & _ & Cd & Cp & Ce).
    destruct c as [| | | | |x]; unfold parse_comment, comment_line.
    - destruct rv_sent_id as [NE NS].
      assert (re_sent_id (s "# sent_id = " ++ sv_sent_id v) = Some (sv_sent_id v)) as ->; auto.
      unfold re_sent_id. change (s "# sent_id = " ++ sv_sent_id v) with (s "# sent_id" ++ [SP; EQ; SP] ++ sv_sent_id v).
      rewrite after_app. simpl lstrip. unfold eat_eq. simpl after. cbv iota beta. rewrite lstrip_sp.
      rewrite lstrip_nonspace.
      + destruct (sv_sent_id v) eqn:E; [congruence|]. rewrite <- E in *. now rewrite nonspace_run_all.
      + destruct (sv_sent_id v); auto. apply NS. simpl; auto.
    - destruct rv_text as (NS & _).
      assert (re_sent_id (s "# text = " ++ sv_text v) = None) as -> by reflexivity.
      assert (re_text (s "# text = " ++ sv_text v) = Some (sv_text v)) as ->; auto.
      unfold re_text. change (s "# text = " ++ sv_text v) with (s "# text" ++ [SP; EQ; SP] ++ sv_text v).
      rewrite after_app. simpl lstrip. unfold eat_eq. simpl after. cbv iota beta. rewrite lstrip_sp. now rewrite lstrip_nonspace.
    - specialize (Cd I). unfold with_id.
      destruct (sv_newdoc v) as [| |x] eqn:N; [unfold apply_item; rewrite N; reflexivity|congruence|].
      simpl in rv_newdoc. destruct x as [|a x]; [tauto|]. destruct rv_newdoc as [SA _].
      unfold apply_item. rewrite N. set (y := a :: x).
      change ((s "# newdoc" ++ s " id = " ++ y)) with (s "# newdoc" ++ [SP] ++ s "id" ++ [SP; EQ; SP] ++ y).
      assert (re_sent_id (s "# newdoc" ++ [SP] ++ s "id" ++ [SP; EQ; SP] ++ y) = None) as -> by reflexivity.
      assert (re_text (s "# newdoc" ++ [SP] ++ s "id" ++ [SP; EQ; SP] ++ y) = None) as -> by reflexivity.
      assert (re_newpardoc (s "# newdoc" ++ [SP] ++ s "id" ++ [SP; EQ; SP] ++ y) = Some (false, VStr y)) as ->; auto.
      unfold re_newpardoc.
      assert (after (s "# newpar") (s "# newdoc" ++ [SP] ++ s "id" ++ [SP; EQ; SP] ++ y) = None) as -> by reflexivity.
      rewrite after_app. unfold pardoc_tail, space_value, y. simpl. rewrite SA. reflexivity.
    - specialize (Cp I). unfold with_id.
      destruct (sv_newpar v) as [| |x] eqn:N; [unfold apply_item; rewrite N; reflexivity|congruence|].
      simpl in rv_newpar. destruct x as [|a x]; [tauto|]. destruct rv_newpar as [SA _].
      unfold apply_item. rewrite N. set (y := a :: x).
      change ((s "# newpar" ++ s " id = " ++ y)) with (s "# newpar" ++ [SP] ++ s "id" ++ [SP; EQ; SP] ++ y).
      assert (re_sent_id (s "# newpar" ++ [SP] ++ s "id" ++ [SP; EQ; SP] ++ y) = None) as -> by reflexivity.
      assert (re_text (s "# newpar" ++ [SP] ++ s "id" ++ [SP; EQ; SP] ++ y) = None) as -> by reflexivity.
      assert (re_newpardoc (s "# newpar" ++ [SP] ++ s "id" ++ [SP; EQ; SP] ++ y) = Some (true, VStr y)) as ->; auto.
      unfold re_newpardoc.
      rewrite after_app. unfold pardoc_tail, space_value, y. simpl. rewrite SA. reflexivity.
    - specialize (Ce I). unfold apply_item. destruct (sv_entity v) as [g|] eqn:G; [|congruence].
      destruct rv_entity as [NE NS]. simpl underscore.
      assert (re_sent_id (s "# global.Entity = " ++ g) = None) as -> by reflexivity.
      assert (re_text (s "# global.Entity = " ++ g) = None) as -> by reflexivity.
      assert (re_newpardoc (s "# global.Entity = " ++ g) = None) as -> by reflexivity.
      assert (re_json (s "# global.Entity = " ++ g) = None) as -> by reflexivity.
      assert (re_global_entity (s "# global.Entity = " ++ g) = Some g) as ->; auto.
      unfold re_global_entity. change (s "# global.Entity = " ++ g) with (s "# global" ++ DOT :: s "Entity" ++ [SP; EQ; SP] ++ g).
      rewrite after_app, after_app. simpl lstrip. unfold eat_eq. simpl after. cbv iota beta. rewrite lstrip_sp.
      rewrite lstrip_nonspace.
      + destruct g; [congruence|]. now rewrite nonspace_run_all.
      + destruct g; auto. apply NS. simpl; auto.
    - destruct (OO x I) as (NE & NB & NP & N1 & N2 & N3 & N4 & N5).
      destruct (re_sent_id (s "#" ++ x)) eqn:E1; [apply re_sent_id_line in E1; tauto|].
      destruct (re_text (s "#" ++ x)) eqn:E2; [apply re_text_line in E2; tauto|].
      destruct (re_newpardoc (s "#" ++ x)) eqn:E3; [apply re_newpardoc_line in E3; tauto|].
      destruct (re_json (s "#" ++ x)) eqn:E4; [apply re_json_line in E4; tauto|].
      destruct (re_global_entity (s "#" ++ x)) eqn:E5; [apply re_entity_line in E5; tauto|]. reflexivity.
  Qed.
  Lemma parse_json ri ge k x : In (k, x) (sv_json v) ->
    parse_comment canon ri ge (json_line (k, x)) = ((with_json ri (jset (ri_json ri) k x), ge), Ok tt).
  Proof.
    intros I. destruct RV. destruct rv_json as (_ & J). destruct (J k x I) as (K0 & K1 & K2 & CX & HD).
    unfold parse_comment, json_line. cbn [fst snd].
    assert (re_sent_id (s "# json_" ++ k ++ s " = " ++ x) = None) as -> by reflexivity.
    assert (re_text (s "# json_" ++ k ++ s " = " ++ x) = None) as -> by reflexivity.
    assert (re_newpardoc (s "# json_" ++ k ++ s " = " ++ x) = None) as -> by reflexivity.
    assert (re_json (s "# json_" ++ k ++ s " = " ++ x) = Some (false, k, x)) as ->; [|now rewrite CX].
    unfold re_json.
    assert (after (s "# doc_json_") (s "# json_" ++ k ++ s " = " ++ x) = None) as -> by reflexivity.
    rewrite after_app. unfold json_tail. change (s " = " ++ x) with (SP :: EQ :: SP :: x). rewrite key_run_all by auto.
    destruct k as [|a k]; [congruence|]. rewrite skipn_app, skipn_all, Nat.sub_diag. simpl skipn. simpl app.
    simpl lstrip. unfold eat_eq. simpl after. cbv iota beta. unfold space_value. rewrite lstrip_sp, lstrip_nonspace; [|destruct x; auto].
    destruct x; [tauto|]. reflexivity.
  Qed.
End parse.
