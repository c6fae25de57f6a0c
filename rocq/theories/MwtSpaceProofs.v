(** Proofs about ud.FixMwtSpace. *)
From Coq Require Import String List NArith ZArith Bool Lia.
From Verif Require Import PyStr PyStrFacts PyList PyListFacts PyExn TreeModel TreeSpec DualDictModel DocModel MwtSpec MwtProofs TokModel TokSpec TokProofs
  MwtSpaceModel MwtSpaceSpec.
Import ListNotations.

Lemma forms_spaced d : forall l, l <> [] -> (forall x, In x l -> n_form (d_at d x) <> None) ->
  exists fs, wordforms d l = Ok fs /\ (forall f, spaced_forms d l f <-> f = join [SP] fs) /\ fs <> [].
Proof.
  induction l as [|x l IH]; intros N F; [congruence|]. cbn [wordforms]. destruct (n_form (d_at d x)) as [f|] eqn:E; [|elim (F x (or_introl eq_refl)); auto].
  destruct l as [|y l].
  - exists [f]. split; [reflexivity|]. split; [|discriminate]. intros g. cbn [join]. split; [intros S; inversion S as [? ? E'|? ? ? ? ? S']; subst; [congruence|inversion S']|intros ->; constructor; auto].
  - destruct IH as (fs & E2 & S & NE); [discriminate|intros z Hz; apply F; simpl; auto|]. rewrite E2. cbn [rbind]. exists (f :: fs). split; [reflexivity|]. split; [|discriminate].
    intros g. destruct fs as [|f2 fs]; [congruence|]. change (join [SP] (f :: f2 :: fs)) with (f ++ [SP] ++ join [SP] (f2 :: fs)). split.
    + intros W. inversion W as [|? ? f' g' E' W']; subst. rewrite E in E'. injection E' as <-. apply S in W'. subst. reflexivity.
    + intros ->. constructor; auto. apply S. auto.
Qed.

Lemma filter_all {A} (f : A -> bool) l : (forall x, In x l -> f x = true) -> filter f l = l.
Proof. induction l as [|x l IH]; intros H; auto. simpl. rewrite (H x (or_introl eq_refl)), IH; auto. intros; apply H; simpl; auto. Qed.
(** one node *)
Section One.
Variable r : nat.
Definition all_forms (d : doc) := (forall w, In w (h_desc (d_h d) r) -> n_form (d_at d w) <> None) /\ (forall m, In m (d_mwts d r) -> m_form (d_m d m) <> None).

Lemma node_free d x : d_mwt d x = None -> mwt_space_node d x = (d, Ok tt).
Proof. intros E. unfold mwt_space_node. rewrite E. auto. Qed.
Lemma each_free d : forall l, (forall x, In x l -> d_mwt d x = None) -> forall l', each_node mwt_space_node d (l ++ l') = each_node mwt_space_node d l'.
Proof.
  induction l as [|x l IH]; intros F l'; auto. cbn [app each_node]. rewrite node_free by (apply F; simpl; auto). cbn [bind]. apply IH. intros; apply F; simpl; auto.
Qed.
Lemma node_inner d x m w l f : d_mwt d x = Some m -> m_words (d_m d m) = w :: l -> x <> w -> m_form (d_m d m) = Some f -> mwt_space_node d x = (d, Ok tt).
Proof.
  intros E W N F. unfold mwt_space_node. rewrite E, F, W. destruct (has_char SP f); auto. destruct (Nat.eqb_spec x w); [contradiction|auto].
Qed.
Lemma each_inner d m w l f : m_words (d_m d m) = w :: l -> m_form (d_m d m) = Some f -> forall l1, (forall x, In x l1 -> d_mwt d x = Some m /\ x <> w) ->
  forall l', each_node mwt_space_node d (l1 ++ l') = each_node mwt_space_node d l'.
Proof.
  intros W F. induction l1 as [|x l1 IH]; intros H l'; auto. cbn [app each_node]. destruct (H x (or_introl eq_refl)) as [A B].
  rewrite (node_inner d x m w l f) by auto. cbn [bind]. apply IH. intros; apply H; simpl; auto.
Qed.
Lemma node_first d m w l : d_mwt d w = Some m -> m_words (d_m d m) = w :: l -> m_form (d_m d m) <> None ->
  (forall x, In x (w :: l) -> n_form (d_at d x) <> None) ->
  (needless d m /\ mwt_space_node d w = mwt_remove d m) \/ (~ needless d m /\ mwt_space_node d w = (d, Ok tt)).
Proof.
  intros E W F G. unfold mwt_space_node. rewrite E. destruct (m_form (d_m d m)) as [f|] eqn:Ef; [|congruence]. rewrite W.
  destruct (forms_spaced d (w :: l)) as (fs & E2 & S & _); [discriminate|auto|]. rewrite Nat.eqb_refl, E2. cbn [bind].
  assert (ND : needless d m <-> In SP f /\ f = join [SP] fs).
  { unfold needless. rewrite W, Ef. split.
    - intros (g & [= <-] & I & Q). split; auto. apply S; auto.
    - intros [I Q]. exists f. split; auto. split; auto. apply S; auto. }
  destruct (has_char SP f) eqn:Hc.
  - apply has_char_In in Hc. destruct (str_eqb (join [SP] fs) f) eqn:Q.
    + apply str_eqb_eq in Q. left. split; [apply ND; auto|auto].
    + apply str_eqb_neq in Q. right. split; [intros X; apply ND in X as [_ X]; congruence|auto].
  - apply has_char_false in Hc. right. split; [intros X; apply ND in X as [X _]; contradiction|auto].
Qed.
Lemma needless_eq d d' m : d_at d' = d_at d -> d_m d' = d_m d -> (needless d' m <-> needless d m).
Proof.
  intros A M. unfold needless. rewrite M.
  assert (H : forall l f, spaced_forms d' l f <-> spaced_forms d l f).
  { intros l f. split; intros S; induction S; constructor; rewrite ?A in *; auto; rewrite <- ?A; auto. }
  split; intros (f & F & I & S); exists f; (split; [auto|split; [auto|apply H; auto]]).
Qed.
Lemma unwrapped_eq d d' ts ts' : d_at d' = d_at d -> d_m d' = d_m d -> unwrapped d' ts ts' -> unwrapped d ts ts'.
Proof.
  intros A M U. induction U.
  - constructor.
  - constructor; auto.
  - constructor; auto. intros N. apply H. apply (needless_eq d d'); auto.
  - rewrite M. constructor; auto. apply (needless_eq d d'); auto.
Qed.
Lemma flat_words d l : flat_map (token_words d) (map TWord l) = l.
Proof. induction l; simpl; congruence. Qed.

Lemma drop_view d m pre ts : view d r (pre ++ TMwt m :: ts) ->
  exists d', mwt_remove d m = (d', Ok tt) /\ view d' r (pre ++ map TWord (m_words (d_m d m)) ++ ts) /\
    d_h d' = d_h d /\ d_at d' = d_at d /\ d_m d' = d_m d /\ d_ri d' = d_ri d /\
    (forall w, In w (m_words (d_m d m)) -> d_mwt d' w = None) /\ (forall q, q <> r -> d_mwts d' q = d_mwts d q) /\
    (forall m', In m' (d_mwts d' r) -> In m' (d_mwts d r)).
Proof.
  intros V. assert (I : In m (d_mwts d r)). { apply (v_mwts _ _ _ V). apply in_or_app. right. simpl; auto. }
  destruct (ma_listed _ (v_agree _ _ _ V) r m I) as [R L].
  destruct (mwt_remove_ok d m (v_agree _ _ _ V)) as (d' & E & A & H & AT & M & N & RI & F & K); [rewrite R; auto|].
  assert (ONCE : ~ In (TMwt m) (pre ++ ts)).
  { intros Q. pose proof (c_once _ _ (v_tree _ _ _ V)) as ND. rewrite <- (v_words _ _ _ V) in ND.
    assert (NE : m_words (d_m d m) <> []) by (apply (v_ne _ _ _ V), in_or_app; right; simpl; auto).
    destruct (m_words (d_m d m)) as [|w l] eqn:W; [congruence|].
    destruct (NoDup_flat_in (token_words d) pre (TMwt m) ts w ND) as [N1 N2]; [simpl; rewrite W; simpl; auto|].
    apply in_app_or in Q as [Q|Q]; [apply N1|apply N2]; apply in_flat_map; exists (TMwt m); simpl; rewrite W; simpl; auto. }
  exists d'. split; [auto|]. split; [|repeat split; auto].
  - assert (IN : forall t, In t (pre ++ map TWord (m_words (d_m d m)) ++ ts) -> In t (pre ++ ts) \/ exists w, t = TWord w /\ In w (m_words (d_m d m))).
    { intros t Q. rewrite !in_app_iff in *. destruct Q as [Q|[Q|Q]]; auto. apply in_map_iff in Q as (w & <- & Q). eauto. }
    constructor; rewrite ?H; try apply V; auto.
    + rewrite <- (v_words _ _ _ V). assert (TW : forall t, token_words d' t = token_words d t) by (intros [x|x]; simpl; rewrite ?M; auto).
      rewrite (flat_map_ext _ _ TW). rewrite !flat_map_app, flat_words. reflexivity.
    + intros w Q. rewrite K. apply IN in Q as [Q|(w' & [= <-] & Q)].
      * rewrite (v_free _ _ _ V); auto. rewrite in_app_iff in *. simpl. tauto.
      * rewrite (L w Q), Nat.eqb_refl. auto.
    + intros m'. rewrite F, filter_In, <- (v_mwts _ _ _ V). split.
      * intros Q. apply IN in Q as [Q|(w' & [=] & _)]. split; [rewrite in_app_iff in *; simpl; tauto|].
        destruct (Nat.eqb_spec m' m); [subst; contradiction|auto].
      * intros [Q B]. destruct (Nat.eqb_spec m' m); [discriminate|]. rewrite !in_app_iff in *. simpl in Q. destruct Q as [Q|[Q|Q]]; auto. congruence.
    + intros m' Q. rewrite M. apply IN in Q as [Q|(w' & [=] & _)]. apply (v_ne _ _ _ V). rewrite in_app_iff in *. simpl. tauto.
  - intros w Q. rewrite K, (L w Q), Nat.eqb_refl. auto.
  - intros q Nq. rewrite F. apply filter_all. intros m' Q. destruct (Nat.eqb_spec m' m); auto. subst.
    destruct (ma_listed _ (v_agree _ _ _ V) q m Q) as [R' _]. congruence.
  - intros m' Q. rewrite F in Q. apply filter_In in Q. tauto.
Qed.

Lemma run_tokens : forall ts pre d, view d r (pre ++ ts) -> all_forms d ->
  exists d' ts', each_node mwt_space_node d (flat_map (token_words d) ts) = (d', Ok tt) /\ unwrapped d ts ts' /\ view d' r (pre ++ ts') /\
    d_h d' = d_h d /\ d_at d' = d_at d /\ d_m d' = d_m d /\ d_ri d' = d_ri d /\ (forall q, q <> r -> d_mwts d' q = d_mwts d q) /\
    (forall m', In m' (d_mwts d' r) -> In m' (d_mwts d r)).
Proof.
  induction ts as [|t ts IH]; intros pre d V AF.
  - exists d, []. split; [reflexivity|]. split; [apply un_nil|]. auto 10.
  - destruct t as [x|m].
    + destruct (IH (pre ++ [TWord x]) d) as (d' & ts' & E & U & V' & X); [rewrite <- app_assoc; auto|auto|].
      exists d', (TWord x :: ts'). cbn [flat_map token_words app each_node]. rewrite node_free by (apply (v_free _ _ _ V), in_or_app; right; simpl; auto). cbn [bind].
      split; [auto|]. split; [constructor; auto|]. rewrite <- app_assoc in V'. auto.
    + assert (I : In (TMwt m) (pre ++ TMwt m :: ts)) by (apply in_or_app; right; simpl; auto).
      pose proof (v_ne _ _ _ V m I) as NE. pose proof (proj1 (v_mwts _ _ _ V m) I) as Im.
      destruct (ma_listed _ (v_agree _ _ _ V) r m Im) as [_ L].
      destruct (m_words (d_m d m)) as [|w l] eqn:W; [congruence|].
      assert (NDw : NoDup (w :: l)).
      { pose proof (c_once _ _ (v_tree _ _ _ V)) as ND. rewrite <- (v_words _ _ _ V), flat_map_app in ND. apply TreeOps.NoDup_app_inv in ND as (_ & ND & _).
        cbn [flat_map token_words] in ND. rewrite W in ND. apply TreeOps.NoDup_app_inv in ND as (ND & _ & _). auto. }
      assert (FW : forall x, In x (w :: l) -> n_form (d_at d x) <> None).
      { intros x Hx. apply (proj1 AF). apply (view_in _ _ _ (TMwt m) _ V I). simpl. rewrite W. auto. }
      destruct (m_form (d_m d m)) as [f|] eqn:Ef; [|elim (proj2 AF m Im); auto].
      destruct (node_first d m w l) as [[Nd S]|[Nd S]]; auto; [apply L; simpl; auto|congruence| |].
      * destruct (drop_view d m pre ts V) as (d1 & E1 & V1 & H1 & A1 & M1 & R1 & K1 & Q1 & S1).
        rewrite W in V1, K1. rewrite app_assoc in V1.
        destruct (IH (pre ++ map TWord (w :: l)) d1 V1) as (d' & ts' & E & U & V' & H & A & M & R & Q & Sub).
        { split; [rewrite H1, A1; apply AF|]. intros m' Hm'. rewrite M1. apply (proj2 AF). auto. }
        exists d', (map TWord (w :: l) ++ ts'). cbn [flat_map token_words]. rewrite W. cbn [app each_node]. rewrite S, E1. cbn [bind].
        rewrite each_free by (intros x Hx; apply K1; simpl; auto).
        split; [|split; [|split; [|repeat split; try congruence; auto]]].
        -- rewrite <- E. f_equal. apply flat_map_ext. intros [?|?]; simpl; rewrite ?M1; auto.
        -- rewrite <- W. constructor; auto. apply (unwrapped_eq d d1); auto.
        -- rewrite <- app_assoc in V'. exact V'.
        -- intros q Nq. rewrite Q, Q1; auto.
      * destruct (IH (pre ++ [TMwt m]) d) as (d' & ts' & E & U & V' & X); [rewrite <- app_assoc; auto|auto|].
        exists d', (TMwt m :: ts'). cbn [flat_map token_words]. rewrite W. cbn [app each_node]. rewrite S. cbn [bind].
        rewrite (each_inner d m w l f W Ef).
        -- split; [auto|]. split; [constructor; auto|]. rewrite <- app_assoc in V'. auto.
        -- intros x Hx. split; [apply L; simpl; auto|]. intros ->. inversion NDw; contradiction.
Qed.

Lemma space_prop d : sound_sentence d r -> exists d' ts ts',
  token_descendants d r = Ok ts /\ fix_mwt_space d r = (d', Ok tt) /\ sound_sentence d' r /\ token_descendants d' r = Ok ts' /\ unwrapped d ts ts' /\
  d_h d' = d_h d /\ d_at d' = d_at d /\ d_m d' = d_m d /\ d_ri d' = d_ri d /\ (forall q, q <> r -> d_mwts d' q = d_mwts d q).
Proof.
  intros S. destruct (view_of d r S) as (ts & T & V). assert (AF : all_forms d) by (destruct S; auto).
  destruct (run_tokens ts [] d V AF) as (d' & ts' & E & U & V' & H & A & M & R & Q & Sub). exists d', ts, ts'. split; [auto|].
  split; [unfold fix_mwt_space; rewrite <- (v_words _ _ _ V); auto|]. split; [|split; [apply (view_tokens _ _ _ V')|auto 10]].
  apply (view_sound _ _ _ V').
  - rewrite H, A. apply AF.
  - intros m I. rewrite M. apply AF; auto.
Qed.

Lemma space_words d : forall l z f, spaced_forms d (l ++ [z]) f -> (forall x, In x l -> ~ no_space_after d (TWord x)) ->
  flat_map (piece d) (map TWord (l ++ [z])) = f ++ space_unless_no (n_misc (d_at d z)).
Proof.
  induction l as [|x l IH]; intros z f S N.
  - inversion S as [? ? E|? ? ? ? ? S']; subst; [|inversion S']. cbn. unfold piece. cbn [token_form token_misc]. rewrite E, app_nil_r. reflexivity.
  - cbn [app] in S. inversion S as [? ? E W|? ? a b E S']; subst; [destruct l; discriminate|]. cbn [app map flat_map]. rewrite (IH z b); auto; [|intros; apply N; simpl; auto].
    unfold piece. cbn [token_form token_misc]. rewrite E. unfold space_unless_no at 1.
    destruct (val_is (misc_get (n_misc (d_at d x)) SpaceAfter) No) eqn:Q.
    + exfalso. apply (N x); [simpl; auto|]. apply no_space_val. auto.
    + rewrite <- !app_assoc. reflexivity.
Qed.
Lemma unwrapped_text d ts ts' : unwrapped d ts ts' -> (forall m, In (TMwt m) ts -> needless d m -> same_spacing d m) ->
  flat_map (piece d) ts' = flat_map (piece d) ts.
Proof.
  induction 1 as [|x ts ts' U IH|m ts ts' N U IH|m ts ts' N U IH]; intros SP0; cbn [flat_map]; auto; try (rewrite IH; auto; intros; apply SP0; simpl; auto; fail).
  rewrite flat_map_app, IH by (intros; apply SP0; simpl; auto). f_equal.
  destruct (SP0 m (or_introl eq_refl) N) as (l & z & W & I & Z). destruct N as (f & F & _ & S). rewrite W in *. rewrite (space_words d l z f S I).
  unfold piece. cbn [token_form token_misc]. rewrite F. f_equal. unfold space_unless_no. rewrite (no_space_val d (TWord z)), (no_space_val d (TMwt m)) in Z. cbn [token_misc] in Z.
  destruct (val_is _ No), (val_is _ No); auto; destruct Z as [Z1 Z2]; [discriminate Z1|discriminate Z2]; auto.
Qed.
Lemma space_text d d' : sound_sentence d r -> (forall m, In m (d_mwts d r) -> needless d m -> same_spacing d m) ->
  fix_mwt_space d r = (d', Ok tt) -> compute_text d' r true = compute_text d r true.
Proof.
  intros S SS E. destruct (view_of d r S) as (ts & T & V). destruct (space_prop d S) as (d2 & ts1 & ts' & T1 & E2 & S2 & T2 & U & H & A & M & R & Q).
  assert (d2 = d') by congruence. subst d2. assert (ts1 = ts) by congruence. subst ts1.
  destruct (view_of d' r S2) as (ts2 & T3 & V2). assert (ts2 = ts') by congruence. subst ts2.
  rewrite (view_text _ _ _ V2 (view_forms _ _ _ V2 S2)), (view_text _ _ _ V (view_forms _ _ _ V S)). do 2 f_equal.
  rewrite <- (unwrapped_text d ts ts' U); [|intros m I; apply SS, (v_mwts _ _ _ V); auto].
  apply flat_map_ext. intros [x|x]; unfold piece; cbn; rewrite ?A, ?M; auto.
Qed.
End One.
