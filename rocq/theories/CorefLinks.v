(** Mentions, words and entities stay linked both ways. *)
From Coq Require Import String List NArith ZArith Bool Lia Sorting.Sorted Sorting.Permutation.
From Verif Require Import PyStr PyStrFacts PyList PyListFacts PyExn TreeModel TreeSpec TreeOps EmptySpec BundleModel BundleSpec
  CorefModel CorefSpec CorefSpan CorefOrder CorefRoots.
Import ListNotations.

(** The same state up to the lists of mentions of nodes. *)
Record sim (c c' : coref) : Prop := {
  si_doc : co_doc c' = co_doc c; si_h : co_h c' = co_h c; si_tree : co_tree c' = co_tree c;
  si_m : m_next c' = m_next c; si_e : e_next c' = e_next c;
  si_head : m_head c' = m_head c; si_ent : m_ent c' = m_ent c; si_eid : e_eid c' = e_eid c; si_type : e_type c' = e_type c;
  si_ments : e_ments c' = e_ments c; si_eids : eids c' = eids c;
  si_words : forall m, m_words c' m = m_words c m
}.
Lemma sim_refl c : sim c c.
Proof. constructor; auto. Qed.
Lemma sim_trans a b c : sim a b -> sim b c -> sim a c.
Proof. intros [] []. constructor; intros; congruence. Qed.
Lemma sim_put_nments c w v : sim c (put_nments c w v).
Proof. constructor; reflexivity. Qed.
Lemma sim_touch c m : m_words c m <> [] -> sim c (touch c m).
Proof. intros N. constructor; try reflexivity. intros x. apply touch_words; auto. Qed.
Lemma sim_touch_all c l : (forall m, In m l -> m_words c m <> []) -> sim c (touch_all c l).
Proof.
  intros H. destruct (touch_all_spec l c H) as [(A1 & A2 & A3 & A4 & A5 & A6 & A7 & A8 & A9 & A10 & A11 & A12) W].
  constructor; auto.
Qed.
Lemma touch_all_nments c l : n_ments (touch_all c l) = n_ments c.
Proof. revert c. induction l as [|m l IH]; intros c; cbn [touch_all]; auto. rewrite IH. reflexivity. Qed.
Lemma mention_lt_sim c c' : sim c c' -> forall m n, mention_lt c' m n = mention_lt c m n.
Proof.
  intros [] m n. unfold mention_lt, words_or_head, node_precedes.
  rewrite !si_words0, si_doc0, si_h0, si_tree0, si_head0, si_ent0, si_eid0. reflexivity.
Qed.

(** Words of one tree: comparisons do not raise. *)
Definition one_tree (c : coref) (r m : nat) : Prop :=
  m_words c m <> [] /\ forall x, In x (m_words c m) -> h_root (co_h c) x = r.
Lemma one_tree_sim c c' r m : sim c c' -> one_tree c r m -> one_tree c' r m.
Proof. intros [] [A B]. unfold one_tree. rewrite si_words0, si_h0. auto. Qed.
Lemma np_one c x y : h_root (co_h c) x = h_root (co_h c) y -> exists v, node_precedes c x y = Ok v.
Proof. intros E. unfold node_precedes, precedes. cbn [fst snd]. rewrite E, Nat.eqb_refl. eauto. Qed.
Lemma lt_one c r m n : one_tree c r m -> one_tree c r n -> exists v, mention_lt c m n = Ok v.
Proof.
  intros [A1 A2] [B1 B2]. unfold mention_lt. rewrite !words_or_head_ok by auto. cbv zeta.
  assert (P : forall x y, In x (m_words c m) -> In y (m_words c n) -> (exists v, node_precedes c x y = Ok v) /\ exists v, node_precedes c y x = Ok v).
  { intros x y Hx Hy. split; apply np_one; rewrite (A2 x), (B2 y); auto. }
  destruct (Nat.eqb _ _).
  - destruct (Nat.ltb _ _); [eauto|]. destruct (Nat.ltb _ _); [eauto|].
    destruct (P _ _ (last_In (m_words c m) 0 A1) (last_In (m_words c n) 0 B1)) as [[v1 ->] [v2 ->]]. cbn [rbind].
    destruct v1; [eauto|]. destruct v2; eauto.
  - destruct (P _ _ (hd_In (m_words c m) 0 A1) (hd_In (m_words c n) 0 B1)) as [[v1 ->] _]. eauto.
Qed.

(** Sorting permutes. *)
Lemma insert_r_perm lt x : forall l l', insert_r lt x l = Ok l' -> Permutation l' (x :: l).
Proof.
  induction l as [|y l IH]; cbn [insert_r]; intros l' H; [injection H as <-; auto|].
  destruct (lt y x) as [[|]|e|]; cbn [rbind] in H; try discriminate.
  - destruct (insert_r lt x l) as [r|e|] eqn:E; cbn [rbind] in H; try discriminate. injection H as <-.
    rewrite (IH r eq_refl). apply perm_swap.
  - injection H as <-. auto.
Qed.
Lemma sort_r_perm lt : forall l l', sort_r lt l = Ok l' -> Permutation l' l.
Proof.
  induction l as [|x l IH]; cbn [sort_r]; intros l' H; [injection H as <-; auto|].
  destruct (sort_r lt l) as [r|e|] eqn:E; cbn [rbind] in H; try discriminate. rewrite (insert_r_perm _ _ _ _ H), (IH r eq_refl). auto.
Qed.
Lemma insert_r_total lt x l : (forall a, In a l -> exists v, lt a x = Ok v) -> exists l', insert_r lt x l = Ok l'.
Proof.
  induction l as [|y l IH]; cbn [insert_r]; intros H; [eauto|].
  destruct (H y (or_introl eq_refl)) as [v ->]. cbn [rbind]. destruct v; [|eauto].
  destruct IH as [r ->]; [intros; apply H; right; auto|]. cbn. eauto.
Qed.
Lemma sort_r_total lt l : (forall a b, In a l -> In b l -> exists v, lt a b = Ok v) -> exists l', sort_r lt l = Ok l'.
Proof.
  induction l as [|x l IH]; cbn [sort_r]; intros H; [eauto|].
  destruct IH as [r E]; [intros; apply H; right; auto|]. rewrite E. cbn [rbind]. apply insert_r_total.
  intros a Ha. apply (Permutation_in _ (sort_r_perm _ _ _ E)) in Ha. apply H; [right; auto|left; auto].
Qed.
Lemma sort_sim c l : (forall m, In m l -> m_words c m <> []) -> sim c (fst (sort_mentions c l)) /\ n_ments (fst (sort_mentions c l)) = n_ments c.
Proof.
  intros H. unfold sort_mentions. cbn [fst]. destruct l as [|a [|b l]]; try (split; [apply sim_refl|reflexivity]).
  split; [apply sim_touch_all; auto|apply touch_all_nments].
Qed.
Lemma sort_total c r l : (forall m, In m l -> one_tree c r m) ->
  exists c' l', sort_mentions c l = (c', Ok l') /\ sim c c' /\ n_ments c' = n_ments c /\ Permutation l' l.
Proof.
  intros H. assert (N : forall m, In m l -> m_words c m <> []) by (intros m Hm; apply (H m Hm)).
  destruct (sort_sim c l N) as [S1 S2]. pose proof (sort_mentions_val c l N) as V.
  destruct (sort_r_total (mention_lt c) l) as [l' E]; [intros a b Ha Hb; apply (lt_one c r); auto|].
  exists (fst (sort_mentions c l)), l'. rewrite (surjective_pairing (sort_mentions c l)), V, E. cbn [fst].
  split; [reflexivity|]. split; auto. split; auto. apply (sort_r_perm _ _ _ E).
Qed.

(** ---- adding and dropping back links ---- *)
Lemma add_backlink_ok c r m w : one_tree c r m -> (forall k, In k (n_ments c w) -> one_tree c r k) ->
  exists c', add_backlink c m w = (c', Ok tt) /\ sim c c' /\ (forall v, v <> w -> n_ments c' v = n_ments c v) /\
    Permutation (n_ments c' w) (m :: n_ments c w).
Proof.
  intros Hm Hk. unfold add_backlink. destruct (last_opt (n_ments c w)) as [k|] eqn:L.
  - assert (Ik : In k (n_ments c w)).
    { clear - L. revert L. induction (n_ments c w) as [|a l IH]; cbn; [discriminate|]. destruct l; [intros [= ->]; left; auto|]. intros H. right. auto. }
    pose proof (Hk k Ik) as Ok1.
    assert (S1 : sim c (touch c m)) by (apply sim_touch; apply Hm).
    assert (S2 : sim c (touch (touch c m) k)).
    { eapply sim_trans; [exact S1|]. apply sim_touch. rewrite (si_words _ _ S1). apply Ok1. }
    cbv zeta. set (c2 := touch (touch c m) k) in *. assert (N2 : n_ments c2 = n_ments c) by reflexivity. clearbody c2.
    unfold mention_gt. rewrite (mention_lt_sim c c2 S2). destruct (lt_one c r m k Hm Ok1) as [v ->]. cbn [rbind].
    set (c3 := put_nments c2 w (n_ments c2 w ++ [m])).
    assert (S3 : sim c c3) by (eapply sim_trans; [exact S2|apply sim_put_nments]).
    assert (W3 : n_ments c3 w = n_ments c w ++ [m]) by (unfold c3; cbn; rewrite upd_same, N2; reflexivity).
    assert (O3 : forall v, v <> w -> n_ments c3 v = n_ments c v) by (intros x Hx; unfold c3; cbn; rewrite upd_other, N2 by auto; reflexivity).
    clearbody c3. destruct (negb v && negb (Nat.eqb m k)).
    + exists c3. split; [reflexivity|]. split; auto. split; auto. rewrite W3. symmetry. apply Permutation_cons_append.
    + destruct (sort_total c3 r (n_ments c3 w)) as (c4 & l & -> & S4 & N4 & P4).
      { intros x Hx. apply (one_tree_sim c c3 r x S3). rewrite W3 in Hx. apply in_app_or in Hx. destruct Hx as [Hx|[<-|[]]]; auto. }
      cbn [bind]. exists (put_nments c4 w l). split; [reflexivity|].
      split; [eapply sim_trans; [exact S3|]; eapply sim_trans; [exact S4|apply sim_put_nments]|].
      split; [intros x Hx; cbn; rewrite upd_other, N4 by auto; auto|].
      cbn. rewrite upd_same, P4, W3. symmetry. apply Permutation_cons_append.
  - assert (E : n_ments c w = []).
    { destruct (n_ments c w) as [|a l]; auto. exfalso. clear - L. revert a L. induction l as [|b l IH]; intros a; cbn; [discriminate|]. apply (IH b). }
    exists (put_nments c w [m]). split; [reflexivity|]. split; [apply sim_put_nments|]. split; [intros x Hx; cbn; apply upd_other; auto|].
    cbn. rewrite upd_same, E. auto.
Qed.
Lemma add_backlinks_ok r m l : forall c, one_tree c r m -> NoDup l -> (forall w k, In w l -> In k (n_ments c w) -> one_tree c r k) ->
  exists c', add_backlinks c m l = (c', Ok tt) /\ sim c c' /\ (forall v, ~ In v l -> n_ments c' v = n_ments c v) /\
    forall w, In w l -> Permutation (n_ments c' w) (m :: n_ments c w).
Proof.
  induction l as [|w l IH]; intros c Hm ND Hk; cbn [add_backlinks].
  - exists c. split; [reflexivity|]. split; [apply sim_refl|]. split; auto. intros w [].
  - inversion ND as [|? ? N1 N2]; subst. destruct (add_backlink_ok c r m w Hm) as (c1 & -> & S1 & A1 & B1); [intros; apply (Hk w); auto; left; auto|].
    cbn [bind]. destruct (IH c1) as (c2 & -> & S2 & A2 & B2); auto.
    + apply (one_tree_sim c); auto.
    + intros v k Hv Hk'. apply (one_tree_sim c); auto. rewrite A1 in Hk' by (intros ->; tauto). apply (Hk v); auto. right; auto.
    + exists c2. split; [reflexivity|]. split; [eapply sim_trans; eauto|]. split.
      * intros v Hv. cbn in Hv. rewrite A2 by tauto. apply A1. intros ->; tauto.
      * intros v [<-|Hv]; [rewrite A2 by auto; auto|]. rewrite B2 by auto. rewrite A1 by (intros ->; tauto). auto.
Qed.
Lemma drop_backlinks_ok m l : forall c, NoDup l -> (forall w, In w l -> In m (n_ments c w) /\ NoDup (n_ments c w)) ->
  exists c', drop_backlinks c m l = (c', Ok tt) /\ sim c c' /\ (forall v, ~ In v l -> n_ments c' v = n_ments c v) /\
    forall w, In w l -> n_ments c' w = filter (fun k => negb (Nat.eqb k m)) (n_ments c w).
Proof.
  induction l as [|w l IH]; intros c ND H; cbn [drop_backlinks].
  - exists c. split; [reflexivity|]. split; [apply sim_refl|]. split; auto. intros w [].
  - inversion ND as [|? ? N1 N2]; subst. destruct (H w (or_introl eq_refl)) as [H1 H2]. rewrite list_remove_filter by auto.
    set (c1 := put_nments c w _).
    assert (A1 : forall v, v <> w -> n_ments c1 v = n_ments c v) by (intros v Hv; cbn; apply upd_other; auto).
    assert (B1 : n_ments c1 w = filter (fun k => negb (Nat.eqb k m)) (n_ments c w)) by (cbn; apply upd_same).
    assert (S1 : sim c c1) by apply sim_put_nments. clearbody c1.
    destruct (IH c1) as (c2 & -> & S2 & A2 & B2); auto.
    + intros v Hv. rewrite A1 by (intros ->; tauto). apply H; right; auto.
    + exists c2. split; [reflexivity|]. split; [eapply sim_trans; eauto|]. split.
      * intros v Hv. cbn in Hv. rewrite A2 by tauto. apply A1. intros ->; tauto.
      * intros v [<-|Hv]; [rewrite A2 by auto; auto|]. rewrite B2 by auto. rewrite A1 by (intros ->; tauto). auto.
Qed.

(** ---- the invariant ---- *)
Lemma linked_ext c c' : linked c -> co_h c' = co_h c -> m_next c' = m_next c -> e_next c' = e_next c ->
  (forall m, m_head c' m = m_head c m) -> (forall m, m_ent c' m = m_ent c m) -> (forall e, Permutation (e_ments c' e) (e_ments c e)) ->
  (forall w, Permutation (n_ments c' w) (n_ments c w)) -> (forall m, Permutation (m_words c' m) (m_words c m)) -> linked c'.
Proof.
  intros [L1 L2 L3 L4 L5 L6] Eh Em Ee Hh He Pe Pn Pw.
  assert (Hl : forall m, listed c' m <-> listed c m).
  { intros m. unfold listed. rewrite He. split; apply Permutation_in; [apply Pe|symmetry; apply Pe]. }
  assert (Iw : forall m x, In x (m_words c' m) <-> In x (m_words c m)).
  { intros m x. split; apply Permutation_in; [apply Pw|symmetry; apply Pw]. }
  constructor.
  - intros e m Hm. rewrite He. apply L1. eapply Permutation_in; eauto.
  - intros e. eapply Permutation_NoDup; [symmetry; apply Pe|auto].
  - intros w m. rewrite Hl, Iw, <- L3. split; apply Permutation_in; [apply Pn|symmetry; apply Pn].
  - intros w. eapply Permutation_NoDup; [symmetry; apply Pn|auto].
  - intros m Hm. apply Hl in Hm. destruct (L5 m Hm) as (A & B & D & F). rewrite Hh, Eh. split; [|split; [|split]].
    + intros E. specialize (Pw m). rewrite E in Pw. apply Permutation_nil in Pw. auto.
    + eapply Permutation_NoDup; [symmetry; apply Pw|auto].
    + apply Iw; auto.
    + intros x Hx. apply F. apply Iw; auto.
  - intros e m Hm. apply (Permutation_in m (Pe e)) in Hm. destruct (L6 e m Hm) as (A & B & D). rewrite Ee, Em, Eh.
    split; auto. split; auto. intros x Hx. apply D. apply Iw; auto.
Qed.
Lemma linked_sim c c' : linked c -> sim c c' -> (forall w, Permutation (n_ments c' w) (n_ments c w)) -> linked c'.
Proof.
  intros L [] P. apply (linked_ext c c' L); auto; intros; rewrite ?si_head0, ?si_ent0, ?si_ments0, ?si_words0; auto.
Qed.
Lemma linked_one c m w : linked c -> In m (n_ments c w) -> one_tree c (h_root (co_h c) w) m.
Proof.
  intros L H. apply (lk_nodes c L) in H. destruct H as [H1 H2]. destruct (lk_words c L m H1) as (A & _ & _ & D).
  split; auto. intros x Hx. rewrite (D x Hx), (D w H2). reflexivity.
Qed.
Lemma entity_words c e m : linked c -> In m (e_ments c e) -> m_words c m <> [].
Proof.
  intros L H. apply (lk_words c L m). unfold listed. rewrite (lk_ents c L e m H). auto.
Qed.

(** e.mentions.sort() *)
Lemma sort_linked {A} c e (a : A) : linked c -> linked (fst (bind (sort_mentions c (e_ments c e)) (fun c l => (put_ements c e l, Ok a)))).
Proof.
  intros L. destruct (sort_sim c (e_ments c e) (fun m => entity_words c e m L)) as [S N].
  assert (V := sort_mentions_val c (e_ments c e) (fun m => entity_words c e m L)).
  destruct (sort_mentions c (e_ments c e)) as [c' [l|x|]]; cbn [fst snd bind] in *;
    [|apply (linked_sim c c' L S); intros; rewrite N; auto|apply (linked_sim c c' L S); intros; rewrite N; auto].
  symmetry in V. pose proof (sort_r_perm _ _ _ V) as P. destruct S.
  apply (linked_ext c _ L); cbn; auto; intros; rewrite ?si_head0, ?si_ent0, ?N, ?si_words0; auto.
  unfold upd. destruct (Nat.eqb_spec e0 e) as [->|]; auto. rewrite si_ments0. auto.
Qed.

(** A new mention. *)
Lemma new_mention_linked c e h : linked c -> e < e_next c -> h < h_next (co_h c) ->
  exists c', new_mention c e h = (c', Ok (m_next c)) /\ linked c' /\ listed c' (m_next c) /\ m_head c' (m_next c) = h /\
    m_words c' (m_next c) = [h] /\ co_h c' = co_h c /\ (forall x, e_ments c' x = if Nat.eqb x e then e_ments c e ++ [m_next c] else e_ments c x) /\
    m_ent c' (m_next c) = e.
Proof.
  intros L He Hh. unfold new_mention. set (m := m_next c). cbv zeta.
  set (c1 := mkCo _ _ _ _ _ _ _ _ _ _ _ _ _).
  assert (Fe : forall x, ~ In m (e_ments c x)).
  { intros x Hx. destruct (lk_known c L x m Hx) as (_ & A & _). unfold m in A. lia. }
  assert (Fn : forall w, ~ In m (n_ments c w)).
  { intros w Hw. apply (lk_nodes c L) in Hw. destruct Hw as [Hw _]. apply (Fe _ Hw). }
  assert (Wm : m_words c1 m = [h]) by (cbn; apply upd_same).
  assert (Wo : forall k, k <> m -> m_words c1 k = m_words c k) by (intros; cbn; apply upd_other; auto).
  assert (Em : m_ent c1 m = e) by (cbn; apply upd_same).
  assert (Eo : forall k, k <> m -> m_ent c1 k = m_ent c k) by (intros; cbn; apply upd_other; auto).
  assert (Hm : m_head c1 m = h) by (cbn; apply upd_same).
  assert (Ho : forall k, k <> m -> m_head c1 k = m_head c k) by (intros; cbn; apply upd_other; auto).
  assert (Ee : e_ments c1 e = e_ments c e ++ [m]) by (cbn; apply upd_same).
  assert (Eeo : forall x, x <> e -> e_ments c1 x = e_ments c x) by (intros; cbn; apply upd_other; auto).
  assert (Ie : forall x k, In k (e_ments c1 x) <-> (k = m /\ x = e) \/ (k <> m /\ In k (e_ments c x))).
  { intros x k. destruct (Nat.eq_dec x e) as [->|N]; [rewrite Ee, in_app_iff; cbn [In]|rewrite Eeo by auto].
    - destruct (Nat.eq_dec k m) as [->|]; [tauto|]. split; [intros [?|[?|[]]]; [auto|congruence]|tauto].
    - destruct (Nat.eq_dec k m) as [->|]; [|tauto]. split; [intros H; destruct (Fe _ H)|tauto]. }
  assert (Nn : n_ments c1 = n_ments c) by reflexivity. assert (Nh : co_h c1 = co_h c) by reflexivity.
  assert (Nm : m_next c1 = Datatypes.S m) by reflexivity. assert (Ne : e_next c1 = e_next c) by reflexivity.
  clearbody c1.
  destruct (add_backlinks_ok (h_root (co_h c) h) m [h] c1) as (c2 & E2 & S2 & A2 & B2).
  - unfold one_tree. rewrite Wm, Nh. split; [discriminate|]. intros x [<-|[]]. reflexivity.
  - constructor; [auto|constructor].
  - intros w k [<-|[]] Hk. rewrite Nn in Hk. destruct (linked_one c k h L Hk) as [O1 O2]. unfold one_tree.
    rewrite Wo, Nh by (intros ->; destruct (Fn _ Hk)). auto.
  - rewrite E2. cbn [bind]. exists c2. split; [reflexivity|].
    assert (In2 : forall w k, In k (n_ments c2 w) <-> (k = m /\ w = h) \/ (k <> m /\ In k (n_ments c w))).
    { intros w k. destruct (Nat.eq_dec w h) as [->|N].
      - assert (P := B2 h (or_introl eq_refl)). rewrite Nn in P.
        assert (In k (n_ments c2 h) <-> In k (m :: n_ments c h)) as -> by (split; apply Permutation_in; [auto|symmetry; auto]).
        cbn [In]. destruct (Nat.eq_dec k m) as [->|]; [tauto|]. split; [intros [?|?]; [congruence|auto]|tauto].
      - rewrite A2 by (intros [?|[]]; congruence). rewrite Nn. destruct (Nat.eq_dec k m) as [->|]; [|tauto].
        split; [intros H; destruct (Fn _ H)|tauto]. }
    destruct S2.
    assert (Ls : forall k, listed c2 k <-> k = m \/ (k <> m /\ listed c k)).
    { intros k. unfold listed. rewrite si_ments0, si_ent0, Ie. destruct (Nat.eq_dec k m) as [->|N]; [rewrite Em; tauto|rewrite Eo by auto; tauto]. }
    split; [|split; [apply Ls; auto|split; [rewrite si_head0; auto|split; [rewrite si_words0; auto|split; [congruence|split]]]]].
    2:{ intros x. rewrite si_ments0. destruct (Nat.eqb_spec x e) as [->|]; auto. }
    2:{ rewrite si_ent0. auto. }
    constructor.
    + intros x k Hk. rewrite si_ments0, Ie in Hk. rewrite si_ent0. destruct Hk as [[-> ->]|[N Hk]]; [auto|]. rewrite Eo by auto. apply (lk_ents c L); auto.
    + intros x. rewrite si_ments0. destruct (Nat.eq_dec x e) as [->|]; [rewrite Ee|rewrite Eeo by auto; apply (lk_ents_once c L)].
      eapply Permutation_NoDup; [apply Permutation_cons_append|]. constructor; [apply Fe|apply (lk_ents_once c L)].
    + intros w k. rewrite In2, Ls, si_words0. destruct (Nat.eq_dec k m) as [->|].
      * rewrite Wm. cbn [In]. split; [intros [[_ ->]|[? _]]; [auto|congruence]|]. intros [_ [->|[]]]. auto.
      * rewrite Wo by auto. rewrite (lk_nodes c L). tauto.
    + intros w. destruct (Nat.eq_dec w h) as [->|].
      * eapply Permutation_NoDup; [symmetry; apply (B2 h (or_introl eq_refl))|]. rewrite Nn. constructor; [apply Fn|apply (lk_nodes_once c L)].
      * rewrite A2, Nn by (intros [?|[]]; congruence). apply (lk_nodes_once c L).
    + intros k Hk. rewrite si_words0, si_head0, si_h0, Nh. apply Ls in Hk. destruct Hk as [->|[N Hk]].
      * rewrite Wm, Hm. split; [discriminate|]. split; [constructor; [auto|constructor]|]. split; [left; auto|]. intros x [<-|[]]. auto.
      * rewrite Wo, Ho by auto. apply (lk_words c L k Hk).
    + intros x k Hk. rewrite si_ments0, Ie in Hk. rewrite si_e0, si_m0, si_words0, si_h0, Ne, Nm, Nh. destruct Hk as [[-> ->]|[N Hk]].
      * rewrite Wm. split; [auto|]. split; [lia|]. intros y [<-|[]]. auto.
      * rewrite Wo by auto. destruct (lk_known c L x k Hk) as (B1 & B3 & B4). split; [auto|]. split; [unfold m; lia|auto].
Qed.

(** m.words = ws *)
Lemma set_words_linked c m ws : linked c -> listed c m -> ws <> [] -> words_of_tree c (m_head c m) ws -> linked (fst (set_words c m ws)).
Proof.
  intros L Hl Hn Ht. unfold set_words. destruct (mem (m_head c m) ws) eqn:Mh.
  2:{ destruct ws; [congruence|]. cbn [nonempty negb andb fst]. auto. }
  apply mem_In in Mh. rewrite andb_false_r. cbv zeta.
  set (nw := sort_on (okey (co_h c)) (nodup Nat.eq_dec ws)).
  assert (Inw : forall x, In x nw <-> In x ws).
  { intros x. unfold nw. rewrite <- (nodup_In Nat.eq_dec ws x). split; apply Permutation_in; [apply sort_on_perm|symmetry; apply sort_on_perm]. }
  assert (NDw : NoDup nw).
  { eapply Permutation_NoDup; [symmetry; apply sort_on_perm|]. apply NoDup_nodup. }
  assert (Nnw : nw <> []).
  { intros E. apply (proj2 (Inw (m_head c m))) in Mh. rewrite E in Mh. destruct Mh. }
  clearbody nw. destruct (lk_words c L m Hl) as (W1 & W2 & W3 & W4).
  destruct (drop_backlinks_ok m (filter (fun w => negb (mem w nw)) (m_words c m)) c) as (c1 & -> & S1 & A1 & B1).
  { apply NoDup_filter; auto. }
  { intros w Hw. apply filter_In in Hw. split; [apply (lk_nodes c L); tauto|apply (lk_nodes_once c L)]. }
  cbn [bind].
  assert (A1' : forall w, In w nw \/ ~ In w (m_words c m) -> n_ments c1 w = n_ments c w).
  { intros w Hw. apply A1. rewrite filter_In, negb_true_iff. intros [X Y]. apply mem_false in Y. tauto. }
  set (l := filter (fun w => negb (mem w (filter (fun w0 => mem w0 nw) (m_words c m)))) nw).
  assert (Il : forall w, In w l <-> In w nw /\ ~ In w (m_words c m)).
  { intros w. unfold l. rewrite filter_In, negb_true_iff, mem_false, filter_In, mem_In. tauto. }
  assert (NDl : NoDup l) by (apply NoDup_filter; auto). clearbody l.
  set (c2 := put_words c1 m nw). destruct S1.
  assert (Wm : m_words c2 m = nw) by (cbn; apply upd_same).
  assert (Wo : forall k, k <> m -> m_words c2 k = m_words c k) by (intros; cbn; rewrite upd_other by auto; auto).
  assert (N2 : n_ments c2 = n_ments c1) by reflexivity.
  assert (D2 : co_h c2 = co_h c /\ m_next c2 = m_next c /\ e_next c2 = e_next c /\ m_head c2 = m_head c /\ m_ent c2 = m_ent c /\ e_ments c2 = e_ments c)
    by (cbn; auto 10).
  clearbody c2. destruct D2 as (D1 & D2 & D3 & D4 & D5 & D6).
  destruct (add_backlinks_ok (h_root (co_h c) (m_head c m)) m l c2) as (c3 & -> & S3 & A3 & B3); auto.
  { unfold one_tree. rewrite Wm, D1. split; auto. intros x Hx. apply Ht. apply Inw; auto. }
  { intros w k Hw Hk. apply Il in Hw. rewrite N2, A1' in Hk by tauto. destruct (linked_one c k w L Hk) as [O1 O2].
    assert (k <> m) by (intros ->; apply (lk_nodes c L) in Hk; tauto). unfold one_tree. rewrite Wo, D1 by auto. split; auto.
    intros x Hx. rewrite (O2 x Hx). apply Ht. apply Inw. tauto. }
  cbn [fst]. destruct S3.
  assert (In3 : forall w k, In k (n_ments c3 w) <-> (k = m /\ In w nw) \/ (k <> m /\ In k (n_ments c w))).
  { intros w k. destruct (in_dec Nat.eq_dec w l) as [Hw|Hw].
    - assert (In k (n_ments c3 w) <-> In k (m :: n_ments c2 w)) as -> by (split; apply Permutation_in; [auto|symmetry; auto]).
      apply Il in Hw. rewrite N2, A1' by tauto. cbn [In]. destruct (Nat.eq_dec k m) as [->|]; [tauto|]. split; [intros [?|?]; [congruence|auto]|tauto].
    - rewrite A3, N2 by auto. rewrite Il in Hw. destruct (in_dec Nat.eq_dec w nw) as [Hn'|Hn'].
      + rewrite A1' by auto. destruct (Nat.eq_dec k m) as [->|]; [|tauto]. rewrite (lk_nodes c L).
        destruct (in_dec Nat.eq_dec w (m_words c m)); tauto.
      + destruct (in_dec Nat.eq_dec w (m_words c m)) as [Ho|Ho].
        * rewrite B1 by (apply filter_In; split; auto; apply negb_true_iff; apply mem_false; auto).
          rewrite filter_In, negb_true_iff, Nat.eqb_neq. destruct (Nat.eq_dec k m) as [->|]; tauto.
        * rewrite A1' by auto. destruct (Nat.eq_dec k m) as [->|]; [|tauto]. rewrite (lk_nodes c L). tauto. }
  constructor.
  - intros e k Hk. rewrite si_ments1, D6 in Hk. rewrite si_ent1, D5. apply (lk_ents c L); auto.
  - intros e. rewrite si_ments1, D6. apply (lk_ents_once c L).
  - intros w k. rewrite In3. unfold listed. rewrite si_ments1, si_ent1, D5, D6, si_words1. fold (listed c k).
    destruct (Nat.eq_dec k m) as [->|]; [rewrite Wm; tauto|]. rewrite Wo by auto. rewrite (lk_nodes c L). tauto.
  - intros w. destruct (in_dec Nat.eq_dec w l) as [Hw|Hw].
    + eapply Permutation_NoDup; [symmetry; apply (B3 w Hw)|]. apply Il in Hw. rewrite N2, A1' by tauto.
      constructor; [rewrite (lk_nodes c L); tauto|apply (lk_nodes_once c L)].
    + rewrite A3, N2 by auto. destruct (in_dec Nat.eq_dec w (filter (fun w => negb (mem w nw)) (m_words c m))) as [Hx|Hx].
      * rewrite B1 by auto. apply NoDup_filter. apply (lk_nodes_once c L).
      * rewrite A1 by auto. apply (lk_nodes_once c L).
  - intros k Hk. unfold listed in Hk. rewrite si_ments1, si_ent1, D5, D6 in Hk. rewrite si_words1, si_head1, si_h1, D1, D4.
    destruct (Nat.eq_dec k m) as [->|].
    + rewrite Wm. split; auto. split; auto. split; [apply Inw; auto|]. intros x Hx. apply Ht. apply Inw; auto.
    + rewrite Wo by auto. apply (lk_words c L k Hk).
  - intros e k Hk. rewrite si_ments1, D6 in Hk. rewrite si_e1, si_m1, si_h1, D1, D2, D3, si_words1.
    destruct (lk_known c L e k Hk) as (B4 & B5 & B6). split; auto. split; auto.
    destruct (Nat.eq_dec k m) as [->|]; [rewrite Wm; intros x Hx; apply Ht; apply Inw; auto|rewrite Wo by auto; auto].
Qed.

Lemma span_in_tree h r t l : good_tree h r -> span_to_nodes h r t = Ok l -> forall x, In x l -> x < h_next h /\ h_root h x = r.
Proof.
  intros [C G] E x Hx. unfold span_to_nodes in E. destruct (parse_ranges _) as [rg|]; [|discriminate]. injection E as <-.
  apply filter_In in Hx. destruct Hx as [Hx _]. unfold descendants_and_empty in Hx.
  apply (Permutation_in x (sort_on_perm _ _)) in Hx. apply in_app_or in Hx. destruct Hx as [Hx|Hx].
  - assert (live h r x) by (right; auto). split; [apply (c_alloc h r C); auto|apply (c_roots h r C); auto].
  - split; [apply (ge_alloc h r G); auto|apply (ge_root h r G); auto].
Qed.
Lemma set_span_linked c m t : linked c -> listed c m -> good_tree (co_h c) (h_root (co_h c) (m_head c m)) ->
  span_to_nodes (co_h c) (h_root (co_h c) (m_head c m)) t <> Ok [] -> linked (fst (set_span c m t)).
Proof.
  intros L Hl G N. unfold set_span. destruct (span_to_nodes _ _ t) as [l|e|] eqn:E; cbn [bind fst]; auto.
  apply set_words_linked; auto; [congruence|]. intros w Hw. apply (span_in_tree _ _ _ _ G E w Hw).
Qed.

(** e.create_mention(...) *)
Lemma after_words {A} c e (a : A) (r : coref * res unit) : linked (fst r) -> r = c ->
  linked (fst (bind c (fun c _ => bind (sort_mentions c (e_ments c e)) (fun c l => (put_ements c e l, Ok a))))).
Proof. intros L <-. destruct r as [c' [u|x|]]; cbn [bind fst] in *; auto. apply sort_linked; auto. Qed.
Lemma create_linked c e hd ws sp : linked c -> keeps_links c (CoCreate e hd ws sp) -> linked (fst (create_mention c e hd ws sp)).
Proof.
  intros L (He & H1 & H2). unfold create_mention.
  assert (G1 : forall x, words_of_tree c x (x :: ws) -> ws <> [] -> linked (fst (bind (new_mention c e x) (fun c m => bind (set_words c m ws) (fun c _ =>
      bind (sort_mentions c (e_ments c e)) (fun c l => (put_ements c e l, Ok m))))))).
  { intros x Hx Hn. destruct (new_mention_linked c e x L He) as (c' & -> & L' & Ls & Hh & _ & Hc & _); [apply Hx; left; auto|].
    cbn [bind]. eapply after_words; [|reflexivity]. apply set_words_linked; auto. rewrite Hh. intros w Hw. rewrite Hc. apply Hx. right; auto. }
  assert (G2 : forall x, words_of_tree c x [x] ->
      (forall t, sp = Some t -> good_tree (co_h c) (h_root (co_h c) x) /\ span_to_nodes (co_h c) (h_root (co_h c) x) t <> Ok []) ->
      linked (fst (bind (new_mention c e x) (fun c m => bind (match sp with Some x => set_span c m x | None => (c, Ok tt) end) (fun c _ =>
      bind (sort_mentions c (e_ments c e)) (fun c l => (put_ements c e l, Ok m))))))).
  { intros x Hx Ht. destruct (new_mention_linked c e x L He) as (c' & -> & L' & Ls & Hh & _ & Hc & _); [apply Hx; left; auto|].
    cbn [bind]. eapply after_words; [|reflexivity]. destruct sp as [t|]; [|exact L']. destruct (Ht t eq_refl).
    apply set_span_linked; rewrite ?Hh, ?Hc; auto. }
  destruct hd as [x|].
  - destruct (H1 x eq_refl) as [Hx Ht]. destruct ws as [|w ws].
    + destruct sp; apply G2; auto.
    + destruct sp as [t|]; [exact L|]. destruct (mem x (w :: ws)); [|exact L]. apply G1; auto. discriminate.
  - destruct ws as [|w ws].
    + destruct sp; exact L.
    + destruct sp as [t|]; [exact L|]. apply G1; [|discriminate]. intros y Hy. apply (H2 w ws eq_refl).
      destruct Hy as [<-|Hy]; [left|]; auto.
Qed.

(** m.entity = e *)
Lemma set_entity_linked c m e : linked c -> e < e_next c -> snd (set_entity c m e) = Ok tt -> linked (fst (set_entity c m e)).
Proof.
  intros L He. unfold set_entity. destruct (list_remove m (e_ments c (m_ent c m))) as [l|] eqn:R; [|discriminate].
  assert (Hl : listed c m).
  { unfold listed. destruct (in_dec Nat.eq_dec m (e_ments c (m_ent c m))) as [H|H]; auto. apply list_remove_None in H. congruence. }
  rewrite list_remove_filter in R by (auto; apply (lk_ents_once c L)). injection R as <-.
  set (c1 := put_ent _ m e). cbv zeta.
  assert (Ie1 : forall x k, In k (e_ments c1 x) <-> k <> m /\ In k (e_ments c x)).
  { intros x k. cbn. unfold upd. destruct (Nat.eqb_spec x (m_ent c m)) as [->|N].
    - rewrite filter_In, negb_true_iff, Nat.eqb_neq. tauto.
    - split; [|tauto]. intros H. split; auto. intros ->. apply N. symmetry. apply (lk_ents c L); auto. }
  assert (Nd1 : forall x, NoDup (e_ments c1 x)).
  { intros x. cbn. unfold upd. destruct (Nat.eqb_spec x (m_ent c m)) as [->|N]; [apply NoDup_filter|]; apply (lk_ents_once c L). }
  assert (Em : m_ent c1 m = e) by (cbn; apply upd_same).
  assert (Eo : forall k, k <> m -> m_ent c1 k = m_ent c k) by (intros; cbn; apply upd_other; auto).
  assert (D : co_h c1 = co_h c /\ m_next c1 = m_next c /\ e_next c1 = e_next c /\ m_head c1 = m_head c /\ m_words c1 = m_words c /\ n_ments c1 = n_ments c)
    by (cbn; auto 10).
  clearbody c1. destruct D as (D1 & D2 & D3 & D4 & D5 & D6).
  destruct (bisect _ _ _ _ _ _) as [i|x|]; cbn [bind snd fst]; try discriminate. intros _.
  set (c2 := put_ements c1 e _).
  assert (P2 : Permutation (e_ments c2 e) (m :: e_ments c1 e)).
  { cbn. rewrite upd_same. rewrite <- (firstn_skipn i (e_ments c1 e)) at 3. symmetry. apply Permutation_middle. }
  assert (O2 : forall x, x <> e -> e_ments c2 x = e_ments c1 x) by (intros; cbn; apply upd_other; auto).
  assert (Ie : forall x k, In k (e_ments c2 x) <-> (k = m /\ x = e) \/ (k <> m /\ In k (e_ments c x))).
  { intros x k. destruct (Nat.eq_dec x e) as [->|N].
    - assert (In k (e_ments c2 e) <-> In k (m :: e_ments c1 e)) as -> by (split; apply Permutation_in; [auto|symmetry; auto]).
      cbn [In]. rewrite Ie1. destruct (Nat.eq_dec k m) as [->|]; [tauto|]. split; [intros [?|?]; [congruence|tauto]|tauto].
    - rewrite O2, Ie1 by auto. destruct (Nat.eq_dec k m); tauto. }
  assert (F : co_h c2 = co_h c1 /\ m_next c2 = m_next c1 /\ e_next c2 = e_next c1 /\ m_head c2 = m_head c1 /\ m_words c2 = m_words c1 /\ n_ments c2 = n_ments c1 /\ m_ent c2 = m_ent c1)
    by (cbn; auto 10).
  clearbody c2. destruct F as (F1 & F2 & F3 & F4 & F5 & F6 & F7).
  assert (Ls : forall k, listed c2 k <-> listed c k).
  { intros k. unfold listed. rewrite F7, Ie. destruct (Nat.eq_dec k m) as [->|]; [rewrite Em; tauto|rewrite Eo by auto; tauto]. }
  constructor.
  - intros x k Hk. rewrite F7. apply Ie in Hk. destruct Hk as [[-> ->]|[N Hk]]; auto. rewrite Eo by auto. apply (lk_ents c L); auto.
  - intros x. destruct (Nat.eq_dec x e) as [->|]; [|rewrite O2 by auto; auto].
    eapply Permutation_NoDup; [symmetry; exact P2|]. constructor; auto. rewrite Ie1. tauto.
  - intros w k. rewrite F6, D6, Ls, F5, D5. apply (lk_nodes c L).
  - intros w. rewrite F6, D6. apply (lk_nodes_once c L).
  - intros k Hk. apply Ls in Hk. rewrite F5, D5, F4, D4, F1, D1. apply (lk_words c L k Hk).
  - intros x k Hk. rewrite F1, F2, F3, D1, D2, D3, F5, D5. apply Ie in Hk. destruct Hk as [[-> ->]|[N Hk]].
    + destruct (lk_known c L _ m Hl) as (_ & B1 & B2). auto.
    + apply (lk_known c L x k Hk).
Qed.

(** m.remove() *)
Lemma remove_linked c m : linked c -> linked (fst (mention_remove c m)).
Proof.
  intros L. unfold mention_remove. destruct (in_dec Nat.eq_dec m (e_ments c (m_ent c m))) as [Hl|Hl].
  - fold (listed c m) in Hl. destruct (lk_words c L m Hl) as (W1 & W2 & _).
    destruct (drop_backlinks_ok m (m_words c m) c W2) as (c1 & -> & [] & A1 & B1).
    { intros w Hw. split; [apply (lk_nodes c L); auto|apply (lk_nodes_once c L)]. }
    cbn [bind]. rewrite si_ments0, si_ent0. rewrite list_remove_filter by (auto; apply (lk_ents_once c L)). cbn [fst].
    set (c2 := put_ements c1 _ _).
    assert (Ie : forall x k, In k (e_ments c2 x) <-> k <> m /\ In k (e_ments c x)).
    { intros x k. cbn. unfold upd. destruct (Nat.eqb_spec x (m_ent c m)) as [->|N].
      - rewrite filter_In, negb_true_iff, Nat.eqb_neq. tauto.
      - rewrite si_ments0. split; [|tauto]. intros H. split; auto. intros ->. apply N. symmetry. apply (lk_ents c L); auto. }
    assert (Nd : forall x, NoDup (e_ments c2 x)).
    { intros x. cbn. unfold upd. destruct (Nat.eqb_spec x (m_ent c m)) as [->|N]; [apply NoDup_filter|rewrite si_ments0]; apply (lk_ents_once c L). }
    assert (F : co_h c2 = co_h c1 /\ m_next c2 = m_next c1 /\ e_next c2 = e_next c1 /\ m_head c2 = m_head c1 /\ m_words c2 = m_words c1 /\ n_ments c2 = n_ments c1 /\ m_ent c2 = m_ent c1)
      by (cbn; auto 10).
    clearbody c2. destruct F as (F1 & F2 & F3 & F4 & F5 & F6 & F7).
    assert (Ls : forall k, listed c2 k <-> k <> m /\ listed c k) by (intros k; unfold listed; rewrite F7, si_ent0, Ie; tauto).
    assert (In2 : forall w k, In k (n_ments c2 w) <-> k <> m /\ In k (n_ments c w)).
    { intros w k. rewrite F6. destruct (in_dec Nat.eq_dec w (m_words c m)) as [Hw|Hw].
      - rewrite B1 by auto. rewrite filter_In, negb_true_iff, Nat.eqb_neq. tauto.
      - rewrite A1 by auto. split; [|tauto]. intros H. split; auto. intros ->. apply (lk_nodes c L) in H. tauto. }
    constructor.
    + intros x k Hk. rewrite F7, si_ent0. apply Ie in Hk. apply (lk_ents c L); tauto.
    + auto.
    + intros w k. rewrite In2, Ls, F5, si_words0, (lk_nodes c L). tauto.
    + intros w. rewrite F6. destruct (in_dec Nat.eq_dec w (m_words c m)) as [Hw|Hw]; [rewrite B1 by auto; apply NoDup_filter|rewrite A1 by auto]; apply (lk_nodes_once c L).
    + intros k Hk. apply Ls in Hk. rewrite F5, si_words0, F4, si_head0, F1, si_h0. apply (lk_words c L k); tauto.
    + intros x k Hk. apply Ie in Hk. rewrite F1, F2, F3, F5, si_h0, si_m0, si_e0, si_words0. apply (lk_known c L x k); tauto.
  - assert (drop_backlinks c m (m_words c m) = (c, Ok tt) \/ drop_backlinks c m (m_words c m) = (c, Raise ValueError)) as E.
    { destruct (m_words c m) as [|w l]; cbn [drop_backlinks]; auto.
      destruct (list_remove m (n_ments c w)) as [r|] eqn:R; auto. exfalso. apply Hl.
      assert (In m (n_ments c w)) as I.
      { destruct (in_dec Nat.eq_dec m (n_ments c w)) as [H|H]; auto. apply list_remove_None in H. congruence. }
      apply (lk_nodes c L) in I. apply I. }
    destruct E as [-> | ->]; cbn [bind fst]; auto. apply list_remove_None in Hl. rewrite Hl. auto.
Qed.

Lemma step_linked c o : linked c -> keeps_links c o -> linked (fst (coref_step c o)).
Proof.
  intros L K. destruct o; cbn [coref_step].
  - assert (E : fst (unit_of (create_entity c eid etype)) = fst (create_entity c eid etype))
      by (unfold unit_of; destruct (create_entity c eid etype) as [? []]; reflexivity).
    rewrite E. clear E. unfold create_entity. cbn [bind]. destruct (match eid with Some (_ :: _) => _ | _ => _ end) as [x|e|]; cbn [fst]; auto.
    destruct (forbidden_in_id x); cbn [fst]; auto. cbv zeta. cbn [fst].
    assert (Z : e_ments c (e_next c) = []).
    { destruct (e_ments c (e_next c)) as [|k l] eqn:E; auto. destruct (lk_known c L (e_next c) k) as (A & _); [rewrite E; left; auto|]. lia. }
    assert (Ie : forall e, upd (e_ments c) (e_next c) [] e = e_ments c e) by (intros e; unfold upd; destruct (Nat.eqb_spec e (e_next c)) as [->|]; auto).
    destruct L as [L1 L2 L3 L4 L5 L6]. constructor; cbn; unfold listed in *; cbn; intros; rewrite ?Ie in *; auto.
    destruct (L6 e m H) as (A & B & C). split; [lia|]. auto.
  - unfold set_eid. destruct (forbidden_in_id x); cbn [fst]; auto. apply (linked_ext c _ L); auto.
  - assert (E : fst (unit_of (create_mention c e head ws span)) = fst (create_mention c e head ws span))
      by (unfold unit_of; destruct (create_mention c e head ws span) as [? []]; reflexivity).
    rewrite E. apply create_linked; auto.
  - destruct K as (A & B & D). apply set_words_linked; auto.
  - destruct K as (A & B & D). apply set_span_linked; auto.
  - cbn [fst words]. apply (linked_ext c _ L); cbn; auto. intros k. unfold upd. destruct (Nat.eqb_spec k m) as [->|]; auto. apply sort_on_perm.
  - unfold set_head. destruct (nonempty (m_words c m) && negb (mem x (m_words c m))) eqn:E; cbn [fst]; auto.
    destruct L as [L1 L2 L3 L4 L5 L6]. constructor; cbn; auto. intros k Hk. destruct (L5 k Hk) as (A & B & D & F). split; auto. split; auto.
    unfold upd. destruct (Nat.eqb_spec k m) as [->|]; auto.
    assert (In x (m_words c m)) as Ix.
    { destruct (m_words c m); [congruence|]. cbn [nonempty andb] in E. apply negb_false_iff in E. apply mem_In; auto. }
    split; auto. intros y Hy. rewrite (F y Hy), (F x Ix). reflexivity.
  - destruct K as [A B]. cbn [coref_step] in B. apply set_entity_linked; auto.
  - apply remove_linked; auto.
  - apply sort_linked; auto.
  - pose proof (tree_step_roots (co_h c) o) as [A B]. destruct (tree_step (co_h c) o) as [h' r]. cbn [fst] in *.
    destruct L as [L1 L2 L3 L4 L5 L6]. constructor; cbn; auto.
    + intros k Hk. destruct (L5 k Hk) as (A1 & A2 & A3 & A4). split; auto. split; auto. split; auto. intros x Hx.
      destruct (L6 _ k Hk) as (_ & _ & D). rewrite !B by (apply D; auto). auto.
    + intros e k Hk. destruct (L6 e k Hk) as (A1 & A2 & A3). split; auto. split; auto. intros x Hx. specialize (A3 x Hx). lia.
Qed.
Lemma history_linked c c' : coref_history c c' -> linked c -> linked c'.
Proof. intros H L. induction H; auto. apply step_linked; auto. Qed.
Lemma no_coref_linked c : no_coref c -> linked c.
Proof.
  intros (A & B & _). constructor; unfold listed; intros; rewrite ?A, ?B in *; try constructor; try (destruct H; fail).
  - intros [].
  - intros [[] _].
Qed.
