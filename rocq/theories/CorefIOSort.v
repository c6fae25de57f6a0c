(** The last part of loading: sorting the mentions of the entities, the backlinks of the words and the entities. *)
From Coq Require Import String List NArith ZArith Bool Lia Sorting.Sorted Sorting.Permutation.
From Verif Require Import PyStr PyList PyListFacts PyExn TreeModel TreeSpec TreeOps EmptySpec DualDictModel BundleModel BundleSpec
  CorefModel CorefSpec CorefOrder CorefIOModel.
Import ListNotations.

(** equal up to the order of the lists *)
Definition reordered (c c' : coref) : Prop :=
  (co_doc c' = co_doc c /\ co_h c' = co_h c /\ co_tree c' = co_tree c /\ m_next c' = m_next c /\ e_next c' = e_next c) /\
  (m_head c' = m_head c /\ m_ent c' = m_ent c /\ e_eid c' = e_eid c /\ e_type c' = e_type c /\ eids c' = eids c) /\
  (forall m, m_words c' m = m_words c m) /\ (forall e, Permutation (e_ments c' e) (e_ments c e)) /\ (forall w, Permutation (n_ments c' w) (n_ments c w)).
Lemma reordered_refl c : reordered c c.
Proof. unfold reordered. auto 20. Qed.
Lemma reordered_trans a b c : reordered a b -> reordered b c -> reordered a c.
Proof.
  intros ((A1 & A2 & A3 & A4 & A5) & (A6 & A7 & A8 & A9 & A10) & A11 & A12 & A13) ((B1 & B2 & B3 & B4 & B5) & (B6 & B7 & B8 & B9 & B10) & B11 & B12 & B13).
  split; [repeat split; congruence|]. split; [repeat split; congruence|]. split; [intros; congruence|]. split; intros; eapply Permutation_trans; eauto.
Qed.
Lemma before_same c c' d m n : reordered c c' -> mention_before c d m n -> mention_before c' d m n.
Proof.
  intros ((A1 & A2 & A3 & A4 & A5) & (A6 & A7 & A8 & A9 & A10) & A11 & A12 & A13). unfold mention_before, first_word, last_word, node_before.
  rewrite A1, A2, A3, A7, A8, !A11. auto.
Qed.
Lemma reordered_sym c c' : reordered c c' -> reordered c' c.
Proof.
  intros ((A1 & A2 & A3 & A4 & A5) & (A6 & A7 & A8 & A9 & A10) & A11 & A12 & A13).
  split; [repeat split; auto|]. split; [repeat split; auto|]. split; auto. split; intros; symmetry; auto.
Qed.
Lemma placed_same c c' d z m : reordered c c' -> placed_mention c d z m -> placed_mention c' d z m.
Proof.
  intros ((A1 & A2 & A3 & A4 & A5) & (A6 & A7 & A8 & A9 & A10) & A11 & A12 & A13). unfold placed_mention, placed_node. rewrite A1, A2, A3, !A11. auto.
Qed.
Lemma same_place_same c c' m n : reordered c c' -> same_place c' m n -> same_place c m n.
Proof.
  intros ((A1 & A2 & A3 & A4 & A5) & (A6 & A7 & A8 & A9 & A10) & A11 & A12 & A13). unfold same_place, first_word, last_word. rewrite A7, A8, !A11. auto.
Qed.
Lemma trees_same c c' : reordered c c' -> trees_of_document c -> trees_of_document c'.
Proof. intros ((A1 & A2 & A3 & A4 & A5) & _). unfold trees_of_document. rewrite A1, A3. auto. Qed.
Lemma sorted_same c c' d l : reordered c c' -> sorted_mentions c d l -> sorted_mentions c' d l.
Proof. intros H. unfold sorted_mentions. apply strongly_sorted_impl. intros a b _ _. apply before_same; auto. Qed.
Lemma sbw_reordered c c' : same_but_words c c' -> (forall x, m_words c' x = m_words c x) -> reordered c c'.
Proof.
  intros (A1 & A2 & A3 & A4 & A5 & A6 & A7 & A8 & A9 & A10 & A11 & A12) W. unfold reordered. rewrite A10, A11. auto 20.
Qed.
Lemma sort_r_ok lt l : (forall x y, In x l -> In y l -> exists b, lt x y = Ok b) -> exists l', sort_r lt l = Ok l' /\ Permutation l' l.
Proof.
  induction l as [|x l IH]; intros H; cbn [sort_r]; [exists []; auto|].
  destruct IH as (l' & -> & Pm); [intros; apply H; right; auto|]. cbn [rbind].
  assert (INS : forall k, (forall y, In y k -> exists b, lt y x = Ok b) -> exists k', insert_r lt x k = Ok k' /\ Permutation k' (x :: k)).
  { induction k as [|y k IHk]; intros HK; cbn [insert_r]; [exists [x]; auto|]. destruct (HK y (or_introl eq_refl)) as (b & ->). cbn [rbind]. destruct b.
    - destruct IHk as (k' & -> & PK); [intros; apply HK; right; auto|]. exists (y :: k'). split; auto. rewrite PK. apply perm_swap.
    - exists (x :: y :: k). auto. }
  destruct (INS l') as (k' & E & PK).
  - intros y Hy. apply H; [right; eapply Permutation_in; eauto|left; auto].
  - exists k'. split; auto. rewrite PK. constructor. exact Pm.
Qed.

Section Sort.
Variables (c : coref) (d : nat) (z : str) (M : nat -> Prop).
Hypothesis TD : trees_of_document c.
Hypothesis PM : forall m, M m -> placed_mention c d z m.
Hypothesis INJ : forall m n, M m -> M n -> same_place c m n -> m = n.
Hypothesis EN : forall e, NoDup (e_ments c e).
Hypothesis EM : forall e m, In m (e_ments c e) -> M m.
Hypothesis WN : forall w, NoDup (n_ments c w).
Hypothesis WM : forall w m, In m (n_ments c w) -> M m.

Lemma sort_one c' l : reordered c c' -> NoDup l -> (forall m, In m l -> M m) ->
  exists c'' l', sort_mentions c' l = (c'', Ok l') /\ reordered c c'' /\ e_ments c'' = e_ments c' /\ n_ments c'' = n_ments c' /\ Permutation l' l /\ sorted_mentions c d l'.
Proof.
  intros RE ND HM. destruct (sort_mentions_spec c' d z l) as (l' & E & Pm & S & _).
  - eapply trees_same; eauto.
  - intros m Hm. eapply placed_same; eauto.
  - auto.
  - intros m n Hm Hn SP. apply INJ; auto. eapply same_place_same; eauto.
  - assert (W : forall m, In m l -> m_words c' m <> []) by (intros m Hm; apply (placed_same c c' d z m RE (PM m (HM m Hm)))).
    destruct (touch_all_spec l c' W) as [T1 T2].
    exists (fst (sort_mentions c' l)), l'. split; [rewrite <- E; destruct (sort_mentions c' l); reflexivity|].
    assert (X : same_but_words c' (fst (sort_mentions c' l)) /\ forall x, m_words (fst (sort_mentions c' l)) x = m_words c' x).
    { unfold sort_mentions. cbn [fst]. destruct l as [|a [|b l]]; auto using sbw_refl. }
    destruct X as [X1 X2]. split; [eapply reordered_trans; [exact RE|apply sbw_reordered; auto]|].
    destruct X1 as (_ & _ & _ & _ & _ & _ & _ & _ & _ & B1 & B2 & _). split; auto. split; auto. split; auto.
    eapply sorted_same; [apply reordered_sym; exact RE|exact S].
Qed.
Lemma sort_backlinks_ok ws : forall c', reordered c c' ->
  exists c'', sort_backlinks c' ws = (c'', Ok tt) /\ reordered c c'' /\ e_ments c'' = e_ments c'.
Proof.
  induction ws as [|w ws IH]; intros c' RE; cbn [sort_backlinks]; [exists c'; auto|].
  assert (PN := proj2 (proj2 (proj2 (proj2 RE))) w).
  destruct (sort_one c' (n_ments c' w) RE) as (c1 & l & E & R1 & B1 & B2 & Pm & _).
  - eapply Permutation_NoDup; [symmetry; exact PN|auto].
  - intros m Hm. apply (WM w). eapply Permutation_in; eauto.
  - rewrite E. cbn [bind]. destruct (IH (put_nments c1 w l)) as (c2 & E2 & R2 & B3).
    + destruct R1 as (A1 & A2 & A3 & A4 & A5). split; auto. split; auto. split; auto. split; auto. cbn. intros u. unfold upd.
      destruct (Nat.eqb_spec u w) as [->|]; auto. rewrite Pm. exact PN.
    + exists c2. split; auto. split; auto. rewrite B3. exact B1.
Qed.
Lemma sort_all_backlinks_ok ms : forall c', reordered c c' ->
  exists c'', sort_all_backlinks c' ms = (c'', Ok tt) /\ reordered c c'' /\ e_ments c'' = e_ments c'.
Proof.
  induction ms as [|m ms IH]; intros c' RE; cbn [sort_all_backlinks]; [exists c'; auto|].
  destruct (sort_backlinks_ok (m_words c' m) c' RE) as (c1 & -> & R1 & B1). cbn [bind].
  destruct (IH c1 R1) as (c2 & -> & R2 & B2). exists c2. split; auto. split; auto. congruence.
Qed.
Lemma sort_entities_ok es : forall c', reordered c c' -> (forall k e, In (k, e) es -> e_ments c e <> []) ->
  exists c'', sort_entities c' es = (c'', Ok tt) /\ reordered c c'' /\
    (forall e, In e (map snd es) \/ sorted_mentions c d (e_ments c' e) -> sorted_mentions c d (e_ments c'' e)).
Proof.
  induction es as [|[k e] es IH]; intros c' RE NE.
  - cbn [sort_entities]. exists c'. split; auto. split; auto. intros e [[]|]; auto.
  - assert (PE := proj1 (proj2 (proj2 (proj2 RE))) e).
    assert (N : e_ments c' e <> []) by (intros X; apply (NE k e); [left; auto|]; rewrite X in PE; apply Permutation_nil in PE; auto).
    destruct (sort_one c' (e_ments c' e) RE) as (c1 & l & E & R1 & B1 & B2 & Pm & S).
    + eapply Permutation_NoDup; [symmetry; exact PE|auto].
    + intros m Hm. apply (EM e). eapply Permutation_in; eauto.
    + assert (X : sort_entities c' ((k, e) :: es) = bind (sort_all_backlinks (put_ements c1 e l) l) (fun c _ => sort_entities c es)).
      { cbn [sort_entities]. destruct (e_ments c' e); [congruence|]. rewrite E. reflexivity. }
      rewrite X. assert (R2 : reordered c (put_ements c1 e l)).
      { destruct R1 as (A1 & A2 & A3 & A4 & A5). split; auto. split; auto. split; auto. split; auto. cbn. intros u. unfold upd.
        destruct (Nat.eqb_spec u e) as [->|]; auto. rewrite Pm. exact PE. }
      destruct (sort_all_backlinks_ok l _ R2) as (c2 & -> & R3 & B3). cbn [bind].
      destruct (IH c2 R3) as (c3 & -> & R4 & S4); [intros k' e' H; apply (NE k'); right; auto|].
      exists c3. split; auto. split; auto. intros e' H. apply S4. rewrite B3. cbn. unfold upd. rewrite B1.
      destruct (Nat.eqb_spec e' e) as [->|N']; auto. destruct H as [[H|H]|H]; auto. cbn in H. congruence.
Qed.
Lemma sort_table_ok c' es : reordered c c' -> exists l, sort_r (entity_lt c') es = Ok l /\ Permutation l es.
Proof.
  intros RE. apply sort_r_ok. intros a b _ _. destruct (entity_lt_spec c' d z a b) as (v & E & _); eauto.
  - eapply trees_same; eauto.
  - intros m Hm. eapply placed_same; eauto. apply PM. apply (EM a). eapply Permutation_in; [|exact Hm]. apply (proj1 (proj2 (proj2 (proj2 RE)))).
  - intros m Hm. eapply placed_same; eauto. apply PM. apply (EM b). eapply Permutation_in; [|exact Hm]. apply (proj1 (proj2 (proj2 (proj2 RE)))).
Qed.
End Sort.
