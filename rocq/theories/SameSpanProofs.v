(** Proofs about merging mentions with the same span. *)
From Coq Require Import String List NArith ZArith Bool Lia Permutation.
From Verif Require Import PyStr PyStrFacts PyList PyListFacts PyExn TreeModel TreeSpec DepsModel BundleModel CorefModel CorefSpec CorefSpan CorefOrder CorefRoots CorefLinks
  SameSpanModel SameSpanSpec.
Import ListNotations.

Lemma mem_false x l : mem x l = false <-> ~ In x l.
Proof. destruct (mem x l) eqn:E; [apply mem_In in E; intuition discriminate|]. split; auto. intros _ I. apply mem_In in I. congruence. Qed.
Lemma filter_every {A} (f : A -> bool) l : (forall x, In x l -> f x = true) -> filter f l = l.
Proof. induction l as [|x l IH]; intros H; [auto|]. cbn [filter]. rewrite H by (simpl; auto). rewrite IH; auto. intros; apply H; simpl; auto. Qed.
Lemma same_set_ok a b : same_set a b = true <-> forall w, In w a <-> In w b.
Proof.
  unfold same_set. rewrite andb_true_iff, !forallb_forall. split.
  - intros [A B] w. split; intros I; apply mem_In; auto.
  - intros H. split; intros w I; apply mem_In, H; auto.
Qed.
Lemma pairs_in : forall l a b, In a l -> In b l -> a <> b -> In (a, b) (combinations2 l) \/ In (b, a) (combinations2 l).
Proof.
  induction l as [|x l IH]; intros a b [] []; try congruence; intros; cbn [combinations2].
  - subst. left. apply in_or_app. left. apply in_map. auto.
  - subst. right. apply in_or_app. left. apply in_map. auto.
  - destruct (IH a b); auto; [left|right]; apply in_or_app; auto.
Qed.
Lemma pairs_of : forall l a b, NoDup l -> In (a, b) (combinations2 l) -> In a l /\ In b l /\ a <> b.
Proof.
  induction l as [|x l IH]; intros a b ND I; [destruct I|]. inversion ND; subst. cbn [combinations2] in I. apply in_app_or in I as [I|I].
  - apply in_map_iff in I as (y&E&I). injection E as <- <-. split; [simpl; auto|]. split; [simpl; auto|]. intros ->. auto.
  - destruct (IH a b) as (A&B&C); auto. simpl. auto.
Qed.

Section Merge.
Context (only : bool) (c0 : coref) (L : linked c0).
(** the state after the mentions [dead] were removed *)
Definition alive (dead : list nat) (m : nat) : bool := negb (mem m dead).
Record gone (dead : list nat) (c : coref) : Prop := {
  go_h : co_h c = co_h c0; go_eid : e_eid c = e_eid c0; go_eids : eids c = eids c0; go_next : e_next c = e_next c0; go_mnext : m_next c = m_next c0;
  go_head : forall m, m_head c m = m_head c0 m; go_ent : forall m, m_ent c m = m_ent c0 m;
  go_dead : forall m, In m dead -> m_words c m = [];
  go_words : forall m, ~ In m dead -> Permutation (m_words c m) (m_words c0 m);
  go_ents : forall e, e_ments c e = filter (alive dead) (e_ments c0 e);
  go_nodes : forall w, n_ments c w = filter (alive dead) (n_ments c0 w)
}.
Lemma alive_cons b dead m : alive (b :: dead) m = negb (Nat.eqb m b) && alive dead m.
Proof.
  unfold alive. destruct (Nat.eqb_spec m b) as [->|N]; cbn [negb andb].
  - assert (mem b (b :: dead) = true) as -> by (apply mem_In; simpl; auto). auto.
  - f_equal. destruct (mem m dead) eqn:E; [apply mem_In; right; apply mem_In; auto|]. apply mem_false in E. apply mem_false. intros [?|?]; [congruence|auto].
Qed.
Lemma filter_cons b dead l : filter (alive (b :: dead)) l = filter (fun y => negb (Nat.eqb y b)) (filter (alive dead) l).
Proof. induction l as [|x l IH]; [auto|]. cbn [filter]. rewrite alive_cons. destruct (alive dead x) eqn:E; cbn [filter]; rewrite ?andb_true_r, ?andb_false_r, IH; auto. Qed.
Lemma filter_absent b l : ~ In b l -> filter (fun y => negb (Nat.eqb y b)) l = l.
Proof. induction l as [|x l IH]; intros N; [auto|]. cbn [filter]. destruct (Nat.eqb_spec x b) as [->|D]; [elim N; simpl; auto|]. cbn [negb]. rewrite IH; auto. simpl in N. tauto. Qed.

Lemma gone_start : gone [] c0.
Proof. constructor; auto. - intros m []. - intros e. symmetry. apply filter_every. auto. - intros w. symmetry. apply filter_every. auto. Qed.
Lemma gone_read dead c m : gone dead c -> gone dead (fst (words c m)) /\ (forall w, In w (snd (words c m)) <-> ~ In m dead /\ In w (m_words c0 m)).
Proof.
  intros G. destruct G. unfold words. cbn [fst snd]. split.
  - constructor; cbn; auto.
    + intros k I. unfold upd. destruct (Nat.eqb_spec k m) as [->|N]; auto. rewrite go_dead0 by auto. reflexivity.
    + intros k I. unfold upd. destruct (Nat.eqb_spec k m) as [->|N]; auto. etransitivity; [apply sort_on_perm|auto].
  - intros w. split.
    + intros I. apply (Permutation_in _ (sort_on_perm _ _)) in I. destruct (in_dec Nat.eq_dec m dead) as [D|D]; [rewrite go_dead0 in I by auto; destruct I|].
      split; auto. apply (Permutation_in _ (go_words0 m D)); auto.
    + intros [D I]. apply (Permutation_in _ (Permutation_sym (sort_on_perm _ _))). apply (Permutation_in _ (Permutation_sym (go_words0 m D))); auto.
Qed.
(** m.words = []; m.entity.mentions.remove(m) *)
Definition drop (c : coref) (b : nat) : coref * res unit :=
  bind (set_words c b []) (fun c _ => match list_remove b (e_ments c (m_ent c b)) with None => (c, Ok tt) | Some l => (put_ements c (m_ent c b) l, Ok tt) end).
Lemma drop_dead dead c b : gone dead c -> In b dead -> exists c', drop c b = (c', Ok tt) /\ gone dead c'.
Proof.
  intros G D. pose proof (go_dead _ _ G b D) as W. unfold drop, set_words. cbn [nonempty andb nodup]. rewrite W. cbn [filter drop_backlinks bind].
  assert (sort_on (okey (co_h c)) [] = []) as -> by reflexivity. cbn [filter add_backlinks bind].
  exists (put_words c b []). assert (R : list_remove b (e_ments (put_words c b []) (m_ent (put_words c b []) b)) = None).
  { apply list_remove_None. cbn. rewrite (go_ents _ _ G). intros I. apply filter_In in I as [_ I]. unfold alive in I. apply negb_true_iff, mem_false in I. auto. }
  rewrite R. split; [auto|]. destruct G. constructor; cbn; auto.
  - intros k I. unfold upd. destruct (Nat.eqb_spec k b) as [->|N]; auto.
  - intros k I. unfold upd. destruct (Nat.eqb_spec k b) as [->|N]; auto. tauto.
Qed.
Lemma drop_alive dead c b : gone dead c -> listed c0 b -> ~ In b dead -> exists c', drop c b = (c', Ok tt) /\ gone (b :: dead) c'.
Proof.
  intros G LB D. destruct (lk_words _ L b LB) as (W1&W2&W3&W4). pose proof (go_words _ _ G b D) as PW.
  assert (AB : alive dead b = true). { unfold alive. apply negb_true_iff, mem_false. auto. }
  unfold drop, set_words. cbn [nonempty andb nodup]. assert (sort_on (okey (co_h c)) [] = []) as -> by reflexivity.
  assert (F1 : filter (fun w => negb (mem w [])) (m_words c b) = m_words c b) by (apply filter_every; auto). rewrite F1.
  destruct (drop_backlinks_ok b (m_words c b) c) as (c1&E1&S1&A1&B1).
  { apply (Permutation_NoDup (Permutation_sym PW)). auto. }
  { intros w I. rewrite (go_nodes _ _ G). split; [|apply NoDup_filter, (lk_nodes_once _ L)]. apply filter_In. split; auto. apply (lk_nodes _ L). split; auto.
    apply (Permutation_in _ PW); auto. }
  rewrite E1. cbn [bind filter add_backlinks]. destruct S1.
  assert (R : list_remove b (e_ments (put_words c1 b []) (m_ent (put_words c1 b []) b)) = Some (filter (alive (b :: dead)) (e_ments c0 (m_ent c0 b)))).
  { cbn. rewrite si_ments, si_ent, (go_ents _ _ G), (go_ent _ _ G). rewrite filter_cons. apply list_remove_filter; [apply NoDup_filter, (lk_ents_once _ L)|]. apply filter_In. auto. }
  rewrite R. eexists. split; [reflexivity|]. destruct G. constructor; cbn; try congruence.
  - intros m I. unfold upd. destruct (Nat.eqb_spec m b) as [->|N]; auto. rewrite si_words. destruct I; [congruence|auto].
  - intros m I. unfold upd. destruct (Nat.eqb_spec m b) as [->|N]; [elim I; simpl; auto|]. rewrite si_words. apply go_words0. intros J. apply I. simpl. auto.
  - intros e. unfold upd. rewrite si_ent, go_ent0. destruct (Nat.eqb_spec e (m_ent c0 b)) as [->|N]; auto.
    rewrite si_ments, go_ents0, filter_cons, filter_absent; auto. intros I. apply filter_In in I as [I _]. apply N. symmetry. apply (lk_ents _ L); auto.
  - intros w. rewrite filter_cons. destruct (in_dec Nat.eq_dec w (m_words c b)) as [I|I].
    + rewrite B1, go_nodes0; auto.
    + rewrite A1, go_nodes0 by auto. symmetry. apply filter_absent. intros J. apply filter_In in J as [J _]. apply (lk_nodes _ L) in J as [_ J].
      apply I. apply (Permutation_in _ (Permutation_sym PW)); auto.
Qed.

Notation eid m := (e_eid c0 (m_ent c0 m)).
Notation dup := (duplicates only c0).
Lemma dup_sym a b : dup a b -> dup b a.
Proof. intros [A B]. split; [intros w; symmetry; auto|intros O; symmetry; auto]. Qed.
Lemma dup_trans a b e : dup a b -> dup b e -> dup a e.
Proof. intros [A B] [A' B']. split; [intros w; rewrite A; auto|intros O; rewrite B; auto]. Qed.
Context (l : list nat) (LI : forall m, In m l -> listed c0 m).
(** each removed mention has a duplicate that is still there *)
Definition kept_best (dead : list nat) : Prop :=
  incl dead l /\ forall m, In m dead -> exists k, In k l /\ ~ In k dead /\ dup m k /\ str_leb (eid k) (eid m) = true.
Lemma best_cons dead a b : kept_best dead -> In a l -> In b l -> a <> b -> ~ In a dead -> ~ In b dead -> dup a b -> str_leb (eid a) (eid b) = true -> kept_best (b :: dead).
Proof.
  intros [I H] Ia Ib N Da Db DU LE. split; [intros x [<-|X]; auto|]. intros m [<-|J].
  - exists a. split; auto. split; [intros [?|?]; [congruence|auto]|]. split; auto. apply dup_sym; auto.
  - destruct (H m J) as (k&K1&K2&K3&K4). destruct (Nat.eq_dec k b) as [->|X].
    + exists a. split; auto. split; [intros [?|?]; [congruence|auto]|]. split; [apply (dup_trans _ b); auto; apply dup_sym; auto|]. apply (str_leb_trans _ (eid b)); auto.
    + exists k. split; auto. split; [intros [?|?]; [congruence|auto]|]. auto.
Qed.
Lemma pair_step dead c a b : gone dead c -> kept_best dead -> In a l -> In b l -> a <> b ->
  exists dead' c', merge_pair only c a b = (c', Ok tt) /\ gone dead' c' /\ kept_best dead' /\ incl dead dead' /\ (dup a b -> In a dead' \/ In b dead').
Proof.
  intros G K Ia Ib N. unfold merge_pair. rewrite !(go_ent _ _ G), (go_eid _ _ G).
  destruct (only && negb (Nat.eqb (m_ent c0 a) (m_ent c0 b))) eqn:O.
  { exists dead, c. split; [auto|]. split; [auto|]. split; [auto|]. split; [intros ?; auto|]. intros [_ D]. apply andb_true_iff in O as [-> O]. rewrite (D eq_refl), Nat.eqb_refl in O. discriminate. }
  assert (ENT : only = true -> m_ent c0 a = m_ent c0 b). { intros ->. cbn in O. apply negb_false_iff, Nat.eqb_eq in O. auto. }
  assert (G0 : forall a b, In a l -> In b l -> a <> b -> (only = true -> m_ent c0 a = m_ent c0 b) -> str_leb (eid a) (eid b) = true ->
    exists dead' c', (let (c, sA) := words c a in let (c, sB) := words c b in if negb (same_set sA sB) then (c, Ok tt) else drop c b) = (c', Ok tt) /\
      gone dead' c' /\ kept_best dead' /\ incl dead dead' /\ (dup a b -> In a dead' \/ In b dead')).
  { clear a b Ia Ib N O ENT. intros a b Ia Ib N ENT LE. destruct (gone_read dead c a G) as [G1 WA]. destruct (words c a) as [c1 sA]. cbn [fst snd] in *.
    destruct (gone_read dead c1 b G1) as [G2 WB]. destruct (words c1 b) as [c2 sB]. cbn [fst snd] in *.
    destruct (same_set sA sB) eqn:SS; cbn [negb].
    - pose proof (proj1 (same_set_ok sA sB) SS) as SW. destruct (in_dec Nat.eq_dec b dead) as [Db|Db].
      + destruct (drop_dead dead c2 b G2 Db) as (c3&E&G3). exists dead, c3. split; [auto|]. split; [auto|]. split; [auto|]. split; [intros ?; auto|]. auto.
      + assert (Da : ~ In a dead).
        { intros Da. destruct (lk_words _ L b (LI b Ib)) as (_&_&W&_). assert (I : In (m_head c0 b) sB) by (apply WB; auto). apply SW in I. apply WA in I. tauto. }
        destruct (drop_alive dead c2 b G2 (LI b Ib) Db) as (c3&E&G3). exists (b :: dead), c3. split; [auto|]. split; [auto|]. split; [|split; [intros ? ?; simpl; auto|simpl; auto]].
        apply (best_cons dead a b); auto. split; auto. intros w. specialize (SW w). rewrite WA, WB in SW. tauto.
    - exists dead, c2. split; [auto|]. split; [auto|]. split; [auto|]. split; [intros ?; auto|]. intros [D _].
      destruct (in_dec Nat.eq_dec a dead) as [Da|Da]; [auto|]. destruct (in_dec Nat.eq_dec b dead) as [Db|Db]; [auto|]. exfalso.
      assert (same_set sA sB = true); [|congruence]. apply same_set_ok. intros w. rewrite WA, WB. specialize (D w). tauto. }
  destruct (str_ltb (eid b) (eid a)) eqn:LT.
  - destruct (G0 b a) as (dead'&c'&E&G1&K1&I1&D1); auto.
    { intros X. symmetry. auto. } { unfold str_ltb in LT. apply negb_true_iff in LT. destruct (str_leb_total (eid a) (eid b)); [congruence|auto]. }
    exists dead', c'. split; [exact E|]. split; [auto|]. split; [auto|]. split; [auto|]. intros D. apply dup_sym, D1 in D. tauto.
  - destruct (G0 a b) as (dead'&c'&E&G1&K1&I1&D1); auto.
    { unfold str_ltb in LT. apply negb_false_iff in LT. auto. }
    exists dead', c'. split; [exact E|]. auto.
Qed.
Lemma pairs_step : forall ps dead c, (forall a b, In (a, b) ps -> In a l /\ In b l /\ a <> b) -> gone dead c -> kept_best dead ->
  exists dead' c', merge_pairs only c ps = (c', Ok tt) /\ gone dead' c' /\ kept_best dead' /\ incl dead dead' /\
    forall a b, In (a, b) ps -> dup a b -> In a dead' \/ In b dead'.
Proof.
  induction ps as [|[a b] ps IH]; intros dead c H G K; cbn [merge_pairs].
  - exists dead, c. split; auto. split; auto. split; auto. split; [intros ?; auto|]. intros ? ? [].
  - destruct (H a b (or_introl eq_refl)) as (Ia&Ib&N). destruct (pair_step dead c a b G K Ia Ib N) as (d1&c1&E&G1&K1&I1&D1). rewrite E. cbn [bind].
    destruct (IH d1 c1) as (d2&c2&E2&G2&K2&I2&D2); auto; [intros; apply H; simpl; auto|].
    exists d2, c2. split; auto. split; auto. split; auto. split; [intros x X; apply I2, I1; auto|]. intros x y [X|X] D; [|apply D2; auto].
    injection X as <- <-. destruct (D1 D) as [Q|Q]; [left|right]; apply I2; auto.
Qed.
Lemma gone_linked dead c : gone dead c -> linked c.
Proof.
  intros G. destruct G.
  assert (LS : forall m, listed c m <-> listed c0 m /\ ~ In m dead).
  { intros m. unfold listed. rewrite go_ent0, go_ents0, filter_In. unfold alive. rewrite negb_true_iff, mem_false. tauto. }
  constructor.
  - intros e m I. rewrite go_ents0 in I. apply filter_In in I as [I _]. rewrite go_ent0. apply (lk_ents _ L); auto.
  - intros e. rewrite go_ents0. apply NoDup_filter, (lk_ents_once _ L).
  - intros w m. rewrite LS, go_nodes0, filter_In, (lk_nodes _ L). unfold alive. rewrite negb_true_iff, mem_false. split.
    + intros [[A B] D]. split; auto. apply (Permutation_in _ (Permutation_sym (go_words0 m D))); auto.
    + intros [[A D] B]. apply (Permutation_in _ (go_words0 m D)) in B. auto.
  - intros w. rewrite go_nodes0. apply NoDup_filter, (lk_nodes_once _ L).
  - intros m I. apply LS in I as [I D]. destruct (lk_words _ L m I) as (W1&W2&W3&W4). pose proof (go_words0 m D) as P. rewrite go_head0, go_h0.
    split; [intros X; apply W1; apply Permutation_nil; rewrite X in P; auto|]. split; [apply (Permutation_NoDup (Permutation_sym P)); auto|].
    split; [apply (Permutation_in _ (Permutation_sym P)); auto|]. intros x X. apply W4. apply (Permutation_in _ P); auto.
  - intros e m I. rewrite go_ents0 in I. apply filter_In in I as [I D]. unfold alive in D. apply negb_true_iff, mem_false in D.
    destruct (lk_known _ L e m I) as (A&B&C). rewrite go_next0, go_mnext0, go_h0. split; auto. split; auto. intros x X. apply C. apply (Permutation_in _ (go_words0 m D)); auto.
Qed.
End Merge.

Lemma tree_nodes h r w : In w (descendants_and_empty h r) <-> in_tree h r w.
Proof.
  unfold descendants_and_empty, in_tree. split.
  - intros I. apply (Permutation_in _ (sort_on_perm _ _)) in I. apply in_app_or in I. auto.
  - intros I. apply (Permutation_in _ (Permutation_sym (sort_on_perm _ _))). apply in_or_app. auto.
Qed.
Lemma tree_mentions_ok c r m : linked c -> (In m (tree_mentions c r) <-> of_tree c r m).
Proof.
  intros L. unfold tree_mentions, of_tree. rewrite nodup_In, in_flat_map. split.
  - intros (w&I&J). apply (lk_nodes _ L) in J as [A B]. split; auto. exists w. split; auto. apply tree_nodes; auto.
  - intros (A&w&I&J). exists w. split; [apply tree_nodes; auto|]. apply (lk_nodes _ L). auto.
Qed.
Lemma same_span_ok only c r mentions : linked c -> Permutation mentions (tree_mentions c r) ->
  exists c' keep, merge_same_span only c mentions = (c', Ok tt) /\ merged_spans only c c' r keep.
Proof.
  intros L P. assert (ND : NoDup mentions) by (apply (Permutation_NoDup (Permutation_sym P)), NoDup_nodup).
  assert (OT : forall m, In m mentions <-> of_tree c r m).
  { intros m. rewrite <- tree_mentions_ok by auto. split; apply Permutation_in; auto. apply Permutation_sym; auto. }
  destruct (pairs_step only c L mentions ltac:(intros m I; apply OT in I; apply I) (combinations2 mentions) [] c) as (dead&c'&E&G&[K1 K2]&_&D).
  { intros a b I. apply pairs_of; auto. } { apply gone_start; auto. } { split; [intros x []|intros m []]. }
  exists c', (alive dead). split; [exact E|].
  assert (AL : forall m, alive dead m = true <-> ~ In m dead) by (intros m; unfold alive; rewrite negb_true_iff; apply mem_false).
  assert (UN : forall a b, In a mentions -> In b mentions -> duplicates only c a b -> ~ In a dead -> ~ In b dead -> a = b).
  { intros a b Ia Ib DU Na Nb. destruct (Nat.eq_dec a b) as [|N]; auto. exfalso. destruct (pairs_in mentions a b Ia Ib N) as [I|I].
    - destruct (D _ _ I DU); auto.
    - apply dup_sym in DU. destruct (D _ _ I DU); auto. }
  constructor; try (destruct G; solve [auto]).
  - intros m M. apply OT in M.
    assert (X : exists k, In k mentions /\ ~ In k dead /\ duplicates only c m k).
    { destruct (in_dec Nat.eq_dec m dead) as [J|J]; [destruct (K2 m J) as (k&A&B&C&_); exists k; auto|]. exists m. split; auto. split; auto. split; intros; tauto. }
    destruct X as (k&Ik&Dk&DU). exists k. split; [apply OT; auto|]. split; [auto|]. split; [apply AL; auto|]. intros j J DJ. apply OT in J. split.
    + intros A. apply AL in A. apply UN; auto. apply (dup_trans _ _ _ m); auto. apply dup_sym; auto.
    + intros LT. apply str_lt_spec in LT. unfold str_ltb in LT. apply negb_true_iff in LT.
      destruct (in_dec Nat.eq_dec j dead) as [Dj|Dj].
      * destruct (K2 j Dj) as (k'&A&B&C&LE). assert (k' = k); [|congruence]. apply UN; auto.
        apply (dup_trans _ _ _ j); [apply dup_sym; auto|]. apply (dup_trans _ _ _ m); auto. apply dup_sym; auto.
      * assert (j = k); [|subst; rewrite str_leb_refl in LT; discriminate]. apply UN; auto. apply (dup_trans _ _ _ m); auto. apply dup_sym; auto.
  - intros m M. apply OT, K1. destruct (in_dec Nat.eq_dec m dead) as [|N]; auto. apply AL in N. congruence.
  - intros m M. apply AL in M. apply (go_words _ _ _ G); auto.
  - apply (gone_linked c L dead); auto.
Qed.
(** whatever the order of the set, a group of duplicates ends in the same entity *)
Lemma any_order only c r l1 l2 : linked c -> Permutation l1 (tree_mentions c r) -> Permutation l2 (tree_mentions c r) ->
  (forall e f, e_eid c e = e_eid c f -> e = f) ->
  exists c1 c2, merge_same_span only c l1 = (c1, Ok tt) /\ merge_same_span only c l2 = (c2, Ok tt) /\
    forall a b, of_tree c r a -> of_tree c r b -> duplicates only c a b -> listed c1 a -> listed c2 b -> m_ent c a = m_ent c b.
Proof.
  intros L P1 P2 U. destruct (same_span_ok only c r l1 L P1) as (c1&k1&E1&M1). destruct (same_span_ok only c r l2 L P2) as (c2&k2&E2&M2).
  exists c1, c2. split; auto. split; auto. intros a b A B D LA LB.
  assert (KA : k1 a = true). { unfold listed in LA. rewrite (ms_ents _ _ _ _ _ M1) in LA. apply filter_In in LA. tauto. }
  assert (KB : k2 b = true). { unfold listed in LB. rewrite (ms_ents _ _ _ _ _ M2) in LB. apply filter_In in LB. tauto. }
  apply U. assert (RA : duplicates only c a a) by (split; tauto). assert (RB : duplicates only c b b) by (split; tauto). pose proof (dup_sym _ _ _ _ D) as D'.
  destruct (ms_one _ _ _ _ _ M1 a A) as (x&_&_&_&X). destruct (ms_one _ _ _ _ _ M2 b B) as (y&_&_&_&Y).
  destruct (X a A RA) as [XA _]. rewrite <- (XA KA) in X. destruct (X b B D) as [_ N1].
  destruct (Y b B RB) as [YB _]. rewrite <- (YB KB) in Y. destruct (Y a A D') as [_ N2].
  destruct (str_ltb (e_eid c (m_ent c b)) (e_eid c (m_ent c a))) eqn:T1; [elim N1; apply str_lt_spec; auto|].
  destruct (str_ltb (e_eid c (m_ent c a)) (e_eid c (m_ent c b))) eqn:T2; [elim N2; apply str_lt_spec; auto|].
  unfold str_ltb in T1, T2. apply negb_false_iff in T1, T2. apply str_leb_antisym; auto.
Qed.
