(** Proofs about the order of mentions and entities. *)
From Coq Require Import String List NArith ZArith Bool Lia Sorting.Sorted Sorting.Permutation.
From Verif Require Import PyStr PyStrFacts PyList PyListFacts PyExn TreeModel TreeSpec EmptySpec BundleModel BundleSpec BundleProofs
  CorefModel CorefSpec CorefSpan.
Import ListNotations.

(** ---- strings ---- *)
Lemma str_lt_spec a b : str_ltb a b = true <-> str_lt a b.
Proof.
  unfold str_ltb. revert b. induction a as [|x a IH]; intros [|y b]; cbn [str_leb negb].
  - split; [discriminate|]. intros H; inversion H.
  - split; [constructor|auto].
  - split; [discriminate|]. intros H; inversion H.
  - destruct (N.ltb_spec y x) as [L|L].
    + cbn. split; [discriminate|]. intros H. inversion H; subst; lia.
    + destruct (N.eqb_spec y x) as [->|N].
      * rewrite IH. split; [apply str_lt_tail|]. intros H. inversion H; subst; [lia|auto].
      * cbn. split; auto. intros _. apply str_lt_head. lia.
Qed.
Lemma str_lt_irrefl a : ~ str_lt a a.
Proof. rewrite <- str_lt_spec. unfold str_ltb. rewrite str_leb_refl. discriminate. Qed.
Lemma str_lt_trans a b c : str_lt a b -> str_lt b c -> str_lt a c.
Proof.
  intros H. revert c. induction H as [b x|a b x y L|a x y H IH]; intros c H2; inversion H2; subst.
  - constructor.
  - constructor.
  - apply str_lt_head. lia.
  - apply str_lt_head. lia.
  - apply str_lt_head. lia.
  - apply str_lt_tail. auto.
Qed.
Lemma str_lt_total a b : str_lt a b \/ str_lt b a \/ a = b.
Proof.
  rewrite <- !str_lt_spec. unfold str_ltb. destruct (str_leb b a) eqn:E1, (str_leb a b) eqn:E2; cbn; auto.
  right. right. apply str_leb_antisym; auto.
Qed.

Section Order.
Variables (c : coref) (d : nat) (z : str).
Hypothesis TD : trees_of_document c.
Notation PN := (placed_node c d z).
Notation NB := (node_before c d).
Let pos (x : nat) : nat * Z := (co_tree c (h_root (co_h c) x), position (co_h c) x).

Lemma np_pos x y : node_precedes c x y = precedes (co_doc c) (pos x) (pos y).
Proof. unfold node_precedes, pos. rewrite !okey_position. reflexivity. Qed.
Lemma np_spec x y : PN x -> PN y -> exists v, node_precedes c x y = Ok v /\ (v = true <-> NB x y).
Proof.
  intros (_ & _ & _ & b & B1 & B2) (_ & _ & _ & b' & B1' & B2'). rewrite np_pos.
  exact (precedes_spec (co_doc c) d z b b' (pos x) (pos y) (proj1 TD) B1 B1' B2 B2').
Qed.
Lemma np_true x y : PN x -> PN y -> (node_precedes c x y = Ok true <-> NB x y).
Proof.
  intros Hx Hy. destruct (np_spec x y Hx Hy) as (v & -> & E). rewrite <- E. split; [congruence|]. intros ->. reflexivity.
Qed.
Lemma nb_order x y w : PN x -> PN y -> PN w -> ~ NB x x /\ (NB x y -> NB y w -> NB x w) /\ (NB x y \/ NB y x \/ x = y).
Proof.
  intros Hx Hy Hw. rewrite <- !np_true, !np_pos by auto.
  pose proof Hx as (X1 & X2 & X3 & b1 & B1 & Z1). pose proof Hy as (Y1 & Y2 & Y3 & b2 & B2 & Z2).
  destruct Hw as (_ & _ & _ & b3 & B3 & Z3).
  destruct (precedes_order (co_doc c) d z b1 b2 b3 (pos x) (pos y) (pos w) (proj1 TD)) as (A & B & D); auto.
  split; [rewrite A; discriminate|]. split; auto. destruct D as [D|[D|[D1 D2]]]; auto. right. right.
  cbn in D1, D2. apply (proj2 TD) in D1. rewrite <- D1 in *. eapply position_inj; eauto.
Qed.

Lemma last_app_one {A} (l : list A) x dflt : last (l ++ [x]) dflt = x.
Proof. induction l as [|a l IH]; auto. cbn [app]. destruct l; auto. Qed.
Notation F := (fun m => hd 0 (m_words c m)).
Notation L := (fun m => last (m_words c m) 0).
Notation len := (fun m => length (m_words c m)).
Notation E := (fun m => e_eid c (m_ent c m)).
Definition lexlt (m n : nat) : Prop :=
  NB (F m) (F n) \/ (F m = F n /\ len n < len m) \/ (F m = F n /\ len m = len n /\ NB (L m) (L n)) \/
  (F m = F n /\ len m = len n /\ L m = L n /\ str_lt (E m) (E n)).
Notation PM := (placed_mention c d z).
Lemma first_F m : m_words c m <> [] -> first_word c m (F m).
Proof. unfold first_word. destruct (m_words c m) as [|a l]; [congruence|]. exists l. reflexivity. Qed.
Lemma last_L m : m_words c m <> [] -> last_word c m (L m).
Proof. intros N. unfold last_word. destruct (exists_last N) as (l & a & ->). exists l. rewrite last_app_one. reflexivity. Qed.
Lemma first_uniq m x : first_word c m x -> x = F m.
Proof. intros (l & ->). reflexivity. Qed.
Lemma last_uniq m x : last_word c m x -> x = L m.
Proof. intros (l & ->). rewrite last_app_one. reflexivity. Qed.
Lemma before_lex m n : PM m -> PM n -> (mention_before c d m n <-> lexlt m n).
Proof.
  intros (N1 & _) (N2 & _). split.
  - intros (fm & fn & lm & ln & A1 & A2 & A3 & A4 & H).
    apply first_uniq in A1, A2. apply last_uniq in A3, A4. subst. exact H.
  - intros H. exists (F m), (F n), (L m), (L n).
    split; [apply first_F; auto|]. split; [apply first_F; auto|]. split; [apply last_L; auto|]. split; [apply last_L; auto|]. exact H.
Qed.
Lemma F_in m : PM m -> PN (F m).
Proof. intros (N & A). apply A. apply hd_In. auto. Qed.
Lemma L_in m : PM m -> PN (L m).
Proof. intros (N & A). apply A. apply last_In. auto. Qed.
Lemma F_or_L m : m_words c m <> [] -> words_or_head c m = m_words c m.
Proof. unfold words_or_head. destruct (m_words c m); congruence. Qed.

Lemma mention_lt_spec m n : PM m -> PM n -> exists v, mention_lt c m n = Ok v /\ (v = true <-> mention_before c d m n).
Proof.
  intros Hm Hn. setoid_rewrite (before_lex m n Hm Hn). unfold mention_lt. rewrite !F_or_L by (apply Hm || apply Hn).
  destruct (nb_order (F m) (F n) (F m) (F_in m Hm) (F_in n Hn) (F_in m Hm)) as (I1 & _ & _).
  destruct (nb_order (L m) (L n) (L m) (L_in m Hm) (L_in n Hn) (L_in m Hm)) as (I2 & T2 & O2).
  cbv zeta. destruct (Nat.eqb_spec (F m) (F n)) as [EF|EF].
  - destruct (Nat.ltb_spec (len n) (len m)) as [L1|L1]; [exists true; split; [reflexivity|]; unfold lexlt; tauto|].
    destruct (Nat.ltb_spec (len m) (len n)) as [L2|L2].
    { exists false. split; [reflexivity|]. split; [discriminate|]. unfold lexlt. rewrite <- EF.
      intros [?|[[_ ?]|[(_ & ? & _)|(_ & ? & _)]]]; [tauto|lia..]. }
    assert (EL : len m = len n) by lia.
    destruct (np_spec (L m) (L n) (L_in m Hm) (L_in n Hn)) as (v & -> & V). cbn [rbind]. destruct v.
    { exists true. split; [reflexivity|]. unfold lexlt. tauto. }
    assert (V' : ~ NB (L m) (L n)) by (intros X; apply V in X; discriminate).
    destruct (np_spec (L n) (L m) (L_in n Hn) (L_in m Hm)) as (v & -> & W). cbn [rbind]. destruct v.
    { exists false. split; [reflexivity|]. split; [discriminate|]. unfold lexlt. rewrite <- EF. destruct W as [W _]. specialize (W eq_refl).
      intros [?|[[_ ?]|[(_ & ? & ?)|(_ & ? & X & _)]]]; [tauto|lia|tauto|]. exfalso. cbv beta in X. rewrite X in *. tauto. }
    assert (W' : ~ NB (L n) (L m)) by (intros X; apply W in X; discriminate).
    exists (str_ltb (E m) (E n)). split; [reflexivity|]. rewrite str_lt_spec. unfold lexlt. split.
    + intros X. right. right. right. destruct O2 as [?|[?|?]]; tauto.
    + rewrite <- EF. intros [?|[[_ ?]|[(_ & ? & ?)|(_ & ? & _ & ?)]]]; [tauto|lia|tauto|auto].
  - destruct (np_spec (F m) (F n) (F_in m Hm) (F_in n Hn)) as (v & -> & V). exists v. split; [reflexivity|].
    rewrite V. unfold lexlt. tauto.
Qed.

Lemma mention_order m n k : PM m -> PM n -> PM k ->
  ~ mention_before c d m m /\
  (mention_before c d m n -> mention_before c d n k -> mention_before c d m k) /\
  (mention_before c d m n \/ mention_before c d n m \/ same_place c m n).
Proof.
  intros Hm Hn Hk. rewrite !before_lex by auto. unfold lexlt.
  destruct (nb_order (F m) (F n) (F k) (F_in m Hm) (F_in n Hn) (F_in k Hk)) as (I1 & T1 & O1).
  destruct (nb_order (L m) (L n) (L k) (L_in m Hm) (L_in n Hn) (L_in k Hk)) as (I2 & T2 & O2).
  pose proof (str_lt_irrefl (E m)) as I3. pose proof (str_lt_trans (E m) (E n) (E k)) as T3. pose proof (str_lt_total (E m) (E n)) as O3.
  split; [|split].
  - intros [?|[[_ ?]|[(_ & _ & ?)|(_ & _ & _ & ?)]]]; try tauto; lia.
  - intros [A|[[A1 A2]|[(A1 & A2 & A3)|(A1 & A2 & A3 & A4)]]] [B|[[B1 B2]|[(B1 & B2 & B3)|(B1 & B2 & B3 & B4)]]];
      cbv beta in *;
      try (left; apply T1; auto; fail);
      try (left; rewrite <- ?B1, ?A1; auto; fail).
    + right; left. split; [congruence|lia].
    + right; left. split; [congruence|lia].
    + right; left. split; [congruence|lia].
    + right; left. split; [congruence|lia].
    + right; right; left. split; [congruence|]. split; [lia|]. auto.
    + right; right; left. split; [congruence|]. split; [lia|]. rewrite <- B3. auto.
    + right; left. split; [congruence|lia].
    + right; right; left. split; [congruence|]. split; [lia|]. rewrite A3. auto.
    + right; right; right. split; [congruence|]. split; [lia|]. split; [congruence|]. auto.
  - destruct O1 as [O1|[O1|O1]]; [tauto|tauto|].
    destruct (lt_eq_lt_dec (len m) (len n)) as [[X|X]|X]; [right; left; right; left; split; [auto|exact X]| |left; right; left; split; auto].
    destruct O2 as [O2|[O2|O2]]; [left; right; right; left; auto|right; left; right; right; left; auto|].
    destruct O3 as [O3|[O3|O3]]; [left; right; right; right; auto|right; left; right; right; right; auto|].
    right. right. exists (F m), (L m). split; [apply first_F; apply Hm|]. split; [cbv beta in O1; rewrite O1; apply first_F; apply Hn|].
    split; [apply last_L; apply Hm|]. split; [cbv beta in O2; rewrite O2; apply last_L; apply Hn|]. auto.
Qed.
Lemma mention_asym m n : PM m -> PM n -> mention_before c d m n -> ~ mention_before c d n m.
Proof. intros Hm Hn A B. destruct (mention_order m n m Hm Hn Hm) as (I & T & _). auto. Qed.
Lemma not_same_before m n : PM m -> PM n -> same_place c m n -> ~ mention_before c d m n.
Proof.
  intros Hm Hn (f & l & A1 & A2 & A3 & A4 & A5 & A6) B. apply (before_lex m n Hm Hn) in B.
  apply first_uniq in A1, A2. apply last_uniq in A3, A4. unfold lexlt in B. cbv beta in *. rewrite <- A1, <- A2, <- A3, <- A4, A6 in B.
  assert (PN f) by (rewrite A1; apply F_in; auto). assert (PN l) by (rewrite A3; apply L_in; auto).
  destruct (nb_order f f f) as (I1 & _); auto. destruct (nb_order l l l) as (I2 & _); auto.
  pose proof (str_lt_irrefl (E n)). destruct B as [?|[[_ ?]|[(_ & _ & ?)|(_ & _ & _ & ?)]]]; try tauto. lia.
Qed.

(** ---- sorting ---- *)
Lemma insert_r_spec x l : PM x -> (forall m, In m l -> PM m) -> (forall m, In m l -> same_place c x m -> False) ->
  StronglySorted (mention_before c d) l ->
  exists l', insert_r (mention_lt c) x l = Ok l' /\ Permutation l' (x :: l) /\ StronglySorted (mention_before c d) l'.
Proof.
  intros Hx. induction l as [|y l IH]; intros Hl NS S; cbn [insert_r].
  - exists [x]. split; [reflexivity|]. split; [auto|]. constructor; constructor.
  - inversion S as [|? ? S1 F1]; subst. assert (Hy : PM y) by (apply Hl; left; auto).
    destruct (mention_lt_spec y x Hy Hx) as (v & -> & V). cbn [rbind]. destruct v.
    + destruct IH as (l' & -> & P & S'); auto; [intros; apply Hl; right; auto|intros m Hm; apply NS; right; auto|].
      exists (y :: l'). split; [reflexivity|]. split; [rewrite P; apply perm_swap|]. constructor; auto.
      rewrite Forall_forall in *. intros m Hm. apply (Permutation_in _ P) in Hm. destruct Hm as [<-|Hm]; auto. apply V; auto.
    + assert (mention_before c d x y) as XY.
      { destruct (mention_order x y y Hx Hy Hy) as (_ & _ & [O|[O|O]]); auto.
        - apply V in O. discriminate.
        - exfalso. apply (NS y); auto. left; auto. }
      exists (x :: y :: l). split; [reflexivity|]. split; [auto|]. constructor; auto.
      rewrite Forall_forall in *. intros m [<-|Hm]; auto.
      destruct (mention_order x y m Hx Hy (Hl m (or_intror Hm))) as (_ & T & _). apply T; auto.
Qed.
Lemma sort_r_spec l : (forall m, In m l -> PM m) -> NoDup l -> (forall m n, In m l -> In n l -> same_place c m n -> m = n) ->
  exists l', sort_r (mention_lt c) l = Ok l' /\ Permutation l' l /\ StronglySorted (mention_before c d) l'.
Proof.
  induction l as [|x l IH]; intros Hl ND NS; cbn [sort_r].
  - exists []. split; [reflexivity|]. split; [auto|constructor].
  - inversion ND; subst. destruct IH as (l' & -> & P & S); auto; [intros; apply Hl; right; auto|intros; apply NS; auto; right; auto|].
    cbn [rbind]. destruct (insert_r_spec x l') as (l2 & E2 & P2 & S2); auto.
    + apply Hl; left; auto.
    + intros m Hm. apply Hl. right. eapply Permutation_in; eauto.
    + intros m Hm Sm. assert (In m l) by (eapply Permutation_in; eauto). assert (x = m) as -> by (apply NS; auto; [left; auto|right; auto]). tauto.
    + exists l2. split; auto. split; auto. rewrite P2, P. auto.
Qed.
End Order.

Lemma words_or_head_ok c m : m_words c m <> [] -> words_or_head c m = m_words c m.
Proof. unfold words_or_head. destruct (m_words c m); congruence. Qed.
Lemma touch_words c m x : m_words c m <> [] -> m_words (touch c m) x = m_words c x.
Proof. intros N. cbn. unfold upd. destruct (Nat.eqb_spec x m) as [->|]; auto. apply words_or_head_ok; auto. Qed.
Definition same_but_words (c c' : coref) : Prop :=
  co_doc c' = co_doc c /\ co_h c' = co_h c /\ co_tree c' = co_tree c /\ m_next c' = m_next c /\ e_next c' = e_next c /\
  m_head c' = m_head c /\ m_ent c' = m_ent c /\ e_eid c' = e_eid c /\ e_type c' = e_type c /\ e_ments c' = e_ments c /\
  n_ments c' = n_ments c /\ eids c' = eids c.
Lemma sbw_refl c : same_but_words c c.
Proof. unfold same_but_words. auto 20. Qed.
Lemma sbw_trans a b c : same_but_words a b -> same_but_words b c -> same_but_words a c.
Proof. unfold same_but_words. intuition congruence. Qed.
Lemma touch_same c m : same_but_words c (touch c m).
Proof. unfold same_but_words. cbn. auto 20. Qed.
Lemma touch_all_spec l : forall c, (forall m, In m l -> m_words c m <> []) -> same_but_words c (touch_all c l) /\ forall x, m_words (touch_all c l) x = m_words c x.
Proof.
  induction l as [|m l IH]; intros c H; cbn [touch_all]; [split; [apply sbw_refl|auto]|].
  assert (N : m_words c m <> []) by (apply H; left; auto).
  destruct (IH (touch c m)) as [A B].
  - intros k Hk. rewrite touch_words by auto. apply H; right; auto.
  - split; [eapply sbw_trans; [apply touch_same|exact A]|]. intros x. rewrite B. apply touch_words; auto.
Qed.
Lemma mention_lt_same c c' : same_but_words c c' -> (forall x, m_words c' x = m_words c x) -> forall m n, mention_lt c' m n = mention_lt c m n.
Proof.
  intros (A1 & A2 & A3 & A4 & A5 & A6 & A7 & A8 & A9 & A10 & A11 & A12) W m n.
  unfold mention_lt, words_or_head, node_precedes. rewrite !W, A1, A2, A3, A6, A7, A8. reflexivity.
Qed.
Lemma insert_r_ext lt lt' : (forall m n, lt m n = lt' m n) -> forall x l, insert_r lt x l = insert_r lt' x l.
Proof. intros H x l. induction l as [|y l IH]; cbn [insert_r]; auto. rewrite H, IH. reflexivity. Qed.
Lemma sort_r_ext lt lt' : (forall m n, lt m n = lt' m n) -> forall l, sort_r lt l = sort_r lt' l.
Proof.
  intros H l. induction l as [|y l IH]; cbn [sort_r]; auto. rewrite IH. destruct (sort_r lt' l); cbn; auto. apply insert_r_ext; auto.
Qed.
Lemma sort_mentions_val c l : (forall m, In m l -> m_words c m <> []) -> snd (sort_mentions c l) = sort_r (mention_lt c) l.
Proof.
  intros H. unfold sort_mentions. cbn [snd]. apply sort_r_ext. apply mention_lt_same; destruct l as [|a [|b l]]; auto using sbw_refl;
    apply (touch_all_spec _ c H).
Qed.
Lemma sort_mentions_spec c d z l : trees_of_document c -> (forall m, In m l -> placed_mention c d z m) -> NoDup l ->
  (forall m n, In m l -> In n l -> same_place c m n -> m = n) ->
  exists l', snd (sort_mentions c l) = Ok l' /\ Permutation l' l /\ sorted_mentions c d l' /\
    forall k, Permutation k l -> snd (sort_mentions c k) = Ok l'.
Proof.
  intros TD H ND NS. destruct (sort_r_spec c d z TD l H ND NS) as (l' & E1 & P & S).
  exists l'. rewrite sort_mentions_val by (intros m Hm; apply (H m Hm)). split; auto. split; auto. split; auto.
  intros k Pk. rewrite sort_mentions_val by (intros m Hm; apply (H m); eapply Permutation_in; eauto).
  destruct (sort_r_spec c d z TD k) as (k' & E2 & P2 & S2).
  - intros m Hm. apply H. eapply Permutation_in; eauto.
  - eapply Permutation_NoDup; [symmetry; eauto|auto].
  - intros m n Hm Hn. apply NS; eapply Permutation_in; eauto.
  - rewrite E2. f_equal. apply (sorted_unique (mention_before c d)); auto.
    + intros a Ha. assert (Pa : placed_mention c d z a) by (apply H; apply (Permutation_in a Pk); apply (Permutation_in a P2); auto).
      destruct (mention_order c d z TD a a a Pa Pa Pa) as (I & _). exact I.
    + intros a b Ha Hb. apply (mention_asym c d z TD); apply H; eapply Permutation_in; try exact Pk; eapply Permutation_in; eauto.
    + rewrite P2, Pk, P. reflexivity.
Qed.

(** ---- entities ---- *)
Lemma entity_lt_spec c d z a b : trees_of_document c ->
  (forall m, In m (e_ments c a) -> placed_mention c d z m) -> (forall m, In m (e_ments c b) -> placed_mention c d z m) ->
  exists v, entity_lt c a b = Ok v /\
    (v = true <-> match e_ments c a, e_ments c b with
                  | [], [] => str_lt (e_eid c a) (e_eid c b)
                  | [], _ => True
                  | _, [] => False
                  | m :: _, n :: _ => mention_before c d m n
                  end).
Proof.
  intros TD Ha Hb. unfold entity_lt. destruct (e_ments c a) as [|m l], (e_ments c b) as [|n k].
  - exists (str_ltb (e_eid c a) (e_eid c b)). split; [reflexivity|]. apply str_lt_spec.
  - exists true. split; [reflexivity|]. tauto.
  - exists false. split; [reflexivity|]. split; [discriminate|tauto].
  - apply (mention_lt_spec c d z TD); [apply Ha; left; auto|apply Hb; left; auto].
Qed.
