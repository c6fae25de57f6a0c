(** Storing coreference: the items that are written (continuous mentions and pieces of discontinuous ones). *)
From Coq Require Import String List NArith ZArith Bool Lia Sorting.Sorted Sorting.Permutation.
From Verif Require Import PyStr PyStrFacts PyList PyListFacts PyExn TreeModel TreeSpec TreeOps EmptySpec DualDictModel BundleModel BundleSpec
  CorefModel CorefSpec CorefSpan CorefOrder CorefIds CorefIOModel CorefIOSpec CorefIOEvents CorefIOText CorefIOSort CorefIOLoad CorefIOPlace.
Import ListNotations.
Local Open Scope list_scope.

(** an item: the mention, the number of the piece and the number of pieces, the words *)
Definition item : Type := nat * option (nat * nat) * list nat.
Definition i_own (g : item) : nat := fst (fst g).
Definition i_sub (g : item) : option (nat * nat) := snd (fst g).
Definition i_wds (g : item) : list nat := snd g.
Fixpoint number (m i n : nat) (ps : list (list nat)) : list item :=
  match ps with
  | [] => []
  | p :: ps => (m, Some (i, n), p) :: number m (S i) n ps
  end.

Section Store.
Variables (x : corefs) (d : nat) (z : str) (roots : list nat).
Hypothesis ST : storable x d z roots.
Notation c := (cs_c x).
Notation h := (co_h (cs_c x)).
Notation nodes := (doc_nodes c roots).
Notation pos := (ix nodes).

(** ---- the mentions ---- *)
Definition dm_root (m : nat) : nat := h_root h (m_head c m).
Definition inw (m : nat) : nat -> bool := fun w => mem w (m_words c m).
Definition pcs (m : nat) : list (list nat) := runs_of (inw m) (descendants_and_empty h (dm_root m)).
Lemma dm_listed m : doc_mention c m -> listed c m.
Proof. intros (k & e & _ & H). unfold listed. rewrite (lk_ents _ (st_linked _ _ _ _ ST) e m H). exact H. Qed.
Lemma dm_ent m : doc_mention c m -> exists k, In (k, m_ent c m) (eids c).
Proof. intros (k & e & E & H). exists k. rewrite (lk_ents _ (st_linked _ _ _ _ ST) e m H). exact E. Qed.
Lemma dm_words m : doc_mention c m -> m_words c m <> [] /\ NoDup (m_words c m) /\ In (m_head c m) (m_words c m) /\
    forall w, In w (m_words c m) -> h_root h w = dm_root m.
Proof. intros D. apply (lk_words _ (st_linked _ _ _ _ ST)). apply dm_listed; auto. Qed.
Lemma dm_known m : doc_mention c m -> m_ent c m < e_next c /\ m < m_next c /\ forall w, In w (m_words c m) -> w < h_next h.
Proof. intros D. apply (lk_known _ (st_linked _ _ _ _ ST)). apply dm_listed; auto. Qed.
Lemma dm_inroot m : doc_mention c m -> In (dm_root m) roots.
Proof.
  intros D. destruct (dm_words m D) as (_ & _ & HD & _). pose proof (st_placed _ _ _ _ ST m _ D HD) as PL.
  apply (placed_root c d z roots (st_trees _ _ _ _ ST) (st_roots _ _ _ _ ST)) in PL. apply PL.
Qed.
Lemma dm_good m : doc_mention c m -> consistent h (dm_root m) /\ good_empties h (dm_root m).
Proof. intros D. apply (st_roots _ _ _ _ ST). apply dm_inroot; auto. Qed.
Lemma dm_tree m w : doc_mention c m -> In w (m_words c m) -> in_tree h (dm_root m) w.
Proof.
  intros D W. pose proof (st_placed _ _ _ _ ST m _ D W) as PL. destruct (dm_words m D) as (_ & _ & _ & R).
  rewrite <- (R w W). apply PL.
Qed.
Lemma dm_order m : doc_mention c m -> word_order h (dm_root m) (descendants_and_empty h (dm_root m)).
Proof. intros D. destruct (dm_good m D). apply dae_order; auto. Qed.
Lemma pcs_concat m : doc_mention c m -> concat (pcs m) = m_words c m.
Proof.
  intros D. unfold pcs. rewrite runs_concat. destruct (dm_order m D) as [S I]. apply (key_sorted_unique (position h)).
  - apply filter_StronglySorted. exact S.
  - apply (CorefIOSpec.st_words _ _ _ _ ST m D).
  - apply NoDup_Permutation.
    + apply NoDup_filter. eapply increasing_nodup; eauto.
    + apply (dm_words m D).
    + intros w. rewrite filter_In, I. unfold inw. rewrite mem_In. split; [tauto|]. intros W. split; auto. apply dm_tree; auto.
Qed.
Lemma pcs_nonnil m : doc_mention c m -> pcs m <> [].
Proof. intros D E. pose proof (pcs_concat m D) as X. rewrite E in X. destruct (dm_words m D) as (N & _). cbn in X. auto. Qed.
Lemma pcs_pieces m : doc_mention c m -> pieces c m (pcs m).
Proof.
  intros D. exists (descendants_and_empty h (dm_root m)). split; [apply dm_order; auto|]. unfold pcs.
  assert (X : forall P l rs, (forall w, P w <-> inw m w = true) -> maximal_runs (fun w => inw m w = true) l rs -> maximal_runs P l rs).
  { intros P l rs H M. induction M; constructor; auto; try (rewrite H; auto); eapply Forall_impl; try eassumption; intros a; apply H. }
  apply X; [|apply runs_maximal]. intros w. unfold inw. rewrite mem_In. tauto.
Qed.
Lemma pcs_run m p : In p (pcs m) -> p <> [] /\ (exists u v, descendants_and_empty h (dm_root m) = u ++ p ++ v) /\ forall w, In w p -> In w (m_words c m).
Proof.
  intros H. apply runs_infix in H. destruct H as (A & B & D). split; auto. split; auto. intros w W. apply D in W. apply mem_In in W. exact W.
Qed.
Lemma pcs_nonempty m p : In p (pcs m) -> p <> [].
Proof. intros H. apply (pcs_run m p H). Qed.
Lemma pcs_span m : doc_mention c m -> span c m = Ok (join (s ",") (map (run_text h) (pcs m))).
Proof.
  intros D. destruct (dm_good m D) as [G1 G2]. unfold span.
  destruct (nodes_to_span_runs h (dm_root m) (m_words c m) (descendants_and_empty h (dm_root m)) G1 G2) as (rs & M & E).
  - apply (dm_words m D).
  - intros w. apply dm_tree; auto.
  - apply dm_order; auto.
  - rewrite E. do 3 f_equal. apply (runs_fun (fun w => In w (m_words c m))); auto. intros w. unfold inw. rewrite mem_In. tauto.
Qed.
Lemma run_range m p : doc_mention c m -> In p (pcs m) -> range_text (bounds h p) (run_text h p) /\ (0 <= fst (bounds h p))%Z /\ (0 <= snd (bounds h p))%Z.
Proof.
  intros D H. destruct (pcs_run m p H) as (N & _ & W). destruct (dm_good m D) as [G1 G2].
  assert (PN : forall w, In w p -> (0 <= position h w)%Z) by (intros w Hw; apply (position_nonneg h (dm_root m)); auto; apply dm_tree; auto).
  split; [|unfold bounds; cbn [fst snd]; split; apply PN; [apply hd_In|apply last_In]; auto].
  unfold bounds, run_text. destruct p as [|a [|b p]]; [congruence|cbn; constructor|].
  cbn [hd]. rewrite (last_dflt _ a 0%nat) by discriminate. constructor.
Qed.
Lemma run_nocomma m p : doc_mention c m -> In p (pcs m) -> ~ In COMMA (run_text h p).
Proof. intros D H. destruct (run_range m p D H) as (A & B & C). eapply range_text_nocomma; eauto. Qed.
Lemma pcs_split m : doc_mention c m -> split COMMA (join (s ",") (map (run_text h) (pcs m))) = map (run_text h) (pcs m).
Proof.
  intros D. change (s ",") with [COMMA]. apply split_join.
  - intros E. apply map_eq_nil in E. apply (pcs_nonnil m D E).
  - intros t Ht. apply in_map_iff in Ht. destruct Ht as (p & <- & Hp). apply (run_nocomma m p D Hp).
Qed.
Lemma pcs_comma m : doc_mention c m -> has_char COMMA (join (s ",") (map (run_text h) (pcs m))) = match pcs m with [_] => false | _ => true end.
Proof.
  intros D. pose proof (pcs_nonnil m D) as N. pose proof (fun p => run_nocomma m p D) as NC. destruct (pcs m) as [|p [|q ps]]; [congruence| |].
  - cbn [map join]. destruct (has_char COMMA (run_text h p)) eqn:E; auto. apply has_char_In in E. exfalso. apply (NC p); auto. left; auto.
  - apply has_char_In. cbn [map join]. rewrite !in_app_iff. right. left. cbn. auto.
Qed.
Lemma infix_between l u (p : list nat) v w : increasing h l -> l = u ++ p ++ v -> p <> [] -> In w l ->
  ((fst (bounds h p) <= position h w <= snd (bounds h p))%Z <-> In w p).
Proof.
  intros S E N W. rewrite E in S. apply increasing_app in S as (S1 & S2 & S3). apply increasing_app in S2 as (S4 & S5 & S6).
  pose proof (increasing_bounds h p N S4) as B. unfold bounds. cbn [fst snd]. split.
  - intros L. rewrite E in W. rewrite !in_app_iff in W. destruct W as [W|[W|W]]; auto.
    + specialize (S3 w (hd 0 p) W). rewrite in_app_iff in S3. specialize (S3 (or_introl (hd_In p 0 N))). lia.
    + specialize (S6 (last p 0) w (last_In p 0 N) W). lia.
  - intros H. apply B. exact H.
Qed.
Lemma run_nodes m p : doc_mention c m -> In p (pcs m) -> span_to_nodes h (dm_root m) (run_text h p) = Ok p.
Proof.
  intros D H. destruct (pcs_run m p H) as (N & (u & v & E) & W). destruct (dm_good m D) as [G1 G2]. destruct (dm_order m D) as [S I].
  destruct (run_range m p D H) as (A & B & C).
  destruct (span_to_nodes_spec h (dm_root m) [bounds h p] [run_text h p]) as (f & F1 & F2); [discriminate|constructor; auto|intros a [<-|[]]; auto|].
  cbn [join] in F1. rewrite F1. f_equal. apply (key_sorted_unique (position h)).
  - apply filter_StronglySorted. exact S.
  - rewrite E in S. apply increasing_app in S as (S1 & S2 & S3). apply increasing_app in S2 as (S4 & S5 & S6). exact S4.
  - apply NoDup_Permutation.
    + apply NoDup_filter. eapply increasing_nodup; eauto.
    + rewrite E in S. apply increasing_app in S as (S1 & S2 & S3). apply increasing_app in S2 as (S4 & S5 & S6). eapply increasing_nodup; eauto.
    + intros w. rewrite filter_In, F2. split.
      * intros (Hw & a & b & [Eb|[]] & L). apply (infix_between _ u p v w S E N Hw). rewrite Eb. exact L.
      * intros Hw. assert (Hd : In w (descendants_and_empty h (dm_root m))) by (rewrite E, !in_app_iff; auto). split; auto.
        exists (fst (bounds h p)), (snd (bounds h p)). split; [left; apply surjective_pairing|]. apply (infix_between _ u p v w S E N Hd). exact Hw.
Qed.
Lemma sorted_words m : doc_mention c m -> sort_on (okey h) (m_words c m) = m_words c m.
Proof.
  intros D. apply sort_on_unique; auto. pose proof (CorefIOSpec.st_words _ _ _ _ ST m D) as S. unfold increasing in S.
  eapply strongly_sorted_impl; [|exact S]. intros a b _ _ L. unfold key_lt. rewrite !okey_position. exact L.
Qed.

(** ---- the items ---- *)
Definition gh (m : nat) : list item :=
  match pcs m with
  | [p] => [(m, None, p)]
  | ps => number m 1 (length ps) ps
  end.
Definition gid (g : item) : str :=
  match i_sub g with
  | None => e_eid c (m_ent c (i_own g))
  | Some (i, n) => piece_id (e_eid c (m_ent c (i_own g))) (Z.of_nat i) (Z.of_nat n)
  end.
Definition hidx (m : nat) : Z := match index_of (m_head c m) (m_words c m) with Some i => i + 1 | None => 0 end.
Definition hs_of (kg : nat * item) : list (nat * str) :=
  match i_sub (snd kg) with None => [] | Some _ => [(fst kg, str_of_Z (hidx (i_own (snd kg))))] end.

(** x2 has what x1 has, and perhaps more *)
Definition ext (x1 x2 : corefs) : Prop :=
  (co_doc (cs_c x2) = co_doc (cs_c x1) /\ co_h (cs_c x2) = co_h (cs_c x1) /\ co_tree (cs_c x2) = co_tree (cs_c x1) /\
   n_ments (cs_c x2) = n_ments (cs_c x1) /\ eids (cs_c x2) = eids (cs_c x1)) /\
  (m_next (cs_c x1) <= m_next (cs_c x2) /\ e_next (cs_c x1) <= e_next (cs_c x2)) /\
  (forall k, k < m_next (cs_c x1) -> m_words (cs_c x2) k = m_words (cs_c x1) k /\ m_head (cs_c x2) k = m_head (cs_c x1) k /\
     m_ent (cs_c x2) k = m_ent (cs_c x1) k /\ cs_other x2 k = cs_other x1 k) /\
  (forall e, e < e_next (cs_c x1) -> e_eid (cs_c x2) e = e_eid (cs_c x1) e /\ e_type (cs_c x2) e = e_type (cs_c x1) e /\
     e_ments (cs_c x2) e = e_ments (cs_c x1) e).
Lemma ext_refl a : ext a a.
Proof. unfold ext. auto 20. Qed.
Lemma ext_trans a b e : ext a b -> ext b e -> ext a e.
Proof.
  intros ((A1 & A2 & A3 & A4 & A5) & (A7 & A8) & A9 & A10) ((B1 & B2 & B3 & B4 & B5) & (B7 & B8) & B9 & B10).
  split; [repeat split; congruence|]. split; [split; lia|]. split.
  - intros k K. destruct (A9 k K) as (? & ? & ? & ?). destruct (B9 k) as (? & ? & ? & ?); [lia|]. repeat split; congruence.
  - intros k K. destruct (A10 k K) as (? & ? & ?). destruct (B10 k) as (? & ? & ?); [lia|]. repeat split; congruence.
Qed.
Definition item_at (y : corefs) (k : nat) (g : item) : Prop :=
  k < m_next (cs_c y) /\ m_ent (cs_c y) k < e_next (cs_c y) /\ m_words (cs_c y) k = i_wds g /\ cs_other y k = cs_other x (i_own g) /\
  e_type (cs_c y) (m_ent (cs_c y) k) = e_type c (m_ent c (i_own g)) /\ e_eid (cs_c y) (m_ent (cs_c y) k) = gid g /\
  (i_sub g = None -> k = i_own g) /\ (i_sub g <> None -> m_next c <= k).
Lemma item_ext y y' k g : ext y y' -> item_at y k g -> item_at y' k g.
Proof.
  intros (_ & (L1 & L2) & M & F) (A1 & A2 & A3 & A4 & A5 & A6 & A7 & A8). destruct (M k A1) as (M1 & M2 & M3 & M4). destruct (F _ A2) as (F1 & F2 & F3).
  unfold item_at. rewrite M1, M3, M4, F1, F2. repeat split; auto; lia.
Qed.
Lemma items_ext y y' ks gs : ext y y' -> Forall2 (item_at y) ks gs -> Forall2 (item_at y') ks gs.
Proof. intros X H. induction H; constructor; auto. eapply item_ext; eauto. Qed.
Lemma dm_id m : doc_mention c m -> In (e_eid c (m_ent c m), m_ent c m) (eids c) /\ good_id (e_eid c (m_ent c m)).
Proof.
  intros D. destruct (dm_ent m D) as (k & H). destruct (st_unique _ _ _ _ ST) as [_ U]. destruct (U k _ H) as [E _]. rewrite E. split; auto.
  apply (st_ids _ _ _ _ ST k _ H).
Qed.
Lemma piece_allowed e i n : ~ has_forbidden e -> (0 <= i)%Z -> (0 <= n)%Z -> forbidden_in_id (piece_id e i n) = false.
Proof.
  intros N Hi Hn. destruct (forbidden_in_id (piece_id e i n)) eqn:E; auto. apply forbidden_spec in E. destruct E as (a & Ha & B). exfalso.
  unfold piece_id in Ha. rewrite !in_app_iff in Ha.
  assert (DG : forall t, (0 <= t)%Z -> In a (str_of_Z t) -> is_digit a = true).
  { intros t Ht HI. destruct (str_of_Z_nonneg t Ht) as [F _]. rewrite forallb_forall in F. auto. }
  assert (X : is_digit a = true -> False).
  { intros X. cbn in B. repeat (destruct B as [<-|B]; [discriminate X|]). destruct B. }
  destruct Ha as [Ha|[Ha|[Ha|[Ha|[Ha|Ha]]]]]; try (cbn in Ha; destruct Ha as [<-|[]]; cbn in B; repeat (destruct B as [B|B]; [discriminate B|]); destruct B).
  - apply N. exists a. auto.
  - apply X. eapply DG; [exact Hi|auto].
  - apply X. eapply DG; [exact Hn|auto].
Qed.

Lemma fakes m : doc_mention c m -> forall ps i n y, (forall p, In p ps -> In p (pcs m)) -> ext x y ->
  exists y', fake_mentions y m (m_ent c m) (dm_root m) (Z.of_nat i) (Z.of_nat n) (map (run_text h) ps) = (y', Ok (seq (m_next (cs_c y)) (length ps))) /\
    ext y y' /\ cs_misc y' = cs_misc y /\ m_next (cs_c y') = m_next (cs_c y) + length ps /\ Forall2 (item_at y') (seq (m_next (cs_c y)) (length ps)) (number m i n ps).
Proof.
  intros D. destruct (dm_known m D) as (KE & KM & _). destruct (dm_id m D) as [_ GI].
  induction ps as [|p ps IH]; intros i n y H X; cbn [map fake_mentions length seq number].
  - exists y. split; [reflexivity|]. split; [apply ext_refl|]. split; [reflexivity|]. split; [lia|constructor].
  - pose proof X as ((B1 & B2 & B3 & B4 & B5) & (B7 & B8) & B9 & B10). rewrite B2. rewrite run_nodes by (auto; apply H; left; auto). cbn [bind].
    destruct (B10 _ KE) as (EE & ET & _). rewrite EE. fold (piece_id (e_eid c (m_ent c m)) (Z.of_nat i) (Z.of_nat n)).
    unfold fake_mention at 1. rewrite piece_allowed by (try lia; apply GI).
    assert (Hp : In p (pcs m)) by (apply H; left; auto). pose proof (pcs_nonempty m p Hp) as NE. destruct p as [|w p]; [congruence|].
    set (y1 := put_other _ _ _).
    assert (X1 : ext y y1).
    { unfold ext, y1. cbn. split; [auto 10|]. split; [lia|]. split; intros a Ha; rewrite ?upd_other by lia; auto. }
    destruct (IH (S i) n y1) as (y' & E & X2 & M2 & N2 & F2); [intros; apply H; right; auto|eapply ext_trans; eauto|].
    cbn [bind]. replace (Z.of_nat i + 1)%Z with (Z.of_nat (S i)) by lia. rewrite E. cbn [bind].
    change (m_next (cs_c y1)) with (S (m_next (cs_c y))) in *. exists y'. split; [reflexivity|]. split; [eapply ext_trans; eauto|]. split; [rewrite M2; reflexivity|].
    split; [rewrite N2; cbn [length]; lia|]. constructor; auto. eapply item_ext; [exact X2|].
    unfold item_at, y1, i_own, i_wds, i_sub, gid. cbn. rewrite !upd_same. rewrite ET. destruct (B9 m KM) as (_ & _ & _ & ->).
    repeat split; auto; try lia. intros; congruence.
Qed.
Lemma index_ok m : doc_mention c m -> exists i, index_of (m_head c m) (m_words c m) = Some i /\ (0 <= i)%Z /\
  nth_error (m_words c m) (Z.to_nat i) = Some (m_head c m).
Proof.
  intros D. destruct (dm_words m D) as (_ & _ & HI & _). revert HI. generalize (m_words c m) (m_head c m). clear.
  intros l a. induction l as [|b l IH]; [intros []|]. intros H. cbn [index_of]. destruct (Nat.eqb_spec b a) as [->|N].
  - exists 0%Z. repeat split; auto. lia.
  - destruct H as [?|H]; [congruence|]. destruct (IH H) as (i & -> & L & E). exists (Z.succ i). cbn [option_map]. split; auto. split; [lia|].
    replace (Z.to_nat (Z.succ i)) with (S (Z.to_nat i)) by lia. exact E.
Qed.
(** reading mention.words changes nothing *)
Lemma read_words_ext y m : doc_mention c m -> ext x y -> ext y (with_c y (put_words (cs_c y) m (m_words (cs_c y) m))).
Proof.
  intros D X. unfold ext. cbn. repeat split; auto. unfold upd. destruct (Nat.eqb_spec k m); subst; auto.
Qed.
Lemma gh_own m g : In g (gh m) -> i_own g = m.
Proof.
  assert (N : forall ps i n, In g (number m i n ps) -> i_own g = m).
  { induction ps as [|p ps IH]; intros i n; [intros []|]. cbn. intros [<-|H]; auto. eapply IH; eauto. }
  unfold gh. destruct (pcs m) as [|p [|q ps]]; [intros []|intros [<-|[]]; auto|apply N].
Qed.
Lemma hs_number m : forall ps i n a, flat_map hs_of (combine (seq a (length ps)) (number m i n ps)) = map (fun k => (k, str_of_Z (hidx m))) (seq a (length ps)).
Proof.
  induction ps as [|p ps IH]; intros i n a; [reflexivity|]. cbn [length seq map number combine flat_map].
  change (hs_of (a, (m, Some (i, n), p))) with [(a, str_of_Z (hidx m))]. cbn [app]. f_equal. apply IH.
Qed.
Lemma doc_items ms : forall y, (forall m, In m ms -> doc_mention c m) -> NoDup ms -> ext x y ->
  exists y' ks, doc_mentions y ms = (y', Ok (ks, flat_map hs_of (combine ks (flat_map gh ms)))) /\ ext y y' /\ cs_misc y' = cs_misc y /\
    Forall2 (item_at y') ks (flat_map gh ms) /\ NoDup ks /\ forall k, In k ks -> In k ms \/ m_next (cs_c y) <= k < m_next (cs_c y').
Proof.
  induction ms as [|m ms IH]; intros y DM ND X; cbn [doc_mentions flat_map].
  - exists y, []. split; [reflexivity|]. split; [apply ext_refl|]. split; [reflexivity|]. split; [constructor|]. split; [constructor|]. intros k [].
  - assert (D : doc_mention c m) by (apply DM; left; auto). inversion ND as [|? ? ND1 ND2]; subst.
    destruct (dm_known m D) as (KE & KM & _). pose proof X as ((B1 & B2 & B3 & B4 & B5) & (B7 & B8) & B9 & B10).
    destruct (B9 m KM) as (W1 & W2 & W3 & W4).
    unfold span. rewrite B2, W1. pose proof (pcs_span m D) as SP. unfold span in SP. rewrite SP. cbn [bind].
    rewrite pcs_comma, pcs_split by auto.
    assert (STEP : forall y1 ks1 gs1 hs1, ext y y1 -> cs_misc y1 = cs_misc y -> Forall2 (item_at y1) ks1 gs1 -> hs1 = flat_map hs_of (combine ks1 gs1) -> NoDup ks1 ->
      (forall k, In k ks1 -> k = m \/ m_next (cs_c y) <= k < m_next (cs_c y1)) ->
      exists y' ks, bind (doc_mentions y1 ms) (fun x0 r => (x0, Ok (ks1 ++ fst r, hs1 ++ snd r))) = (y', Ok (ks, flat_map hs_of (combine ks (gs1 ++ flat_map gh ms)))) /\
        ext y y' /\ cs_misc y' = cs_misc y /\ Forall2 (item_at y') ks (gs1 ++ flat_map gh ms) /\ NoDup ks /\ forall k, In k ks -> In k (m :: ms) \/ m_next (cs_c y) <= k < m_next (cs_c y')).
    { intros y1 ks1 gs1 hs1 X1 M1 F1 HS ND1' R1. destruct (IH y1) as (y' & ks & E & X2 & M2 & F2 & ND3 & R2); auto; [intros; apply DM; right; auto|eapply ext_trans; eauto|].
      rewrite E. cbn [bind fst snd]. exists y', (ks1 ++ ks). split.
      - subst hs1. rewrite <- flat_map_app. do 5 f_equal. clear - F1. induction F1; cbn [combine app]; congruence.
      - split; [eapply ext_trans; eauto|]. split; [congruence|]. split; [apply Forall2_app; auto; eapply items_ext; eauto|]. pose proof X1 as (_ & (L1 & _) & _). pose proof X2 as (_ & (L2 & _) & _). split.
        + apply nodup_app; auto. intros k K1 K2. apply R1 in K1. apply R2 in K2. destruct K1 as [->|K1], K2 as [K2|K2]; try lia; auto.
          assert (k < m_next c) by (apply dm_known; apply DM; right; auto). lia.
        + intros k K. apply in_app_iff in K. destruct K as [K|K]; [apply R1 in K|apply R2 in K]; destruct K as [K|K]; cbn; auto; right; lia. }
    assert (CASE : (exists p, pcs m = [p]) \/ match pcs m with [_] => false | _ => true end = true /\ (gh m = number m 1 (length (pcs m)) (pcs m))).
    { pose proof (pcs_nonnil m D). unfold gh. destruct (pcs m) as [|p [|q ps]]; [congruence|left; eauto|right; auto]. }
    destruct CASE as [(p & EP)|[EP EG]].
    + assert (EG : gh m = [(m, None, p)]) by (unfold gh; rewrite EP; reflexivity). rewrite EP, EG. cbn [bind fst snd]. apply (STEP y [m] [(m, None, p)] []); auto using ext_refl.
      * constructor; [|constructor]. pose proof (pcs_concat m D) as PC. rewrite EP in PC. cbn in PC. rewrite app_nil_r in PC. destruct (B10 _ KE) as (E1 & E2 & E3).
        unfold item_at, i_own, i_wds, i_sub, gid. cbn. rewrite W1, W3, W4, E1, E2. repeat split; auto; try lia. congruence.
      * repeat constructor; auto.
      * intros k [<-|[]]. auto.
    + rewrite EP, EG. unfold words. cbn [bind]. rewrite B2, W1, sorted_words by auto. destruct (index_ok m D) as (i & EI & LI & NI).
      cbn [put_words co_h m_head m_ent with_c cs_c bind]. rewrite W2, W3, EI. cbn [bind].
      destruct (m_words c m) as [|w ws] eqn:EW; [destruct (dm_words m D) as (N & _); congruence|]. rewrite B2.
      assert (RW : h_root h w = dm_root m) by (apply (dm_words m D); rewrite EW; left; auto). rewrite RW. cbn [bind].
      rewrite map_length.
      assert (X1 : ext y (with_c y (put_words (cs_c y) m (w :: ws)))).
      { pose proof (read_words_ext y m D X) as X1. rewrite W1 in X1. exact X1. }
      set (y1 := with_c y (put_words (cs_c y) m (w :: ws))) in *.
      change 1%Z with (Z.of_nat 1). destruct (fakes m D (pcs m) 1 (length (pcs m)) y1) as (y2 & E & X2 & M2 & N2 & F2); auto; [eapply ext_trans; eauto|].
      rewrite E. cbn [bind fst snd]. change (m_next (cs_c y1)) with (m_next (cs_c y)) in *. apply STEP.
      * eapply ext_trans; eauto.
      * rewrite M2. reflexivity.
      * exact F2.
      * assert (HX : str_of_Z (i + Z.of_nat 1) = str_of_Z (hidx m)) by (unfold hidx; rewrite EW, EI; reflexivity). rewrite HX.
        symmetry. apply hs_number.
      * apply seq_NoDup.
      * intros k K. apply in_seq in K. right. lia.
Qed.
End Store.
