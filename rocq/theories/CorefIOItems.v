(** The items that are written, in their order. *)
From Coq Require Import String List NArith ZArith Bool Lia Sorting.Sorted Sorting.Permutation.
From Verif Require Import PyStr PyStrFacts PyList PyListFacts PyExn TreeModel TreeSpec TreeOps EmptySpec DualDictModel BundleModel BundleSpec
  CorefModel CorefSpec CorefSpan CorefOrder CorefIds CorefIOModel CorefIOSpec CorefIOEvents CorefIOText CorefIOSort CorefIOLoad CorefIOPlace CorefIOStore.
Import ListNotations.
Local Open Scope list_scope.

Lemma number_nth m : forall ps i n j, nth_error (number m i n ps) j = option_map (fun p => (m, Some (i + j, n), p)) (nth_error ps j).
Proof.
  induction ps as [|p ps IH]; intros i n [|j]; cbn [number nth_error option_map]; auto.
  - rewrite Nat.add_0_r. reflexivity.
  - rewrite IH. destruct (nth_error ps j); cbn [option_map]; auto. do 5 f_equal. lia.
Qed.
Lemma weak_strict {A} (key : A -> nat) l : StronglySorted (fun a b => key a <= key b) l -> NoDup l ->
  (forall a b, In a l -> In b l -> key a = key b -> a = b) -> StronglySorted (fun a b => key a < key b) l.
Proof.
  induction 1 as [|a l S IH F]; intros ND J; constructor; inversion ND as [|? ? N1 N2]; subst.
  - apply IH; auto. intros; apply J; auto; right; auto.
  - rewrite Forall_forall in *. intros b Hb. specialize (F b Hb). assert (key a <> key b); [|lia]. intros E. apply N1. rewrite (J a b); auto; [left; auto|right; auto].
Qed.
Lemma nodup_app_r {A} (l k : list A) : NoDup (l ++ k) -> NoDup k.
Proof. induction l as [|a l IH]; auto. intros H. inversion H; auto. Qed.
Lemma filter_perm {A} (f : A -> bool) l l' : Permutation l l' -> Permutation (filter f l) (filter f l').
Proof.
  induction 1 as [|a l l' _ IH|a b l|]; cbn [filter]; auto.
  - destruct (f a); auto.
  - destruct (f a), (f b); auto. constructor.
  - etransitivity; eauto.
Qed.
Lemma nth_sorted (R : nat -> nat -> Prop) l : StronglySorted R l -> forall p q, p < q -> q < length l -> R (nth p l 0) (nth q l 0).
Proof.
  induction 1 as [|a l S IH F]; intros p q L1 L2; [cbn in L2; lia|].
  destruct q as [|q]; [lia|]. cbn [length] in L2. destruct p as [|p]; cbn [nth].
  - rewrite Forall_forall in F. apply F. apply nth_In. lia.
  - apply IH; lia.
Qed.

Section Items.
Variables (x : corefs) (d : nat) (z : str) (roots : list nat).
Hypothesis ST : storable x d z roots.
Notation c := (cs_c x).
Notation h := (co_h (cs_c x)).
Notation nodes := (doc_nodes c roots).
Notation pos := (ix nodes).
Variables (ms : list nat) (y : corefs) (ks : list nat).
Hypothesis Hms : forall m, In m ms <-> doc_mention c m.
Hypothesis NDms : NoDup ms.
Notation gs := (flat_map (gh x) ms).
Hypothesis Hext : ext x y.
Hypothesis Hit : Forall2 (item_at x y) ks gs.
Hypothesis NDks : NoDup ks.

Lemma gh_spec m g : doc_mention c m -> In g (gh x m) -> i_own g = m /\ In (i_wds g) (pcs x m) /\
  match i_sub g with
  | None => pcs x m = [i_wds g]
  | Some (i, n) => n = length (pcs x m) /\ 2 <= n /\ 1 <= i <= n /\ nth_error (pcs x m) (i - 1) = Some (i_wds g)
  end.
Proof.
  intros D H. split; [eapply gh_own; eauto|]. unfold gh in H.
  assert (N : forall ps, 2 <= length ps -> In g (number m 1 (length ps) ps) -> In (i_wds g) ps /\
    match i_sub g with
    | None => ps = [i_wds g]
    | Some (i, n) => n = length ps /\ 2 <= n /\ 1 <= i <= n /\ nth_error ps (i - 1) = Some (i_wds g)
    end).
  { intros ps L HI. apply In_nth_error in HI. destruct HI as (j & E). rewrite number_nth in E. destruct (nth_error ps j) as [p|] eqn:EJ; [|discriminate].
    cbn in E. injection E as <-. cbn. split; [eapply nth_error_In; eauto|]. assert (j < length ps) by (apply nth_error_Some; congruence).
    rewrite Nat.sub_0_r. split; auto. split; auto. split; auto. lia. }
  pose proof (pcs_nonnil x d z roots ST m D). destruct (pcs x m) as [|p [|q ps]] eqn:EP; [congruence| |].
  - destruct H as [<-|[]]. cbn. auto.
  - apply N; auto. cbn. lia.
Qed.
Lemma gh_nodup m : doc_mention c m -> NoDup (gh x m).
Proof.
  intros D. unfold gh. assert (N : forall ps i n, NoDup (number m i n ps)).
  { intros ps i n. apply NoDup_nth_error. intros a b La E. rewrite !number_nth in E.
    assert (LA : nth_error (number m i n ps) a <> None) by (apply nth_error_Some; auto). rewrite number_nth in LA.
    destruct (nth_error ps a); [|exfalso; apply LA; reflexivity]. destruct (nth_error ps b); [|discriminate]. cbn in E. injection E as E1 E2. lia. }
  destruct (pcs x m) as [|p [|q ps]]; [constructor|repeat constructor; auto|apply N].
Qed.
Lemma gs_nodup : NoDup gs.
Proof.
  apply nodup_flat; auto.
  - intros m Hm. apply gh_nodup. apply Hms; auto.
  - intros a b g _ _ Ha Hb. apply gh_own in Ha, Hb. congruence.
Qed.
Lemma gs_spec g : In g gs -> doc_mention c (i_own g) /\ In g (gh x (i_own g)).
Proof. intros H. apply in_flat_map in H. destruct H as (m & Hm & H). pose proof (gh_own _ _ _ H) as E. subst m. split; auto. apply Hms; auto. Qed.

(** the item of the mention k *)
Definition gof (k : nat) : item := match find (fun p => Nat.eqb (fst p) k) (combine ks gs) with Some p => snd p | None => (0, None, []) end.
Lemma gof_map : map gof ks = gs.
Proof.
  unfold gof. revert Hit NDks. generalize gs as l. clear. intros l F. induction F as [|k g ks l _ F IH]; intros ND; auto.
  inversion ND as [|? ? N1 N2]; subst. cbn [map combine find fst]. rewrite Nat.eqb_refl. cbn [snd]. f_equal. rewrite <- IH by auto.
  apply map_ext_in. intros a Ha. destruct (Nat.eqb_spec k a) as [->|]; [tauto|]. rewrite IH by auto. reflexivity.
Qed.
Lemma gof_in k : In k ks -> In (gof k) gs.
Proof. intros H. rewrite <- gof_map. apply in_map; auto. Qed.
Lemma gof_at k : In k ks -> item_at x y k (gof k).
Proof.
  pose proof gof_map as E. revert Hit. rewrite <- E. generalize gof as f. clear. intros f F. induction ks as [|a l IH]; [intros []|].
  cbn [map] in F. inversion F; subst. intros [<-|H]; auto.
Qed.
Lemma gof_inj k k' : In k ks -> In k' ks -> gof k = gof k' -> k = k'.
Proof.
  pose proof gs_nodup as N. rewrite <- gof_map in N. revert N. generalize gof as f. clear. intros f. induction ks as [|a l IH]; intros N; [intros []|].
  cbn [map] in N. inversion N as [|? ? N1 N2]; subst. intros [->|H] [->|H'] E; auto.
  - exfalso. apply N1. rewrite E. apply in_map; auto.
  - exfalso. apply N1. rewrite <- E. apply in_map; auto.
Qed.

(** ---- runs of words ---- *)
Notation TDx := (st_trees _ _ _ _ ST).
Notation DRx := (st_roots _ _ _ _ ST).
Lemma run_word g w : In g gs -> In w (i_wds g) -> In w (m_words c (i_own g)) /\ placed_node c d z w /\ h_root h w = dm_root x (i_own g).
Proof.
  intros G W. destruct (gs_spec g G) as [D H]. destruct (gh_spec _ g D H) as (_ & P & _). destruct (pcs_run _ _ _ P) as (_ & _ & S).
  pose proof (S w W) as Wm. split; auto. split; [eapply st_placed; eauto|]. apply (dm_words x d z roots ST _ D). auto.
Qed.
Lemma run_infix g : In g gs -> i_wds g <> [] /\ In (dm_root x (i_own g)) roots /\ exists u v, descendants_and_empty h (dm_root x (i_own g)) = u ++ i_wds g ++ v.
Proof.
  intros G. destruct (gs_spec g G) as [D H]. destruct (gh_spec _ g D H) as (_ & P & _). destruct (pcs_run _ _ _ P) as (N & I & _).
  split; auto. split; auto. eapply dm_inroot; eauto.
Qed.
Lemma run_place g : In g gs -> exists A B, nodes = A ++ i_wds g ++ B.
Proof.
  intros G. destruct (run_infix g G) as (_ & R & u & v & E). apply in_split in R. destruct R as (r1 & r2 & R).
  exists (flat_map (descendants_and_empty h) r1 ++ u), (v ++ flat_map (descendants_and_empty h) r2).
  unfold doc_nodes. rewrite R, flat_map_app. cbn [flat_map]. rewrite E, <- !app_assoc. reflexivity.
Qed.
Lemma ix_infix A (l : list nat) B : NoDup (A ++ l ++ B) -> l <> [] ->
  ix (A ++ l ++ B) (hd 0 l) = length A /\ ix (A ++ l ++ B) (last l 0) = length A + length l - 1.
Proof.
  intros ND N. split.
  - destruct l as [|a l]; [congruence|]. cbn [hd app]. apply ix_mid. intros H. cbn [app] in ND. apply NoDup_remove_2 in ND. apply ND. rewrite in_app_iff. auto.
  - destruct (exists_last N) as (l' & b & ->). rewrite last_app_one. replace (A ++ (l' ++ [b]) ++ B) with ((A ++ l') ++ b :: B) in * by (rewrite <- !app_assoc; reflexivity).
    rewrite ix_mid; [rewrite !app_length; cbn; lia|]. intros H. apply NoDup_remove_2 in ND. apply ND. rewrite in_app_iff. auto.
Qed.
Lemma run_pos g : In g gs -> pos (last (i_wds g) 0) = pos (hd 0 (i_wds g)) + length (i_wds g) - 1 /\ 1 <= length (i_wds g).
Proof.
  intros G. destruct (run_place g G) as (A & B & E). destruct (run_infix g G) as (N & _). pose proof (nodes_nodup c d roots TDx DRx) as ND.
  rewrite E in *. destruct (ix_infix A (i_wds g) B ND N) as [E1 E2]. rewrite E1, E2. destruct (i_wds g); [congruence|]. cbn. split; auto. lia.
Qed.
Lemma run_eq g g' : In g gs -> In g' gs -> hd 0 (i_wds g) = hd 0 (i_wds g') -> length (i_wds g) = length (i_wds g') -> i_wds g = i_wds g'.
Proof.
  intros G G' EH EL. destruct (run_place g G) as (A & B & E). destruct (run_place g' G') as (A' & B' & E').
  destruct (run_infix g G) as (N & _). destruct (run_infix g' G') as (N' & _). pose proof (nodes_nodup c d roots TDx DRx) as ND.
  assert (LA : length A = length A').
  { pose proof ND as ND'. rewrite E in ND. rewrite E' in ND'. destruct (ix_infix A (i_wds g) B ND N) as [E1 _]. destruct (ix_infix A' (i_wds g') B' ND' N') as [E2 _].
    rewrite <- E in E1. rewrite <- E' in E2. congruence. }
  rewrite E in E'. apply app_eq_app in E'. destruct E' as (l & [[E1 E2]|[E1 E2]]).
  - assert (l = []) by (apply length_zero_iff_nil; rewrite E1, app_length in LA; lia). subst l. cbn in E2.
    apply app_eq_app in E2. destruct E2 as (l & [[F1 F2]|[F1 F2]]); assert (l = []) by (apply length_zero_iff_nil; rewrite F1, app_length in EL; lia); subst l; rewrite app_nil_r in F1; auto.
  - assert (l = []) by (apply length_zero_iff_nil; rewrite E1, app_length in LA; lia). subst l. cbn in E2.
    apply app_eq_app in E2. destruct E2 as (l & [[F1 F2]|[F1 F2]]); assert (l = []) by (apply length_zero_iff_nil; rewrite F1, app_length in EL; lia); subst l; rewrite app_nil_r in F1; auto.
Qed.
Lemma hd_word g : In g gs -> In (hd 0 (i_wds g)) (i_wds g).
Proof. intros G. apply hd_In. apply (run_infix g G). Qed.
Lemma last_wordi g : In g gs -> In (last (i_wds g) 0) (i_wds g).
Proof. intros G. apply last_In. apply (run_infix g G). Qed.

(** ---- ids of the items ---- *)
Lemma same_ent m n : doc_mention c m -> doc_mention c n -> e_eid c (m_ent c m) = e_eid c (m_ent c n) -> m_ent c m = m_ent c n.
Proof.
  intros D D' E. destruct (dm_id x d z roots ST m D) as [I _]. destruct (dm_id x d z roots ST n D') as [I' _]. rewrite E in I.
  destruct (st_unique _ _ _ _ ST) as [ND _]. revert ND I I'. generalize (e_eid c (m_ent c n)). generalize (eids c) (m_ent c m) (m_ent c n). clear.
  induction l as [|[k e] l IH]; intros a b s ND; [intros []|]. cbn [map fst] in ND. inversion ND as [|? ? N1 N2]; subst. intros [Ia|Ia] [Ib|Ib].
  - congruence.
  - inversion Ia; subst. exfalso. apply N1. apply in_map_iff. exists (s, b). auto.
  - inversion Ib; subst. exfalso. apply N1. apply in_map_iff. exists (s, a). auto.
  - eapply IH; eauto.
Qed.
Lemma nobracket m : doc_mention c m -> e_eid c (m_ent c m) <> [] /\ ~ In 91%N (e_eid c (m_ent c m)).
Proof.
  intros D. destruct (dm_id x d z roots ST m D) as [_ (N & _ & W & _)]. split; auto. intros H. apply (W _ H). cbn. auto.
Qed.
Lemma gid_inj g g' : In g gs -> In g' gs -> gid x g = gid x g' -> m_ent c (i_own g) = m_ent c (i_own g') /\ i_sub g = i_sub g'.
Proof.
  intros G G' E. destruct (gs_spec g G) as [D _]. destruct (gs_spec g' G') as [D' _]. destruct (nobracket _ D) as [N1 N2]. destruct (nobracket _ D') as [N1' N2'].
  unfold gid in E. destruct (i_sub g) as [[i n]|], (i_sub g') as [[i' n']|].
  - assert (M : match_disc (piece_id (e_eid c (m_ent c (i_own g))) (Z.of_nat i) (Z.of_nat n)) = match_disc (piece_id (e_eid c (m_ent c (i_own g'))) (Z.of_nat i') (Z.of_nat n'))) by congruence.
    rewrite !match_piece in M by (auto; lia). injection M as M1 M2 M3. apply str_of_Z_inj in M2, M3; try lia. split; [apply same_ent; auto|]. do 2 f_equal; lia.
  - exfalso. apply N2'. rewrite <- E. unfold piece_id. rewrite !in_app_iff. right. left. cbn. auto.
  - exfalso. apply N2. rewrite E. unfold piece_id. rewrite !in_app_iff. right. left. cbn. auto.
  - split; auto. apply same_ent; auto.
Qed.
Lemma whole g : In g gs -> i_sub g = None -> i_wds g = m_words c (i_own g).
Proof.
  intros G E. destruct (gs_spec g G) as [D H]. destruct (gh_spec _ g D H) as (_ & _ & P). rewrite E in P.
  pose proof (pcs_concat x d z roots ST _ D) as C. rewrite P in C. cbn in C. rewrite app_nil_r in C. auto.
Qed.
Lemma part_disc g : In g gs -> i_sub g <> None -> discontinuous c (i_own g).
Proof.
  intros G E. destruct (gs_spec g G) as [D H]. destruct (gh_spec _ g D H) as (_ & _ & P). destruct (i_sub g) as [[i n]|]; [|congruence].
  destruct P as (-> & L & _). pose proof (pcs_pieces x d z roots ST _ D) as PC. destruct (pcs x (i_own g)) as [|p [|q rs]]; cbn in L; try lia.
  exists p, q, rs. exact PC.
Qed.
Lemma not_before_self w : placed_node c d z w -> ~ node_before c d w w.
Proof. intros P. apply (nb_order c d z TDx w w w P P P). Qed.
Lemma same_item g g' : In g gs -> In g' gs -> gid x g = gid x g' -> hd 0 (i_wds g) = hd 0 (i_wds g') -> length (i_wds g) = length (i_wds g') -> g = g'.
Proof.
  intros G G' E EH EL. destruct (gid_inj g g' G G' E) as [EE ES]. pose proof (run_eq g g' G G' EH EL) as EW.
  destruct (gs_spec g G) as [D H]. destruct (gs_spec g' G') as [D' H'].
  assert (EO : i_own g = i_own g').
  { destruct (i_sub g) as [p|] eqn:S.
    - destruct (Nat.eq_dec (i_own g) (i_own g')) as [|N]; auto. exfalso.
      assert (W : In (hd 0 (i_wds g)) (m_words c (i_own g))) by (apply (run_word g); auto using hd_word).
      assert (W' : In (hd 0 (i_wds g)) (m_words c (i_own g'))) by (rewrite EH; apply (run_word g'); auto using hd_word).
      assert (PL : placed_node c d z (hd 0 (i_wds g))) by (apply (run_word g); auto using hd_word). apply (not_before_self _ PL).
      destruct (st_discontinuous _ _ _ _ ST (i_own g) (i_own g')) as [B|B]; auto; apply part_disc; auto; congruence.
    - apply (st_differ _ _ _ _ ST); auto. rewrite <- (whole g), <- (whole g') by (auto; congruence). exact EW. }
  destruct g as [[o sb] w], g' as [[o' sb'] w']. unfold i_own, i_sub, i_wds in *. cbn in *. congruence.
Qed.

(** ---- the order of the items ---- *)
Lemma placed_ext w : placed_node c d z w -> placed_node (cs_c y) d z w.
Proof. destruct Hext as ((B1 & B2 & B3 & B4 & B5) & _). unfold placed_node. rewrite B1, B2, B3. auto. Qed.
Lemma before_ext u v : node_before (cs_c y) d u v -> node_before c d u v.
Proof. destruct Hext as ((B1 & B2 & B3 & B4 & B5) & _). unfold node_before. rewrite B1, B2, B3. auto. Qed.
Lemma k_words k : In k ks -> m_words (cs_c y) k = i_wds (gof k).
Proof. intros K. apply (gof_at k K). Qed.
Lemma k_placed k : In k ks -> placed_mention (cs_c y) d z k.
Proof.
  intros K. unfold placed_mention. rewrite k_words by auto. split; [apply (run_infix _ (gof_in k K))|]. intros w W. apply placed_ext. apply (run_word _ w (gof_in k K) W).
Qed.
Lemma k_different k k' : In k ks -> In k' ks -> same_place (cs_c y) k k' -> k = k'.
Proof.
  intros K K' (f & l & (t & F) & (t' & F') & _ & _ & EL & EI). apply gof_inj; auto. apply same_item; auto using gof_in.
  - destruct (gof_at k K) as (_ & _ & _ & _ & _ & I & _). destruct (gof_at k' K') as (_ & _ & _ & _ & _ & I' & _). congruence.
  - rewrite <- !k_words by auto. rewrite F, F'. reflexivity.
  - rewrite <- !k_words by auto. exact EL.
Qed.
Lemma trees_ext : trees_of_document (cs_c y).
Proof. destruct Hext as ((B1 & B2 & B3 & B4 & B5) & _). unfold trees_of_document. rewrite B1, B3. apply TDx. Qed.
Lemma second_sort : exists c' ms2, sort_mentions (cs_c y) ks = (c', Ok ms2) /\ Permutation ms2 ks /\ sorted_mentions (cs_c y) d ms2 /\ ext y (with_c y c').
Proof.
  destruct (sort_mentions_spec (cs_c y) d z ks trees_ext k_placed NDks k_different) as (ms2 & E & P & S & _).
  destruct (sort_mentions (cs_c y) ks) as [c' r] eqn:EC. cbn in E. subst r. exists c', ms2. split; auto. split; auto. split; auto.
  assert (X : same_but_words (cs_c y) c' /\ forall k, m_words c' k = m_words (cs_c y) k).
  { assert (NE : forall m, In m ks -> m_words (cs_c y) m <> []) by (intros m Hm; apply (k_placed m Hm)). revert NE EC. clear. intros NE EC.
    unfold sort_mentions in EC. injection EC as EC _. rewrite <- EC. destruct ks as [|a [|b l]]; try (split; [apply sbw_refl|reflexivity]).
    apply touch_all_spec. auto. }
  destruct X as ((A1 & A2 & A3 & A4 & A5 & A6 & A7 & A8 & A9 & A10 & A11 & A12) & W).
  unfold ext. cbn. rewrite A1, A2, A3, A4, A5, A6, A7, A8, A9, A10, A11, A12. split; [auto 10|]. split; [lia|]. auto.
Qed.

(** ---- the items by number ---- *)
Variable ms2 : list nat.
Hypothesis Hperm : Permutation ms2 ks.
Hypothesis Hsort : sorted_mentions (cs_c y) d ms2.
Notation P := (length ms2).
Definition qid (q : nat) : nat := nth q ms2 0.
Definition qg (q : nat) : item := gof (qid q).
Definition qown (q : nat) : nat := i_own (qg q).
Definition qsub (q : nat) : option (nat * nat) := i_sub (qg q).
Definition qwds (q : nat) : list nat := i_wds (qg q).
Notation items := (items_of P qown).
Lemma qid_in q : q < P -> In (qid q) ks.
Proof. intros L. eapply Permutation_in; [exact Hperm|]. apply nth_In. auto. Qed.
Lemma qg_in q : q < P -> In (qg q) gs.
Proof. intros L. apply gof_in. apply qid_in. auto. Qed.
Lemma q_doc q : q < P -> doc_mention c (qown q).
Proof. intros L. apply gs_spec. apply qg_in; auto. Qed.
Lemma map_nth_seq {A} (l : list A) a : map (fun q => nth q l a) (seq 0 (length l)) = l.
Proof.
  induction l as [|b l IH]; auto. cbn [length seq map]. f_equal. rewrite <- seq_shift, map_map. exact IH.
Qed.
Lemma qg_all : map qg (seq 0 P) = map gof ms2.
Proof. unfold qg, qid. rewrite <- (map_map (fun q => nth q ms2 0) gof). rewrite map_nth_seq. reflexivity. Qed.
Lemma sorted_seq n m : StronglySorted lt (seq n m).
Proof. revert n. induction m as [|m IH]; intros n; cbn; constructor; auto. rewrite Forall_forall. intros a Ha. apply in_seq in Ha. lia. Qed.
Lemma filter_map {A B} (f : A -> B) (g : B -> bool) l : filter g (map f l) = map f (filter (fun a => g (f a)) l).
Proof. induction l as [|a l IH]; cbn; auto. rewrite IH. destruct (g (f a)); reflexivity. Qed.
Lemma own_filter m l : doc_mention c m -> (forall a, In a l -> doc_mention c a) -> NoDup l ->
  filter (fun g => Nat.eqb (i_own g) m) (flat_map (gh x) l) = if mem m l then gh x m else [].
Proof.
  intros D. induction l as [|a l IH]; intros DL ND; auto. inversion ND as [|? ? N1 N2]; subst. cbn [flat_map]. rewrite filter_app.
  rewrite IH by (auto; intros; apply DL; right; auto). cbn [mem existsb]. fold (mem m l). rewrite (Nat.eqb_sym m a). destruct (Nat.eqb_spec a m) as [->|NE].
  - assert (mem m l = false) as -> by (apply mem_false; auto). rewrite app_nil_r. apply filter_all. intros g G. apply gh_own in G. apply Nat.eqb_eq. auto.
  - rewrite filter_none; auto. intros g G. apply gh_own in G. apply Nat.eqb_neq. congruence.
Qed.
Lemma before_first k k' : In k ks -> In k' ks -> mention_before (cs_c y) d k k' -> pos (hd 0 (i_wds (gof k))) < pos (hd 0 (i_wds (gof k'))) \/
  (hd 0 (i_wds (gof k)) = hd 0 (i_wds (gof k')) /\ pos (last (i_wds (gof k')) 0) <= pos (last (i_wds (gof k)) 0)).
Proof.
  intros K K' (f & f' & l & l' & (t & F) & (t' & F') & _ & _ & B). rewrite k_words in F by auto. rewrite k_words in F' by auto.
  destruct (run_pos _ (gof_in k K)) as [P1 P2]. destruct (run_pos _ (gof_in k' K')) as [P1' P2']. rewrite P1, P1'. rewrite !k_words in B by auto.
  assert (HF : hd 0 (i_wds (gof k)) = f) by (rewrite F; reflexivity). assert (HF' : hd 0 (i_wds (gof k')) = f') by (rewrite F'; reflexivity).
  rewrite HF, HF'. destruct B as [B|[[-> B]|[[-> [B _]]|[-> [B _]]]]]; [left|right; split; auto; lia|right; split; auto; lia|right; split; auto; lia].
  apply (before_pos c d z roots TDx DRx); [| |apply before_ext; auto].
  - rewrite <- HF. apply (run_word (gof k)); auto using gof_in, hd_word.
  - rewrite <- HF'. apply (run_word (gof k')); auto using gof_in, hd_word.
Qed.
Lemma q_sorted p q : p < q -> q < P -> pos (hd 0 (qwds p)) < pos (hd 0 (qwds q)) \/ (hd 0 (qwds p) = hd 0 (qwds q) /\ pos (last (qwds q) 0) <= pos (last (qwds p) 0)).
Proof.
  intros L1 L2. apply before_first; try (apply qid_in; lia). unfold qid. apply (nth_sorted (mention_before (cs_c y) d)); auto.
Qed.
Lemma pcs_first m p q : In p (pcs x m) -> In q (pcs x m) -> hd 0 p = hd 0 q -> doc_mention c m -> p = q.
Proof.
  intros Hp Hq E D. pose proof (pcs_concat x d z roots ST m D) as C. destruct (dm_words x d z roots ST m D) as (_ & ND & _). rewrite <- C in ND.
  pose proof (pcs_nonempty x m p Hp) as Np. pose proof (pcs_nonempty x m q Hq) as Nq. clear C D.
  induction (pcs x m) as [|r rs IH]; [destruct Hp|]. cbn [concat] in ND.
  assert (X : forall t, In t rs -> t <> [] -> r <> [] -> hd 0 r = hd 0 t -> False).
  { intros t Ht Nt Nr Et. assert (A : forall w, In w r -> In w (concat rs) -> False).
    { intros w W1 W2. apply in_split in W1. destruct W1 as (u & v & ->). rewrite <- app_assoc in ND. cbn [app] in ND. apply NoDup_remove_2 in ND.
      apply ND. rewrite !in_app_iff. auto. }
    apply (A (hd 0 r)); [apply hd_In; auto|]. rewrite Et. apply in_concat. exists t. split; auto. apply hd_In; auto. }
  destruct Hp as [->|Hp], Hq as [->|Hq]; auto.
  - exfalso. eapply X; eauto.
  - exfalso. eapply (X p); eauto.
  - apply IH; auto. apply nodup_app_r in ND. exact ND.
Qed.
Lemma qg_items m : doc_mention c m -> map qg (items m) = gh x m.
Proof.
  intros D. assert (PM : Permutation (map qg (items m)) (gh x m)).
  { assert (E : map qg (items m) = filter (fun g => Nat.eqb (i_own g) m) (map qg (seq 0 P))) by (rewrite filter_map; reflexivity).
    assert (PG : Permutation (map qg (seq 0 P)) gs) by (rewrite qg_all, <- gof_map; apply Permutation_map; exact Hperm).
    assert (E2 : filter (fun g => Nat.eqb (i_own g) m) gs = gh x m).
    { rewrite own_filter; auto; [|intros a Ha; apply Hms; auto]. assert (mem m ms = true) as -> by (apply mem_In; apply Hms; auto). reflexivity. }
    rewrite E, <- E2. apply filter_perm. exact PG. }
  assert (J : forall a b, In a (gh x m) -> In b (gh x m) -> pos (hd 0 (i_wds a)) = pos (hd 0 (i_wds b)) -> a = b).
  { intros a b Ha Hb E. assert (Ga : In a gs) by (apply in_flat_map; exists m; split; auto; apply Hms; auto). assert (Gb : In b gs) by (apply in_flat_map; exists m; split; auto; apply Hms; auto).
    apply ix_inj in E; [|apply (placed_in c d z roots TDx DRx); apply (run_word a); auto using hd_word|apply (placed_in c d z roots TDx DRx); apply (run_word b); auto using hd_word].
    destruct (gh_spec m a D Ha) as (O & Pa & Sa). destruct (gh_spec m b D Hb) as (O' & Pb & Sb). assert (W : i_wds a = i_wds b) by (apply (pcs_first m); auto).
    assert (S : i_sub a = i_sub b).
    { destruct (i_sub a) as [[i n]|], (i_sub b) as [[i' n']|]; auto.
      - destruct Sa as (-> & La & Li & Na). destruct Sb as (-> & Lb & Li' & Nb). do 2 f_equal.
        assert (NDp : NoDup (pcs x m)).
        { pose proof (pcs_concat x d z roots ST m D) as CC. destruct (dm_words x d z roots ST m D) as (_ & NDw & _). rewrite <- CC in NDw.
          pose proof (fun p => pcs_nonempty x m p) as NE. revert NDw NE. clear. induction (pcs x m) as [|r rs IH]; intros ND NE; constructor.
          - intros H. assert (N : r <> []) by (apply NE; left; auto). cbn in ND. destruct r as [|a r]; [congruence|]. cbn in ND. inversion ND as [|? ? N1 N2]; subst.
            apply N1. rewrite in_app_iff. right. apply in_concat. exists (a :: r). split; auto. left; auto.
          - apply IH; [apply nodup_app_r in ND; exact ND|]. intros; apply NE; right; auto. }
        rewrite NoDup_nth_error in NDp. assert (i - 1 = i' - 1); [|lia]. apply NDp; [apply nth_error_Some; congruence|congruence].
      - rewrite Sb in Sa. cbn in Sa. lia.
      - rewrite Sa in Sb. cbn in Sb. lia. }
    destruct a as [[o sa] wa], b as [[o' sb] wb]. unfold i_own, i_sub, i_wds in *. cbn in *. congruence. }
  apply (sorted_unique (fun a b => pos (hd 0 (i_wds a)) < pos (hd 0 (i_wds b)))); auto; try (intros; lia).
  - apply weak_strict.
    + assert (S : StronglySorted lt (items m)) by (apply filter_StronglySorted; apply sorted_seq).
      assert (Lm : forall q, In q (items m) -> q < P) by (intros q Hq; apply filter_In in Hq; destruct Hq as [Hq _]; apply in_seq in Hq; lia).
      revert S Lm. generalize (items m). induction l as [|q l IH]; intros S Lm; cbn [map]; constructor; inversion S as [|? ? S1 F]; subst.
      * apply IH; auto. intros; apply Lm; right; auto.
      * rewrite Forall_forall in *. intros g G. apply in_map_iff in G. destruct G as (q' & <- & Q'). specialize (F q' Q').
        destruct (q_sorted q q' F) as [L|[L _]]; [apply Lm; right; auto| |]; unfold qwds in L; [lia|rewrite L; lia].
    + eapply Permutation_NoDup; [symmetry; exact PM|apply gh_nodup; auto].
    + intros a b Ha Hb. apply J; eapply Permutation_in; eauto.
  - assert (SW : StronglySorted (fun a b : list nat => Z.lt (position h (hd 0 a)) (position h (hd 0 b))) (map i_wds (gh x m))).
    { assert (EW : map i_wds (gh x m) = pcs x m).
      { unfold gh. assert (N : forall ps i n, map i_wds (number m i n ps) = ps) by (induction ps as [|p ps IH]; intros; cbn; f_equal; auto).
        destruct (pcs x m) as [|p [|q ps]]; auto. }
      rewrite EW. pose proof (pcs_concat x d z roots ST m D) as CC. pose proof (CorefIOSpec.st_words _ _ _ _ ST m D) as I. rewrite <- CC in I. pose proof (fun p => pcs_nonempty x m p) as NE.
      revert I NE. clear. induction (pcs x m) as [|r rs IH]; intros I NE; constructor.
      - apply IH; [cbn in I; apply increasing_app in I; apply I|intros; apply NE; right; auto].
      - rewrite Forall_forall. intros t Ht. cbn in I. apply increasing_app in I as (_ & _ & I). apply I; [apply hd_In; apply NE; left; auto|].
        apply in_concat. exists t. split; auto. apply hd_In. apply NE. right; auto. }
    assert (Gg : forall g, In g (gh x m) -> In g gs) by (intros g Hg; apply in_flat_map; exists m; split; auto; apply Hms; auto).
    assert (Og : forall g, In g (gh x m) -> i_own g = m) by (intros g; apply gh_own).
    revert SW Gg Og. generalize (gh x m). induction l as [|g l IH]; intros SW Gg Og; constructor; cbn [map] in SW; inversion SW as [|? ? S1 F]; subst.
    + apply IH; auto; intros; [apply Gg|apply Og]; right; auto.
    + rewrite Forall_forall in *. intros g' G'. specialize (F (i_wds g') (in_map _ _ _ G')).
      destruct (run_word g (hd 0 (i_wds g))) as (_ & PL & R); [apply Gg; left; auto|apply hd_word; apply Gg; left; auto|].
      destruct (run_word g' (hd 0 (i_wds g'))) as (_ & PL' & R'); [apply Gg; right; auto|apply hd_word; apply Gg; right; auto|].
      apply (before_pos c d z roots TDx DRx); auto. left. cbn. rewrite R, R', (Og g), (Og g') by (try (left; reflexivity); right; auto). auto.
Qed.
Lemma qwds_map l : map qwds l = map i_wds (map qg l).
Proof. rewrite map_map. reflexivity. Qed.
Lemma gh_wds m : map i_wds (gh x m) = pcs x m.
Proof.
  unfold gh. assert (N : forall ps i n, map i_wds (number m i n ps) = ps) by (induction ps as [|p ps IH]; intros; cbn; f_equal; auto).
  destruct (pcs x m) as [|p [|q ps]]; auto.
Qed.
Lemma q_wm m : doc_mention c m -> flat_map qwds (items m) = m_words c m.
Proof. intros D. rewrite flat_map_concat_map, qwds_map, qg_items, gh_wds by auto. apply (pcs_concat x d z roots ST m D). Qed.
Lemma q_run q : q < P -> qwds q <> [] /\ exists r u v, In r roots /\ descendants_and_empty h r = u ++ qwds q ++ v.
Proof.
  intros L. destruct (run_infix _ (qg_in q L)) as (A & B & u & v & E). split; auto. exists (dm_root x (qown q)), u, v. auto.
Qed.
Lemma q_word q w : q < P -> In w (qwds q) -> In w (m_words c (qown q)) /\ placed_node c d z w /\ h_root h w = dm_root x (qown q).
Proof. intros L W. apply (run_word _ w (qg_in q L) W). Qed.
Lemma q_fi q : q < P -> In (hd 0 (qwds q)) (qwds q).
Proof. intros L. apply hd_word. apply qg_in; auto. Qed.
Lemma q_la q : q < P -> In (last (qwds q) 0) (qwds q).
Proof. intros L. apply last_wordi. apply qg_in; auto. Qed.
Lemma q_nested p q : p < P -> q < P -> m_ent c (qown p) = m_ent c (qown q) -> pos (hd 0 (qwds p)) < pos (hd 0 (qwds q)) ->
  pos (hd 0 (qwds q)) < pos (last (qwds p) 0) -> pos (last (qwds p) 0) < pos (last (qwds q) 0) -> False.
Proof.
  intros Lp Lq E L1 L2 L3. destruct (gs_spec _ (qg_in p Lp)) as [Dp Hp]. destruct (gs_spec _ (qg_in q Lq)) as [Dq Hq].
  destruct (gh_spec _ _ Dp Hp) as (_ & Wp & _). destruct (gh_spec _ _ Dq Hq) as (_ & Wq & _).
  apply (st_cross _ _ _ _ ST (qown p) (qown q) (qwds p) (qwds q) (pcs x (qown p)) (pcs x (qown q))); auto.
  - eapply pcs_pieces; eauto.
  - eapply pcs_pieces; eauto.
  - exists (hd 0 (qwds p)), (last (qwds p) 0), (hd 0 (qwds q)), (last (qwds q) 0). destruct (q_run p Lp) as [Np _]. destruct (q_run q Lq) as [Nq _].
    split; [exists (tl (qwds p)); destruct (qwds p); [congruence|reflexivity]|]. split; [exists (removelast (qwds p)); apply app_removelast_last; auto|].
    split; [exists (tl (qwds q)); destruct (qwds q); [congruence|reflexivity]|]. split; [exists (removelast (qwds q)); apply app_removelast_last; auto|].
    split; [|split]; apply (pos_before c d z roots TDx DRx); auto; (eapply q_word; [|apply q_fi || apply q_la]; auto).
Qed.
Lemma items_In m q : In q (items m) <-> q < P /\ qown q = m.
Proof. unfold items_of. rewrite filter_In, in_seq, Nat.eqb_eq. intuition lia. Qed.
Lemma q_apart p q : p < q -> q < P -> qown p = qown q -> pos (last (qwds p) 0) < pos (hd 0 (qwds q)).
Proof.
  intros L1 L2 E. assert (D : doc_mention c (qown q)) by (apply q_doc; auto). pose proof (q_wm (qown q) D) as W.
  assert (S : StronglySorted lt (items (qown q))) by (apply filter_StronglySorted; apply sorted_seq).
  assert (Hp : In p (items (qown q))) by (apply items_In; split; auto; lia). assert (Hq : In q (items (qown q))) by (apply items_In; auto).
  pose proof (CorefIOSpec.st_words _ _ _ _ ST _ D) as I. rewrite <- W in I.
  apply in_split in Hp. destruct Hp as (A & B & EI). rewrite EI in *. apply sorted_app_iff in S. destruct S as (_ & _ & S).
  assert (HB : In q B).
  { apply in_app_iff in Hq. destruct Hq as [Hq|[Hq|Hq]]; auto; [|lia]. specialize (S q p Hq (or_introl eq_refl)). lia. }
  rewrite flat_map_app in I. cbn [flat_map] in I. apply increasing_app in I as (_ & I & _). apply increasing_app in I as (_ & _ & I).
  destruct (q_word p (last (qwds p) 0)) as (_ & PL & R); [lia|apply q_la; lia|]. destruct (q_word q (hd 0 (qwds q))) as (_ & PL' & R'); [lia|apply q_fi; lia|].
  apply (before_pos c d z roots TDx DRx); auto. left. cbn. rewrite R, R', E. split; auto. apply I; [apply q_la; lia|]. apply in_flat_map. exists q. split; auto. apply q_fi. lia.
Qed.
Lemma q_sub q I1 I2 : items (qown q) = I1 ++ q :: I2 -> qsub q = if isnil (I1 ++ I2) then None else Some (S (length I1), S (length (I1 ++ I2))).
Proof.
  intros E. assert (L : q < P) by (apply (items_In (qown q)); rewrite E, in_app_iff; right; left; auto). assert (D : doc_mention c (qown q)) by (apply q_doc; auto).
  pose proof (qg_items (qown q) D) as M. rewrite E, map_app in M. cbn [map] in M. unfold qsub, gh in *.
  assert (LM : length (map qg I1 ++ qg q :: map qg I2) = S (length (I1 ++ I2))) by (rewrite !app_length; cbn; rewrite !map_length; lia).
  assert (NM : nth_error (map qg I1 ++ qg q :: map qg I2) (length I1) = Some (qg q)) by (rewrite nth_error_app2 by (rewrite map_length; lia); rewrite map_length, Nat.sub_diag; reflexivity).
  rewrite M in LM, NM. assert (NL : forall ps i n, length (number (qown q) i n ps) = length ps) by (induction ps as [|p ps IH]; intros; cbn; auto).
  destruct (pcs x (qown q)) as [|p [|p2 ps]] eqn:EP.
  - cbn in LM. discriminate.
  - cbn in LM. assert (Z0 : I1 ++ I2 = []) by (apply length_zero_iff_nil; lia). rewrite Z0. apply app_eq_nil in Z0. destruct Z0 as [-> ->]. cbn in NM. injection NM as <-. reflexivity.
  - rewrite NL in LM. rewrite number_nth in NM. destruct (nth_error (p :: p2 :: ps) (length I1)); [|discriminate]. injection NM as NM. rewrite <- NM. unfold i_sub. cbn [fst snd].
    destruct (I1 ++ I2) as [|a t] eqn:EA; [cbn in LM; discriminate|]. cbn [isnil]. cbn [length] in *. do 2 f_equal. lia.
Qed.
(** ---- writing ---- *)
Variable lower : str -> str.
Definition qeid (q : nat) : str := gid x (qg q).
Definition osr (m : nat) : str := match cs_other x m with [] => [] | l => other_str lower (without_fields l) end.
Definition qbody (q : nat) : str := item_body (qeid q) (type_text (e_type c (m_ent c (qown q)))) (str_of_Z (hidx x (qown q))) (osr (qown q)).
Notation hs := (flat_map (hs_of x) (combine ks gs)).
Lemma head_found k : In k ks -> find_head hs k = match i_sub (gof k) with None => None | Some _ => Some (str_of_Z (hidx x (i_own (gof k)))) end.
Proof.
  pose proof gof_map as E. revert NDks. rewrite <- E. generalize gof as f. generalize ks as l. clear. intros l f. induction l as [|a l IH]; intros ND; [intros []|].
  inversion ND as [|? ? N1 N2]; subst. cbn [map combine flat_map]. unfold hs_of at 1. cbn [fst snd]. intros [->|H].
  - destruct (i_sub (f k)) eqn:S; cbn [app find_head]; [rewrite Nat.eqb_refl; reflexivity|].
    assert (N : forall l', ~ In k l' -> find_head (flat_map (hs_of x) (combine l' (map f l'))) k = None).
    { induction l' as [|b l' IH']; auto. intros N. cbn [map combine flat_map]. unfold hs_of at 1. cbn [fst snd].
      destruct (i_sub (f b)); cbn [app find_head]; [|apply IH'; intros H; apply N; right; auto].
      destruct (Nat.eqb_spec b k) as [->|]; [exfalso; apply N; left; auto|]. apply IH'; intros H; apply N; right; auto. }
    apply N; auto.
  - destruct (i_sub (f a)); cbn [app find_head]; auto. destruct (Nat.eqb_spec a k) as [->|]; [tauto|]. auto.
Qed.
Lemma run_increasing g : In g gs -> increasing h (i_wds g).
Proof.
  intros G. destruct (run_infix g G) as (_ & R & u & v & E). destruct (dr_good c d roots DRx _ R) as [G1 G2]. destruct (dae_order h _ G1 G2) as [S _].
  rewrite E in S. apply increasing_app in S as (_ & S & _). apply increasing_app in S as (S & _ & _). exact S.
Qed.
Lemma run_sorted g : In g gs -> sort_on (okey h) (i_wds g) = i_wds g.
Proof.
  intros G. apply sort_on_unique; auto. eapply strongly_sorted_impl; [|exact (run_increasing g G)]. intros a b _ _ L. unfold key_lt. rewrite !okey_position. exact L.
Qed.
Lemma ext_h w : ext y w -> co_h (cs_c w) = h.
Proof. intros X. destruct (ext_trans _ _ _ Hext X) as ((_ & E & _) & _). exact E. Qed.
Lemma same_words_ext w k v : m_words (cs_c w) k = v -> ext w (with_c w (put_words (cs_c w) k v)).
Proof. intros E. unfold ext. cbn. repeat split; auto. unfold upd. destruct (Nat.eqb_spec k0 k); subst; auto. Qed.
Lemma str_ok w q : q < P -> ext y w -> exists w', mention_str lower w hs (qid q) = (w', Ok (LP :: qbody q)) /\ ext w w' /\ cs_misc w' = cs_misc w.
Proof.
  intros L X. pose proof (qid_in q L) as K. pose proof (qg_in q L) as G. pose proof (q_doc q L) as D.
  destruct (item_ext x y w (qid q) _ X (gof_at _ K)) as (A1 & A2 & A3 & A4 & A5 & A6 & A7 & A8). fold (qg q) in *.
  unfold mention_str. rewrite A6.
  assert (NF : forbidden_in_id (gid x (qg q)) = false).
  { destruct (dm_id x d z roots ST _ D) as [_ (_ & N & _)]. unfold gid. fold (qown q). destruct (i_sub (qg q)) as [[i n]|].
    - apply piece_allowed; auto; lia.
    - destruct (forbidden_in_id (e_eid c (m_ent c (qown q)))) eqn:E; auto. apply forbidden_spec in E. tauto. }
  rewrite NF, A5. rewrite head_found by auto. fold (qg q). unfold qbody, item_body, qeid, osr, type_text. fold (qown q) in *. destruct (i_sub (qg q)) as [p|] eqn:S.
  - cbn [bind]. exists w. rewrite A4. split; [reflexivity|]. split; [apply ext_refl|reflexivity].
  - specialize (A7 eq_refl). unfold words. rewrite (ext_h w X), A3. rewrite run_sorted by auto. cbn [bind put_words m_head].
    destruct (ext_trans _ _ _ Hext X) as (_ & _ & M & _). destruct (dm_known x d z roots ST _ D) as (_ & KM & _). rewrite A7. fold (qown q). destruct (M _ KM) as (_ & -> & _ & _).
    pose proof (whole _ G S) as W. rewrite W. fold (qown q). destruct (index_ok x d z roots ST _ D) as (i & EI & _). unfold hidx. rewrite EI. cbn [bind].
    eexists. split; [|split; [|]].
    + cbn [with_c cs_other]. assert (A4' : cs_other w (qown q) = cs_other x (qown q)) by (change (qown q) with (i_own (qg q)); rewrite <- A7 at 1; exact A4). rewrite A4'. reflexivity.
    + apply same_words_ext. apply (M _ KM).
    + reflexivity.
Qed.
Definition multi_item (q : nat) : bool := Nat.ltb 1 (length (qwds q)).
Record written (j : nat) (evs : nat -> list ev) (w : corefs) : Prop := {
  w_once : forall n, NoDup (evs n);
  w_op : forall n q, In (Op q) (evs n) <-> q < j /\ multi_item q = true /\ hd 0 (qwds q) = n;
  w_cl : forall n q, In (Cl q) (evs n) <-> q < j /\ multi_item q = true /\ last (qwds q) 0 = n;
  w_si : forall n q, In (Si q) (evs n) <-> q < j /\ multi_item q = false /\ hd 0 (qwds q) = n;
  w_ord : forall n, StronglySorted rev_ord (evs n);
  w_misc : forall n, In n nodes -> cs_misc w n = flat_map (ev_text qbody qeid) (evs n)
}.
Lemma with_misc_ext w n v : ext w (put_misc w n v).
Proof. unfold ext. cbn. auto 20. Qed.
Lemma lt_succ_cases q j : q < S j <-> q < j \/ q = j.
Proof. lia. Qed.
Lemma write_one w q evs : q < P -> ext y w -> written q evs w ->
  exists w' evs', write_mention lower w hs (qid q) = (w', Ok tt) /\ ext w w' /\ written (S q) evs' w'.
Proof.
  intros L X W. destruct (str_ok w q L X) as (w1 & E & X1 & M1). unfold write_mention. rewrite E. cbn [bind].
  pose proof (qid_in q L) as K. pose proof (qg_in q L) as G. pose proof (ext_trans _ _ _ X X1) as XY.
  destruct (item_ext x y w1 (qid q) _ XY (gof_at _ K)) as (A1 & A2 & A3 & A4 & A5 & A6 & A7 & A8). fold (qg q) in *.
  unfold words. rewrite (ext_h w1 XY), A3, run_sorted by auto. fold (qwds q).
  pose proof (same_words_ext w1 (qid q) (qwds q) A3) as X2. set (w2 := with_c w1 (put_words (cs_c w1) (qid q) (qwds q))) in *.
  assert (EQ : e_eid (put_words (cs_c w1) (qid q) (qwds q)) (m_ent (put_words (cs_c w1) (qid q) (qwds q)) (qid q)) = qeid q) by exact A6. rewrite EQ. clear EQ.
  assert (M2 : cs_misc w2 = cs_misc w) by exact M1. pose proof (ext_trans _ _ _ X1 X2) as X3.
  destruct (q_run q L) as [NE _]. destruct W as [W1 W2 W3 W4 W5 W6].
  assert (PRE : forall n e, In e (evs n) -> ev_item e < q).
  { intros n [p|p|p] H; cbn; [apply W2 in H|apply W3 in H|apply W4 in H]; tauto. }
  assert (FR : forall n e, ev_item e = q -> ~ In e (evs n)) by (intros n e EE H; apply PRE in H; lia).
  destruct (qwds q) as [|a [|b l]] eqn:EW; [congruence| |].
  - assert (MU : multi_item q = false) by (unfold multi_item; rewrite EW; reflexivity).
    assert (HD : hd 0 (qwds q) = a) by (rewrite EW; reflexivity).
    assert (NA : In a nodes) by (rewrite <- HD; apply (placed_in c d z roots TDx DRx); apply (q_word q); auto; apply q_fi; auto).
    assert (AS : exists ea, (ea = evs a ++ [Si q] \/ ea = Si q :: evs a) /\ add_single (cs_misc w2 a) ((LP :: qbody q) ++ [RP]) = flat_map (ev_text qbody qeid) ea).
    { rewrite M2, W6 by auto. unfold add_single. assert (T1 : flat_map (ev_text qbody qeid) (evs a) ++ (LP :: qbody q) ++ [RP] = flat_map (ev_text qbody qeid) (evs a ++ [Si q])) by (rewrite flat_map_app; cbn; rewrite app_nil_r; reflexivity).
      assert (T2 : ((LP :: qbody q) ++ [RP]) ++ flat_map (ev_text qbody qeid) (evs a) = flat_map (ev_text qbody qeid) (Si q :: evs a)) by reflexivity.
      rewrite T1, T2. destruct (negb (closes _)); [eauto|]. destruct (negb (has_char _ _)); [eauto|]. destruct (existsb _ _); eauto. }
    destruct AS as (ea & EA & AS). rewrite AS. eexists. exists (fun n => if Nat.eqb n a then ea else evs n). split; [reflexivity|].
    split; [eapply ext_trans; [exact X3|apply with_misc_ext]|].
    assert (IE : forall e, In e ea <-> In e (evs a) \/ e = Si q).
    { intros e. destruct EA as [->| ->]; [rewrite in_app_iff; cbn; intuition|cbn; intuition]. }
    constructor.
    + intros n. destruct (Nat.eqb n a); auto. destruct EA as [->| ->]; [apply nodup_snoc; auto|constructor; auto]; apply FR; reflexivity.
    + intros n p. destruct (Nat.eqb_spec n a) as [->|N]; [rewrite IE|]; rewrite W2, lt_succ_cases; split; intuition (try discriminate; subst; try congruence; auto).
    + intros n p. destruct (Nat.eqb_spec n a) as [->|N]; [rewrite IE|]; rewrite W3, lt_succ_cases; split; intuition (try discriminate; subst; try congruence; auto).
    + intros n p. destruct (Nat.eqb_spec n a) as [->|N]; [rewrite IE|]; rewrite W4, lt_succ_cases; split.
      * intros [H|H]; [tauto|]. injection H as ->. auto.
      * intros ([H|H] & M & F); [tauto|]. subst. auto.
      * tauto.
      * intros ([H|H] & M & F); [tauto|]. subst. congruence.
    + intros n. destruct (Nat.eqb n a); auto. destruct EA as [->| ->].
      * apply sorted_app_iff. split; auto. split; [repeat constructor|]. intros e f _ [<-|[]]. destruct e; exact I.
      * constructor; auto. rewrite Forall_forall. intros e _. destruct e; exact I.
    + intros n Hn. cbn [put_misc cs_misc]. unfold upd. destruct (Nat.eqb n a); auto. rewrite M2. apply W6. auto.
  - set (zz := last (a :: b :: l) a). assert (MU : multi_item q = true) by (unfold multi_item; rewrite EW; reflexivity).
    assert (HD : hd 0 (qwds q) = a) by (rewrite EW; reflexivity). assert (LZ : last (qwds q) 0 = zz) by (rewrite EW; apply last_dflt; discriminate).
    eexists. exists (fun n => (if Nat.eqb n zz then [Cl q] else []) ++ evs n ++ (if Nat.eqb n a then [Op q] else [])). split; [reflexivity|].
    split; [eapply ext_trans; [exact X3|]; eapply ext_trans; apply with_misc_ext|].
    assert (IE : forall n e, In e ((if Nat.eqb n zz then [Cl q] else []) ++ evs n ++ (if Nat.eqb n a then [Op q] else [])) <-> In e (evs n) \/ (n = zz /\ e = Cl q) \/ (n = a /\ e = Op q)).
    { intros n e. rewrite !in_app_iff. destruct (Nat.eqb_spec n zz), (Nat.eqb_spec n a); cbn; intuition. }
    constructor.
    + intros n. apply nodup_app.
      * destruct (Nat.eqb n zz); repeat constructor; auto.
      * apply nodup_app; auto; [destruct (Nat.eqb n a); repeat constructor; auto|]. intros e He H. destruct (Nat.eqb n a); [|destruct H]. destruct H as [<-|[]]. revert He. apply FR. reflexivity.
      * intros e H. destruct (Nat.eqb n zz); [|destruct H]. destruct H as [<-|[]]. rewrite in_app_iff. intros [H|H]; [revert H; apply FR; reflexivity|].
        destruct (Nat.eqb n a); [|destruct H]. destruct H as [H|[]]. discriminate.
    + intros n p. rewrite IE, W2, lt_succ_cases. split.
      * intros [H|[[-> H]|[-> H]]]; [tauto|discriminate|]. injection H as ->. auto.
      * intros ([H|H] & M & F); [tauto|]. subst p. right. right. split; congruence.
    + intros n p. rewrite IE, W3, lt_succ_cases. split.
      * intros [H|[[-> H]|[-> H]]]; [tauto| |discriminate]. injection H as ->. auto.
      * intros ([H|H] & M & F); [tauto|]. subst p. right. left. split; congruence.
    + intros n p. rewrite IE, W4, lt_succ_cases. split.
      * intros [H|[[-> H]|[-> H]]]; [tauto|discriminate|discriminate].
      * intros ([H|H] & M & F); [tauto|]. subst p. congruence.
    + intros n. apply sorted_app_iff. split; [destruct (Nat.eqb n zz); repeat constructor|]. split.
      * apply sorted_app_iff. split; auto. split; [destruct (Nat.eqb n a); repeat constructor|]. intros e f He Hf. destruct (Nat.eqb n a); [|destruct Hf]. destruct Hf as [<-|[]].
        apply PRE in He. destruct e; cbn in *; auto.
      * intros e f He Hf. destruct (Nat.eqb n zz); [|destruct He]. destruct He as [<-|[]]. apply in_app_iff in Hf. destruct Hf as [Hf|Hf].
        -- apply PRE in Hf. destruct f; cbn in *; auto.
        -- destruct (Nat.eqb n a); [|destruct Hf]. destruct Hf as [<-|[]]. exact I.
    + intros n Hn. cbn [put_misc cs_misc]. unfold upd. rewrite M2, !flat_map_app.
      assert (TA : flat_map (ev_text qbody qeid) (if Nat.eqb n a then [Op q] else []) = if Nat.eqb n a then LP :: qbody q else []) by (destruct (Nat.eqb n a); cbn; rewrite ?app_nil_r; reflexivity).
      assert (TZ : flat_map (ev_text qbody qeid) (if Nat.eqb n zz then [Cl q] else []) = if Nat.eqb n zz then qeid q ++ [RP] else []) by (destruct (Nat.eqb n zz); cbn; rewrite ?app_nil_r; reflexivity).
      rewrite TA, TZ, <- (W6 n Hn). destruct (Nat.eqb_spec n zz) as [->|NZ]; [|destruct (Nat.eqb_spec n a) as [->|]; rewrite ?app_nil_r; reflexivity].
      destruct (Nat.eqb_spec zz a) as [->|]; rewrite ?app_nil_r, <- !app_assoc; reflexivity.
Qed.
Lemma write_all : forall l pre w evs, ms2 = pre ++ l -> ext y w -> written (length pre) evs w ->
  exists w' evs', write_mentions lower w hs l = (w', Ok tt) /\ ext w w' /\ written P evs' w'.
Proof.
  induction l as [|k l IH]; intros pre w evs E X W; cbn [write_mentions].
  - rewrite app_nil_r in E. subst pre. exists w, evs. split; auto. split; [apply ext_refl|auto].
  - assert (L : length pre < P) by (rewrite E, app_length; cbn; lia).
    assert (EK : qid (length pre) = k) by (unfold qid; rewrite E, app_nth2, Nat.sub_diag by lia; reflexivity).
    destruct (write_one w (length pre) evs L X W) as (w1 & evs1 & E1 & X1 & W1). rewrite EK in E1. rewrite E1. cbn [bind].
    destruct (IH (pre ++ [k]) w1 evs1) as (w2 & evs2 & E2 & X2 & W2).
    + rewrite <- app_assoc. exact E.
    + eapply ext_trans; eauto.
    + rewrite app_length. cbn [length]. rewrite Nat.add_1_r. exact W1.
    + exists w2, evs2. split; auto. split; auto. eapply ext_trans; eauto.
Qed.
End Items.
