(** Storing coreference and loading it again. *)
From Coq Require Import String List NArith ZArith Bool Lia Sorting.Sorted Sorting.Permutation.
From Verif Require Import PyStr PyStrFacts PyList PyListFacts PyExn TreeModel TreeSpec TreeOps EmptySpec DualDictModel BundleModel BundleSpec
  CorefModel CorefSpec CorefSpan CorefOrder CorefIds CorefIOModel CorefIOSpec CorefIOEvents CorefIOText CorefIOSort CorefIOLoad CorefIOPlace CorefIOStore CorefIOItems.
Import ListNotations.
Local Open Scope list_scope.

Section RoundTrip.
Variables (lower : str -> str) (x : corefs) (d : nat) (z : str) (roots : list nat).
Hypothesis ST : storable x d z roots.
Notation c := (cs_c x).
Notation h := (co_h (cs_c x)).
Notation nodes := (doc_nodes c roots).
Notation pos := (ix nodes).

(** ---- the mentions of the document ---- *)
Definition L0 : list nat := flat_map (fun p => e_ments c (snd p)) (eids c).
Lemma L0_In m : In m L0 <-> doc_mention c m.
Proof.
  unfold L0. rewrite in_flat_map. split.
  - intros ([k e] & H & M). exists k, e. auto.
  - intros (k & e & H & M). exists (k, e). auto.
Qed.
Lemma L0_nodup : NoDup L0.
Proof.
  destruct (st_unique _ _ _ _ ST) as [ND U]. apply nodup_flat.
  - apply NoDup_map_inv in ND. exact ND.
  - intros [k e] _. apply (lk_ents_once _ (st_linked _ _ _ _ ST)).
  - intros [k e] [k' e'] m H H' M M'. cbn [snd] in *. apply (lk_ents _ (st_linked _ _ _ _ ST)) in M, M'. destruct (U _ _ H) as [<- _]. destruct (U _ _ H') as [<- _]. congruence.
Qed.
Lemma dm_placed m : doc_mention c m -> placed_mention c d z m.
Proof. intros D. split; [apply (dm_words x d z roots ST m D)|]. intros w W. eapply st_placed; eauto. Qed.
Lemma dm_bounds m w : doc_mention c m -> In w (m_words c m) -> (position h (hd 0%nat (m_words c m)) <= position h w <= position h (last (m_words c m) 0%nat))%Z.
Proof.
  intros D W. pose proof (CorefIOSpec.st_words _ _ _ _ ST m D) as I. apply (increasing_bounds h (m_words c m)); auto. apply (dm_words x d z roots ST m D).
Qed.
Lemma one_run m n p : doc_mention c m -> doc_mention c n -> pcs x m = [p] -> hd 0 (m_words c m) = hd 0 (m_words c n) -> last (m_words c m) 0 = last (m_words c n) 0 ->
  length (m_words c m) = length (m_words c n) -> m_words c m = m_words c n.
Proof.
  intros D D' E EH EL EN. destruct (dm_words x d z roots ST m D) as (N & ND & _ & R). destruct (dm_words x d z roots ST n D') as (N' & ND' & _ & R').
  assert (EP : p = m_words c m) by (rewrite <- (pcs_concat x d z roots ST m D), E; cbn; rewrite app_nil_r; reflexivity). subst p.
  assert (RR : dm_root x m = dm_root x n) by (rewrite <- (R (hd 0 (m_words c m))) by (apply hd_In; auto); rewrite EH; apply R'; apply hd_In; auto).
  destruct (pcs_run x m (m_words c m)) as (_ & (u & v & EI) & _); [rewrite E; left; auto|].
  destruct (dm_order x d z roots ST m D) as [S I].
  assert (INC : incl (m_words c n) (m_words c m)).
  { intros w W. apply (infix_between x _ u (m_words c m) v w S EI N).
    - apply I. rewrite RR. eapply dm_tree; eauto.
    - unfold bounds. cbn [fst snd]. rewrite EH, EL. apply dm_bounds; auto. }
  apply (key_sorted_unique (position h)).
  - apply (CorefIOSpec.st_words _ _ _ _ ST m D).
  - apply (CorefIOSpec.st_words _ _ _ _ ST n D').
  - apply NoDup_Permutation; auto. intros w. split; [|apply INC]. apply (NoDup_length_incl ND'); auto. lia.
Qed.
Lemma not_one m : doc_mention c m -> (exists p, pcs x m = [p]) \/ discontinuous c m.
Proof.
  intros D. pose proof (pcs_nonnil x d z roots ST m D). pose proof (pcs_pieces x d z roots ST m D) as PC. destruct (pcs x m) as [|p [|q rs]]; [congruence|eauto|].
  right. exists p, q, rs. exact PC.
Qed.
Lemma dm_same m n : doc_mention c m -> doc_mention c n -> m_ent c m = m_ent c n -> hd 0 (m_words c m) = hd 0 (m_words c n) -> last (m_words c m) 0 = last (m_words c n) 0 ->
  length (m_words c m) = length (m_words c n) -> m = n.
Proof.
  intros D D' EE EH EL EN. destruct (not_one m D) as [(p & E)|C].
  - apply (st_differ _ _ _ _ ST); auto. eapply one_run; eauto.
  - destruct (not_one n D') as [(p & E)|C'].
    + apply (st_differ _ _ _ _ ST); auto. symmetry. eapply one_run; eauto.
    + destruct (Nat.eq_dec m n) as [|N]; auto. exfalso. assert (W : In (hd 0 (m_words c m)) (m_words c m)) by (apply hd_In; apply (dm_words x d z roots ST m D)).
      assert (W' : In (hd 0 (m_words c m)) (m_words c n)) by (rewrite EH; apply hd_In; apply (dm_words x d z roots ST n D')).
      apply (not_before_self x d z roots ST (hd 0 (m_words c m))); [eapply st_placed; eauto|].
      destruct (st_discontinuous _ _ _ _ ST m n D D' EE N C C') as [B|B]; auto.
Qed.
Lemma dm_different m n : In m L0 -> In n L0 -> same_place c m n -> m = n.
Proof.
  intros Hm Hn (f & l & (t & F) & (t' & F') & (u & E) & (u' & E') & EN & EI). apply L0_In in Hm, Hn. apply dm_same; auto.
  - apply (same_ent x d z roots ST); auto.
  - rewrite F, F'. reflexivity.
  - rewrite E, E', !last_app_one. reflexivity.
Qed.

(** ---- storing ---- *)
Record stored (x1 : corefs) (ms : list nat) (y : corefs) (ks ms2 : list nat) (evs : nat -> list ev) : Prop := {
  s_ms : forall m, In m ms <-> doc_mention c m;
  s_nodup : NoDup ms;
  s_ext : ext x y;
  s_items : Forall2 (item_at x y) ks (flat_map (gh x) ms);
  s_ks : NoDup ks;
  s_perm : Permutation ms2 ks;
  s_sorted : sorted_mentions (cs_c y) d ms2;
  s_last : ext x x1;
  s_written : written x roots ms ks ms2 lower (length ms2) evs x1
}.
Lemma store_ok : exists x1 ms y ks ms2 evs, store_coref lower x roots = (x1, Ok tt) /\ stored x1 ms y ks ms2 evs.
Proof.
  pose proof (st_some _ _ _ _ ST) as NE.
  assert (EL : store_coref lower x roots =
    let x := clear_misc x (nodes_and_empty c roots) in
    bind (on_x x (sort_mentions c L0)) (fun x ms =>
    bind (doc_mentions x ms) (fun x r =>
    bind (on_x x (sort_mentions (cs_c x) (fst r))) (fun x ms =>
    write_mentions lower x (snd r) ms)))).
  { unfold store_coref, L0. cbv zeta. destruct (eids c); [congruence|reflexivity]. }
  rewrite EL. clear EL. cbv zeta. set (xc := clear_misc x (nodes_and_empty c roots)).
  destruct (sort_mentions_spec c d z L0 (st_trees _ _ _ _ ST)) as (ms & E & PM & S & _).
  { intros m Hm. apply dm_placed. apply L0_In. auto. }
  { apply L0_nodup. }
  { apply dm_different. }
  destruct (sort_mentions c L0) as [c1 r] eqn:EC. cbn [snd] in E. subst r.
  assert (X1 : same_but_words c c1 /\ forall k, m_words c1 k = m_words c k).
  { assert (NW : forall m, In m L0 -> m_words c m <> []) by (intros m Hm; apply L0_In in Hm; apply (dm_words x d z roots ST m Hm)). revert NW EC. generalize L0. clear. intros L NW EC.
    unfold sort_mentions in EC. injection EC as EC _. rewrite <- EC. destruct L as [|a [|b l]]; try (split; [apply sbw_refl|reflexivity]). apply touch_all_spec. auto. }
  assert (X2 : ext x (with_c xc c1)).
  { destruct X1 as ((A1 & A2 & A3 & A4 & A5 & A6 & A7 & A8 & A9 & A10 & A11 & A12) & W). unfold ext. cbn. rewrite A1, A2, A3, A4, A5, A6, A7, A8, A9, A10, A11, A12. split; [auto 10|]. split; [lia|]. auto. }
  assert (Hms : forall m, In m ms <-> doc_mention c m).
  { intros m. rewrite <- L0_In. split; apply Permutation_in; [exact PM|symmetry; exact PM]. }
  assert (NDm : NoDup ms) by (eapply Permutation_NoDup; [symmetry; exact PM|apply L0_nodup]).
  unfold on_x at 1. cbn [fst snd bind].
  destruct (doc_items x d z roots ST ms (with_c xc c1)) as (y & ks & ED & X3 & M3 & F & NDk & _); auto; [intros m Hm; apply Hms; auto|].
  rewrite ED. cbn [bind fst snd]. assert (Xy : ext x y) by (eapply ext_trans; eauto).
  destruct (second_sort x d z roots ST ms y ks Hms NDm Xy F NDk) as (c2 & ms2 & E2 & P2 & S2 & X4). unfold on_x. rewrite E2. cbn [fst snd bind].
  destruct (write_all x d z roots ST ms y ks Hms Xy F NDk ms2 P2 lower ms2 [] (with_c y c2) (fun _ => [])) as (x1 & evs & EW & X5 & W).
  - reflexivity.
  - exact X4.
  - constructor; cbn [In length]; intros; try (constructor; fail); try (split; [intros []|intros (? & _); lia]).
    cbn [with_c cs_misc flat_map]. rewrite M3. cbn [with_c cs_misc]. unfold xc, clear_misc. cbn [cs_misc].
    assert (mem n (nodes_and_empty c roots) = true) as ->; [|reflexivity]. apply mem_In. exact H.
  - exists x1, ms, y, ks, ms2, evs. split; auto. constructor; auto. eapply ext_trans; [exact Xy|]. eapply ext_trans; eauto.
Qed.
(** ---- loading ---- *)
Lemma osr_chars m : doc_mention c m -> without (s "-()") (osr x lower m).
Proof.
  intros D a Ha H. unfold osr in Ha. pose proof (st_other _ _ _ _ ST m D) as G. destruct (cs_other x m) as [|kv l] eqn:E; [destruct Ha|].
  rewrite other_unreserved in Ha by exact G. destruct (other_str_chars lower _ G a Ha) as [->|[->|N]].
  - cbn in H. intuition discriminate.
  - cbn in H. intuition discriminate.
  - apply N. cbn in *. intuition.
Qed.
Lemma osr_parse m : doc_mention c m -> same_mapping (parse_other (osr x lower m)) (cs_other x m).
Proof.
  intros D. pose proof (st_other _ _ _ _ ST m D) as G. unfold osr. destruct (cs_other x m) as [|kv l] eqn:E; [intros k; reflexivity|].
  rewrite other_unreserved by exact G. apply parse_other_str. exact G.
Qed.
Theorem round_trip : exists x1 x2, store_coref lower x roots = (x1, Ok tt) /\ load_coref (reread x1) roots = (x2, Ok tt) /\ same_coref x x2 d.
Proof.
  destruct store_ok as (x1 & ms & y & ks & ms2 & evs & ES & SD). destruct SD as [Hms NDm Hext Hit NDk Hperm Hsort Hlast W].
  pose proof (q_doc x ms y ks Hms Hit NDk ms2 Hperm) as QD. set (own := qown x ms ks ms2) in *. set (P := length ms2) in *.
  pose proof (q_word x d z roots ST ms y ks Hms Hit NDk ms2 Hperm) as QW. fold own P in QW.
  pose proof (q_wm x d z roots ST ms y ks Hms NDm Hext Hit NDk ms2 Hperm Hsort) as QM. fold own P in QM.
  assert (QA : forall m, doc_mention c m -> exists q, q < P /\ own q = m).
  { intros m D. pose proof (qg_items x d z roots ST ms y ks Hms NDm Hext Hit NDk ms2 Hperm Hsort m D) as E.
    destruct (items_of P own m) as [|q l] eqn:EI.
    - fold P own in E. rewrite EI in E. cbn in E. exfalso. pose proof (gh_wds x m) as G. rewrite <- E in G. cbn in G. apply (pcs_nonnil x d z roots ST m D). auto.
    - exists q. apply (items_In x ms ks ms2 m q). fold P own. rewrite EI. left; auto. }
  destruct W as [W1 W2 W3 W4 W5 W6]. pose proof Hlast as ((B1 & B2 & B3 & B4 & B5) & _).
  destruct (load_summary c roots P own (qsub x ms ks ms2) (qwds x ms ks ms2) (m_ent c) (e_eid c) (fun e => type_text (e_type c e)) (hidx x) (m_head c) (osr x lower) evs (cs_misc x1))
    with (x0 := reread x1) (d := d) (z := z) as (x2 & f & g & EL & LK & IU & (C1 & C2 & C3) & LP & es & NDe & ESI & PE).
  - exact (nodes_nodup c d roots (st_trees _ _ _ _ ST) (st_roots _ _ _ _ ST)).
  - exact W1.
  - exact W2.
  - exact W3.
  - exact W4.
  - exact W5.
  - intros r Hr. apply (st_roots _ _ _ _ ST). auto.
  - intros q Hq. apply (q_run x d z roots ST ms y ks Hms Hit NDk ms2 Hperm q Hq).
  - intros p q H1 H2. apply (q_sorted x d z roots ST ms y ks Hms Hext Hit NDk ms2 Hperm Hsort p q H1 H2).
  - intros p q H1 H2 H3 H4 H5 H6. apply (q_nested x d z roots ST ms y ks Hms Hit NDk ms2 Hperm p q H1 H2 H3 H4 H5 H6).
  - intros p q H1 H2 H3. apply (q_apart x d z roots ST ms y ks Hms NDm Hext Hit NDk ms2 Hperm Hsort p q H1 H2 H3).
  - intros q I1 I2 E. apply (q_sub x d z roots ST ms y ks Hms NDm Hext Hit NDk ms2 Hperm Hsort q I1 I2 E).
  - intros q Hq. unfold wm. rewrite QM by auto. apply (CorefIOSpec.st_words _ _ _ _ ST). auto.
  - intros q Hq. unfold wm. rewrite QM by auto. destruct (index_ok x d z roots ST (own q) (QD q Hq)) as (i & EI & Li & NI). unfold hidx. rewrite EI. split; [lia|].
    replace (i + 1 - 1)%Z with i by lia. exact NI.
  - intros q Hq. apply (dm_id x d z roots ST). auto.
  - intros q Hq. destruct (dm_ent x d z roots ST _ (QD q Hq)) as (k & K). pose proof (st_types _ _ _ _ ST k _ K) as T. unfold good_type in T. destruct (e_type c (m_ent c (own q))); cbn; auto. intros a [].
  - intros q Hq. apply osr_chars. auto.
  - intros p q Hp Hq. apply (same_ent x d z roots ST); auto.
  - intros p q Hp Hq E N Sp Sq. unfold wm. rewrite !QM by auto.
    assert (PD : forall q, q < P -> qsub x ms ks ms2 q <> None -> discontinuous c (own q)).
    { intros a Ha HS. apply (part_disc x d z roots ST ms Hms (qg x ms ks ms2 a)); auto. apply (qg_in x ms y ks Hit NDk ms2 Hperm); auto. }
    pose proof (fun m w => st_placed _ _ _ _ ST m w) as PL.
    destruct (st_discontinuous _ _ _ _ ST (own p) (own q)) as [B|B]; auto; [left|right]; intros a b Ha Hb;
      (apply (before_pos c d z roots (st_trees _ _ _ _ ST) (st_roots _ _ _ _ ST)); [eapply PL; [|eauto]; auto|eapply PL; [|eauto]; auto|apply B; auto]).
  - intros n Hn. rewrite W6 by exact Hn. reflexivity.
  - cbn. rewrite B1, B2, B3. auto 20.
  - apply (st_trees _ _ _ _ ST).
  - intros q w Hq Hw. destruct (QW q w Hq Hw) as (A & B & _). split; auto. apply (dm_known x d z roots ST (own q)); auto.
  - intros q a b Hq. unfold wm. rewrite QM by auto. intros Ha Hb. destruct (dm_words x d z roots ST (own q) (QD q Hq)) as (_ & _ & _ & R). rewrite (R a Ha), (R b Hb). reflexivity.
  - intros p q Hp Hq. unfold wm. rewrite !QM by auto. intros E1 E2 E3 E4. apply dm_same; auto.
  - exists x1, x2. split; auto. split; auto.
    assert (EID : forall k e, In (k, e) (eids c) <-> In e es /\ e_eid c e = k).
    { intros k e. destruct (st_unique _ _ _ _ ST) as [_ U]. split.
      - intros H. split; [|apply (U k e H)]. pose proof (st_used _ _ _ _ ST k e H) as N. destruct (e_ments c e) as [|m l] eqn:EM; [congruence|].
        assert (M : In m (e_ments c e)) by (rewrite EM; left; auto). destruct (QA m) as (q & Hq & EQ); [exists k, e; auto|]. apply ESI. exists q. split; auto. rewrite EQ.
        apply (lk_ents _ (st_linked _ _ _ _ ST)). auto.
      - intros [H <-]. apply ESI in H. destruct H as (q & Hq & <-). apply (dm_id x d z roots ST (own q)). auto. }
    assert (GE : forall k e e', In (k, e) (eids c) -> In (k, e') (eids (cs_c x2)) -> e' = g e /\ exists p, p < P /\ m_ent c (own p) = e).
    { intros k e e' H H'. apply EID in H. destruct H as [He Ek]. apply (Permutation_in _ PE) in H'. apply in_map_iff in H'. destruct H' as (a & EA & Ha). inversion EA; subst.
      apply ESI in He. destruct He as (p & Hp & Ep). apply ESI in Ha. destruct Ha as (q & Hq & Eq). split; [|eauto]. f_equal. subst. apply (same_ent x d z roots ST); auto. }
    constructor; auto.
    + rewrite PE, map_map. cbn [fst]. assert (PS : Permutation (map (fun a => (e_eid c a, a)) es) (eids c)).
      { apply NoDup_Permutation.
        - apply nodup_map; auto. intros a b _ _ E. congruence.
        - destruct (st_unique _ _ _ _ ST) as [N _]. apply NoDup_map_inv in N. exact N.
        - intros [k e]. rewrite EID, in_map_iff. split; [intros (a & E & Ha); inversion E; subst; auto|intros [H <-]; exists e; auto]. }
      rewrite <- PS, map_map. cbn [fst]. reflexivity.
    + intros k e e' H H'. destruct (GE k e e' H H') as (-> & p & Hp & <-). destruct (LP p Hp) as (_ & _ & _ & T & _). rewrite T. reflexivity.
    + intros k e e' H H'. destruct (GE k e e' H H') as (-> & p & Hp & <-). destruct (LP p Hp) as (_ & _ & _ & _ & SM & l & NDl & INl & EM). split; auto.
      exists l. split.
      * apply NoDup_Permutation; auto; [apply (lk_ents_once _ (st_linked _ _ _ _ ST))|]. intros m. rewrite INl. split.
        -- intros ((q & Hq & <-) & E). rewrite <- E. apply (dm_listed x d z roots ST (own q)). auto.
        -- intros M. pose proof (lk_ents _ (st_linked _ _ _ _ ST) _ _ M) as E. split; auto. apply QA. exists k, (m_ent c (own p)). auto.
      * rewrite EM. assert (SMM : forall m, In m l -> same_mention x x2 m (f m)).
        { intros m Hm. apply INl in Hm. destruct Hm as ((q & Hq & <-) & _). destruct (LP q Hq) as (A1 & A2 & A3 & _). unfold wm in A1. rewrite QM in A1 by auto.
          split; auto. split; auto. rewrite A3. apply osr_parse. auto. }
        clear - SMM. induction l as [|m l IH]; cbn [map]; constructor; [apply SMM; left; auto|]. apply IH. intros; apply SMM; right; auto.
Qed.
End RoundTrip.
