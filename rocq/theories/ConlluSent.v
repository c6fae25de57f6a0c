(** The tree that is read contains the sentence. *)
From Coq Require Import String List NArith ZArith Bool Lia Sorted Permutation.
From Verif Require Import PyStr PyStrFacts PyList PyListFacts PyExn TreeModel TreeSpec TreeFacts TreeRepr TreeOps TreeCalls
  DualDictModel DualDictSpec DualDictProofs DocModel MwtSpec MwtProofs ConlluModel ConlluSpec ConlluRe ConlluComments ConlluWrite
  ConlluAttach ConlluRead ConlluLines ConlluTree.
Import ListNotations.

(** ---- FEATS and MISC ---- *)
Definition misc_rel (lower : str -> str) (m : option dualdict) (x : str) : Prop :=
  exists M, R lower (dd_prop m) M /\ m_names M = m_names (of_text x) /\ (forall k, m_val M k = m_val (of_text x) k) /\
            text_of lower M = x.
Lemma misc_rel_text lower m x : misc_rel lower m x -> text_of_dd lower m = x.
Proof. intros (M & HR & _ & _ & T). unfold text_of_dd. rewrite (proj1 (R_text_of _ _ _ HR)). exact T. Qed.
Lemma misc_rel_opt lower x : x <> [] -> misc_rel lower (opt_dd x) x.
Proof.
  intros N. unfold opt_dd. destruct x as [|a x]; [congruence|].
  destruct (str_eqb_spec (a :: x) US) as [E|E].
  - rewrite E. exists (mkMap [] no_val None). split; [|split; [|split]]; try reflexivity.
    unfold R. cbn. repeat split; auto. constructor.
  - exists (of_text (a :: x)). split; [exact (R_text lower (a :: x))|]. do 2 (split; [reflexivity|]).
    unfold text_of. rewrite of_text_text. reflexivity.
Qed.
Lemma misc_rel_str lower m x : misc_rel lower m x -> misc_rel lower (Some (fst (dd_str lower (dd_prop m)))) x.
Proof. intros (M & HR & H). exists M. split; auto. apply (R_text_of _ _ _ HR). Qed.
Lemma misc_rel_get lower m x k : misc_rel lower m x -> misc_rel lower (Some (fst (dd_get (dd_prop m) k))) x.
Proof. intros (M & HR & H). exists M. split; auto. apply R_deser. exact HR. Qed.
Lemma misc_rel_val lower m x k : misc_rel lower m x ->
  snd (dd_get (dd_prop m) k) = match m_val (of_text x) k with Some v => v | None => VStr [] end.
Proof. intros (M & HR & _ & V & _). unfold dd_get. simpl. destruct HR as (_ & _ & G & _). now rewrite G, V. Qed.
Lemma canonical_ext lower m1 m2 : m_names m1 = m_names m2 -> (forall k, m_val m1 k = m_val m2 k) -> canonical lower m1 = canonical lower m2.
Proof.
  intros N V. unfold canonical. rewrite N.
  assert (forall l, map (item_of m1) l = map (item_of m2) l) as -> by (intros; apply map_ext; intros; unfold item_of; now rewrite V). reflexivity.
Qed.
Lemma misc_rel_clear lower m x : misc_rel lower m x -> inner_misc lower x ->
  misc_rel lower (Some (dd_set (dd_prop m) SpaceAfter (VStr []))) x.
Proof.
  intros (M & HR & HN & HV & HT) [I1 I2].
  exists (without M SpaceAfter). split; [exact (R_set lower _ _ SpaceAfter (VStr []) HR)|].
  assert (NV : m_val M SpaceAfter = None) by (rewrite HV; exact I1).
  assert (VE : forall k, m_val (without M SpaceAfter) k = m_val (of_text x) k).
  { intros k. simpl. destruct (str_eqb_spec k SpaceAfter) as [->|]; [now rewrite <- HV, NV|auto]. }
  assert (NE : m_names (without M SpaceAfter) = m_names (of_text x)).
  { simpl. rewrite <- HN. apply filter_all. intros k Ik. destruct (str_eqb_spec k SpaceAfter) as [->|]; auto.
    destruct HR as (_ & H2 & H3 & _). rewrite <- H2 in Ik. apply dict_get_key in Ik as [v Ev]. rewrite H3 in Ev. congruence. }
  split; auto. split; auto. unfold text_of. cbn [m_text without].
  transitivity (canonical lower (of_text x)); auto. now apply canonical_ext.
Qed.

Definition wattr (lower : str -> str) (a : attrs) (w : wordv) : Prop :=
  n_form a = Some (wv_form w) /\ n_lemma a = Some (wv_lemma w) /\ n_upos a = wv_upos w /\ n_xpos a = wv_xpos w /\
  n_feats a = opt_dd (wv_feats w) /\ n_deprel a = wv_deprel w /\ n_raw_deps a = Some (wv_deps w) /\ n_deps a = None /\
  misc_rel lower (n_misc a) (wv_misc w).
Lemma wattr_misc lower a w m : wattr lower a w -> misc_rel lower m (wv_misc w) -> wattr lower (set_misc a m) w.
Proof. intros (A1 & A2 & A3 & A4 & A5 & A6 & A7 & A8 & _) H. unfold wattr. simpl. auto 10. Qed.
Lemma unless_underscore o : opt_column o -> unless_us (underscore o) = o.
Proof. destruct o as [x|]; auto. intros [_ N]. unfold unless_us. simpl. now rewrite (proj2 (str_eqb_neq x US)). Qed.
Lemma word_read_wattr lower d x i w : ok_word w -> word_read d x (word_columns i w) ->
  h_ord (d_h d) x = Z.of_nat i /\ wattr lower (d_at d x) w.
Proof.
  intros (W1 & W2 & W3 & W4 & W5 & W6 & W7 & W8) [E A]. change (field (word_columns i w) 0) with (num i) in E.
  rewrite (proj2 (proj2 (num_spec i))) in E. split; [congruence|].
  rewrite A. unfold word_attrs, wattr, field. cbn [nth word_columns n_form n_lemma n_upos n_xpos n_feats n_deprel n_raw_deps n_deps n_misc].
  rewrite !unless_underscore by auto. do 8 (split; [auto|]). apply misc_rel_opt, W8.
Qed.

(** ---- create_multiword_token on words that belong to no multi-word token ---- *)
Lemma remove_old_none : forall l d, (forall x, In x l -> d_mwt d x = None) -> remove_old d l = (d, Ok tt).
Proof. induction l as [|w l IH]; intros d H; simpl; auto. rewrite (H w) by (simpl; auto). apply IH. intros; apply H; simpl; auto. Qed.
Lemma clear_prop (P : attrs -> Prop) : forall l d y, P (d_at d y) ->
  (forall a, P a -> In y l -> P (set_misc a (Some (dd_set (dd_prop (n_misc a)) SpaceAfter (VStr []))))) ->
  P (d_at (clear_space_after d l) y).
Proof.
  induction l as [|w l IH]; intros d y H C; cbn [clear_space_after]; auto. apply IH; [|intros; apply C; simpl; auto].
  simpl. destruct (Nat.eq_dec y w) as [->|]; upds; auto. apply C; simpl; auto.
Qed.
Lemma create_fresh d r ws form misc w : (forall x, In x ws -> d_mwt d x = None) -> last_opt ws = Some w ->
  val_is (snd (dd_get (dd_prop (n_misc (d_at d w))) SpaceAfter)) No = false ->
  exists d', create_multiword_token d r ws form misc = (d', Ok (d_mnext d)) /\
    d_h d' = d_h d /\ d_ri d' = d_ri d /\ d_mnext d' = S (d_mnext d) /\
    d_m d' = upd (d_m d) (d_mnext d) (mkMwt ws form (opt_dd misc) r) /\
    d_mwts d' = upd (d_mwts d) r (d_mwts d r ++ [d_mnext d]) /\
    (forall x, d_mwt d' x = if mem x ws then Some (d_mnext d) else d_mwt d x) /\
    (forall y, ~ In y ws -> d_at d' y = d_at d y) /\
    (forall (P : attrs -> Prop) y, P (d_at d y) ->
       (forall a, P a -> P (set_misc a (Some (fst (dd_get (dd_prop (n_misc a)) SpaceAfter))))) ->
       (forall a, P a -> In y ws -> P (set_misc a (Some (dd_set (dd_prop (n_misc a)) SpaceAfter (VStr []))))) ->
       P (d_at d' y)).
Proof.
  intros HN HL HV. unfold create_multiword_token, create_mwt. rewrite remove_old_none by auto. cbn [bind].
  match goal with |- context [belong ?x ?m ws] => set (dm := x) end.
  destruct (belong_fields (d_mnext d) ws dm) as (B1 & B2 & B3 & B4 & B5 & B6).
  pose proof (belong_mwt (d_mnext d) ws dm) as B7. set (db := belong dm (d_mnext d) ws) in *. clearbody db.
  rewrite HL. unfold dm in *. clear dm. cbn [d_h d_at d_mwts d_m d_mnext d_ri d_mwt] in *.
  cbn [put_mwts d_at]. rewrite B2.
  destruct (dd_get (dd_prop (n_misc (d_at d w))) SpaceAfter) as [dd v] eqn:EG. simpl in HV. rewrite HV.
  match goal with |- context [clear_space_after ?x ws] => set (dc := x) end.
  destruct (clear_fields ws dc) as (C1 & C2 & C3 & C4 & C5 & C6).
  exists (clear_space_after dc ws). split; auto. rewrite C1, C3, C4, C5, C6, C2.
  unfold dc. cbn [put_at put_mwts d_h d_at d_mwts d_m d_mnext d_ri d_mwt]. rewrite B1, B3, B4, B5, B6.
  do 6 (split; [auto|]).
  assert (Iw : In w ws). { rewrite last_opt_nth in HL. eapply nth_error_In; eauto. }
  split.
  - intros y Ny. rewrite clear_at_out by auto. unfold dc. simpl. rewrite B2. assert (y <> w) by congruence. now upds.
  - intros P y H C D. apply clear_prop; auto. unfold dc. simpl. rewrite B2. destruct (Nat.eq_dec y w) as [->|]; upds; auto.
    specialize (C _ H). rewrite EG in C. exact C.
Qed.

(** ---- the loop over the multi-word tokens ---- *)
Lemma slice_covered r (ns : list nat) m : 1 <= mv_first m <= mv_last m -> mv_last m <= length ns ->
  py_slice (r :: ns) (Z.of_nat (mv_first m)) (Z.of_nat (mv_last m) + 1) = covered m ns.
Proof.
  intros H1 H2. unfold py_slice, covered.
  assert (B : forall k, k <= S (length ns) -> py_bound (r :: ns) (Z.of_nat k) = k).
  { intros k Hk. unfold py_bound. simpl Datatypes.length. destruct (Z.leb_spec 0 (Z.of_nat k)); lia. }
  replace (Z.of_nat (mv_last m) + 1)%Z with (Z.of_nat (S (mv_last m))) by lia. rewrite !B by lia.
  destruct (mv_first m) as [|f] eqn:E; [lia|]. replace (S f - 1) with f by lia. reflexivity.
Qed.

Section mwts.
  Variables (lower : str -> str) (r : nat) (ns : list nat) (ws : list wordv).
  Hypothesis ND : NoDup ns.
  Hypothesis LEN : length ns = length ws.

  Record mst (d1 d : doc) (ms : list nat) (done : list mwtv) : Prop := {
    ms_words : forall x w, In (x, w) (combine ns ws) -> wattr lower (d_at d x) w;
    ms_list : d_mwts d r = ms;
    ms_is : Forall2 (fun m mv => m < d_mnext d /\ m_words (d_m d m) = covered mv ns /\ m_form (d_m d m) = Some (mv_form mv) /\
                                 m_misc (d_m d m) = opt_dd (mv_misc mv)) ms done;
    ms_of : forall w m, In w ns -> (d_mwt d w = Some m <-> In m ms /\ In w (m_words (d_m d m)));
    ms_h : d_h d = d_h d1;
    ms_ri : d_ri d = d_ri d1;
    ms_at : forall y, ~ In y ns -> d_at d y = d_at d1 y;
    ms_mwt : forall y, ~ In y ns -> d_mwt d y = d_mwt d1 y;
    ms_mwts : forall r', r' <> r -> d_mwts d r' = d_mwts d1 r';
    ms_next : d_mnext d1 <= d_mnext d;
    ms_m : forall m, m < d_mnext d1 -> d_m d m = d_m d1 m
  }.

  Lemma mwt_loop_ok d1 : forall todo d ms done, mst d1 d ms done -> Forall (ok_mwt (length ws)) (done ++ todo) ->
    StronglySorted (fun a b => mv_last a < mv_first b) (done ++ todo) ->
    (forall m w, In m todo -> In w (covered m ws) -> inner_misc lower (wv_misc w)) ->
    exists d' ms', mwt_loop d r (r :: ns) (map mwt_columns todo) = (d', Ok tt) /\ mst d1 d' ms' (done ++ todo).
  Proof.
    induction todo as [|mv todo IH]; intros d ms done M FO SO IM; cbn [map mwt_loop].
    { exists d, ms. rewrite app_nil_r. auto. }
    assert (OK : ok_mwt (length ws) mv). { rewrite Forall_forall in FO. apply FO, in_app_iff. simpl; auto. }
    pose proof OK as (O1 & O2 & _ & O4).
    change (field (mwt_columns mv) 0) with (num (mv_first mv) ++ MINUS :: num (mv_last mv)).
    rewrite split_app by now apply num_no. rewrite split_nochar by now apply num_no.
    rewrite !(proj2 (proj2 (num_spec _))). rewrite slice_covered by (rewrite ?LEN; auto).
    change (field (mwt_columns mv) 1) with (mv_form mv). change (last_opt (mwt_columns mv)) with (Some (mv_misc mv)). cbv iota beta.
    set (cw := covered mv ns).
    assert (POS : forall x, In x ns -> exists i, 1 <= i /\ nth_error ns (i - 1) = Some x).
    { intros x I. apply In_nth_error in I as [i E]. exists (S i). split; [lia|]. now replace (S i - 1) with i by lia. }
    assert (CIN : forall m x i, ok_mwt (length ws) m -> nth_error ns (i - 1) = Some x -> 1 <= i ->
      (In x (covered m ns) <-> mv_first m <= i <= mv_last m)).
    { intros m x i (A & B & _) E Hi. apply covered_In; auto. lia. }
    assert (SUB : forall x, In x cw -> In x ns).
    { intros x I. unfold cw, covered in I. rewrite <- (firstn_skipn (mv_first mv - 1) ns). apply in_app_iff. right.
      rewrite <- (firstn_skipn (S (mv_last mv) - mv_first mv) (skipn (mv_first mv - 1) ns)). apply in_app_iff; auto. }
    assert (FREE : forall x, In x cw -> d_mwt d x = None).
    { intros x Ix. destruct (d_mwt d x) as [m|] eqn:E; auto. exfalso.
      apply (ms_of _ _ _ _ M x m (SUB x Ix)) in E as [Im Iw].
      destruct (Forall2_In_l _ _ _ _ (ms_is _ _ _ _ M) Im) as (mv' & Imv & _ & W' & _). rewrite W' in Iw.
      destruct (POS x (SUB x Ix)) as (i & Hi & Ei).
      assert (OK' : ok_mwt (length ws) mv') by (rewrite Forall_forall in FO; apply FO, in_app_iff; auto).
      apply (CIN mv' x i OK' Ei Hi) in Iw. unfold cw in Ix. apply (CIN mv x i OK Ei Hi) in Ix.
      assert (mv_last mv' < mv_first mv).
      { clear - SO Imv. induction done as [|a done IH]; simpl in *; [tauto|]. inversion SO as [|? ? S1 F1]; subst.
        destruct Imv as [->|I]; auto. rewrite Forall_forall in F1. apply F1, in_app_iff. simpl; auto. }
      lia. }
    assert (LC : length cw = S (mv_last mv) - mv_first mv) by (apply covered_length; lia).
    destruct (last_opt cw) as [w|] eqn:EL.
    2:{ rewrite last_opt_nth in EL. apply nth_error_None in EL. lia. }
    assert (PAIR : forall x, In x cw -> exists wv, In (x, wv) (combine ns ws) /\ In wv (covered mv ws)).
    { intros x Ix. apply In_nth_error in Ix as [j Ej].
      assert (Hj : j < length cw) by (apply nth_error_Some; congruence).
      unfold cw in Ej. rewrite covered_nth in Ej by lia.
      destruct (nth_error ws (mv_first mv - 1 + j)) as [wv|] eqn:Ew.
      2:{ apply nth_error_None in Ew. lia. }
      exists wv. split.
      - apply nth_error_In with (n := mv_first mv - 1 + j). clear - Ej Ew. revert Ej Ew. generalize (mv_first mv - 1 + j). revert ws.
        induction ns as [|a l IH]; intros [|b l'] [|k]; simpl; try discriminate; [congruence|auto].
      - apply nth_error_In with (n := j). rewrite covered_nth; auto; lia. }
    assert (Iw : In w cw). { rewrite last_opt_nth in EL. eapply nth_error_In; eauto. }
    destruct (create_fresh d r cw (Some (mv_form mv)) (mv_misc mv) w FREE EL) as (d' & E' & H1 & H2 & H3 & H4 & H5 & H6 & H7 & H8).
    { destruct (PAIR w Iw) as (wv & Ic & Iv). destruct (ms_words _ _ _ _ M w wv Ic) as (_ & _ & _ & _ & _ & _ & _ & _ & MR).
      rewrite (misc_rel_val _ _ _ SpaceAfter MR). destruct (IM mv wv (or_introl eq_refl) Iv) as [I1 _].
      unfold SpaceAfter. rewrite I1. reflexivity. }
    rewrite E'. cbn [bind].
    destruct (IH d' (ms ++ [d_mnext d]) (done ++ [mv])) as (d2 & ms2 & E2 & M2).
    - destruct M. split.
      + intros x wv I. apply H8.
        * now apply ms_words0.
        * intros a Ha. apply wattr_misc; auto. apply misc_rel_get. apply Ha.
        * intros a Ha Ix. apply wattr_misc; auto. apply misc_rel_clear; [apply Ha|].
          destruct (PAIR x Ix) as (wv' & Ic & Iv). apply (IM mv); simpl; auto.
          assert (wv' = wv).
          { clear - I Ic ND. revert ws I Ic. induction ns as [|a l IH]; intros [|b l'] I Ic; simpl in *; try tauto. inversion ND; subst.
            destruct I as [I|I], Ic as [Ic|Ic]; try congruence; [| |eauto].
            - injection I as -> ->. apply in_combine_l in Ic. tauto.
            - injection Ic as -> ->. apply in_combine_l in I. tauto. }
          subst; auto.
      + rewrite H5. upds. congruence.
      + rewrite H4, H3. apply Forall2_snoc.
        * eapply Forall2_ext_l; [exact ms_is0|]. intros a b _ _ (Q1 & Q2). assert (a <> d_mnext d) by lia. upds. split; [lia|auto].
        * upds. simpl. repeat split; auto.
      + intros x m Ix. rewrite H6, H4.
        destruct (mem x cw) eqn:EM.
        * apply mem_In in EM. split.
          -- intros [= <-]. upds. simpl. split; [apply in_app_iff; simpl; auto|auto].
          -- intros [Im Iww]. apply in_app_iff in Im as [Im|[<-|[]]]; auto.
             destruct (Forall2_In_l _ _ _ _ ms_is0 Im) as (mv' & _ & B' & _). assert (m <> d_mnext d) by lia. rewrite upd_other in Iww by auto.
             assert (G : d_mwt d x = Some m) by (apply ms_of0; auto). rewrite (FREE x EM) in G. discriminate.
        * assert (NM : ~ In x cw) by (intros I; apply mem_In in I; congruence).
          rewrite ms_of0 by auto. split.
          -- intros [Im Iww]. destruct (Forall2_In_l _ _ _ _ ms_is0 Im) as (mv' & _ & B' & _). assert (m <> d_mnext d) by lia. upds.
             split; auto. apply in_app_iff; auto.
          -- intros [Im Iww]. apply in_app_iff in Im as [Im|[<-|[]]].
             ++ destruct (Forall2_In_l _ _ _ _ ms_is0 Im) as (mv' & _ & B' & _). assert (m <> d_mnext d) by lia. rewrite upd_other in Iww by auto. auto.
             ++ rewrite upd_same in Iww. simpl in Iww. tauto.
      + congruence.
      + congruence.
      + intros y Ny. rewrite H7; auto.
      + intros y Ny. rewrite H6. assert (mem y cw = false) as ->; auto. destruct (mem y cw) eqn:EM; auto. apply mem_In, SUB in EM. tauto.
      + intros r' Nr. rewrite H5. upds. auto.
      + lia.
      + intros m Hm. rewrite H4. assert (m <> d_mnext d) by lia. upds. auto.
    - now rewrite <- app_assoc.
    - now rewrite <- app_assoc.
    - intros m w' Im. apply IM. simpl; auto.
    - exists d2, ms2. split; auto. now rewrite <- app_assoc in M2.
  Qed.
End mwts.
