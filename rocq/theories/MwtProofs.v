(** Proofs about multi-word tokens. *)
From Coq Require Import String List NArith ZArith Bool Lia Permutation.
From Verif Require Import PyStr PyStrFacts PyList PyListFacts PyExn TreeModel TreeSpec TreeFacts TreeRepr TreeOps
  DualDictModel DocModel MwtSpec.
Import ListNotations.

Lemma forget_fields : forall l d, d_h (forget d l) = d_h d /\ d_at (forget d l) = d_at d /\
  d_mwts (forget d l) = d_mwts d /\ d_m (forget d l) = d_m d /\ d_mnext (forget d l) = d_mnext d /\
  d_ri (forget d l) = d_ri d.
Proof. induction l as [|w l IH]; intros d; simpl; [repeat split|]. destruct (IH (put_mwt d w None)) as (A&B&C&D&E&F). auto 7. Qed.
Lemma forget_mwt : forall l d w, d_mwt (forget d l) w = if mem w l then None else d_mwt d w.
Proof.
  induction l as [|a l IH]; intros d w; simpl; auto. rewrite IH. simpl. unfold upd, mem. simpl.
  destruct (existsb (Nat.eqb w) l); simpl; [rewrite orb_true_r; auto|].
  destruct (Nat.eqb w a); auto.
Qed.
Lemma belong_fields : forall m l d, d_h (belong d m l) = d_h d /\ d_at (belong d m l) = d_at d /\
  d_mwts (belong d m l) = d_mwts d /\ d_m (belong d m l) = d_m d /\ d_mnext (belong d m l) = d_mnext d /\
  d_ri (belong d m l) = d_ri d.
Proof. induction l as [|w l IH]; intros d; simpl; [repeat split|]. destruct (IH (put_mwt d w (Some m))) as (A&B&C&D&E&F). auto 7. Qed.
Lemma belong_mwt : forall m l d w, d_mwt (belong d m l) w = if mem w l then Some m else d_mwt d w.
Proof.
  induction l as [|a l IH]; intros d w; simpl; auto. rewrite IH. simpl. unfold upd, mem. simpl.
  destruct (existsb (Nat.eqb w) l); simpl; [rewrite orb_true_r; auto|].
  destruct (Nat.eqb w a); auto.
Qed.
Lemma clear_fields : forall l d, d_h (clear_space_after d l) = d_h d /\ d_mwt (clear_space_after d l) = d_mwt d /\
  d_mwts (clear_space_after d l) = d_mwts d /\ d_m (clear_space_after d l) = d_m d /\
  d_mnext (clear_space_after d l) = d_mnext d /\ d_ri (clear_space_after d l) = d_ri d.
Proof. induction l as [|w l IH]; intros d; simpl; [repeat split|]. match goal with |- context [clear_space_after ?x l] => destruct (IH x) as (A&B&C&D&E&F) end. auto 7. Qed.


(** ---- MWT.remove ---- *)
Lemma mwt_remove_ok : forall d m, mwts_agree d -> In m (d_mwts d (m_root (d_m d m))) ->
  exists d', mwt_remove d m = (d', Ok tt) /\ mwts_agree d' /\
    d_h d' = d_h d /\ d_at d' = d_at d /\ d_m d' = d_m d /\ d_mnext d' = d_mnext d /\ d_ri d' = d_ri d /\
    (forall r, d_mwts d' r = filter (fun m' => negb (Nat.eqb m' m)) (d_mwts d r)) /\
    (forall w, d_mwt d' w = match d_mwt d w with
                            | Some m' => if Nat.eqb m' m then None else Some m'
                            | None => None
                            end).
Proof.
  intros d m A I. unfold mwt_remove.
  destruct (forget_fields (m_words (d_m d m)) d) as (F1&F2&F3&F4&F5&F6). rewrite F3, F4.
  rewrite (list_remove_filter m) by (auto; apply (ma_once _ A)).
  eexists. split; [reflexivity|]. simpl. rewrite F1, F2, F3, F4, F5, F6.
  assert (L : forall r, upd (d_mwts d) (m_root (d_m d m))
      (filter (fun m' => negb (Nat.eqb m' m)) (d_mwts d (m_root (d_m d m)))) r =
      filter (fun m' => negb (Nat.eqb m' m)) (d_mwts d r)).
  { intros r. unfold upd. destruct (Nat.eqb_spec r (m_root (d_m d m))); [subst; auto|].
    symmetry. apply filter_all. intros m' I'. apply negb_true_iff, Nat.eqb_neq. intros ->.
    apply n. symmetry. apply (ma_listed _ A r m I'). }
  assert (K : forall w, d_mwt (forget d (m_words (d_m d m))) w = match d_mwt d w with
      | Some m' => if Nat.eqb m' m then None else Some m' | None => None end).
  { intros w. rewrite forget_mwt. destruct (mem w (m_words (d_m d m))) eqn:E.
    - apply mem_In in E. apply (ma_listed _ A _ _ I) in E. rewrite E, Nat.eqb_refl. auto.
    - apply mem_false in E. destruct (d_mwt d w) as [m'|] eqn:E'; auto.
      destruct (Nat.eqb_spec m' m); auto. subst. elim E. apply (ma_known _ A w m E'). }
  split; [|auto 10].
  split; simpl; rewrite ?F3, ?F4.
  - intros r. rewrite L. apply NoDup_filter. apply (ma_once _ A).
  - intros r m' I'. rewrite L in I'. apply filter_In in I'. destruct I' as [I' N].
    apply negb_true_iff in N. destruct (ma_listed _ A _ _ I') as [R W]. split; auto.
    intros w Iw. rewrite K, (W w Iw), N. auto.
  - intros w m'. rewrite K. destruct (d_mwt d w) as [m''|] eqn:E; [|discriminate].
    destruct (Nat.eqb m'' m) eqn:N; [discriminate|]. intros [= <-].
    rewrite L, filter_In, N. destruct (ma_known _ A _ _ E). auto.
Qed.

Lemma mwt_remove_fields : forall d m, exists x,
  d_h (fst (mwt_remove d m)) = d_h d /\ d_m (fst (mwt_remove d m)) = d_m d /\
  d_mnext (fst (mwt_remove d m)) = d_mnext d /\ snd (mwt_remove d m) = x.
Proof.
  intros. eexists. repeat split; unfold mwt_remove;
    destruct (forget_fields (m_words (d_m d m)) d) as (F1&F2&F3&F4&F5&F6);
    destruct (list_remove m (d_mwts (forget d (m_words (d_m d m))) (m_root (d_m (forget d (m_words (d_m d m))) m)))); simpl; auto.
Qed.

Lemma overlaps_spec d ws m : overlaps d ws m = true <-> exists w, In w (m_words (d_m d m)) /\ In w ws.
Proof.
  unfold overlaps. rewrite existsb_exists. split; intros (w&I&J); exists w; [apply mem_In in J|rewrite mem_In]; auto.
Qed.

(** ---- create_multiword_token ---- *)
Lemma remove_old_ok : forall ws d, mwts_agree d ->
  exists d', remove_old d ws = (d', Ok tt) /\ mwts_agree d' /\
    d_h d' = d_h d /\ d_at d' = d_at d /\ d_m d' = d_m d /\ d_mnext d' = d_mnext d /\ d_ri d' = d_ri d /\
    (forall r, d_mwts d' r = filter (fun m => negb (overlaps d ws m)) (d_mwts d r)) /\
    (forall w, d_mwt d' w = match d_mwt d w with
                            | Some m => if overlaps d ws m then None else Some m
                            | None => None
                            end).
Proof.
  induction ws as [|w ws IH]; intros d A.
  - exists d. assert (O : forall m, overlaps d [] m = false).
    { intros m. unfold overlaps. induction (m_words (d_m d m)); auto. }
    simpl. split; [auto|]. split; [auto|]. do 5 (split; [auto|]). split.
    + intros r. symmetry. apply filter_all. intros m _. rewrite O. auto.
    + intros w. destruct (d_mwt d w) as [m|]; auto. rewrite O. auto.
  - assert (OV : forall m, overlaps d (w :: ws) m = mem w (m_words (d_m d m)) || overlaps d ws m).
    { intros m. apply eq_true_iff_eq. rewrite orb_true_iff, !overlaps_spec, mem_In. split.
      - intros (v&I&[->|J]); eauto.
      - intros [I|(v&I&J)]; [exists w|exists v]; simpl; auto. }
    simpl. destruct (d_mwt d w) as [m0|] eqn:E.
    + destruct (ma_known _ A _ _ E) as [I0 W0].
      destruct (mwt_remove_ok d m0 A I0) as (d1&E1&A1&H1&AT1&M1&N1&R1&L1&K1).
      rewrite E1. simpl. destruct (IH d1 A1) as (d2&E2&A2&H2&AT2&M2&N2&R2&L2&K2).
      exists d2. split; [auto|]. split; [auto|]. rewrite H2, AT2, M2, N2, R2.
      do 5 (split; [auto|]).
      assert (OV1 : forall m, overlaps d1 ws m = overlaps d ws m) by (intros; unfold overlaps; rewrite M1; auto).
      split.
      * intros r. rewrite L2, L1, filter_filter. apply filter_ext_in'. intros m I.
        rewrite OV1, OV. destruct (Nat.eqb_spec m m0) as [->|N].
        { assert (X : mem w (m_words (d_m d m0)) = true) by (apply mem_In; auto). rewrite X. simpl.
          try rewrite andb_false_r; auto. }
        { destruct (mem w (m_words (d_m d m))) eqn:X; simpl.
          - apply mem_In in X. apply (ma_listed _ A _ _ I) in X. congruence.
          - try rewrite andb_true_r; auto. }
      * intros w'. rewrite K2, K1. destruct (d_mwt d w') as [m|] eqn:E'; auto. rewrite OV.
        destruct (Nat.eqb_spec m m0) as [->|N].
        { assert (X : mem w (m_words (d_m d m0)) = true) by (apply mem_In; auto). rewrite X. auto. }
        { rewrite OV1. destruct (mem w (m_words (d_m d m))) eqn:X; simpl; auto.
          apply mem_In in X. destruct (ma_known _ A _ _ E') as [I' _]. apply (ma_listed _ A _ _ I') in X. congruence. }
    + destruct (IH d A) as (d2&E2&A2&H2&AT2&M2&N2&R2&L2&K2).
      exists d2. split; [auto|]. split; [auto|]. do 5 (split; [auto|]). split.
      * intros r. rewrite L2. apply filter_ext_in'. intros m I. rewrite OV.
        destruct (mem w (m_words (d_m d m))) eqn:X; simpl; auto.
        apply mem_In in X. apply (ma_listed _ A _ _ I) in X. congruence.
      * intros w'. rewrite K2. destruct (d_mwt d w') as [m|] eqn:E'; auto. rewrite OV.
        destruct (mem w (m_words (d_m d m))) eqn:X; simpl; auto.
        apply mem_In in X. destruct (ma_known _ A _ _ E') as [I' _]. apply (ma_listed _ A _ _ I') in X. congruence.
Qed.

(** Listed MWTs were created before, their words are existing nodes. *)
Record minv (d : doc) : Prop := {
  mi_agree : mwts_agree d;
  mi_next : forall r m, In m (d_mwts d r) -> m < d_mnext d;
  mi_roots : forall r, h_next (d_h d) <= r -> d_mwts d r = [];
  mi_words : forall w m, d_mwt d w = Some m -> w < h_next (d_h d)
}.

Lemma create_mwt_ok : forall d r ws form misc, minv d ->
  exists d', fst (create_multiword_token d r ws form misc) = d' /\
    snd (create_multiword_token d r ws form misc) = match ws with [] => Raise IndexError | _ => Ok (d_mnext d) end /\
    mwts_agree d' /\ d_h d' = d_h d /\ d_ri d' = d_ri d /\ d_mnext d' = S (d_mnext d) /\
    (forall r', d_mwts d' r' = filter (fun m => negb (overlaps d ws m)) (d_mwts d r') ++
                               (if Nat.eqb r' r then [d_mnext d] else [])) /\
    (forall w, d_mwt d' w = if mem w ws then Some (d_mnext d) else
                            match d_mwt d w with
                            | Some m => if overlaps d ws m then None else Some m
                            | None => None
                            end) /\
    (forall m, m <> d_mnext d -> d_m d' m = d_m d m) /\
    m_words (d_m d' (d_mnext d)) = ws /\ m_form (d_m d' (d_mnext d)) = form /\ m_root (d_m d' (d_mnext d)) = r.
Proof.
  intros d r ws form misc [A NX RX WX].
  destruct (remove_old_ok ws d A) as (d1&E1&A1&H1&AT1&M1&N1&R1&L1&K1).
  unfold create_multiword_token, create_mwt. rewrite E1. cbn [bind].
  set (d2 := mkDoc (d_h d1) (d_at d1) (d_mwt d1) (d_mwts d1) (upd (d_m d1) (d_mnext d1) (mkMwt ws form (opt_dd misc) r)) (S (d_mnext d1)) (d_ri d1)).
  set (m := d_mnext d1). assert (Em : m = d_mnext d) by auto.
  destruct (belong_fields m ws d2) as (B1&B2&B3&B4&B5&B6).
  set (d3 := belong d2 m ws) in *.
  set (d4 := put_mwts d3 r (d_mwts d3 r ++ [m])).
  (* the state before the SpaceAfter part *)
  assert (P : mwts_agree d4 /\ d_h d4 = d_h d /\ d_ri d4 = d_ri d /\ d_mnext d4 = S (d_mnext d) /\
    (forall r', d_mwts d4 r' = filter (fun m => negb (overlaps d ws m)) (d_mwts d r') ++
                               (if Nat.eqb r' r then [d_mnext d] else [])) /\
    (forall w, d_mwt d4 w = if mem w ws then Some (d_mnext d) else
                            match d_mwt d w with
                            | Some m => if overlaps d ws m then None else Some m
                            | None => None
                            end) /\
    (forall m, m <> d_mnext d -> d_m d4 m = d_m d m) /\
    m_words (d_m d4 (d_mnext d)) = ws /\ m_form (d_m d4 (d_mnext d)) = form /\ m_root (d_m d4 (d_mnext d)) = r).
  { assert (L4 : forall r', d_mwts d4 r' = filter (fun m => negb (overlaps d ws m)) (d_mwts d r') ++
                               (if Nat.eqb r' r then [d_mnext d] else [])).
    { intros r'. simpl. rewrite B3. simpl. unfold upd. rewrite <- Em. destruct (Nat.eqb_spec r' r).
      - subst r'. rewrite L1. auto. - rewrite L1, app_nil_r. auto. }
    assert (K4 : forall w, d_mwt d4 w = if mem w ws then Some (d_mnext d) else
                            match d_mwt d w with
                            | Some m => if overlaps d ws m then None else Some m
                            | None => None
                            end).
    { intros w. simpl. unfold d3. rewrite belong_mwt. rewrite <- Em. destruct (mem w ws); auto. simpl. apply K1. }
    assert (D4 : forall m', m' <> d_mnext d -> d_m d4 m' = d_m d m').
    { intros m' N. simpl. rewrite B4. simpl. unfold upd. rewrite N1, M1. destruct (Nat.eqb_spec m' (d_mnext d)); congruence. }
    assert (D4' : d_m d4 (d_mnext d) = mkMwt ws form (opt_dd misc) r).
    { simpl. rewrite B4. simpl. unfold upd. rewrite N1, Nat.eqb_refl. auto. }
    assert (S1 : d_h d4 = d_h d) by (simpl; rewrite B1; auto).
    assert (S2 : d_ri d4 = d_ri d) by (simpl; rewrite B6; auto).
    assert (S3 : d_mnext d4 = S (d_mnext d)) by (simpl; rewrite B5; simpl; auto).
    split; [|rewrite D4'; cbn [m_root m_words m_form]; auto 12].
    split.
    - intros r'. rewrite L4. apply NoDup_app.
      + apply NoDup_filter, (ma_once _ A).
      + destruct (Nat.eqb r' r); repeat constructor. auto.
      + intros x I J. apply filter_In in I as [I _]. apply NX in I. destruct (Nat.eqb r' r); destruct J; [lia|auto].
    - intros r' m' I. rewrite L4 in I. apply in_app_or in I as [I|I].
      + apply filter_In in I as [I O]. apply negb_true_iff in O. pose proof (NX _ _ I) as LT.
        rewrite D4 by lia. destruct (ma_listed _ A _ _ I) as [R W]. split; [auto|]. intros w Iw. rewrite K4.
        destruct (mem w ws) eqn:X.
        * apply mem_In in X. assert (overlaps d ws m' = true) by (apply overlaps_spec; eauto). congruence.
        * rewrite (W w Iw), O. auto.
      + destruct (Nat.eqb_spec r' r); [destruct I as [<-|[]]|destruct I]. subst r'. rewrite D4'. cbn [m_root m_words]. split; [auto|].
        intros w Iw. rewrite K4. apply mem_In in Iw. rewrite Iw. auto.
    - intros w m'. rewrite K4. destruct (mem w ws) eqn:X.
      + intros [= <-]. rewrite D4'. cbn [m_root m_words]. rewrite L4, Nat.eqb_refl. split; [|apply mem_In; auto].
        apply in_or_app. simpl. auto.
      + destruct (d_mwt d w) as [m''|] eqn:E; [|discriminate]. destruct (overlaps d ws m'') eqn:O; [discriminate|].
        intros [= <-]. destruct (ma_known _ A _ _ E) as [I W]. pose proof (NX _ _ I).
        rewrite D4 by lia. split; [|auto]. rewrite L4. apply in_or_app. left. apply filter_In. rewrite O. auto. }
  clearbody d4. clear d3 B1 B2 B3 B4 B5 B6.
  destruct P as (P1&P2&P3&P4&P5&P6&P7&P8&P9&P10).
  rewrite Em.
  destruct (last_opt ws) as [w|] eqn:LO.
  2:{ apply last_opt_None in LO. exists d4. split; [reflexivity|]. split; [rewrite LO; reflexivity|]. repeat (split; [assumption|]). assumption. }
  destruct ws as [|w0 ws']; [discriminate|]. set (ws := w0 :: ws') in *.
  destruct (dd_get (dd_prop (n_misc (d_at d4 w))) SpaceAfter) as [dd v] eqn:DG.
  eexists. split; [reflexivity|]. split; [reflexivity|]. cbn [fst].
  match goal with |- context [clear_space_after ?x ws] => destruct (clear_fields ws x) as (C1&C2&C3&C4&C5&C6) end.
  assert (W1 : m_words (d_m d4 (d_mnext d)) = ws) by auto.
  match type of C3 with d_mwts ?f = d_mwts ?y => set (d6 := f) in *; set (d5 := y) in * end.
  assert (Q : d_h d5 = d_h d4 /\ d_mwt d5 = d_mwt d4 /\ d_mwts d5 = d_mwts d4 /\ d_mnext d5 = d_mnext d4 /\ d_ri d5 = d_ri d4 /\
    (forall m', m' <> d_mnext d -> d_m d5 m' = d_m d4 m') /\
    m_words (d_m d5 (d_mnext d)) = m_words (d_m d4 (d_mnext d)) /\ m_form (d_m d5 (d_mnext d)) = m_form (d_m d4 (d_mnext d)) /\
    m_root (d_m d5 (d_mnext d)) = m_root (d_m d4 (d_mnext d))).
  { unfold d5. destruct (val_is v No); simpl; [|auto 12]. unfold upd.
    rewrite Nat.eqb_refl. simpl. do 5 (split; [auto|]). split; [|auto].
    intros m' N. apply Nat.eqb_neq in N. rewrite N. auto. }
  clearbody d5 d6. destruct Q as (Q1&Q2&Q3&Q4&Q5&Q6&Q7&Q8&Q9).
  rewrite C1, C2, C3, C4, C5, C6, Q1, Q2, Q3, Q4, Q5, Q7, Q8, Q9.
  split; [|split; [auto|split; [auto|split; [auto|split; [auto|split; [auto|split; [|auto]]]]]]].
  - assert (MM : forall m', m_words (d_m d6 m') = m_words (d_m d4 m') /\ m_root (d_m d6 m') = m_root (d_m d4 m')).
    { intros m'. rewrite C4. destruct (Nat.eq_dec m' (d_mnext d)); [subst; auto|rewrite Q6; auto]. }
    split.
    + intros r'. rewrite C3, Q3. apply (ma_once _ P1).
    + intros r' m'. rewrite C3, Q3, C2, Q2. destruct (MM m') as [-> ->]. apply (ma_listed _ P1).
    + intros w' m'. rewrite C3, Q3, C2, Q2. destruct (MM m') as [-> ->]. apply (ma_known _ P1).
  - intros m' N. rewrite Q6; auto.
Qed.

Lemma minv_world : forall d, mwt_world d -> minv d.
Proof.
  induction 1 as [|d W IH|d h W IH Hn|d f g W IH|d r ws form misc W IH Hr Hw|d m W IH I].
  - split; simpl; auto; try discriminate. split; simpl; try discriminate; [intros; constructor|intros r m []]. intros r m [].
  - destruct IH as [A NX RX WX]. simpl.
    set (r := h_next (d_h d)).
    assert (F : forall w, (if Nat.eqb w r then None else d_mwt d w) = d_mwt d w).
    { intros w. destruct (Nat.eqb_spec w r); auto. destruct (d_mwt d w) eqn:E; auto. apply WX in E. lia. }
    assert (G : forall r', (if Nat.eqb r' r then [] else d_mwts d r') = d_mwts d r').
    { intros r'. destruct (Nat.eqb_spec r' r); auto. rewrite RX; auto. lia. }
    split; simpl; unfold upd; fold r.
    + split; simpl; unfold upd; fold r.
      * intros r'. rewrite G. apply A.
      * intros r' m. rewrite G. intros I. destruct (ma_listed _ A _ _ I). split; auto. intros w Iw. rewrite F. auto.
      * intros w m. rewrite F, G. apply (ma_known _ A).
    + intros r' m. rewrite G. apply NX.
    + intros r' L. rewrite G. apply RX. lia.
    + intros w m. rewrite F. intros E. apply WX in E. lia.
  - destruct IH as [A NX RX WX]. split; simpl; auto.
    + destruct A. split; simpl; auto.
    + intros. apply RX. lia.
    + intros w m E. apply WX in E. lia.
  - destruct IH as [A NX RX WX]. split; simpl; auto. destruct A; split; simpl; auto.
  - destruct (create_mwt_ok d r ws form misc IH) as (d'&E&_&A'&H'&_&N'&L'&K'&D'&_). rewrite E.
    destruct IH as [A NX RX WX]. split; auto.
    + intros r' m. rewrite L', N'. intros I. apply in_app_or in I as [I|I].
      * apply filter_In in I as [I _]. apply NX in I. lia.
      * destruct (Nat.eqb r' r); [destruct I as [<-|[]]|destruct I]. lia.
    + rewrite H'. intros r' L. rewrite L', RX by auto. destruct (Nat.eqb_spec r' r); [lia|auto].
    + rewrite H'. intros w m. rewrite K'. destruct (mem w ws) eqn:X; [intros _; apply Hw, mem_In; auto|].
      destruct (d_mwt d w) eqn:E'; [|discriminate]. intros _. eapply WX; eauto.
  - destruct IH as [A NX RX WX]. destruct (mwt_remove_ok d m A I) as (d'&E&A'&H'&_&M'&N'&_&L'&K'). rewrite E. simpl.
    split; auto.
    + intros r' m'. rewrite L', N', filter_In. intros [? _]. eauto.
    + rewrite H'. intros r' L. rewrite L', RX; auto.
    + rewrite H'. intros w m'. rewrite K'. destruct (d_mwt d w) eqn:E'; [|discriminate]. intros _. eapply WX; eauto.
Qed.

(** ---- SpaceAfter ---- *)
From Verif Require Import DualDictSpec DualDictProofs.

Local Arguments dd_set : simpl never.
Definition good (m : option dualdict) : Prop :=
  exists lower x, R lower (dd_prop m) x.
Lemma good_None : good None.
Proof. exists (fun x => x), (mkMap [] no_val None). unfold R; cbn; repeat split; auto; constructor. Qed.
Lemma good_set m k v : good m -> good (Some (dd_set (dd_prop m) k v)).
Proof. intros (lower&x&HR). exists lower. eexists. apply R_set. eauto. Qed.
Lemma good_get m k : good m -> good (Some (fst (dd_get (dd_prop m) k))).
Proof. intros (lower&x&HR). exists lower, x. apply R_deser. auto. Qed.
Lemma good_text x : good (opt_dd x).
Proof.
  unfold opt_dd. destruct x as [|a x]; [apply good_None|]. destruct (str_eqb (a :: x) US); [apply good_None|].
  simpl. exists (fun x => x). eexists. apply (R_text _ (a :: x)).
Qed.
Lemma good_ok m : misc_ok m -> good m.
Proof. destruct m as [dd|]; [|intros; apply good_None]. intros [lower H]. destruct (reachable_R _ _ H) as [x HR]. exists lower, x. auto. Qed.
Lemma get_after_get m k k' : misc_get (Some (fst (dd_get (dd_prop m) k))) k' = misc_get m k'.
Proof. unfold misc_get, dd_get. simpl. rewrite deser_idem. auto. Qed.
Lemma get_after_set m k v k' : good m ->
  misc_get (Some (dd_set (dd_prop m) k v)) k' =
  if str_eqb k' k then match v with VNone => VStr [] | _ => v end else misc_get m k'.
Proof.
  intros (lower&x&HR). pose proof (R_set _ _ _ k v HR) as HS.
  unfold misc_get, dd_get. simpl. destruct HS as (_&_&S3&_). destruct HR as (_&_&R3&_).
  rewrite S3, R3. unfold update_mapping.
  destruct v as [| |[|a y]]; simpl; unfold put, without; simpl; destruct (str_eqb k' k); auto.
Qed.

Lemma clear_at_out : forall l d x, ~ In x l -> d_at (clear_space_after d l) x = d_at d x.
Proof.
  induction l as [|w l IH]; intros d x N; simpl; auto. rewrite IH by (simpl in N; tauto). simpl. unfold upd.
  destruct (Nat.eqb_spec x w); auto. subst. elim N. simpl. auto.
Qed.
Lemma clear_at : forall l d x, good (n_misc (d_at d x)) ->
  let a := d_at (clear_space_after d l) x in
  good (n_misc a) /\ same_but_misc a (d_at d x) /\
  (forall k, k <> SpaceAfter -> misc_get (n_misc a) k = misc_get (n_misc (d_at d x)) k) /\
  (In x l -> misc_get (n_misc a) SpaceAfter = VStr []) /\
  (misc_get (n_misc (d_at d x)) SpaceAfter = VStr [] -> misc_get (n_misc a) SpaceAfter = VStr []).
Proof.
  induction l as [|w l IH]; intros d x G; cbn zeta.
  - simpl. split; [auto|]. split; [repeat split|]. tauto.
  - cbn [clear_space_after].
    match goal with |- context [clear_space_after ?y l] => set (d1 := y) end.
    assert (G1 : good (n_misc (d_at d1 x)) /\ same_but_misc (d_at d1 x) (d_at d x) /\
      (forall k, k <> SpaceAfter -> misc_get (n_misc (d_at d1 x)) k = misc_get (n_misc (d_at d x)) k) /\
      (x = w -> misc_get (n_misc (d_at d1 x)) SpaceAfter = VStr []) /\
      (misc_get (n_misc (d_at d x)) SpaceAfter = VStr [] -> misc_get (n_misc (d_at d1 x)) SpaceAfter = VStr [])).
    { simpl. unfold upd. destruct (Nat.eqb_spec x w); [subst w|].
      - cbn [n_misc set_misc]. split; [apply good_set; auto|]. split; [repeat split|].
        rewrite !get_after_set by auto. split; [|rewrite str_eqb_refl; auto].
        intros k N. rewrite get_after_set by auto. apply str_eqb_neq in N. rewrite N. auto.
      - split; [auto|]. split; [repeat split|]. tauto. }
    clearbody d1. destruct G1 as (G1&S1&K1&E1&F1).
    destruct (IH d1 x G1) as (G2&S2&K2&E2&F2). cbn zeta in *. split; [auto|].
    split; [unfold same_but_misc in *; intuition congruence|].
    split; [intros k N; rewrite K2, K1; auto|].
    split; [|auto]. intros [->|I]; auto.
Qed.

Lemma create_mwt_space : forall d r ws form misc w, minv d -> last_opt ws = Some w ->
  (forall x, In x ws -> good (n_misc (d_at d x))) ->
  let d' := fst (create_multiword_token d r ws form misc) in
  (forall x, ~ In x ws -> d_at d' x = d_at d x) /\
  (forall x, In x ws -> same_but_misc (d_at d' x) (d_at d x) /\
     (forall k, k <> SpaceAfter -> misc_get (n_misc (d_at d' x)) k = misc_get (n_misc (d_at d x)) k) /\
     misc_get (n_misc (d_at d' x)) SpaceAfter = VStr [] /\ good (n_misc (d_at d' x))) /\
  (forall k, misc_get (m_misc (d_m d' (d_mnext d))) k =
     if str_eqb k SpaceAfter && val_is (misc_get (n_misc (d_at d w)) SpaceAfter) No then VStr No
     else misc_get (opt_dd misc) k).
Proof.
  intros d r ws form misc w [A NX RX WX] LO GW. cbn zeta.
  destruct (remove_old_ok ws d A) as (d1&E1&A1&H1&AT1&M1&N1&R1&L1&K1).
  unfold create_multiword_token, create_mwt. rewrite E1. cbn [bind]. rewrite LO.
  set (d2 := mkDoc (d_h d1) (d_at d1) (d_mwt d1) (d_mwts d1) (upd (d_m d1) (d_mnext d1) (mkMwt ws form (opt_dd misc) r)) (S (d_mnext d1)) (d_ri d1)).
  set (m := d_mnext d1). assert (Em : m = d_mnext d) by auto.
  destruct (belong_fields m ws d2) as (B1&B2&B3&B4&B5&B6).
  set (d4 := put_mwts (belong d2 m ws) r (d_mwts (belong d2 m ws) r ++ [m])).
  assert (AT4 : d_at d4 = d_at d) by (simpl; rewrite B2; simpl; auto).
  assert (M4 : d_m d4 m = mkMwt ws form (opt_dd misc) r).
  { simpl. rewrite B4. simpl. unfold upd, m. rewrite Nat.eqb_refl. auto. }
  clearbody d4. rewrite AT4.
  assert (Iw : In w ws) by (apply last_opt_In; auto).
  destruct (dd_get (dd_prop (n_misc (d_at d w))) SpaceAfter) as [dd v] eqn:DG.
  assert (Ev : misc_get (n_misc (d_at d w)) SpaceAfter = v) by (unfold misc_get; rewrite DG; auto).
  assert (Ed : dd = fst (dd_get (dd_prop (n_misc (d_at d w))) SpaceAfter)) by (rewrite DG; auto).
  cbn [fst].
  match goal with |- context [clear_space_after ?y ws] => set (d5 := y) end.
  destruct (clear_fields ws d5) as (C1&C2&C3&C4&C5&C6).
  assert (AT5 : forall x, d_at d5 x = if Nat.eqb x w then set_misc (d_at d w) (Some dd) else d_at d x).
  { intros x. unfold d5. destruct (val_is v No); simpl; unfold upd; rewrite AT4; auto. }
  assert (M5 : m_misc (d_m d5 m) = if val_is v No then Some (dd_set (dd_prop (opt_dd misc)) SpaceAfter (VStr No)) else opt_dd misc).
  { unfold d5. destruct (val_is v No); simpl; unfold upd; rewrite ?Nat.eqb_refl, ?M4; auto. }
  clearbody d5. rewrite <- Em, C4.
  assert (NE : forall x, same_but_misc (d_at d5 x) (d_at d x) /\ (forall k, misc_get (n_misc (d_at d5 x)) k = misc_get (n_misc (d_at d x)) k) /\
     (In x ws -> good (n_misc (d_at d5 x)))).
  { intros x. rewrite AT5. destruct (Nat.eqb_spec x w); [subst x|].
    - split; [repeat split|]. cbn [n_misc set_misc]. rewrite Ed. split; [intros; apply get_after_get|].
      intros _. apply good_get. auto.
    - split; [repeat split|]. auto. }
  split; [|split].
  - intros x N. rewrite clear_at_out by auto. rewrite AT5. destruct (Nat.eqb_spec x w); auto. subst. tauto.
  - intros x I. destruct (NE x) as (S1&K2&G). destruct (clear_at ws d5 x (G I)) as (G2&S2&K3&E2&_). cbn zeta in *.
    split; [unfold same_but_misc in *; intuition congruence|]. split; [|auto].
    intros k N. rewrite K3; auto.
  - intros k. rewrite M5, Ev.
    destruct (val_is v No).
    + rewrite get_after_set by apply good_text. rewrite andb_true_r. destruct (str_eqb k SpaceAfter); auto.
    + rewrite andb_false_r. auto.
Qed.

(** ---- token_descendants and compute_text ---- *)
Section tokens.
  Context (d : doc) (r : nat).
  Hypothesis C : consistent (d_h d) r.
  Hypothesis A : mwts_agree d.
  Hypothesis CT : contiguous d r.
  Let h := d_h d.

  Lemma ord_at pre x post : h_desc h r = pre ++ x :: post -> h_ord h x = (Z.of_nat (length pre) + 1)%Z.
  Proof.
    intros E. pose proof (c_ords _ _ C) as O. fold h in O. rewrite E in O.
    rewrite map_app in O. simpl in O.
    assert (L : length (pre ++ x :: post) = length pre + S (length post)) by (rewrite app_length; auto).
    rewrite L, seq_app, map_app in O.
    apply (f_equal (fun l => nth (length pre) l 0%Z)) in O.
    rewrite app_nth2, app_nth2 in O by (rewrite !map_length, ?seq_length; lia).
    rewrite !map_length, seq_length, Nat.sub_diag in O. simpl in O. lia.
  Qed.

  (** No MWT lies on both sides of the cut. *)
  Definition clean (pre post : list nat) : Prop :=
    forall m, In m (d_mwts d r) -> (forall w, In w (m_words (d_m d m)) -> In w pre) \/
                                   (forall w, In w (m_words (d_m d m)) -> In w post).

  Lemma block_first pre x post m : h_desc h r = pre ++ x :: post -> clean pre (x :: post) -> d_mwt d x = Some m ->
    exists ws post', m_words (d_m d m) = x :: ws /\ post = ws ++ post' /\ clean (pre ++ x :: ws) post'.
  Proof.
    intros E CL EM. pose proof (c_once _ _ C) as ND. fold h in ND.
    destruct CT as [CT1 CT2].
    assert (Ix : In x (h_desc h r)) by (rewrite E; apply in_elt).
    destruct (ma_known _ A _ _ EM) as [I W]. rewrite (CT2 x m Ix EM) in I.
    destruct (CT1 m I) as [NE (p&q&Eb)]. fold h in Eb.
    assert (NP : forall w, In w (m_words (d_m d m)) -> In w (x :: post)).
    { destruct (CL m I) as [H|H]; auto. apply H in W.
      rewrite E in ND. apply NoDup_remove_2 in ND. elim ND. apply in_or_app. auto. }
    destruct (m_words (d_m d m)) as [|y ws] eqn:EW; [tauto|].
    assert (x = y).
    { destruct W as [->|W]; auto. exfalso.
      (* y precedes x, so y is in pre *)
      apply in_split in W as (w1&w2&->).
      assert (E3 : h_desc h r = (p ++ y :: w1) ++ x :: (w2 ++ q)).
      { rewrite Eb. rewrite <- !app_assoc. simpl. rewrite <- app_assoc. auto. }
      pose proof (ord_at _ _ _ E) as O1. pose proof (ord_at _ _ _ E3) as O2.
      assert (EL : length pre = length (p ++ y :: w1)) by lia.
      assert (pre = p ++ y :: w1).
      { rewrite E in E3. apply (f_equal (firstn (length pre))) in E3.
        rewrite firstn_app, Nat.sub_diag, firstn_all, app_nil_r in E3.
        rewrite EL, firstn_app, Nat.sub_diag, firstn_all, app_nil_r in E3. auto. }
      assert (In y (x :: post)) by (apply NP; simpl; auto).
      rewrite E in ND. apply NoDup_app_inv in ND as (_&_&D). apply (D y); auto. subst pre. apply in_elt. }
    subst y. exists ws, q.
    assert (EP : pre = p).
    { pose proof (ord_at _ _ _ E) as O1. assert (E3 : h_desc h r = p ++ x :: (ws ++ q)) by (rewrite Eb; auto).
      pose proof (ord_at _ _ _ E3) as O2. assert (EL : length pre = length p) by lia.
      rewrite E in E3. apply (f_equal (firstn (length pre))) in E3.
      rewrite firstn_app, Nat.sub_diag, firstn_all, app_nil_r in E3.
      rewrite EL, firstn_app, Nat.sub_diag, firstn_all, app_nil_r in E3. auto. }
    subst p. split; [auto|]. split.
    { rewrite E in Eb. apply app_inv_head in Eb. simpl in Eb. congruence. }
    assert (EPOST : post = ws ++ q). { rewrite E in Eb. apply app_inv_head in Eb. simpl in Eb. congruence. }
    intros m' I'. destruct (Nat.eq_dec m' m) as [->|N].
    - left. rewrite EW. intros w Iw. apply in_or_app. auto.
    - destruct (CL m' I') as [H|H].
      + left. intros w Iw. apply in_or_app. auto.
      + right. intros w Iw. pose proof (H w Iw) as K. rewrite EPOST in K.
        change (x :: ws ++ q) with ((x :: ws) ++ q) in K. apply in_app_or in K as [K|K]; auto.
        rewrite <- EW in K. destruct (ma_listed _ A _ _ I) as [_ L1]. destruct (ma_listed _ A _ _ I') as [_ L2].
        apply L1 in K. apply L2 in Iw. congruence.
  Qed.

  (** The words of a MWT after the first are skipped. *)
  Lemma token_skip m ws : forall L post pre,
    h_desc h r = pre ++ ws ++ post -> (Z.of_nat (length pre + length ws) <= L)%Z ->
    (forall w, In w ws -> d_mwt d w = Some m) ->
    token_loop d L (ws ++ post) = token_loop d L post.
  Proof.
    induction ws as [|w ws IH]; intros L post pre E HL K; simpl; auto.
    rewrite (K w) by (simpl; auto). pose proof (ord_at _ _ _ E) as O. fold h. rewrite O.
    simpl in HL. destruct (Z.ltb_spec L (Z.of_nat (length pre) + 1)); [lia|].
    apply IH with (pre := pre ++ [w]).
    - rewrite <- app_assoc. auto. - rewrite app_length. simpl. lia. - intros; apply K; simpl; auto.
  Qed.
  Lemma text_skip m ws : forall L acc post pre,
    h_desc h r = pre ++ ws ++ post -> (Z.of_nat (length pre + length ws) <= L)%Z ->
    (forall w, In w ws -> d_mwt d w = Some m) ->
    text_loop d true L acc (ws ++ post) = text_loop d true L acc post.
  Proof.
    induction ws as [|w ws IH]; intros L acc post pre E HL K; simpl; auto.
    rewrite (K w) by (simpl; auto). pose proof (ord_at _ _ _ E) as O. fold h. rewrite O.
    simpl in HL. destruct (Z.ltb_spec L (Z.of_nat (length pre) + 1)); [lia|].
    apply IH with (pre := pre ++ [w]).
    - rewrite <- app_assoc. auto. - rewrite app_length. simpl. lia. - intros; apply K; simpl; auto.
  Qed.

  Lemma last_opt_cons {X} (x : X) l : exists z, last_opt (x :: l) = Some z.
  Proof. revert x. induction l as [|y l IH]; intros x; [exists x; auto|]. destruct (IH y) as [z E]. exists z. simpl in *. auto. Qed.
  Lemma last_split {X} (l : list X) z : last_opt l = Some z -> exists l', l = l' ++ [z].
  Proof.
    induction l as [|x l IH]; [discriminate|]. destruct l as [|y l].
    - intros [= <-]. exists []. auto.
    - intros E. destruct IH as [l' El]; auto. exists (x :: l'). simpl. congruence.
  Qed.

  Lemma token_text n : forall post, length post <= n -> forall pre L acc,
    h_desc h r = pre ++ post -> clean pre post -> (L <= Z.of_nat (length pre))%Z ->
    exists ts, token_loop d L post = Ok ts /\ flat_map (token_words d) ts = post /\
      (forall m, In (TMwt m) ts <-> In m (d_mwts d r) /\ exists w, In w post /\ d_mwt d w = Some m) /\
      ((forall t, In t ts -> token_form d t <> None) ->
       exists x, printed d ts x /\ text_loop d true L acc post = Ok (acc ++ x)).
  Proof.
    induction n as [|n IH]; intros post LN pre L acc E CL HL.
    { destruct post; [|simpl in LN; lia]. exists []. simpl. split; [auto|]. split; [auto|]. split.
      - intros m; split; [tauto|]. intros [_ (w&[]&_)].
      - intros _. exists []. split; [constructor|]. rewrite app_nil_r. auto. }
    destruct post as [|x post].
    { exists []. simpl. split; [auto|]. split; [auto|]. split.
      - intros m; split; [tauto|]. intros [_ (w&[]&_)].
      - intros _. exists []. split; [constructor|]. rewrite app_nil_r. auto. }
    pose proof (ord_at _ _ _ E) as OX.
    assert (Ix : In x (h_desc h r)) by (rewrite E; apply in_elt).
    destruct (d_mwt d x) as [m|] eqn:EM.
    - destruct (block_first _ _ _ _ E CL EM) as (ws&post'&EW&EP&CL').
      destruct (last_opt_cons x ws) as [z LZ]. destruct (last_split _ _ LZ) as [l' El'].
      destruct (ma_known _ A _ _ EM) as [I _]. rewrite (proj2 CT x m Ix EM) in I.
      destruct (ma_listed _ A _ _ I) as [RM KW]. rewrite EW in KW.
      assert (OZ : h_ord h z = Z.of_nat (length pre + S (length ws))).
      { assert (EZ : h_desc h r = (pre ++ l') ++ z :: post').
        { rewrite E, EP. change (x :: ws ++ post') with ((x :: ws) ++ post'). rewrite El'. rewrite <- !app_assoc. auto. }
        rewrite (ord_at _ _ _ EZ). apply (f_equal (@length nat)) in El'. rewrite app_length in *. simpl in *. lia. }
      assert (E' : h_desc h r = (pre ++ x :: ws) ++ post') by (rewrite E, EP, <- app_assoc; auto).
      assert (LX : length (pre ++ x :: ws) = length pre + S (length ws)) by (rewrite app_length; auto).
      simpl. rewrite EM. fold h. rewrite OX.
      destruct (Z.ltb_spec L (Z.of_nat (length pre) + 1)); [|lia].
      rewrite EW, LZ, OZ, EP.
      rewrite (token_skip m ws _ post' (pre ++ [x])).
      2:{ rewrite E, EP, <- app_assoc. auto. } 2:{ rewrite app_length. simpl. lia. } 2:{ intros; apply KW; simpl; auto. }
      assert (LN' : length post' <= n) by (rewrite EP in LN; simpl in LN; rewrite app_length in LN; lia).
      assert (PRINT : forall f, text_loop d true (Z.of_nat (length pre + S (length ws)))
         (acc ++ f ++ space_unless_no (m_misc (d_m d m))) (ws ++ post') =
         text_loop d true (Z.of_nat (length pre + S (length ws))) (acc ++ f ++ space_unless_no (m_misc (d_m d m))) post').
      { intros f. apply (text_skip m ws _ _ _ (pre ++ [x])).
        - rewrite E, EP, <- app_assoc. auto. - rewrite app_length. simpl. lia. - intros; apply KW; simpl; auto. }
      destruct (IH post' LN' (pre ++ x :: ws) (Z.of_nat (length pre + S (length ws)))
                  (match m_form (d_m d m) with Some f => acc ++ f ++ space_unless_no (m_misc (d_m d m)) | None => [] end) E' CL')
        as (ts&T1&T2&T3&T4); [lia|].
      exists (TMwt m :: ts). rewrite T1. simpl. split; [auto|]. rewrite EW, T2. split; [auto|]. split.
      + intros m'. split.
        * intros [[= <-]|J]; [split; [auto|exists x; auto]|].
          apply T3 in J as [J (w&Iw&Ew)]. split; [auto|]. exists w. split; [|auto]. right. apply in_or_app. auto.
        * intros [J (w&Iw&Ew)]. destruct (Nat.eq_dec m' m) as [->|N]; [auto|]. right. apply T3. split; [auto|].
          destruct Iw as [<-|Iw]; [congruence|]. apply in_app_or in Iw as [Iw|Iw]; [|eauto].
          rewrite KW in Ew by (simpl; auto). congruence.
      + intros FF. destruct (m_form (d_m d m)) as [f|] eqn:MF.
        2:{ exfalso. apply (FF (TMwt m)); auto. }
        destruct T4 as (y&P1&P2); [intros; apply FF; auto|].
        rewrite PRINT, P2.
        assert (NS : no_space_after d (TMwt m) <-> val_is (misc_get (m_misc (d_m d m)) SpaceAfter) No = true).
        { unfold no_space_after, token_misc. fold SpaceAfter. fold No.
          destruct (misc_get (m_misc (d_m d m)) SpaceAfter); simpl; try (split; discriminate).
          rewrite str_eqb_eq. split; congruence. }
        unfold space_unless_no. destruct (val_is (misc_get (m_misc (d_m d m)) SpaceAfter) No) eqn:V.
        * exists (f ++ y). split; [apply pr_joined; auto; tauto|]. rewrite app_nil_r, <- app_assoc. auto.
        * exists (f ++ [SP] ++ y). split; [apply pr_space; auto; intuition congruence|]. rewrite <- !app_assoc. auto.
    - assert (CL' : clean (pre ++ [x]) post).
      { intros m I. destruct (CL m I) as [H|H].
        - left. intros w Iw. apply in_or_app. auto.
        - right. intros w Iw. destruct (H w Iw) as [<-|]; auto.
          destruct (ma_listed _ A _ _ I) as [_ K]. apply K in Iw. congruence. }
      assert (E' : h_desc h r = (pre ++ [x]) ++ post) by (rewrite <- app_assoc; auto).
      assert (LN' : length post <= n) by (simpl in LN; lia).
      destruct (IH post LN' (pre ++ [x]) L
                  (match n_form (d_at d x) with Some f => acc ++ f ++ space_unless_no (n_misc (d_at d x)) | None => [] end) E' CL')
        as (ts&T1&T2&T3&T4); [rewrite app_length; lia|].
      exists (TWord x :: ts). simpl. rewrite EM, T1. split; [auto|]. simpl. rewrite T2. split; [auto|]. split.
      + intros m'. split.
        * intros [J|J]; [discriminate|]. apply T3 in J as [J (w&Iw&Ew)]. eauto 6.
        * intros [J (w&[<-|Iw]&Ew)]; [congruence|]. right. apply T3. eauto.
      + intros FF. destruct (n_form (d_at d x)) as [f|] eqn:MF.
        2:{ exfalso. apply (FF (TWord x)); auto. }
        destruct T4 as (y&P1&P2); [intros; apply FF; auto|].
        rewrite P2.
        assert (NS : no_space_after d (TWord x) <-> val_is (misc_get (n_misc (d_at d x)) SpaceAfter) No = true).
        { unfold no_space_after, token_misc. fold SpaceAfter. fold No.
          destruct (misc_get (n_misc (d_at d x)) SpaceAfter); simpl; try (split; discriminate).
          rewrite str_eqb_eq. split; congruence. }
        unfold space_unless_no. destruct (val_is (misc_get (n_misc (d_at d x)) SpaceAfter) No) eqn:V.
        * exists (f ++ y). split; [apply pr_joined; auto; tauto|]. rewrite app_nil_r, <- app_assoc. auto.
        * exists (f ++ [SP] ++ y). split; [apply pr_space; auto; intuition congruence|]. rewrite <- !app_assoc. auto.
  Qed.

  Lemma tokens_ok : exists ts, token_descendants d r = Ok ts /\ flat_map (token_words d) ts = h_desc h r /\
    (forall m, In (TMwt m) ts <-> In m (d_mwts d r)) /\
    ((forall t, In t ts -> token_form d t <> None) ->
     exists x, printed d ts x /\ compute_text d r true = Ok (rstrip x)).
  Proof.
    destruct (token_text (length (h_desc h r)) (h_desc h r) (Nat.le_refl _) [] 0%Z []) as (ts&T1&T2&T3&T4).
    - auto.
    - intros m I. right. intros w Iw. destruct CT as [CT1 _]. destruct (CT1 m I) as [_ (p&q&Eb)].
      unfold h. rewrite Eb. apply in_or_app. right. apply in_or_app. auto.
    - simpl. lia.
    - exists ts. split; [exact T1|]. split; [auto|]. split.
      + intros m. rewrite T3. split; [tauto|]. intros I. split; [auto|].
        destruct CT as [CT1 _]. destruct (CT1 m I) as [NE (p&q&Eb)].
        destruct (m_words (d_m d m)) as [|w ws] eqn:EW; [tauto|].
        exists w. split; [unfold h; rewrite Eb; apply in_or_app; simpl; auto|].
        destruct (ma_listed _ A _ _ I) as [_ K]. apply K. rewrite EW. simpl. auto.
      + intros FF. destruct (T4 FF) as (x&P1&P2). exists x. split; [auto|].
        unfold compute_text. assert (IR : is_root (d_h d) r = true).
        { unfold is_root. rewrite (proj2 (c_kinds _ _ C)). auto. }
        rewrite IR. cbn [rbind]. fold h. rewrite P2. auto.
  Qed.
End tokens.

(** ---- statements ---- *)
Lemma world_agree d : mwt_world d -> mwts_agree d.
Proof. intros W. apply (mi_agree _ (minv_world _ W)). Qed.
Lemma one_mwt d : mwt_world d -> forall r1 m1 r2 m2 w, In m1 (d_mwts d r1) -> In m2 (d_mwts d r2) ->
  In w (m_words (d_m d m1)) -> In w (m_words (d_m d m2)) -> m1 = m2 /\ r1 = r2.
Proof.
  intros W r1 m1 r2 m2 w I1 I2 W1 W2. pose proof (world_agree _ W) as A.
  destruct (ma_listed _ A _ _ I1) as [R1 K1]. destruct (ma_listed _ A _ _ I2) as [R2 K2].
  apply K1 in W1. apply K2 in W2. assert (m1 = m2) by congruence. subst. auto.
Qed.
Lemma create_statement d r ws form misc : mwt_world d ->
  exists d' m, create_multiword_token d r ws form misc = (d', match ws with [] => Raise IndexError | _ => Ok m end) /\
    (forall r', ~ In m (d_mwts d r')) /\
    (forall r', d_mwts d' r' = filter (fun m' => negb (overlaps d ws m')) (d_mwts d r') ++ (if Nat.eqb r' r then [m] else [])) /\
    (forall m', m' <> m -> d_m d' m' = d_m d m') /\
    m_words (d_m d' m) = ws /\ m_form (d_m d' m) = form /\ m_root (d_m d' m) = r /\ d_h d' = d_h d.
Proof.
  intros W. pose proof (minv_world _ W) as M.
  destruct (create_mwt_ok d r ws form misc M) as (d'&E1&E2&A'&H'&_&N'&L'&K'&D'&W'&F'&R').
  exists d', (d_mnext d). split; [destruct (create_multiword_token d r ws form misc) as [x y]; cbn [fst snd] in E1, E2; rewrite E1, E2; destruct ws; auto|].
  split; [intros r' I; apply (mi_next _ M) in I; lia|]. auto 10.
Qed.
Lemma space_statement d r ws form misc w : mwt_world d -> last_opt ws = Some w ->
  (forall x, In x ws -> misc_ok (n_misc (d_at d x))) ->
  exists d' m, create_multiword_token d r ws form misc = (d', Ok m) /\
  (forall x, ~ In x ws -> d_at d' x = d_at d x) /\
  (forall x, In x ws -> same_but_misc (d_at d' x) (d_at d x) /\
     (forall k, k <> s "SpaceAfter" -> misc_get (n_misc (d_at d' x)) k = misc_get (n_misc (d_at d x)) k) /\
     misc_get (n_misc (d_at d' x)) (s "SpaceAfter") = VStr []) /\
  (forall k, k <> s "SpaceAfter" -> misc_get (m_misc (d_m d' m)) k = misc_get (opt_dd misc) k) /\
  (misc_get (n_misc (d_at d w)) (s "SpaceAfter") = VStr (s "No") ->
     misc_get (m_misc (d_m d' m)) (s "SpaceAfter") = VStr (s "No")) /\
  (misc_get (n_misc (d_at d w)) (s "SpaceAfter") <> VStr (s "No") ->
     misc_get (m_misc (d_m d' m)) (s "SpaceAfter") = misc_get (opt_dd misc) (s "SpaceAfter")).
Proof.
  intros W LO G. pose proof (minv_world _ W) as M.
  destruct (create_mwt_ok d r ws form misc M) as (d'&E1&E2&_).
  destruct (create_mwt_space d r ws form misc w M LO) as (S1&S2&S3); [intros; apply good_ok; auto|]. cbn zeta in *.
  rewrite E1 in *. exists d', (d_mnext d).
  split. { destruct (create_multiword_token d r ws form misc) as [x y]; cbn [fst snd] in E1, E2. rewrite E1, E2. destruct ws; [discriminate|auto]. }
  split; [auto|]. split; [intros x I; destruct (S2 x I) as (?&?&?&?); auto|]. fold SpaceAfter. fold No. split.
  - intros k N. rewrite S3. apply str_eqb_neq in N. rewrite N. auto.
  - split; intros N; rewrite S3, str_eqb_refl; cbn [andb].
    + rewrite N. auto.
    + destruct (val_is (misc_get (n_misc (d_at d w)) SpaceAfter) No) eqn:V; auto.
      destruct (misc_get (n_misc (d_at d w)) SpaceAfter) as [| |v] eqn:EV; try discriminate. apply str_eqb_eq in V. congruence.
Qed.
