(** Reading and writing a sentence: the reader's verdict on the HEADs and both round trips. *)
From Coq Require Import String List NArith ZArith Bool Lia Sorted Permutation.
From Verif Require Import PyStr PyStrFacts PyList PyListFacts PyExn TreeModel TreeSpec TreeFacts TreeRepr TreeOps TreeCalls
  DualDictModel DualDictSpec DualDictProofs DocModel MwtSpec MwtProofs ConlluModel ConlluSpec ConlluRe ConlluComments ConlluWrite
  ConlluAttach ConlluRead ConlluLines ConlluTree ConlluSent ConlluReadOk.
Import ListNotations.

Lemma self_on_cycle ws i : 1 <= i -> head_of ws i = i -> on_cycle ws i.
Proof. intros H E. split; auto. exists 1. simpl. auto. Qed.

(** the HEADs of a consistent tree *)
Lemma ord_index h r i x : consistent h r -> nth_error (h_desc h r) i = Some x -> h_ord h x = Z.of_nat (S i).
Proof.
  intros C E. pose proof (c_ords _ _ C) as O.
  assert (E1 : nth_error (map (h_ord h) (h_desc h r)) i = Some (h_ord h x)) by (now rewrite nth_error_map, E).
  rewrite O, nth_error_map in E1.
  assert (L : i < length (h_desc h r)) by (apply nth_error_Some; congruence).
  rewrite (nth_error_nth' _ 0) in E1 by (now rewrite seq_length). rewrite seq_nth in E1 by auto.
  cbn [option_map] in E1. injection E1 as E1. rewrite <- E1. reflexivity.
Qed.
Lemma tokens_heads lower d r v : consistent (d_h d) r -> tokens lower d r v -> heads_ok (sv_words v).
Proof.
  intros C T. pose proof (tk_words _ _ _ _ T) as F. pose proof (Forall2_length_eq _ _ _ F) as L.
  assert (P : forall i x, nth_error (h_desc (d_h d) r) i = Some x -> exists p, h_par (d_h d) x = Some p /\
    h_ord (d_h d) p = Z.of_nat (head_of (sv_words v) (S i)) /\ live (d_h d) r p).
  { intros i x E. destruct (Forall2_nth_l _ _ _ F i x E) as (w & Ew & W). simpl. rewrite Ew.
    destruct W as (_ & _ & _ & _ & _ & (p & Ep & Op) & _). exists p. split; auto. split; auto.
    destruct (c_parents _ _ C x) as (p' & Ep' & Lp); [eapply nth_error_In; eauto|]. congruence. }
  assert (LV : forall p, live (d_h d) r p -> (p = r /\ h_ord (d_h d) p = 0%Z) \/
    exists j, nth_error (h_desc (d_h d) r) j = Some p /\ h_ord (d_h d) p = Z.of_nat (S j) /\ S j <= length (sv_words v)).
  { intros p [->|I]; [left; split; auto; apply C|]. right. apply In_nth_error in I as [j Ej]. exists j. split; auto.
    split; [now apply (ord_index _ r)|]. assert (j < length (h_desc (d_h d) r)) by (apply nth_error_Some; congruence). lia. }
  split.
  - apply Forall_forall. intros w I. apply In_nth_error in I as [i Ew].
    destruct (nth_error_lt (h_desc (d_h d) r) i) as [x Ex]; [rewrite L; apply nth_error_Some; congruence|].
    destruct (P i x Ex) as (p & _ & Op & Lp). simpl in Op. rewrite Ew in Op.
    destruct (LV p Lp) as [[-> O]|(j & _ & O & B)]; lia.
  - intros i Hi. destruct (nth_error_lt (h_desc (d_h d) r) (i - 1)) as [x Ex]; [lia|].
    assert (U : up (d_h d) x r) by (apply C; eapply nth_error_In; eauto).
    assert (G : forall x a, up (d_h d) x a -> a = r -> forall i, nth_error (h_desc (d_h d) r) i = Some x -> reaches0 (head_of (sv_words v)) (S i)).
    { clear - P LV C. intros x a U. induction U as [x p E|x p a E U IH]; intros Ea i Ex; apply reaches_up;
        destruct (P i x Ex) as (p' & Ep & Op & Lp); assert (p' = p) by congruence; subst p'.
      - subst p. rewrite (c_ord0 _ _ C) in Op. replace (head_of (sv_words v) (S i)) with 0 by lia. constructor.
      - destruct (LV p Lp) as [[-> O]|(j & Ej & O & B)].
        + replace (head_of (sv_words v) (S i)) with 0 by lia. constructor.
        + replace (head_of (sv_words v) (S i)) with (S j) by lia. now apply IH. }
    replace i with (S (i - 1)) by lia. now apply (G x r).
Qed.

Section reader.
  Variables (cfg : rcfg) (lower : str -> str) (canon : str -> option str) (d0 : doc) (ge : option str) (v : sentv).
  Hypothesis RV : representable lower canon v.
  Let r := h_next (d_h d0).

  Lemma heads_clean : heads_ok (sv_words v) -> ~ Exists (fun w => length (sv_words v) < wv_head w) (sv_words v) /\
    forall i, i <= length (sv_words v) -> ~ on_cycle (sv_words v) i.
  Proof.
    intros [H1 H2]. split.
    - intros E. apply Exists_exists in E as (w & I & L). rewrite Forall_forall in H1. specialize (H1 w I). lia.
    - intros i Hi Cy. apply (cycle_not_reaches _ _ Cy). apply H2. destruct Cy. lia.
  Qed.

  (** every HEAD assignment, without fix_cycles *)
  Lemma read_iff : rc_fix_cycles cfg = false ->
    exists d o, read_tree_from_lines cfg canon lower d0 ge (conllu_lines v) = ((d, final_ge v ge), o) /\
      ((heads_ok (sv_words v) /\ o = Ok (Some r) /\ consistent (d_h d) r /\ tokens lower d r v) \/
       (~ heads_ok (sv_words v) /\ o = Raise ValueError)) /\
      (forall y, y < r -> same_object (d_h d0) (d_h d) y).
  Proof.
    intros FC. destruct (read_core cfg lower canon d0 ge v RV) as (d & o & E & FR & D); [congruence|].
    exists d, o. split; auto. split; auto. destruct D as [(-> & C & _ & (ws' & T & _ & W) & _)|(-> & D)].
    - left. specialize (W FC). subst ws'.
      assert (T' : tokens lower d r v) by (destruct v; exact T). split; [now apply (tokens_heads lower d r)|auto].
    - right. split; auto. intros H. destruct (heads_clean H) as [N1 N2].
      destruct D as [D|(_ & i & Hi & Cy)]; [auto|apply (N2 i); auto].
  Qed.

  Lemma read_fix : rc_fix_cycles cfg = true -> Forall (fun w => wv_head w <= length (sv_words v)) (sv_words v) ->
    (forall i, 1 <= i <= length (sv_words v) -> head_of (sv_words v) i <> i) ->
    exists d ws', read_tree_from_lines cfg canon lower d0 ge (conllu_lines v) = ((d, final_ge v ge), Ok (Some r)) /\
      consistent (d_h d) r /\ tokens lower d r (with_words v ws') /\ heads_fixed (sv_words v) ws'.
  Proof.
    intros FC HR NS. destruct (read_core cfg lower canon d0 ge v RV) as (d & o & E & FR & D); [auto|].
    destruct D as [(-> & C & _ & (ws' & T & H & _) & _)|(-> & [D|[D _]])]; [|exfalso|congruence].
    - exists d, ws'. auto.
    - apply Exists_exists in D as (w & I & L). rewrite Forall_forall in HR. specialize (HR w I). lia.
  Qed.

  Lemma read_good : heads_ok (sv_words v) ->
    exists d, read_tree_from_lines cfg canon lower d0 ge (conllu_lines v) = ((d, final_ge v ge), Ok (Some r)) /\
      consistent (d_h d) r /\ tokens lower d r v /\ d_ri d r = final_ri v /\ (forall y, y < r -> unchanged d0 d y) /\
      (forall m, m < d_mnext d0 -> d_m d m = d_m d0 m).
  Proof.
    intros HO. destruct (heads_clean HO) as [N1 N2].
    destruct (read_core cfg lower canon d0 ge v RV) as (d & o & E & FR & D).
    { intros _ i Hi S. apply (N2 i); [lia|]. apply self_on_cycle; auto; lia. }
    destruct D as [(-> & C & R & (ws' & T & [H1 H2] & _) & _ & U & M)|(-> & [D|(_ & i & Hi & Cy)])].
    - exists d. split; auto. split; auto. assert (ws' = sv_words v); [|subst; destruct v; auto].
      apply nth_ext_opt. intros i. destruct (nth_error (sv_words v) i) as [w|] eqn:Ew.
      + assert (i < length (sv_words v)) by (apply nth_error_Some; congruence).
        destruct (nth_error_lt ws' i) as [w' Ew']; [lia|]. destruct (H2 i w w' Ew Ew') as [->|[_ Cy]]; auto.
        exfalso. apply (N2 (S i)); auto.
      + apply nth_error_None. apply nth_error_None in Ew. lia.
    - exfalso. auto.
    - exfalso. apply (N2 i); auto.
  Qed.

  Lemma missing_nil c : missing v = [] -> In c (specials v) -> is_special c = true -> existsb (same_special c) (sv_comments v) = true.
  Proof.
    intros M I S. destruct (existsb (same_special c) (sv_comments v)) eqn:E; auto.
    assert (J : In c (missing v)) by (apply filter_In; split; auto; now rewrite E). rewrite M in J. destruct J.
  Qed.
  Lemma existsb_special c : is_special c = true -> existsb (same_special c) (sv_comments v) = true -> In c (sv_comments v).
  Proof. intros S E. apply existsb_exists in E as (c' & I & E). apply same_special_eq in E; [now subst|auto]. Qed.
  Lemma pardoc_final x c : missing v = [] -> (set_val x = true -> In c (specials v)) -> is_special c = true -> ok_pardoc x ->
    (In c (sv_comments v) -> x <> VNone) -> (if existsb (same_special c) (sv_comments v) then x else VNone) = x.
  Proof.
    intros M I S O N. destruct (existsb (same_special c) (sv_comments v)) eqn:E; auto.
    destruct (set_val x) eqn:SV.
    - rewrite (missing_nil c) in E; auto. discriminate.
    - destruct x as [| |x]; try discriminate; auto. destruct x; [destruct O|discriminate].
  Qed.

  Lemma read_ok : heads_ok (sv_words v) -> missing v = [] ->
    exists d, read_tree_from_lines cfg canon lower d0 ge (conllu_lines v) = ((d, final_ge v ge), Ok (Some r)) /\
      consistent (d_h d) r /\ (forall env, some_nonempty (we_ge env) = sv_entity v -> sentence lower env d r v) /\
      (forall y, y < r -> unchanged d0 d y) /\ (forall m, m < d_mnext d0 -> d_m d m = d_m d0 m).
  Proof.
    intros HO M. destruct (read_good HO) as (d & E & C & T & R & U & UM). exists d. split; auto. split; auto. split; auto.
    intros env EN. pose proof (apply_items_spec v (sv_comments v) no_rinfo None) as A. cbn zeta in A.
    destruct A as (A1 & A2 & A3 & A4 & A5 & _). destruct (rv_comments _ _ _ RV) as (OC1 & _ & OC2 & OC3 & _).
    assert (IS : In CSentId (specials v)) by (unfold specials; rewrite !in_app_iff; simpl; auto).
    assert (IT : In CText (specials v)) by (unfold specials; rewrite !in_app_iff; simpl; auto).
    rewrite (missing_nil CSentId M IS eq_refl) in A2. rewrite (missing_nil CText M IT eq_refl) in A3.
    unfold final_ri in R. split; auto; rewrite ?R; cbn [with_json ri_comment ri_sent_id ri_text ri_newdoc ri_newpar ri_json].
    - rewrite A1. apply splitlines_placeholders. intros x I. apply OC1. auto.
    - apply sid_assigned. cbn [ri_sent_id]. exact A2.
    - unfold shown_text. rewrite R. simpl. rewrite A3. destruct (rv_text _ _ _ RV) as (_ & RS & NL & NC).
      rewrite filter_all; [now rewrite RS|]. intros a I. apply andb_true_iff. split; apply negb_true_iff, N.eqb_neq; intros ->; auto.
    - left. rewrite A4. apply pardoc_final; auto; [|apply RV]. intros SV. unfold specials. rewrite SV. simpl. auto.
    - left. rewrite A5. apply pardoc_final; auto; [|apply RV]. intros SV. unfold specials. rewrite SV, !in_app_iff. simpl. auto.
    - apply Permutation_refl.
  Qed.
End reader.

(** ---- round trips ---- *)
Lemma interleave_nil_r {A} : forall l l' : list A, interleave l [] l' -> l' = l.
Proof. intros l l' H. remember [] as e eqn:E. induction H; auto; [f_equal; auto|discriminate]. Qed.
Lemma interleave_In {A} l1 l2 (l : list A) : interleave l1 l2 l -> forall x, In x l <-> In x l1 \/ In x l2.
Proof. induction 1 as [|y l1 l2 l H IH|y l1 l2 l H IH]; intros x; simpl; rewrite ?IH; tauto. Qed.
Lemma interleave_Perm {A} l1 l2 (l : list A) : interleave l1 l2 l -> Permutation (l1 ++ l2) l.
Proof.
  induction 1 as [|y l1 l2 l H IH|y l1 l2 l H IH]; simpl; auto.
  rewrite <- Permutation_middle. auto.
Qed.
Lemma once_iff (c : citem) l : (forall l1 l2, l = l1 ++ c :: l2 -> ~ In c l1 /\ ~ In c l2) <->
  (forall (dec : forall a b : citem, {a = b} + {a <> b}), count_occ dec l c <= 1).
Proof.
  split; intros H.
  - intros dec. destruct (in_dec dec c l) as [I|I].
    + apply in_split in I as (l1 & l2 & ->). destruct (H l1 l2 eq_refl) as [H1 H2]. rewrite count_occ_app. simpl.
      apply (count_occ_not_In dec) in H1. apply (count_occ_not_In dec) in H2. destruct (dec c c); lia.
    + apply (count_occ_not_In dec) in I. lia.
  - assert (dec : forall a b : citem, {a = b} + {a <> b}) by (repeat decide equality).
    intros l1 l2 ->. specialize (H dec). rewrite count_occ_app in H. simpl in H. destruct (dec c c); [|congruence].
    split; apply (count_occ_not_In dec); lia.
Qed.
Lemma citem_dec : forall a b : citem, {a = b} + {a <> b}.
Proof. repeat decide equality. Qed.

Section round.
  Variables (lower : str -> str) (canon : str -> option str) (v : sentv).
  Hypothesis RV : representable lower canon v.

  Lemma missing_spec c : In c (missing v) <-> In c (specials v) /\ ~ In c (sv_comments v).
  Proof.
    unfold missing. rewrite filter_In, negb_true_iff. split; intros [I H]; split; auto.
    - intros J. apply not_true_iff_false in H. apply H, existsb_exists. exists c. split; auto.
      unfold specials in I. rewrite !in_app_iff in I. destruct c; auto. exfalso.
      destruct (set_val (sv_newdoc v)), (sv_entity v), (set_val (sv_newpar v)); simpl in I; intuition discriminate.
    - apply not_true_iff_false. intros E. apply existsb_exists in E as (c' & J & E). apply same_special_eq in E; [now subst|].
      destruct c; auto.
  Qed.
  Lemma specials_special c : In c (specials v) -> is_special c = true.
  Proof.
    unfold specials. rewrite !in_app_iff. destruct c; auto. intros H. exfalso.
    destruct (set_val (sv_newdoc v)), (sv_entity v), (set_val (sv_newpar v)); simpl in H; intuition discriminate.
  Qed.
  Lemma missing_NoDup : NoDup (missing v).
  Proof.
    apply NoDup_filter. unfold specials.
    destruct (set_val (sv_newdoc v)), (sv_entity v), (set_val (sv_newpar v)); simpl;
      repeat constructor; simpl; intuition discriminate.
  Qed.

  Lemma items_ok items : interleave (sv_comments v) (missing v) items ->
    representable lower canon (with_comments v items) /\ missing (with_comments v items) = [].
  Proof.
    intros I. pose proof (interleave_In _ _ _ I) as II. split.
    - pose proof RV as RV'. destruct RV'. split; auto. destruct rv_comments as (O1 & O2 & O3 & O4 & O5). cbn [with_comments sv_comments sv_newdoc sv_newpar sv_entity].
      assert (SP : forall c, In c (missing v) -> In c (specials v)) by (intros c J; now apply missing_spec).
      split; [|split; [|split; [|split]]].
      + intros x J. cbn in J. apply II in J as [J|J]; auto. apply SP, specials_special in J. discriminate.
      + intros c S. apply once_iff. intros dec.
        pose proof (proj1 (Permutation_count_occ dec _ _) (interleave_Perm _ _ _ I) c) as P.
        change (sv_comments (with_comments v items)) with items. rewrite <- P, count_occ_app.
        pose proof (proj1 (once_iff c (sv_comments v)) (O2 c S) dec) as A.
        pose proof (proj1 (NoDup_count_occ dec _) missing_NoDup c) as B.
        destruct (in_dec dec c (sv_comments v)) as [J|J].
        * assert (N : ~ In c (missing v)) by (intros K; apply missing_spec in K; tauto).
          apply (count_occ_not_In dec) in N. lia.
        * apply (count_occ_not_In dec) in J. lia.
      + intros J. cbn in J. apply II in J as [J|J]; auto. apply SP in J. simpl. intros E. unfold specials in J. rewrite E, !in_app_iff in J.
        destruct (set_val (sv_newpar v)); simpl in J; intuition discriminate.
      + intros J. cbn in J. apply II in J as [J|J]; auto. apply SP in J. simpl. intros E. unfold specials in J. rewrite E, !in_app_iff in J.
        destruct (set_val (sv_newdoc v)), (sv_entity v); simpl in J; intuition discriminate.
      + intros J. cbn in J. apply II in J as [J|J]; auto. apply SP in J. simpl. intros E. unfold specials in J. rewrite E, !in_app_iff in J.
        destruct (set_val (sv_newdoc v)), (set_val (sv_newpar v)); simpl in J; intuition discriminate.
    - unfold missing. change (specials (with_comments v items)) with (specials v). change (sv_comments (with_comments v items)) with items.
      apply filter_none. intros c J. apply negb_false_iff, existsb_exists. exists c. split.
      + apply II. destruct (in_dec citem_dec c (sv_comments v)) as [K|K]; auto. right. apply missing_spec. auto.
      + apply same_special_eq; auto. now apply specials_special.
  Qed.

  Lemma write_read cfg env d r : consistent (d_h d) r -> sentence lower env d r v ->
    (In CEntity (sv_comments v) \/ set_val (sv_newdoc v) = true -> we_bundle env <> None) ->
    exists items lines, interleave (sv_comments v) (missing v) items /\
      process_tree wdefault env lower d r = Ok (lines ++ [[]]) /\
      forall d0 ge, let r' := h_next (d_h d0) in
      exists d' ge', read_tree_from_lines cfg canon lower d0 ge lines = ((d', ge'), Ok (Some r')) /\
        consistent (d_h d') r' /\
        (forall env', some_nonempty (we_ge env') = sv_entity v -> sentence lower env' d' r' (with_comments v items)) /\
        forall y, y < r' -> unchanged d0 d' y.
  Proof.
    intros C SE BU. destruct (write_ok lower canon env d r v RV C SE BU) as (items & I & W).
    exists items, (conllu_lines (with_comments v items)). split; auto. split; auto. intros d0 ge r'.
    destruct (items_ok items I) as [RV' M'].
    assert (HO : heads_ok (sv_words (with_comments v items))) by (apply (tokens_heads lower d r); auto; destruct SE as [[] _]; split; auto).
    destruct (read_ok cfg lower canon d0 ge _ RV' HO M') as (d' & E & C' & S' & U & _). exists d'. eexists. split; [exact E|]. auto.
  Qed.

  Lemma read_write cfg d0 ge : heads_ok (sv_words v) -> missing v = [] ->
    exists d' ge', let r' := h_next (d_h d0) in
      read_tree_from_lines cfg canon lower d0 ge (conllu_lines v) = ((d', ge'), Ok (Some r')) /\
      forall env, some_nonempty (we_ge env) = sv_entity v ->
        (In CEntity (sv_comments v) \/ set_val (sv_newdoc v) = true -> we_bundle env <> None) ->
        process_tree wdefault env lower d' r' = Ok (conllu_lines v ++ [[]]).
  Proof.
    intros HO M. destruct (read_ok cfg lower canon d0 ge v RV HO M) as (d' & E & C' & S' & U & _).
    exists d'. eexists. intros r'. split; [exact E|]. intros env EN BU.
    destruct (write_ok lower canon env d' r' v RV C' (S' env EN) BU) as (items & I & W). rewrite M in I.
    apply interleave_nil_r in I. subst. rewrite W. f_equal. now destruct v.
  Qed.
End round.
