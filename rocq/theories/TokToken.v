(** Proofs about ud.JoinToken. *)
From Coq Require Import String List NArith ZArith Bool Lia Permutation.
From Verif Require Import PyStr PyStrFacts PyList PyListFacts PyExn TreeModel TreeSpec TreeProps TreeOps
  DualDictModel DualDictSpec DualDictProofs DocModel MwtSpec MwtProofs TextSpace TokModel TokSpec TokProofs TokJoin TokTree.
Import ListNotations.

Local Arguments dd_set : simpl never.
Local Arguments dd_get : simpl never.
Local Arguments dd_del : simpl never.

Lemma mid_unique {A} (x : A) l1 l2 l1' l2' : ~ In x l1 -> ~ In x l1' -> l1 ++ x :: l2 = l1' ++ x :: l2' -> l1 = l1' /\ l2 = l2'.
Proof.
  revert l1'. induction l1 as [|a l1 IH]; intros [|b l1'] N N' E; simpl in *.
  - injection E as <-. auto.
  - injection E as -> _. tauto.
  - injection E as -> _. tauto.
  - injection E as -> E. destruct (IH l1') as [-> ->]; tauto || auto.
Qed.

Lemma triggers_marked name value d x : triggers value (misc_of d x name) = true <-> marked name value d x.
Proof.
  unfold triggers, marked, is_value. rewrite andb_true_iff, negb_true_iff. destruct (misc_of d x name) as [| |v].
  - split; intros [_ H]; (split; [discriminate || reflexivity|]); destruct value as [[|c y]|]; auto; discriminate.
  - split; intros [_ H]; (split; [discriminate || reflexivity|]); destruct value as [[|c y]|]; auto; discriminate.
  - rewrite <- not_true_iff_false, !str_eqb_eq. split; intros [H1 H2]; (split; [congruence|]); destruct value as [[|c y]|]; auto.
    + apply str_eqb_eq in H2. congruence.
    + apply str_eqb_eq. congruence.
Qed.
Lemma put_misc_ok d x k v : good (n_misc (d_at d x)) -> v <> VNone ->
  skel d (put_misc d x k v) /\ (forall w, w <> x -> d_at (put_misc d x k v) w = d_at d w) /\
  same_but_misc (d_at (put_misc d x k v) x) (d_at d x) /\ good (n_misc (d_at (put_misc d x k v) x)) /\
  (forall k', misc_of (put_misc d x k v) x k' = if str_eqb k' k then v else misc_of d x k').
Proof.
  intros G NV. unfold put_misc, misc_of. split; [apply skel_put|]. cbn [put_at d_at]. unfold upd. split.
  - intros w N. destruct (Nat.eqb_spec w x); tauto.
  - rewrite Nat.eqb_refl. cbn [set_misc n_misc]. split; [repeat split|]. split; [apply good_set; auto|].
    intros k'. rewrite get_after_set by auto. destruct (str_eqb k' k); auto. destruct v; tauto || auto.
Qed.
Lemma prev_word d r A x B : consistent (d_h d) r -> h_desc (d_h d) r = A ++ x :: B -> prev_node (d_h d) x = Ok (Some (last A r)).
Proof.
  intros C E. destruct (neighbours_prop (d_h d) r C (S (length A)) x) as [_ ->].
  - cbn [nth_error]. rewrite E, nth_error_app2 by lia. rewrite Nat.sub_diag. auto.
  - f_equal. rewrite E. clear E C. destruct (list_eq_dec Nat.eq_dec A []) as [->|N]; [auto|].
    destruct (exists_last N) as (A0&p&->). rewrite last_last, app_length, Nat.add_comm. simpl.
    rewrite <- app_assoc, nth_error_app2 by lia. rewrite Nat.sub_diag. auto.
Qed.

(** Pieces of tokens in states which differ only in how MISC is stored, or in Bug *)
Lemma piece_word d d' x : n_form (d_at d' x) = n_form (d_at d x) -> misc_of d' x SpaceAfter = misc_of d x SpaceAfter ->
  piece d' (TWord x) = piece d (TWord x).
Proof. unfold piece, space_unless_no, misc_of. simpl. intros -> ->. auto. Qed.
Lemma pieces_same d d' ts : (forall m, d_m d' m = d_m d m) ->
  (forall x, In (TWord x) ts -> n_form (d_at d' x) = n_form (d_at d x) /\ misc_of d' x SpaceAfter = misc_of d x SpaceAfter) ->
  flat_map (piece d') ts = flat_map (piece d) ts.
Proof.
  intros HM HX. apply flat_map_ext_in. intros [x|m] I; [apply piece_word; apply HX; auto|]. unfold piece. simpl. rewrite HM. auto.
Qed.
Lemma two_words d r ts A p x B : view d r ts -> h_desc (d_h d) r = A ++ p :: x :: B -> d_mwt d p = None -> d_mwt d x = None ->
  exists ts1 ts2, ts = ts1 ++ TWord p :: TWord x :: ts2 /\ flat_map (token_words d) ts1 = A /\ flat_map (token_words d) ts2 = B.
Proof.
  intros V E Mp Mx. pose proof (c_once _ _ (v_tree _ _ _ V)) as ND. pose proof (v_words _ _ _ V) as W. rewrite E in ND, W.
  assert (I : In p (flat_map (token_words d) ts)) by (rewrite W; apply in_or_app; simpl; auto).
  apply in_flat_map in I as (t&It&Iw). assert (t = TWord p).
  { destruct t as [y|m]; simpl in Iw; [destruct Iw as [->|[]]; auto|]. destruct (view_mwt d r ts m V It) as [_ L]. rewrite L in Mp; auto. discriminate. }
  subst t. apply in_split in It as (ts1&ts2'&->). rewrite flat_map_app in W. cbn [flat_map token_words app] in W.
  assert (ND2 := ND). rewrite <- W in ND2. apply NoDup_remove in ND as [_ ND]. apply NoDup_remove in ND2 as [_ ND2]. rewrite in_app_iff in ND, ND2.
  apply mid_unique in W as [W1 W2]; [|tauto|tauto].
  destruct (split_words d [x] ts2' B W2) as (ts2&->&H).
  - intros y [<-|[]]. auto.
  - intros m I. apply (view_mwt d r _ m V). apply in_or_app. simpl. auto.
  - exists ts1, ts2. auto.
Qed.

Section loop.
  Variables (name : str) (value : option str) (d0 : doc) (r : nat) (ts0 : list token).
  Notation J := (to_join name value d0).
  Notation jw := (joined_word name value d0 r).
  Hypothesis SO : sound_sentence d0 r.
  Hypothesis V0 : view d0 r ts0.
  Hypothesis Hgood : forall w, live (d_h d0) r w -> good (n_misc (d_at d0 w)).
  Hypothesis Hspace : forall w, In w (h_desc (d_h d0) r) -> misc_of d0 w SpaceAfter <> VNone.
  Hypothesis Hroot : d_mwt d0 r = None /\ misc_of d0 r SpaceAfter <> VStr No.

  Record inv (d : doc) (grp : nat -> list nat) (A post : list nat) : Prop := {
    i_tree : consistent (d_h d) r; i_emp : emp_ok (d_h d) r;
    i_mwt : forall w, d_mwt d w = d_mwt d0 w; i_mwts : forall r', d_mwts d r' = d_mwts d0 r'; i_m : forall m, d_m d m = d_m d0 m;
    i_desc : h_desc (d_h d) r = A ++ post;
    i_flat : flat_map grp A ++ post = h_desc (d_h d0) r;
    i_self : forall x, In x post \/ x = r -> grp x = [x];
    i_head : forall w, In w A -> exists l, grp w = w :: l /\ linked J (w :: l);
    i_max : forall pre w w' rest, A = pre ++ w :: w' :: rest -> ~ J (last (grp w) w) w';
    i_par : forall w q, In w (A ++ post) -> h_par (d_h d) w = Some q ->
              exists a b, In a (grp w) /\ In b (grp q) /\ h_par (d_h d0) a = Some b /\ n_deprel (d_at d w) = n_deprel (d_at d0 a);
    i_done : forall w, In w A -> jw w (grp w) (d_at d w) /\ good (n_misc (d_at d w));
    i_post : forall w, In w post \/ w = r -> sim (d_at d w) (d_at d0 w);
    i_rest : forall w, ~ In w (h_desc (d_h d0) r) -> sim (d_at d w) (d_at d0 w);
    i_text : exists ts, view d r ts /\ flat_map (piece d) ts = flat_map (piece d0) ts0
  }.

  Lemma jw_sim w g a b : sim a b -> jw w g b -> jw w g a.
  Proof.
    intros (S&M&_) [F1 F2 F3 F4 F5 F6]. destruct S as (S1&S2&S3&S4&S5&S6&S7&S8). constructor; intros; rewrite ?M; auto; [congruence|].
    intuition congruence.
  Qed.
  Lemma inv_sim d d' grp A post : skel d d' -> (forall w, sim (d_at d' w) (d_at d w)) -> inv d grp A post -> inv d' grp A post.
  Proof.
    intros S SI I. destruct I. pose proof S as [SH SK SL SM SN]. constructor; rewrite ?SH; auto.
    - intros w. rewrite SK. auto.
    - intros w. rewrite SL. auto.
    - intros w. rewrite SM. auto.
    - intros w q Iw P. destruct (i_par0 w q Iw P) as (a&b&H1&H2&H3&H4). exists a, b. repeat (split; [auto|]). rewrite <- H4. apply (SI w).
    - intros w Iw. destruct (i_done0 w Iw) as [H1 H2]. split; [eapply jw_sim; eauto|]. apply (SI w). auto.
    - intros w Iw. eapply sim_trans; eauto.
    - intros w Iw. eapply sim_trans; eauto.
    - destruct i_text0 as (ts&V&P). exists ts. split; [eapply skel_view; eauto|]. rewrite <- P. apply pieces_same; auto.
      intros x _. destruct (SI x) as ((H&_)&M&_). split; auto. apply M.
  Qed.
  Lemma desc_live d grp A post w : inv d grp A post -> In w (A ++ post) -> In w (h_desc (d_h d0) r).
  Proof.
    intros I Iw. rewrite <- (i_flat _ _ _ _ I). apply in_app_or in Iw as [Iw|Iw]; apply in_or_app; auto. left.
    apply in_flat_map. exists w. split; auto. destruct (i_head _ _ _ _ I w Iw) as (l&->&_). simpl. auto.
  Qed.
  Lemma linked_mwt w l : linked J (w :: l) -> d_mwt d0 (last (w :: l) w) = d_mwt d0 w.
  Proof.
    revert w. induction l as [|y l IH]; intros w H; auto. cbn [linked] in H. destruct H as [(_&H1&H2&_) H].
    assert (E : last (w :: y :: l) w = last (y :: l) y).
    { clear. cbn [last]. revert y. induction l as [|a l IH]; intros y; auto. cbn [last] in *. destruct l; auto. }
    rewrite E, IH; auto. congruence.
  Qed.
  Lemma before_mid : forall A x B, ~ In x A -> forall q, word_before (A ++ x :: B) q x = last A q.
  Proof.
    induction A as [|a A IH]; intros x B N q; cbn [app word_before].
    - rewrite Nat.eqb_refl. auto.
    - destruct (Nat.eqb_spec a x); [simpl in N; subst; tauto|]. rewrite IH by (simpl in N; tauto). clear. cbn [last].
      destruct A as [|b A]; auto. revert b. induction A as [|c A IH]; intros b; auto. cbn [last] in *. destruct A; auto.
  Qed.
  Lemma last_flat (grp : nat -> list nat) : forall A q, (forall w, In w A -> exists l, grp w = w :: l) -> grp q = [q] -> last (flat_map grp A) q = last (grp (last A q)) (last A q).
  Proof.
    intros A q H Hq. destruct (list_eq_dec Nat.eq_dec A []) as [->|N]; [simpl; rewrite Hq; auto|].
    destruct (exists_last N) as (A0&p&->). rewrite last_last, flat_map_app. cbn [flat_map]. rewrite app_nil_r.
    destruct (H p) as (l&->); [apply in_or_app; simpl; auto|]. destruct (@exists_last _ (p :: l)) as (l0&z&->); [discriminate|].
    rewrite app_assoc, !last_last. auto.
  Qed.

  (** The word [x] stays. *)
  Lemma inv_keep d d' grp A x post a : inv d grp A (x :: post) -> skel d d' -> (forall w, w <> x -> d_at d' w = d_at d w) -> d_at d' x = a ->
    n_deprel a = n_deprel (d_at d x) -> n_form a = n_form (d_at d x) -> misc_get (n_misc a) SpaceAfter = misc_of d x SpaceAfter ->
    jw x [x] a -> good (n_misc a) -> ~ J (last (grp (last A r)) (last A r)) x ->
    inv d' grp (A ++ [x]) post.
  Proof.
    intros I S FR EA ED EF ES JW G NJ. pose proof (desc_live _ _ _ _ x I ltac:(apply in_or_app; simpl; auto)) as Ix.
    assert (Nr : x <> r). { intros ->. apply (c_rootout _ _ (so_tree _ _ SO)). auto. }
    pose proof (i_desc _ _ _ _ I) as DE. pose proof (c_once _ _ (i_tree _ _ _ _ I)) as ND. rewrite DE in ND.
    apply NoDup_remove in ND as [_ ND]. rewrite in_app_iff in ND.
    assert (FD : forall w, n_deprel (d_at d' w) = n_deprel (d_at d w)).
    { intros w. destruct (Nat.eq_dec w x) as [->|N]; [rewrite EA; auto|rewrite FR; auto]. }
    pose proof S as [SH SK SL SM SN]. pose proof I as I0. destruct I. constructor; rewrite ?SH, <- ?app_assoc; auto.
    - intros w. rewrite SK. auto.
    - intros w. rewrite SL. auto.
    - intros w. rewrite SM. auto.
    - rewrite flat_map_app. cbn [flat_map]. rewrite app_nil_r, i_self0 by (simpl; auto). rewrite <- app_assoc. auto.
    - intros y Iy. apply i_self0. simpl. tauto.
    - intros w Iw. apply in_app_or in Iw as [Iw|[<-|[]]]; auto. exists []. rewrite i_self0 by (simpl; auto). simpl. auto.
    - intros pre w w' rest E.
      destruct (list_eq_dec Nat.eq_dec rest []) as [->|N].
      + assert (E2 : A ++ [x] = (pre ++ [w]) ++ [w']) by (rewrite <- app_assoc; auto). apply app_inj_tail in E2 as [-> <-].
        rewrite last_last in NJ. auto.
      + destruct (exists_last N) as (rest0&z&->). assert (E2 : A ++ [x] = (pre ++ w :: w' :: rest0) ++ [z]) by (rewrite E, <- app_assoc; auto).
        apply app_inj_tail in E2 as [E2 _]. apply (i_max0 pre w w' rest0). auto.
    - intros w q Iw P. destruct (i_par0 w q Iw P) as (a1&b1&H1&H2&H3&H4). exists a1, b1. rewrite FD. auto.
    - intros w Iw. apply in_app_or in Iw as [Iw|[<-|[]]].
      + rewrite FR by (intros ->; tauto). auto.
      + rewrite i_self0 by (simpl; auto). rewrite EA. auto.
    - intros w Iw. rewrite FR; [apply i_post0; simpl; tauto|]. destruct Iw as [Iw| ->]; [intros ->; tauto|auto].
    - intros w Iw. rewrite FR; [auto|]. intros ->. tauto.
    - destruct i_text0 as (ts&V&P). exists ts. split; [eapply skel_view; eauto|]. rewrite <- P. apply pieces_same; auto.
      intros y _. destruct (Nat.eq_dec y x) as [->|N]; [|unfold misc_of; rewrite FR; auto]. unfold misc_of in *. rewrite EA. auto.
  Qed.

  Lemma jw_kept d x a : sim (d_at d x) (d_at d0 x) -> In x (h_desc (d_h d0) r) -> same_but_misc a (d_at d x) ->
    (forall k, k <> Bug -> misc_get (n_misc a) k = misc_of d x k) ->
    (~ marked name value d0 x -> misc_get (n_misc a) Bug = misc_of d x Bug) ->
    (marked name value d0 x -> misc_get (n_misc a) Bug = VStr (bug d0 r x)) -> jw x [x] a.
  Proof.
    intros (S&M&_) Ix SB K U MM. unfold misc_of in *. pose proof (proj1 (so_forms _ _ SO) x Ix) as F.
    constructor.
    - cbn [flat_map]. rewrite app_nil_r. unfold form_of. rewrite (proj1 SB), (proj1 S). destruct (n_form (d_at d0 x)); [auto|tauto].
    - rewrite K by discriminate. rewrite M. auto.
    - clear - S SB. unfold same_but_misc in *. intuition congruence.
    - intros k N1 N2. rewrite K by auto. apply M.
    - intros N. fold Bug. rewrite U by auto. apply M.
    - intros N. fold Bug. auto.
  Qed.

  Lemma step d grp A x post : inv d grp A (x :: post) ->
    exists d' grp', join_token name value d x = (d', Ok tt) /\ (inv d' grp' (A ++ [x]) post \/ inv d' grp' A post).
  Proof.
    intros I0. destruct (read_misc_ok d x name) as (d1&E1&S1&SI1&FR1).
    unfold join_token. rewrite E1. pose proof (inv_sim _ _ _ _ _ S1 SI1 I0) as I.
    assert (EM : misc_of d x name = misc_of d0 x name) by (apply (i_post _ _ _ _ I0); simpl; auto).
    rewrite EM. pose proof (desc_live _ _ _ _ x I ltac:(apply in_or_app; simpl; auto)) as Ix.
    pose proof (i_post _ _ _ _ I x ltac:(simpl; auto)) as SX.
    assert (GX : good (n_misc (d_at d1 x))) by (apply SX; apply Hgood; right; auto).
    clear I0 E1 S1 SI1 FR1 EM d. rename d1 into d.
    pose proof (i_desc _ _ _ _ I) as DE. pose proof (c_once _ _ (i_tree _ _ _ _ I)) as ND. rewrite DE in ND.
    apply NoDup_remove in ND as [NDA ND]. rewrite in_app_iff in ND.
    assert (NJr : forall y, ~ J (last (grp r) r) y).
    { intros y (_&_&_&H). rewrite (i_self _ _ _ _ I) in H by auto. simpl in H. apply (proj2 Hroot). exact H. }
    destruct (triggers value (misc_of d0 x name)) eqn:TR; cbn [negb].
    2:{ assert (NM : ~ marked name value d0 x) by (intros M; apply triggers_marked in M; congruence).
        exists d, grp. split; [auto|]. left. apply (inv_keep d d grp A x post (d_at d x)); auto; [apply skel_refl| |].
        - apply (jw_kept d); auto; [repeat split|tauto].
        - intros (M&_). tauto. }
    apply triggers_marked in TR. rewrite (prev_word d r A x post (i_tree _ _ _ _ I) DE). cbn [bind].
    set (p := last A r). rewrite !(i_mwt _ _ _ _ I).
    assert (Lp : p = r \/ exists A0, A = A0 ++ [p]).
    { unfold p. destruct (list_eq_dec Nat.eq_dec A []) as [->|N]; [auto|]. right. destruct (exists_last N) as (A0&q&->). exists A0. rewrite last_last. auto. }
    assert (MP : d_mwt d0 (last (grp p) p) = d_mwt d0 p).
    { destruct Lp as [->|(A0&E)]; [rewrite (i_self _ _ _ _ I); auto|].
      destruct (i_head _ _ _ _ I p) as (l&->&H); [rewrite E; apply in_or_app; simpl; auto|]. apply linked_mwt. auto. }
    assert (BF : word_before (h_desc (d_h d0) r) r x = last (grp p) p).
    { rewrite <- (i_flat _ _ _ _ I). rewrite before_mid.
      - apply last_flat; [|apply (i_self _ _ _ _ I); auto]. intros w Iw. destruct (i_head _ _ _ _ I w Iw) as (l&H&_). eauto.
      - intros Iw. pose proof (c_once _ _ (so_tree _ _ SO)) as N0. rewrite <- (i_flat _ _ _ _ I) in N0.
        apply NoDup_remove in N0 as [_ N0]. apply N0. apply in_or_app. auto. }
    assert (SP : misc_of d p SpaceAfter = misc_of d0 (last (grp p) p) SpaceAfter).
    { destruct Lp as [->|(A0&E)].
      - rewrite (i_self _ _ _ _ I) by auto. simpl. apply (i_post _ _ _ _ I). auto.
      - destruct (i_done _ _ _ _ I p) as [H _]; [rewrite E; apply in_or_app; simpl; auto|]. apply (jw_space _ _ _ _ _ _ _ H). }
    assert (BUG : forall d1 b, skel d d1 -> (forall w, sim (d_at d1 w) (d_at d w)) -> b = bug d0 r x -> ~ J (last (grp p) p) x ->
      inv (put_misc d1 x Bug (VStr b)) grp (A ++ [x]) post).
    { intros d1 b S1 SI1 -> NJ. pose proof (inv_sim _ _ _ _ _ S1 SI1 I) as I1. destruct (SI1 x) as (SB1&M1&G1).
      destruct (put_misc_ok d1 x Bug (VStr (bug d0 r x)) (G1 GX)) as (S2&FR2&SB2&G2&K2); [discriminate|].
      apply (inv_keep d1 _ grp A x post _ I1 S2 FR2 eq_refl); auto.
      - apply SB2.
      - apply SB2.
      - apply (K2 SpaceAfter).
      - apply (jw_kept d1); auto.
        + apply (i_post _ _ _ _ I1). simpl. auto.
        + intros k N. unfold misc_of in K2. rewrite K2. apply str_eqb_neq in N. rewrite N. auto.
        + tauto.
        + intros _. unfold misc_of in K2. rewrite K2, str_eqb_refl. auto. }
    destruct (d_mwt d0 x) as [mx|] eqn:EMx.
    { eexists _, grp. split; [reflexivity|]. left. apply BUG; [apply skel_refl|intros; apply sim_refl| |].
      - unfold bug. rewrite EMx. auto.
      - intros (_&_&H&_). congruence. }
    destruct (d_mwt d0 p) as [mp|] eqn:EMp.
    { eexists _, grp. split; [reflexivity|]. left. apply BUG; [apply skel_refl|intros; apply sim_refl| |].
      - unfold bug. rewrite EMx, BF, MP. auto.
      - intros (_&H&_&_). congruence. }
    destruct (read_misc_ok d p SpaceAfter) as (d1&E1&S1&SI1&FR1). rewrite E1, SP.
    destruct (val_is (misc_of d0 (last (grp p) p) SpaceAfter) No) eqn:VA.
    2:{ eexists _, grp. split; [reflexivity|]. left. apply BUG; auto.
      - unfold bug. rewrite EMx, BF, MP. auto.
      - intros (_&_&_&H). fold SpaceAfter in H. fold No in H. rewrite H in VA. discriminate. }
    (* the words are joined *)
    assert (JX : J (last (grp p) p) x).
    { split; [auto|]. split; [auto|]. split; [auto|]. fold SpaceAfter. fold No.
      destruct (misc_of d0 (last (grp p) p) SpaceAfter) as [| |v]; try discriminate. simpl in VA. apply str_eqb_eq in VA. congruence. }
    destruct Lp as [Er|(A0&EA)]; [exfalso; rewrite Er in JX; apply (NJr x); auto|]. clearbody p.
    pose proof (inv_sim _ _ _ _ _ S1 SI1 I) as I1. clear E1 BUG SX GX.
    assert (GX : good (n_misc (d_at d1 x))) by (apply (i_post _ _ _ _ I1); [simpl; auto|apply Hgood; right; auto]).
    clear I S1 SI1 FR1 DE SP. clear d. rename d1 into d. rename I1 into I. pose proof (i_desc _ _ _ _ I) as DE.
    pose proof (i_post _ _ _ _ I x ltac:(simpl; auto)) as SX.
    assert (Ip : In p (h_desc (d_h d) r)) by (rewrite DE, EA; rewrite !in_app_iff; simpl; auto).
    assert (Ixd : In x (h_desc (d_h d) r)) by (rewrite DE; rewrite !in_app_iff; simpl; auto).
    assert (NPX : p <> x). { intros H. apply ND. left. rewrite EA. apply in_or_app. simpl. auto. }
    assert (IpA : In p A) by (rewrite EA; apply in_or_app; simpl; auto).
    destruct (i_done _ _ _ _ I p IpA) as [JP GP].
    destruct (join_tree d r p x (i_tree _ _ _ _ I) (i_emp _ _ _ _ I) Ip Ixd NPX) as (h'&b&Hb&C'&EM'&D'&P'&EJ).
    pose proof (proj1 (so_forms _ _ SO) x Ix) as FX0. destruct (n_form (d_at d0 x)) as [g|] eqn:FG; [clear FX0|tauto].
    assert (FX : n_form (d_at d x) = Some g) by (rewrite <- FG; apply SX).
    rewrite (EJ _ (jw_form _ _ _ _ _ _ _ JP) g FX). cbv zeta.
    set (d1 := if b then put_at d p (set_deprel (d_at d p) (n_deprel (d_at d x))) else d).
    set (ff := flat_map (form_of d0) (grp p) ++ g).
    set (d2 := put_at d1 p (set_form (d_at d1 p) (Some ff))).
    assert (AT1 : forall w, w <> p -> d_at d1 w = d_at d w).
    { intros w N. unfold d1. destruct b; auto. cbn [put_at d_at]. unfold upd. destruct (Nat.eqb_spec w p); tauto. }
    assert (SK2 : skel d d2). { unfold d2, d1. destruct b; constructor; auto. }
    assert (AT2 : forall w, w <> p -> d_at d2 w = d_at d w).
    { intros w N. unfold d2. cbn [put_at d_at]. unfold upd. destruct (Nat.eqb_spec w p); [tauto|auto]. }
    assert (ATp : d_at d2 p = set_form (d_at d1 p) (Some ff)). { unfold d2. cbn [put_at d_at]. unfold upd. rewrite Nat.eqb_refl. auto. }
    assert (AT1p : d_at d1 p = set_deprel (d_at d p) (if b then n_deprel (d_at d x) else n_deprel (d_at d p))).
    { unfold d1. destruct b; [cbn [put_at d_at]; unfold upd; rewrite Nat.eqb_refl; auto|]. destruct (d_at d p); auto. }
    destruct (read_misc_ok d2 x SpaceAfter) as (d3&E3&S3&SI3&FR3). rewrite E3.
    assert (VX : misc_of d2 x SpaceAfter = misc_of d0 x SpaceAfter).
    { unfold misc_of. rewrite AT2 by auto. apply SX. }
    rewrite VX.
    assert (G3p : good (n_misc (d_at d3 p))). { rewrite FR3 by auto. rewrite ATp, AT1p. auto. }
    destruct (put_misc_ok d3 p SpaceAfter (misc_of d0 x SpaceAfter) G3p (Hspace x Ix)) as (S4&FR4&SB4&G4&K4).
    set (d4 := put_misc d3 p SpaceAfter (misc_of d0 x SpaceAfter)) in *.
    clearbody d4.
    assert (SK4 : skel d d4) by (eapply skel_trans; [exact SK2|eapply skel_trans; eauto]).
    assert (AT4 : forall w, w <> p -> w <> x -> d_at d4 w = d_at d w). { intros w N1 N2. rewrite FR4, FR3, AT2; auto. }
    assert (SI4 : forall w, w <> p -> sim (d_at d4 w) (d_at d w)). { intros w N. rewrite FR4 by auto. eapply sim_trans; [apply SI3|]. rewrite AT2 by auto. apply sim_refl. }
    assert (AT4p : n_form (d_at d4 p) = Some ff /\ n_deprel (d_at d4 p) = (if b then n_deprel (d_at d x) else n_deprel (d_at d p)) /\
      n_lemma (d_at d4 p) = n_lemma (d_at d p) /\ n_upos (d_at d4 p) = n_upos (d_at d p) /\ n_xpos (d_at d4 p) = n_xpos (d_at d p) /\
      n_feats (d_at d4 p) = n_feats (d_at d p) /\ n_raw_deps (d_at d4 p) = n_raw_deps (d_at d p) /\ n_deps (d_at d4 p) = n_deps (d_at d p)).
    { destruct SB4 as (B1&B2&B3&B4&B5&B6&B7&B8). rewrite B1, B2, B3, B4, B5, B6, B7, B8, FR3 by auto. rewrite ATp, AT1p. repeat split. }
    assert (M4p : forall k, misc_of d4 p k = if str_eqb k SpaceAfter then misc_of d0 x SpaceAfter else misc_of d p k).
    { intros k. rewrite K4. destruct (str_eqb k SpaceAfter); auto. unfold misc_of. rewrite FR3 by auto. rewrite ATp, AT1p. auto. }
    set (grp' := fun w => if Nat.eqb w p then grp p ++ [x] else grp w).
    assert (GO : forall w, w <> p -> grp' w = grp w). { intros w N. unfold grp'. destruct (Nat.eqb_spec w p); tauto. }
    assert (GPp : grp' p = grp p ++ [x]). { unfold grp'. rewrite Nat.eqb_refl. auto. }
    assert (GS : forall w a, In a (grp w) -> In a (grp' w)).
    { intros w a Ia. destruct (Nat.eq_dec w p) as [->|N]; [rewrite GPp; apply in_or_app; auto|rewrite GO; auto]. }
    assert (NA0 : ~ In p A0 /\ ~ In p post /\ p <> r).
    { pose proof (c_once _ _ (i_tree _ _ _ _ I)) as N. rewrite DE, EA, <- app_assoc in N. apply NoDup_remove in N as [_ N]. rewrite in_app_iff in N. simpl in N.
      split; [tauto|]. split; [tauto|]. intros H. apply (c_rootout _ _ (i_tree _ _ _ _ I)). rewrite H in Ip. exact Ip. }
    assert (GXx : grp x = [x]) by (apply (i_self _ _ _ _ I); simpl; auto).
    assert (DD : h_desc h' r = A ++ post).
    { rewrite D', DE, filter_app. simpl. rewrite Nat.eqb_refl. cbn [negb]. f_equal; apply filter_all; intros w Iw; destruct (Nat.eqb_spec w x); auto; subst; tauto. }
    assert (SKh : forall w, d_at (with_h d4 h') w = d_at d4 w) by reflexivity.
    exists (with_h d4 h'), grp'. split; [auto|]. right. pose proof SK4 as [_ SK SL SM _]. constructor.
    - exact C'.
    - exact EM'.
    - intros w. change (d_mwt (with_h d4 h') w) with (d_mwt d4 w). rewrite SK. apply I.
    - intros w. change (d_mwts (with_h d4 h') w) with (d_mwts d4 w). rewrite SL. apply I.
    - intros m. change (d_m (with_h d4 h') m) with (d_m d4 m). rewrite SM. apply I.
    - exact DD.
    - rewrite <- (i_flat _ _ _ _ I), EA, !flat_map_app. cbn [flat_map]. rewrite GPp, !app_nil_r, <- !app_assoc. cbn [app]. f_equal.
      apply flat_map_ext_in. intros w Iw. apply GO. intros ->. tauto.
    - intros y Iy. rewrite GO; [apply (i_self _ _ _ _ I); simpl; tauto|]. intros ->. destruct Iy as [Iy|Iy]; tauto.
    - intros w Iw. destruct (i_head _ _ _ _ I w Iw) as (l&El&Hl). destruct (Nat.eq_dec w p) as [->|N]; [|rewrite GO; eauto].
      rewrite GPp, El. exists (l ++ [x]). split; [auto|]. rewrite El in JX. clear - Hl JX.
      revert p Hl JX. induction l as [|y l IH]; intros p Hl JX; [simpl in *; auto|]. cbn [app linked] in *. destruct Hl as [H1 H2]. split; [auto|].
      apply (IH y H2). assert (E : last (p :: y :: l) p = last (y :: l) y).
      { clear. cbn [last]. revert y. induction l as [|a l IH]; intros y; auto. cbn [last] in *. destruct l; auto. }
      rewrite <- E. auto.
    - intros pre w w' rest E. rewrite GO; [apply (i_max _ _ _ _ I pre w w' rest E)|]. intros ->. apply (proj1 NA0).
      destruct (@exists_last _ (w' :: rest)) as (rest0&z&ER); [discriminate|]. rewrite ER in E. rewrite EA in E.
      assert (E2 : A0 ++ [p] = (pre ++ p :: rest0) ++ [z]) by (rewrite E, <- app_assoc; auto). apply app_inj_tail in E2 as [-> _]. apply in_or_app. simpl. auto.
    - intros w q Iw Pw. change (d_h (with_h d4 h')) with h' in Pw. rewrite P' in Pw by (rewrite DD; auto). rewrite SKh.
      assert (Iw2 : In w (A ++ x :: post)) by (apply in_app_or in Iw as [Iw|Iw]; apply in_or_app; simpl; auto).
      destruct (Nat.eqb_spec w p) as [->|NW].
      + destruct AT4p as (_&->&_). destruct b.
        * destruct (i_par _ _ _ _ I x q) as (a&b'&H1&H2&H3&H4); [apply in_or_app; simpl; auto|auto|]. rewrite GXx in H1. destruct H1 as [<-|[]].
          exists x, b'. split; [rewrite GPp; apply in_or_app; simpl; auto|]. auto.
        * destruct (i_par _ _ _ _ I p q Iw2 Pw) as (a&b'&H1&H2&H3&H4). exists a, b'. auto.
      + assert (NWx : w <> x). { intros ->. apply in_app_or in Iw. tauto. }
        rewrite AT4 by auto. unfold has_parent in Pw. destruct (h_par (d_h d) w) as [y|] eqn:Ey; [|discriminate].
        destruct (i_par _ _ _ _ I w y Iw2 Ey) as (a&b'&H1&H2&H3&H4).
        destruct (Nat.eqb_spec y x) as [->|Ny].
        * injection Pw as <-. rewrite GXx in H2. destruct H2 as [<-|[]]. exists a, x. split; [auto|]. split; [rewrite GPp; apply in_or_app; simpl; auto|auto].
        * injection Pw as <-. exists a, b'. auto.
    - intros w Iw. rewrite SKh. destruct (Nat.eq_dec w p) as [->|N].
      + split; [|auto]. rewrite GPp. destruct JP as [F1 F2 F3 F4 F5 F6]. destruct AT4p as (B1&_&B3&B4&B5&B6&B7&B8). unfold misc_of in M4p. constructor.
        * rewrite B1. unfold ff. f_equal. rewrite flat_map_app. f_equal. cbn [flat_map]. unfold form_of. rewrite FG, app_nil_r. auto.
        * fold SpaceAfter. rewrite M4p, str_eqb_refl, last_last. auto.
        * intuition congruence.
        * intros k N1 N2. rewrite M4p. assert (N1' := N1). fold SpaceAfter in N1'. apply str_eqb_neq in N1'. rewrite N1'. auto.
        * intros NM. rewrite M4p. change (str_eqb (s "Bug") SpaceAfter) with false. cbv iota. auto.
        * intros NM. rewrite M4p. change (str_eqb (s "Bug") SpaceAfter) with false. cbv iota. auto.
      + rewrite GO, AT4; auto. { apply I. auto. } intros ->. tauto.
    - intros w Iw. rewrite SKh. eapply sim_trans; [apply SI4|apply (i_post _ _ _ _ I); simpl; tauto]. intros ->. destruct Iw as [Iw|Iw]; tauto.
    - intros w Iw. rewrite SKh, AT4; [apply (i_rest _ _ _ _ I); auto| |intros ->; tauto]. intros ->. apply Iw. apply (desc_live _ _ _ _ p I). apply in_or_app. auto.
    - destruct (i_text _ _ _ _ I) as (ts&V&PT). assert (DE2 : h_desc (d_h d) r = A0 ++ p :: x :: post) by (rewrite DE, EA, <- app_assoc; auto).
      destruct (two_words d r ts A0 p x post V DE2) as (ts1&ts2&ET&W1&W2); [rewrite (i_mwt _ _ _ _ I); auto|rewrite (i_mwt _ _ _ _ I); auto|].
      exists (ts1 ++ TWord p :: ts2). subst ts.
      assert (TW : forall t, token_words (with_h d4 h') t = token_words d t). { intros [y|m]; auto. simpl. change (d_m (with_h d4 h') m) with (d_m d4 m). rewrite SM. auto. }
      split.
      + constructor.
        * exact C'.
        * apply agree_with_h. apply (skel_agree _ _ SK4). apply V.
        * change (d_h (with_h d4 h')) with h'. rewrite DD, EA, (flat_map_ext _ _ TW), flat_map_app. cbn [flat_map token_words app]. rewrite W1, W2, <- app_assoc. auto.
        * intros w Iw. change (d_mwt (with_h d4 h') w) with (d_mwt d4 w). rewrite SK. apply (v_free _ _ _ V). rewrite in_app_iff in *. simpl in *. tauto.
        * intros m. change (d_mwts (with_h d4 h') r) with (d_mwts d4 r). rewrite SL, <- (v_mwts _ _ _ V). rewrite !in_app_iff. simpl.
          split; intros [H|[H|H]]; try discriminate; auto. destruct H; [discriminate|auto].
        * intros m Im. change (d_m (with_h d4 h') m) with (d_m d4 m). rewrite SM. apply (v_ne _ _ _ V). rewrite in_app_iff in *. simpl in *. tauto.
        * exact EM'.
      + rewrite <- PT, !flat_map_app. cbn [flat_map].
        assert (NW : forall y, In (TWord y) ts1 \/ In (TWord y) ts2 -> y <> p /\ y <> x).
        { intros y Iy. assert (Iy2 : In y A0 \/ In y post).
          { destruct Iy as [Iy|Iy]; [left; rewrite <- W1|right; rewrite <- W2]; apply in_flat_map; exists (TWord y); simpl; auto. }
          rewrite EA, in_app_iff in ND. simpl in ND. split; intros ->; destruct Iy2; tauto. }
        f_equal; [|rewrite app_assoc; f_equal].
        * apply pieces_same; [intros m; apply SM|]. intros y Iy. destruct (NW y) as [N1 N2]; auto. unfold misc_of. rewrite SKh, AT4; auto.
        * unfold piece, space_unless_no. simpl. rewrite (proj1 AT4p). unfold misc_of in M4p. rewrite M4p, str_eqb_refl.
          rewrite FX, (jw_form _ _ _ _ _ _ _ JP). pose proof (jw_space _ _ _ _ _ _ _ JP) as SPp. fold SpaceAfter in SPp. rewrite SPp.
          destruct JX as (_&_&_&JS). fold SpaceAfter in JS. fold No in JS. rewrite JS. cbn [val_is]. rewrite str_eqb_refl, app_nil_r.
          destruct SX as (_&MX&_). rewrite MX. unfold ff, misc_of. rewrite <- app_assoc. auto.
        * apply pieces_same; [intros m; apply SM|]. intros y Iy. destruct (NW y) as [N1 N2]; auto. unfold misc_of. rewrite SKh, AT4; auto.
  Qed.

  Lemma join_steps : forall post d grp A, inv d grp A post ->
    exists d' grp' A', each_node (join_token name value) d post = (d', Ok tt) /\ inv d' grp' A' [].
  Proof.
    induction post as [|x post IH]; intros d grp A I; [exists d, grp, A; auto|]. cbn [each_node].
    destruct (step _ _ _ _ _ I) as (d1&grp1&->&[I1|I1]); rewrite bind_ok; eapply IH; eauto.
  Qed.
End loop.

Lemma join_token_prop name value d r : sound_sentence d r ->
  (forall w, live (d_h d) r w -> misc_ok (n_misc (d_at d w))) ->
  (forall w, In w (h_desc (d_h d) r) -> misc_of d w SpaceAfter <> VNone) ->
  d_mwt d r = None /\ misc_of d r SpaceAfter <> VStr No ->
  exists d' grp, join_tokens name value d r = (d', Ok tt) /\ sound_sentence d' r /\ compute_text d' r true = compute_text d r true /\
    flat_map grp (h_desc (d_h d') r) = h_desc (d_h d) r /\ grp r = [r] /\
    (forall w, In w (h_desc (d_h d') r) -> (exists l, grp w = w :: l) /\ linked (to_join name value d) (grp w) /\
       joined_word name value d r w (grp w) (d_at d' w) /\
       forall q, h_par (d_h d') w = Some q ->
         exists a b, In a (grp w) /\ In b (grp q) /\ h_par (d_h d) a = Some b /\ n_deprel (d_at d' w) = n_deprel (d_at d a)) /\
    (forall pre w w' rest, h_desc (d_h d') r = pre ++ w :: w' :: rest -> ~ to_join name value d (last (grp w) w) w') /\
    (forall w, ~ In w (h_desc (d_h d) r) -> same_but_misc (d_at d' w) (d_at d w) /\ forall k, misc_of d' w k = misc_of d w k) /\
    (forall w, d_mwt d' w = d_mwt d w) /\ (forall r', d_mwts d' r' = d_mwts d r') /\ (forall m, d_m d' m = d_m d m).
Proof.
  intros SO HM HS HR. destruct (view_of d r SO) as (ts&ET&V).
  assert (I0 : inv name value d r ts d (fun w => [w]) [] (h_desc (d_h d) r)).
  { constructor; auto; try (intros; simpl in *; tauto).
    - apply SO.
    - exact (v_empty _ _ _ V).
    - intros [|? ?] w w' rest E; discriminate.
    - intros w q Iw P. exists w, q. simpl. auto.
    - intros w _. apply sim_refl.
    - intros w _. apply sim_refl.
    - exists ts. auto. }
  destruct (join_steps name value d r ts SO) with (post := h_desc (d_h d) r) (d := d) (grp := fun w : nat => [w]) (A := @nil nat) as (d'&grp&A&E&I); auto.
  { intros w L. apply good_ok. auto. }
  exists d', grp. split; [exact E|]. destruct I as [T EM K1 K2 K3 DE FL SE HD MX PA DO PO RE TX]. rewrite app_nil_r in DE, FL, PA.
  destruct TX as (ts'&V'&PT). rewrite DE.
  assert (SO' : sound_sentence d' r).
  { apply (view_sound _ _ _ V').
    - intros w Iw. rewrite DE in Iw. destruct (DO w Iw) as [JW _]. rewrite (jw_form _ _ _ _ _ _ _ JW). discriminate.
    - intros m Im. rewrite K2 in Im. rewrite K3. apply SO. auto. }
  split; [auto|]. split.
  { rewrite (view_text _ _ _ V' (view_forms _ _ _ V' SO')), (view_text _ _ _ V (view_forms _ _ _ V SO)). f_equal. f_equal. auto. }
  split; [auto|]. split; [auto|]. split.
  { intros w Iw. destruct (HD w Iw) as (l&El&Hl). split; [eauto|]. split; [rewrite El; auto|]. split; [apply DO; auto|]. intros q Pq. apply (PA w q Iw Pq). }
  split; [auto|]. split; [|auto]. intros w N. destruct (RE w N) as (H1&H2&_). auto.
Qed.
