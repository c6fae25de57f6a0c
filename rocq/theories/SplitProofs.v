(** Proofs about splitting sentences. *)
From Coq Require Import String List NArith ZArith Bool Lia Permutation.
From Verif Require Import PyStr PyStrFacts PyList PyListFacts PyExn TreeModel TreeSpec TreeProps TreeFacts TreeRepr TreeOps TreeCalls
  DualDictModel DualDictSpec DualDictProofs DocModel MwtSpec MwtProofs TextSpace StealModel StealSpec StealProofs StealThms TokModel TokSpec TokProofs TokJoin TokTree TokToken
  ResegModel ResegSpec ResegProofs ResegMerge SplitModel SplitSpec.
Import ListNotations.

(** ---- the tokens of the two halves ---- *)
Lemma split_flat {A B} (f : A -> list B) : forall ts w1 w2, flat_map f ts = w1 ++ w2 -> (forall t, In t ts -> f t <> []) ->
  (forall t a b, In t ts -> In a (f t) -> In b (f t) -> In a w1 -> In b w2 -> False) ->
  exists ts1 ts2, ts = ts1 ++ ts2 /\ flat_map f ts1 = w1 /\ flat_map f ts2 = w2.
Proof.
  induction ts as [|t ts IH]; intros w1 w2 E NE X.
  - destruct w1; [|discriminate]. destruct w2; [|discriminate]. exists [], []. auto.
  - destruct w1 as [|a w1]; [exists [], (t :: ts); auto|].
    cbn [flat_map] in E. apply app_eq_app in E as (k&[[E1 E2]|[E1 E2]]).
    + destruct k as [|b k].
      * rewrite app_nil_r in E1. destruct (IH [] w2) as (t1&t2&->&F1&F2).
        { rewrite E2. auto. } { intros; apply NE; simpl; auto. } { intros t' x y I Ix Iy []. }
        exists (t :: t1), t2. cbn [flat_map]. rewrite F1, E1, app_nil_r. auto.
      * exfalso. apply (X t a b); [simpl; auto|rewrite E1; simpl; auto|rewrite E1; apply in_or_app; simpl; auto|simpl; auto|rewrite E2; simpl; auto].
    + destruct (IH k w2) as (t1&t2&->&F1&F2).
      { rewrite E2. auto. } { intros; apply NE; simpl; auto. }
      { intros t' x y I Ix Iy Jx Jy. apply (X t' x y); auto; [simpl; auto|]. rewrite E1. apply in_or_app. auto. }
      exists (t :: t1), t2. cbn [flat_map]. rewrite F1, E1. auto.
Qed.

(** ---- labels ---- *)
Lemma zeros_fold : forall l d, let d' := fold_left zero_root l d in
  skel d d' /\ d_ri d' = d_ri d /\ d_mwt d' = d_mwt d /\ d_m d' = d_m d /\
  (forall w, ~ In w l -> d_at d' w = d_at d w) /\
  (forall w, d_at d' w = d_at d w \/ d_at d' w = set_deprel (d_at d w) (Some root_rel)) /\
  (forall w p, In w l -> h_par (d_h d) w = Some p -> n_deprel (d_at d' w) = if is_root (d_h d) p then Some root_rel else n_deprel (d_at d w)).
Proof.
  induction l as [|x l IH]; intros d; cbn [fold_left].
  - cbv zeta. split; [apply skel_refl|]. repeat (split; [solve [auto]|]). intros w p [].
  - specialize (IH (zero_root d x)). set (d1 := zero_root d x) in *. cbv zeta in *.
    assert (H : skel d d1 /\ d_ri d1 = d_ri d /\ d_mwt d1 = d_mwt d /\ d_m d1 = d_m d /\ (forall w, w <> x -> d_at d1 w = d_at d w) /\
      (d_at d1 x = d_at d x \/ d_at d1 x = set_deprel (d_at d x) (Some root_rel)) /\
      (forall p, h_par (d_h d) x = Some p -> n_deprel (d_at d1 x) = if is_root (d_h d) p then Some root_rel else n_deprel (d_at d x))).
    { unfold d1, zero_root. destruct (h_par (d_h d) x) as [q|].
      - destruct (is_root (d_h d) q) eqn:ER.
        + split; [apply skel_put|]. repeat (split; [reflexivity|]). split; [intros w N; cbn; unfold upd; apply Nat.eqb_neq in N; rewrite N; auto|].
          cbn. unfold upd. rewrite Nat.eqb_refl. split; [auto|]. intros p E. injection E as <-. rewrite ER. auto.
        + split; [apply skel_refl|]. repeat (split; [solve [auto]|]). intros p E. injection E as <-. rewrite ER. auto.
      - split; [apply skel_refl|]. repeat (split; [solve [auto]|]). discriminate. }
    destruct H as (S1&R1&M1&MM1&F1&O1&P1). destruct IH as (S2&R2&M2&MM2&F2&O2&P2). pose proof (sk_h _ _ S1) as EH.
    split; [eapply skel_trans; eauto|]. split; [congruence|]. split; [congruence|]. split; [congruence|]. split; [|split].
    + intros w N. rewrite F2, F1; auto; intros C; apply N; simpl; auto.
    + intros w. destruct (Nat.eq_dec w x) as [->|N]; [|specialize (O2 w); rewrite F1 in O2 by auto; auto].
      destruct (O2 x) as [-> | ->]; destruct O1 as [-> | ->]; auto.
    + intros w p I E. destruct (in_dec Nat.eq_dec w l) as [J|J].
      * rewrite (P2 w p J) by (rewrite EH; auto). rewrite EH. destruct (is_root (d_h d) p) eqn:ER; [auto|].
        destruct (Nat.eq_dec w x) as [->|N]; [rewrite (P1 p E), ER; auto|rewrite F1 by auto; auto].
      * destruct I as [->|I]; [|tauto]. rewrite F2 by auto. apply P1. auto.
Qed.

Lemma tokened_attrs d d' r ts : skel d d' -> d_mwt d' = d_mwt d -> d_m d' = d_m d -> (forall w, n_form (d_at d' w) = n_form (d_at d w)) ->
  tokened d r ts -> tokened d' r ts.
Proof.
  intros S EM EMM F [T1 T2 T3 T4 T5]. pose proof (sk_h _ _ S) as EH. constructor; rewrite ?EH, ?EM; auto.
  - rewrite <- T2. apply flat_map_ext. intros [w|m]; simpl; rewrite ?EMM; auto.
  - intros m Im. rewrite EMM. auto.
  - intros [w|m] It; pose proof (T5 _ It) as X; simpl in *; [rewrite F; auto|rewrite EMM; auto].
Qed.

(** ---- moving the words ---- *)
Lemma new_root_ok d : let r2 := h_next (d_h d) in let d1 := fst (doc_new_root d) in
  snd (doc_new_root d) = r2 /\ consistent (d_h d1) r2 /\ h_desc (d_h d1) r2 = [] /\ h_emp (d_h d1) r2 = [] /\ h_next (d_h d1) = S r2 /\
  (forall y, y < r2 -> same_object (d_h d) (d_h d1) y /\ d_at d1 y = d_at d y /\ d_mwt d1 y = d_mwt d y /\ d_mwts d1 y = d_mwts d y /\ d_ri d1 y = d_ri d y) /\
  d_m d1 = d_m d.
Proof.
  cbv zeta. unfold doc_new_root, new_root, alloc. cbn [fst snd]. set (h' := mkHeap _ _ _ _ _ _ _ _ _).
  split; [auto|]. cbn [put_ri put_mwts put_mwt put_at with_h d_h d_at d_mwt d_mwts d_ri d_m].
  split; [constructor; unfold h', live; cbn; upds; auto; try (intros x [->|[]]; upds; auto); try (intros x []); try constructor; auto; intros x []|].
  split; [unfold h'; cbn; upds; auto|]. split; [unfold h'; cbn; upds; auto|]. split; [auto|]. split; [|auto].
  intros y L. assert (N : y <> h_next (d_h d)) by lia. unfold same_object, h'. cbn. rewrite !upd_other by auto. repeat split.
Qed.

Lemma moved_ok d r w1 w2 ts : tokened d r ts -> h_desc (d_h d) r = w1 ++ w2 -> w2 <> [] -> no_token_across d w1 w2 -> last_single d w2 ->
  let r2 := h_next (d_h d) in let d1 := fst (doc_new_root d) in
  exists d2 ts1 ts2, steal_nodes d1 r2 w2 = (d2, Ok tt) /\ ts = ts1 ++ ts2 /\ tokened d2 r ts1 /\ tokened d2 r2 ts2 /\
    h_desc (d_h d2) r = w1 /\ h_desc (d_h d2) r2 = w2 /\
    (forall w p, In w w1 -> h_par (d_h d) w = Some p -> h_par (d_h d2) w = Some (if mem p w1 then p else r)) /\
    (forall w p, In w w2 -> h_par (d_h d) w = Some p -> h_par (d_h d2) w = Some (if mem p w2 then p else r2)) /\
    h_emp (d_h d2) r = h_emp (d_h d) r /\ h_emp (d_h d2) r2 = [] /\
    (forall y, y < r2 -> ~ live (d_h d) r y -> same_object (d_h d) (d_h d2) y) /\
    (forall y, y < r2 -> d_at d2 y = d_at d y /\ d_mwt d2 y = d_mwt d y /\ d_ri d2 y = d_ri d y) /\ d_m d2 = d_m d.
Proof.
  intros T EW NE NA LS r2 d1. pose proof (t_tree _ _ _ T) as C. pose proof (new_root_ok d) as (_&C2&D2&E2&NX&OLD&MM).
  fold d1 in C2, D2, E2, NX, OLD, MM. fold r2 in C2, D2, E2, NX, OLD.
  assert (LT : forall y, live (d_h d) r y -> y < r2) by (intros y L; apply (c_alloc _ _ C y L)).
  assert (C1 : consistent (d_h d1) r). { apply (consistent_same (d_h d)); auto; [|lia]. intros y L. apply OLD. auto. }
  assert (DR : h_desc (d_h d1) r = w1 ++ w2). { destruct (OLD r) as [(_&_&_&_&_&E&_) _]; [apply LT; left; auto|]. congruence. }
  assert (ND : NoDup (w1 ++ w2)) by (rewrite <- EW; apply (c_once _ _ C)).
  assert (NDw : forall w, In w w1 -> ~ In w w2). { intros w I J. revert ND. clear - I J. induction w1 as [|x k IH]; [destruct I|]. cbn [app]. intros N. inversion N; subst. destruct I as [->|I]; [apply H1; apply in_or_app; auto|auto]. }
  assert (LF : last_free d1 r w2).
  { intros w E. rewrite DR, filter_app in E. rewrite (filter_none (fun w => mem w w2) w1) in E by (intros x I; apply mem_false; auto).
    rewrite (filter_all (fun w => mem w w2) w2) in E by (intros x I; apply mem_In; auto). cbn [app] in E. apply last_opt_last in E as (l&E).
    destruct (OLD w) as (_&_&M&_); [apply LT; right; rewrite EW, E, app_assoc; apply in_or_app; simpl; auto|]. rewrite M. apply (LS w l E). }
  destruct (steal_doc d1 r2 r w2) as (d2&E&S1&S2&S3&_&S5&S6&S7&_&_&S10&S11&_&S13&S14&S15&S16&_); auto.
  { unfold r2. intros X. specialize (LT r (or_introl eq_refl)). fold r2 in X. lia. }
  { revert ND. clear. induction w1; auto. intros N. inversion N; auto. }
  { intros w I. rewrite DR. apply in_or_app. auto. }
  rewrite D2 in S1. cbn [app] in S1. rewrite DR in S1, S2.
  assert (F1 : filter (fun w => mem w w2) (w1 ++ w2) = w2).
  { rewrite filter_app, (filter_none (fun w => mem w w2) w1), (filter_all (fun w => mem w w2) w2); auto; intros x I; [apply mem_In|apply mem_false]; auto. }
  assert (F2 : filter (fun w => negb (mem w w2)) (w1 ++ w2) = w1).
  { rewrite filter_app, (filter_all (fun w => negb (mem w w2)) w1), (filter_none (fun w => negb (mem w w2)) w2); [apply app_nil_r|..]; intros x I;
      [apply negb_false_iff, mem_In|apply negb_true_iff, mem_false]; auto. }
  rewrite F1 in S1. rewrite F2 in S2.
  assert (CR : consistent (d_h d2) r). { apply (S5 w2). rewrite DR, F2. auto. }
  assert (TW : forall t, token_words d2 t = token_words d t) by (intros [w|m]; simpl; rewrite ?S16, ?MM; auto).
  destruct (split_flat (token_words d) ts w1 w2) as (ts1&ts2&->&G1&G2).
  { rewrite (t_words _ _ _ T). auto. }
  { intros [w|m] I; [discriminate|]. simpl. apply (t_mwt _ _ _ T m I). }
  { intros [w|m] a b I Ia Ib J1 J2.
    - destruct Ia as [<-|[]]. destruct Ib as [<-|[]]. apply (NDw w); auto.
    - destruct (t_mwt _ _ _ T m I) as [_ K]. apply (NA a b m); auto. }
  assert (OLD2 : forall y, y < r2 -> d_at d2 y = d_at d y /\ d_mwt d2 y = d_mwt d y /\ d_ri d2 y = d_ri d y).
  { intros y L. destruct (OLD y L) as (_&A&B&_&Q). rewrite S13, S14, S15. auto. }
  assert (LTW : forall w, In w (w1 ++ w2) -> w < r2) by (intros w I; apply LT; right; rewrite EW; auto).
  assert (TT : forall q tsq wq, consistent (d_h d2) q -> h_desc (d_h d2) q = wq -> flat_map (token_words d) tsq = wq -> incl wq (w1 ++ w2) -> incl tsq (ts1 ++ ts2) -> tokened d2 q tsq).
  { intros q tsq wq Cq Dq Fq Iq It. constructor; auto.
    - rewrite (flat_map_ext _ _ TW). congruence.
    - intros w I. destruct (OLD2 w) as (_&M&_); [|rewrite M; apply (t_free _ _ _ T); apply It; auto]. apply LTW, Iq. rewrite <- Fq. apply in_flat_map. exists (TWord w). simpl. auto.
    - intros m I. rewrite S16, MM. destruct (t_mwt _ _ _ T m (It _ I)) as [M1 M2]. split; [auto|]. intros w J. destruct (OLD2 w) as (_&M&_); [|rewrite M; auto].
      apply LTW, Iq. rewrite <- Fq. apply in_flat_map. exists (TMwt m). simpl. auto.
    - intros [w|m] I; pose proof (t_form _ _ _ T _ (It _ I)) as F; cbn [token_form] in F |- *; [|rewrite S16, MM; auto].
      destruct (OLD2 w) as (A&_); [|rewrite A; auto]. apply LTW, Iq. rewrite <- Fq. apply in_flat_map. exists (TWord w). simpl. auto. }
  exists d2, ts1, ts2. split; [exact E|]. split; [auto|].
  split; [apply (TT r ts1 w1); auto; intros x I; apply in_or_app; auto|]. split; [apply (TT r2 ts2 w2); auto; intros x I; apply in_or_app; auto|].
  split; [auto|]. split; [auto|].
  assert (PAR : forall w, In w (w1 ++ w2) -> h_par (d_h d1) w = h_par (d_h d) w) by (intros w I; apply OLD; apply LTW; auto).
  split; [|split].
  - intros w p I P. rewrite (S7 w p); [|rewrite DR, F2; auto|rewrite PAR; [auto|apply in_or_app; auto]]. apply f_equal.
    destruct (c_parents _ _ C w) as (p'&P'&LP); [rewrite EW; apply in_or_app; auto|]. rewrite P in P'. injection P' as <-.
    destruct (mem p w2) eqn:M2.
    + apply mem_In in M2. destruct (mem p w1) eqn:M1; [|auto]. apply mem_In in M1. elim (NDw p M1 M2).
    + destruct (mem p w1) eqn:M1; [auto|]. destruct LP as [->|LP]; [auto|]. rewrite EW in LP. apply in_app_or in LP as [LP|LP].
      * apply mem_false in M1. tauto. * apply mem_false in M2. tauto.
  - intros w p I P. apply S6; [auto|]. rewrite PAR; [auto|apply in_or_app; auto].
  - rewrite S11. split; [|split; [auto|split]].
    + destruct (OLD r) as ((_&_&_&_&_&_&EE&_)&_); [apply LT; left; auto|]. auto.
    + intros y L N. destruct (OLD y L) as [SO _]. assert (SO2 : same_object (d_h d1) (d_h d2) y).
      { apply S10.
        - unfold live. rewrite D2. intros [->|[]]. lia.
        - unfold live. rewrite DR, <- EW. exact N. }
      unfold same_object in *. intuition congruence.
    + split; [auto|]. congruence.
Qed.

Definition same_rest (a b : attrs) : Prop :=
  n_form a = n_form b /\ n_lemma a = n_lemma b /\ n_upos a = n_upos b /\ n_xpos a = n_xpos b /\ n_feats a = n_feats b /\ n_raw_deps a = n_raw_deps b /\ n_deps a = n_deps b.
Lemma rest_refl a : same_rest a a. Proof. repeat split. Qed.
Lemma rest_trans a b c : same_rest a b -> same_rest b c -> same_rest a c.
Proof. unfold same_rest. intuition congruence. Qed.

(** changes that touch only labels, MISC attributes other than SpaceAfter, and texts *)
Record cosmetic (W : list nat) (d d' : doc) : Prop := {
  cs_skel : skel d d'; cs_mwt : d_mwt d' = d_mwt d; cs_m : d_m d' = d_m d;
  cs_rest : forall w, same_rest (d_at d' w) (d_at d w);
  cs_space : forall w, misc_of d' w SpaceAfter = misc_of d w SpaceAfter;
  cs_out : forall w, ~ In w W -> d_at d' w = d_at d w
}.
Lemma cosmetic_trans W a b c : cosmetic W a b -> cosmetic W b c -> cosmetic W a c.
Proof.
  intros [S1 M1 N1 R1 P1 O1] [S2 M2 N2 R2 P2 O2]. constructor; try congruence; [eapply skel_trans; eauto|..]; intros w.
  - eapply rest_trans; eauto.
  - intros N. rewrite O2, O1; auto.
Qed.
Lemma cosmetic_tokened W d d' r ts : cosmetic W d d' -> tokened d r ts -> tokened d' r ts.
Proof. intros [S1 M1 N1 R1 P1 O1]. apply tokened_attrs; auto. intros w. apply R1. Qed.
Lemma cosmetic_pieces W d d' ts : cosmetic W d d' -> flat_map (piece d') ts = flat_map (piece d) ts.
Proof. intros [S1 M1 N1 R1 P1 O1]. apply pieces_same; [intros m; rewrite N1; auto|]. intros x _. split; [apply R1|apply P1]. Qed.

Lemma word_root h q w p : consistent h q -> In w (h_desc h q) -> h_par h w = Some p -> is_root h p = Nat.eqb p q.
Proof.
  intros C I E. destruct (c_parents _ _ C w I) as (p'&E'&L). rewrite E in E'. injection E' as <-. unfold is_root.
  destruct L as [->|L]; [rewrite (proj2 (c_kinds _ _ C)), Nat.eqb_refl; auto|]. rewrite (proj1 (c_kinds _ _ C) p L).
  symmetry. apply Nat.eqb_neq. intros ->. apply (c_rootout _ _ C L).
Qed.
Lemma zeros_ok W d q : consistent (d_h d) q -> incl (h_desc (d_h d) q) W -> let d' := zeros_roots d q in
  cosmetic W d d' /\ d_ri d' = d_ri d /\ (forall w, n_misc (d_at d' w) = n_misc (d_at d w)) /\
  (forall w, ~ In w (h_desc (d_h d) q) -> d_at d' w = d_at d w) /\
  (forall w p, In w (h_desc (d_h d) q) -> h_par (d_h d) w = Some p -> n_deprel (d_at d' w) = if Nat.eqb p q then Some root_rel else n_deprel (d_at d w)).
Proof.
  intros C I d'. pose proof (zeros_fold (h_desc (d_h d) q) d) as (S&R&M&MM&F&O&P). fold (zeros_roots d q) in *. fold d' in S, R, M, MM, F, O, P.
  split; [|split; [auto|split; [|split; [auto|]]]].
  - constructor; auto.
    + intros w. destruct (O w) as [-> | ->]; repeat split.
    + intros w. unfold misc_of. destruct (O w) as [-> | ->]; auto.
  - intros w. destruct (O w) as [-> | ->]; auto.
  - intros w p J E. rewrite (P w p J E), (word_root _ _ _ _ C J E). auto.
Qed.
Lemma retext_ok W d r ts : tokened d r ts -> let d' := set_text d r (rstrip (flat_map (piece d) ts)) in
  retext d r = (d', Ok tt) /\ cosmetic W d d' /\ d_at d' = d_at d /\ ri_text (d_ri d' r) = Some (rstrip (flat_map (piece d) ts)) /\
  (forall y, y <> r -> d_ri d' y = d_ri d y).
Proof.
  intros T d'. split; [|split; [|split; [|split]]].
  - unfold retext. rewrite (proj2 (tokened_ok _ _ _ T)). auto.
  - constructor; auto; [constructor; auto|intros w; apply rest_refl].
  - auto.
  - unfold d', set_text. cbn. unfold upd. rewrite Nat.eqb_refl. auto.
  - intros y N. unfold d', set_text. cbn. unfold upd. apply Nat.eqb_neq in N. rewrite N. auto.
Qed.

Lemma divided_intro d r w1 w2 ts1 ts2 d2 d3 : let r2 := h_next (d_h d) in tokened d r (ts1 ++ ts2) -> h_desc (d_h d) r = w1 ++ w2 ->
  tokened d2 r ts1 -> tokened d2 r2 ts2 -> h_desc (d_h d2) r = w1 -> h_desc (d_h d2) r2 = w2 ->
  (forall w p, In w w1 -> h_par (d_h d) w = Some p -> h_par (d_h d2) w = Some (if mem p w1 then p else r)) ->
  (forall w p, In w w2 -> h_par (d_h d) w = Some p -> h_par (d_h d2) w = Some (if mem p w2 then p else r2)) ->
  h_emp (d_h d2) r = h_emp (d_h d) r -> h_emp (d_h d2) r2 = [] ->
  (forall y, y < r2 -> ~ live (d_h d) r y -> same_object (d_h d) (d_h d2) y) ->
  (forall y, y < r2 -> d_at d2 y = d_at d y /\ d_mwt d2 y = d_mwt d y /\ d_ri d2 y = d_ri d y) -> d_m d2 = d_m d ->
  cosmetic (w1 ++ w2) d2 d3 ->
  (forall w p, In w w1 -> h_par (d_h d2) w = Some p -> n_deprel (d_at d3 w) = if Nat.eqb p r then Some root_rel else n_deprel (d_at d2 w)) ->
  (forall w p, In w w2 -> h_par (d_h d2) w = Some p -> n_deprel (d_at d3 w) = if Nat.eqb p r2 then Some root_rel else n_deprel (d_at d2 w)) ->
  ri_text (d_ri d3 r) = Some (rstrip (flat_map (piece d2) ts1)) -> ri_text (d_ri d3 r2) = Some (rstrip (flat_map (piece d2) ts2)) ->
  (forall y, y <> r -> y <> r2 -> d_ri d3 y = d_ri d2 y) ->
  divided d d3 r r2 w1 w2.
Proof.
  intros r2 T EW T1 T2 D1 D2 PA PB E1 E2 SO OLD EM CS LA LB X1 X2 RI.
  pose proof (t_tree _ _ _ T) as C. pose proof (sk_h _ _ (cs_skel _ _ _ CS)) as EH.
  assert (LT : forall w, In w (w1 ++ w2) -> w < r2) by (intros w I; apply (c_alloc _ _ C); right; rewrite EW; auto).
  assert (RR : r < r2) by (apply (c_alloc _ _ C); left; auto).
  pose proof (cosmetic_tokened _ _ _ _ _ CS T1) as U1. pose proof (cosmetic_tokened _ _ _ _ _ CS T2) as U2.
  assert (PD : forall tsq, incl tsq (ts1 ++ ts2) -> flat_map (piece d2) tsq = flat_map (piece d) tsq).
  { intros tsq I. apply pieces_same; [intros m; rewrite EM; auto|]. intros w J. destruct (OLD w) as (A&_); [|unfold misc_of; rewrite A; auto].
    apply LT. rewrite <- EW, <- (t_words _ _ _ T). apply in_flat_map. exists (TWord w). simpl. auto. }
  constructor; rewrite ?EH; auto.
  - split; [apply T1|]. split; [apply T2|]. unfold r2. lia.
  - intros w p I P. apply in_app_or in I as [I|I].
    + rewrite (LA w p I P). destruct (OLD w) as (A&_); [apply LT; apply in_or_app; auto|]. rewrite A.
      destruct (Nat.eqb_spec p r) as [->|N]; [auto|]. destruct (Nat.eqb_spec p r2) as [->|N2]; [|auto].
      exfalso. destruct (c_parents _ _ (t_tree _ _ _ T1) w) as (p'&P'&L); [rewrite D1; auto|]. rewrite P in P'. injection P' as <-.
      destruct L as [L|L]; [lia|]. rewrite D1 in L. specialize (LT r2). assert (r2 < r2) by (apply LT; apply in_or_app; auto). lia.
    + rewrite (LB w p I P). destruct (OLD w) as (A&_); [apply LT; apply in_or_app; auto|]. rewrite A.
      destruct (Nat.eqb_spec p r) as [->|N]; [|auto]. exfalso.
      destruct (c_parents _ _ (t_tree _ _ _ T2) w) as (p'&P'&L); [rewrite D2; auto|]. rewrite P in P'. injection P' as <-.
      destruct L as [L|L]; [lia|]. rewrite D2 in L. apply (c_rootout _ _ C). rewrite EW. apply in_or_app. auto.
  - intros w I. destruct (OLD w (LT w I)) as (A&_). pose proof (cs_rest _ _ _ CS w) as R. rewrite A in R. exact R.
  - exists ts1, ts2, (flat_map (piece d) ts1), (flat_map (piece d) ts2).
    split; [apply (tokened_ok _ _ _ T)|]. split; [apply printed_of; intros; apply (t_form _ _ _ T); apply in_or_app; auto|].
    split; [apply printed_of; intros; apply (t_form _ _ _ T); apply in_or_app; auto|].
    rewrite X1, X2. rewrite (proj1 (tokened_ok _ _ _ U1)), (proj1 (tokened_ok _ _ _ U2)), (proj2 (tokened_ok _ _ _ U1)), (proj2 (tokened_ok _ _ _ U2)).
    rewrite !(cosmetic_pieces _ _ _ _ CS), !PD by (intros t I; apply in_or_app; auto). auto 10.
  - intros y L N. split; [auto|]. destruct (OLD y L) as (A&B&Q). rewrite <- A, <- Q. split.
    + apply (cs_out _ _ _ CS). rewrite <- EW. intros I. apply N. right. auto.
    + apply RI; [intros ->; apply N; left; auto|lia].
  - rewrite (cs_mwt _ _ _ CS), (cs_m _ _ _ CS), EM. split; [|auto]. intros y L. apply OLD. auto.
Qed.

(** ---- util.SplitSentence sent_id=... word_id=... ---- *)
Lemma from_word d r w1 w2 : consistent (d_h d) r -> h_desc (d_h d) r = w1 ++ w2 ->
  filter (fun n => (Z.of_nat (length w1) + 1 <=? h_ord (d_h d) n)%Z) (h_desc (d_h d) r) = w2.
Proof.
  intros C E. rewrite E, filter_app, filter_none, filter_all; [auto|..].
  - intros x I. apply in_split in I as (a&b&->). apply Z.leb_le. rewrite app_assoc in E. rewrite (ord_at d r C _ _ _ E), app_length. lia.
  - intros x I. apply in_split in I as (a&b&->). apply Z.leb_gt. rewrite <- app_assoc in E. rewrite (ord_at d r C _ _ _ E), app_length. simpl. lia.
Qed.
Lemma split_words_ok d b x w1 w2 : b_id b = Some x -> sound_sentence d (b_root b) -> h_desc (d_h d) (b_root b) = w1 ++ w2 -> w2 <> [] ->
  no_token_across d w1 w2 -> last_single d w2 ->
  exists d' r2, split_words d b (Z.of_nat (length w1) + 1) = (d', Ok [mkB (Some (x ++ s "A")) (b_root b); mkB (Some (x ++ s "B")) r2]) /\
    divided d d' (b_root b) r2 w1 w2 /\ (forall w, In w (w1 ++ w2) -> n_misc (d_at d' w) = n_misc (d_at d w)).
Proof.
  intros ID SO EW NE NA LS. set (r := b_root b) in *. destruct (tokened_of d r SO) as (ts&_&T). pose proof (t_tree _ _ _ T) as C.
  pose proof (moved_ok d r w1 w2 ts T EW NE NA LS) as M. cbv zeta in M. destruct M as (d2&ts1&ts2&E&->&T1&T2&D1&D2&PA&PB&E1&E2&SM&OLD&EM).
  set (r2 := h_next (d_h d)) in *.
  assert (LT : forall w, In w (w1 ++ w2) -> w < r2) by (intros w I; apply (c_alloc _ _ C); right; rewrite EW; auto).
  assert (RR : r < r2) by (apply (c_alloc _ _ C); left; auto).
  assert (NDw : forall w, In w w1 -> ~ In w w2).
  { intros w I J. pose proof (c_once _ _ C) as ND. rewrite EW in ND. revert ND. clear - I J. induction w1 as [|y k IH]; [destruct I|]. cbn [app]. intros N. inversion N; subst. destruct I as [->|I]; [apply H1; apply in_or_app; auto|auto]. }
  pose proof (zeros_ok (w1 ++ w2) d2 r (t_tree _ _ _ T1)) as Z1. rewrite D1 in Z1. destruct Z1 as (Z1&Z2&Z3&Z4&Z5); [intros w I; apply in_or_app; auto|].
  set (d3 := zeros_roots d2 r) in *. pose proof (cosmetic_tokened _ _ _ _ _ Z1 T2) as U2. pose proof (cosmetic_tokened _ _ _ _ _ Z1 T1) as U1.
  pose proof (sk_h _ _ (cs_skel _ _ _ Z1)) as H3.
  pose proof (zeros_ok (w1 ++ w2) d3 r2 (t_tree _ _ _ U2)) as Y1. rewrite H3, D2 in Y1. destruct Y1 as (Y1&Y2&Y3&Y4&Y5); [intros w I; apply in_or_app; auto|].
  set (d4 := zeros_roots d3 r2) in *. pose proof (cosmetic_tokened _ _ _ _ _ Y1 U2) as V2. pose proof (cosmetic_tokened _ _ _ _ _ Y1 U1) as V1.
  destruct (retext_ok (w1 ++ w2) d4 r ts1 V1) as (R1&R2&R3&R4&R5). set (d5 := set_text d4 r _) in *.
  pose proof (cosmetic_tokened _ _ _ _ _ R2 V2) as X2.
  destruct (retext_ok (w1 ++ w2) d5 r2 ts2 X2) as (Q1&Q2&Q3&Q4&Q5). set (d6 := set_text d5 r2 _) in *.
  pose proof (cosmetic_trans _ _ _ _ Z1 Y1) as K4. pose proof (cosmetic_trans _ _ _ _ K4 R2) as K5. pose proof (cosmetic_trans _ _ _ _ K5 Q2) as K6.
  exists d6, r2. split; [|split].
  - unfold split_words, with_letter. fold r. rewrite ID. cbn [bind]. rewrite (from_word d r w1 w2 C EW).
    destruct (doc_new_root d) as [d1 q] eqn:EN. assert (q = r2) by (pose proof (proj1 (new_root_ok d)) as Hq; rewrite EN in Hq; exact Hq). subst q.
    change (fst (d1, r2)) with d1 in E. rewrite E, bind_ok. fold d3. fold d4. rewrite R1, bind_ok, Q1, bind_ok. reflexivity.
  - assert (A6 : forall w, d_at d6 w = d_at d4 w) by (intros w; rewrite Q3, R3; auto).
    apply (divided_intro d r w1 w2 ts1 ts2 d2 d6); auto.
    + intros w p I P. rewrite A6, Y4 by auto. apply Z5; auto.
    + intros w p I P. rewrite A6. rewrite (Y5 w p I P). rewrite Z4; [auto|]. intros J. apply (NDw w J I).
    + rewrite Q5 by lia. rewrite R4, (cosmetic_pieces _ _ _ _ K4). auto.
    + fold r2. rewrite Q4, (cosmetic_pieces _ _ _ _ K5). auto.
    + intros y N1 N2. rewrite Q5, R5, Y2, Z2 by auto. auto.
  - intros w I. rewrite Q3, R3, Y3, Z3. destruct (OLD w (LT w I)) as (A&_). rewrite A. auto.
Qed.
Lemma split_by_id_ok x : forall pre d b post w1 w2, (forall c, In c pre -> b_id c <> Some x) -> b_id b = Some x ->
  sound_sentence d (b_root b) -> h_desc (d_h d) (b_root b) = w1 ++ w2 -> w2 <> [] -> no_token_across d w1 w2 -> last_single d w2 ->
  exists d' r2, split_by_id x (Z.of_nat (length w1) + 1) d (pre ++ b :: post) =
      (d', Ok (pre ++ mkB (Some (x ++ s "A")) (b_root b) :: mkB (Some (x ++ s "B")) r2 :: post)) /\
    divided d d' (b_root b) r2 w1 w2 /\ (forall w, In w (w1 ++ w2) -> n_misc (d_at d' w) = n_misc (d_at d w)).
Proof.
  induction pre as [|c pre IH]; intros d b post w1 w2 NP ID SO EW NE NA LS.
  - destruct (split_words_ok d b x w1 w2 ID SO EW NE NA LS) as (d'&r2&E&DV&MI). exists d', r2. split; [|auto]. cbn [app split_by_id].
    assert (H : has_id b x = true) by (unfold has_id; rewrite ID; apply str_eqb_refl). rewrite H, E, bind_ok. reflexivity.
  - destruct (IH d b post w1 w2) as (d'&r2&E&DV&MI); auto; [intros; apply NP; simpl; auto|]. exists d', r2. split; [|auto].
    cbn [app split_by_id]. assert (H : has_id c x = false).
    { unfold has_id. specialize (NP c (or_introl eq_refl)). destruct (b_id c) as [y|]; auto. apply str_eqb_neq. congruence. }
    rewrite H, E, bind_ok. reflexivity.
Qed.

(** ---- util.SplitSentence misc_name=..., one marked word ---- *)
Lemma one_point name value d r w1 x w2 : consistent (d_h d) r -> h_desc (d_h d) r = w1 ++ x :: w2 -> w1 <> [] ->
  (forall w, In w (h_desc (d_h d) r) -> (has_command name value d w <-> w = x)) ->
  filter (is_split name value d) (h_desc (d_h d) r) = [x].
Proof.
  intros C E NE H.
  assert (IS : forall w, In w (h_desc (d_h d) r) -> (is_split name value d w = true <-> w = x)).
  { intros w I. rewrite <- (H w I). rewrite <- command_ok. unfold is_split, is_command. destruct value as [v|]; [tauto|].
    destruct (truthy (misc_get (n_misc (d_at d w)) name)) eqn:TR; [|rewrite andb_false_r; tauto].
    assert (w = x). { apply (H w I). apply command_ok. unfold is_command. rewrite TR. auto. } subst w.
    assert (O : (1 <? h_ord (d_h d) x)%Z = true). { apply Z.ltb_lt. rewrite (ord_at d r C _ _ _ E). destruct w1; [tauto|]. simpl. lia. }
    rewrite O. cbn. tauto. }
  pose proof (c_once _ _ C) as ND. rewrite E in *. rewrite filter_app. cbn [filter]. rewrite (proj2 (IS x ltac:(apply in_or_app; simpl; auto)) eq_refl).
  apply NoDup_remove_2 in ND. rewrite !filter_none; [auto|..].
  - intros w I. destruct (is_split name value d w) eqn:S; [|auto]. apply IS in S; [|apply in_or_app; simpl; auto]. subst. elim ND. apply in_or_app. auto.
  - intros w I. destruct (is_split name value d w) eqn:S; [|auto]. apply IS in S; [|apply in_or_app; simpl; auto]. subst. elim ND. apply in_or_app. auto.
Qed.
Lemma split_marked_ok name value d b i w1 x w2 : name <> SpaceAfter -> b_id b = Some i -> sound_sentence d (b_root b) ->
  h_desc (d_h d) (b_root b) = w1 ++ x :: w2 -> w1 <> [] ->
  (forall w, In w (h_desc (d_h d) (b_root b)) -> (has_command name value d w <-> w = x)) -> misc_ok (n_misc (d_at d x)) ->
  no_token_across d w1 (x :: w2) -> last_single d (x :: w2) ->
  exists d' r2, split_marked name value d b = (d', Ok [mkB (Some (i ++ s "A")) (b_root b); mkB (Some (i ++ s "B")) r2]) /\
    divided d d' (b_root b) r2 w1 (x :: w2) /\
    (forall w k, In w (w1 ++ x :: w2) -> misc_of d' w k = if Nat.eqb w x && str_eqb k name then VStr [] else misc_of d w k).
Proof.
  intros NM ID SO EW N1 HC MO NA LS. set (r := b_root b) in *. destruct (tokened_of d r SO) as (ts&_&T). pose proof (t_tree _ _ _ T) as C.
  pose proof (moved_ok d r w1 (x :: w2) ts T EW ltac:(discriminate) NA LS) as M. cbv zeta in M. destruct M as (d2&ts1&ts2&E&->&T1&T2&D1&D2&PA&PB&E1&E2&SM&OLD&EM).
  pose proof (new_root_ok d) as (NQ&_&_&_&NX&OLD1&_).
  set (r2 := h_next (d_h d)) in *. set (W := w1 ++ x :: w2) in *.
  assert (LT : forall w, In w W -> w < r2) by (intros w I; apply (c_alloc _ _ C); right; rewrite EW; auto).
  assert (RR : r < r2) by (apply (c_alloc _ _ C); left; auto).
  assert (Ix : In x W) by (apply in_or_app; simpl; auto).
  assert (NDw : forall w, In w w1 -> ~ In w (x :: w2)).
  { intros w I J. pose proof (c_once _ _ C) as ND. rewrite EW in ND. unfold W in ND. revert ND. clear - I J. induction w1 as [|y k IH]; [destruct I|]. cbn [app]. intros N. inversion N; subst. destruct I as [->|I]; [apply H1; apply in_or_app; auto|auto]. }
  (* the new tree *)
  pose proof (zeros_ok W d2 r2 (t_tree _ _ _ T2)) as Z1. rewrite D2 in Z1. destruct Z1 as (Z1&Z2&Z3&Z4&Z5); [intros w I; apply in_or_app; auto|].
  set (d3 := zeros_roots d2 r2) in *. pose proof (cosmetic_tokened _ _ _ _ _ Z1 T2) as U2.
  destruct (retext_ok W d3 r2 ts2 U2) as (R1&R2&R3&R4&R5). set (d4 := set_text d3 r2 _) in *.
  pose proof (cosmetic_trans _ _ _ _ Z1 R2) as K4.
  (* the mark *)
  assert (GX : good (n_misc (d_at d4 x))).
  { rewrite R3, Z3. destruct (OLD x (LT x Ix)) as (A&_). rewrite A. apply good_ok. auto. }
  destruct (put_misc_ok d4 x name (VStr []) GX ltac:(discriminate)) as (P1&P2&P3&P4&P5). set (d5 := put_misc d4 x name (VStr [])) in *.
  assert (P6 : cosmetic W d4 d5).
  { constructor; auto.
    - intros w. destruct (Nat.eq_dec w x) as [->|N]; [|rewrite P2 by auto; apply rest_refl]. unfold same_but_misc in P3. unfold same_rest. intuition congruence.
    - intros w. destruct (Nat.eq_dec w x) as [->|N]; [|unfold misc_of; rewrite P2; auto]. rewrite P5. rewrite (proj2 (str_eqb_neq SpaceAfter name)); auto.
    - intros w N. apply P2. intros ->. auto. }
  assert (P7 : forall w, n_deprel (d_at d5 w) = n_deprel (d_at d4 w)).
  { intros w. destruct (Nat.eq_dec w x) as [->|N]; [|rewrite P2; auto]. unfold same_but_misc in P3. intuition congruence. }
  pose proof (cosmetic_trans _ _ _ _ K4 P6) as K5. pose proof (cosmetic_tokened _ _ _ _ _ K5 T1) as X1. pose proof (sk_h _ _ (cs_skel _ _ _ K5)) as H5.
  (* the old tree *)
  pose proof (zeros_ok W d5 r (t_tree _ _ _ X1)) as Y1. rewrite H5, D1 in Y1. destruct Y1 as (Y1&Y2&Y3&Y4&Y5); [intros w I; apply in_or_app; auto|].
  set (d6 := zeros_roots d5 r) in *. pose proof (cosmetic_trans _ _ _ _ K5 Y1) as K6. pose proof (cosmetic_tokened _ _ _ _ _ K6 T1) as V1.
  destruct (retext_ok W d6 r ts1 V1) as (Q1&Q2&Q3&Q4&Q5). set (d7 := set_text d6 r _) in *.
  pose proof (cosmetic_trans _ _ _ _ K6 Q2) as K7.
  exists d7, r2. split; [|split].
  - unfold split_marked. fold r. rewrite (one_point name value d r w1 x w2 C EW N1 HC). cbn [split_points]. unfold with_letter at 1. fold r. rewrite ID. cbn [bind].
    assert (C1 : consistent (d_h (fst (doc_new_root d))) r). { apply (consistent_same (d_h d)); auto; [|lia]. intros y L. apply OLD1. apply (c_alloc _ _ C y L). }
    assert (DR : h_desc (d_h (fst (doc_new_root d))) r = W). { destruct (OLD1 r RR) as [(_&_&_&_&_&ED&_) _]. congruence. }
    destruct (doc_new_root d) as [d1 q] eqn:EN. cbn [fst snd] in *. subst q.
    assert (FW : filter (fun n => ((h_ord (d_h d1) x <=? h_ord (d_h d1) n)%Z && true)) (h_desc (d_h d1) r) = x :: w2).
    { rewrite <- (from_word d1 r w1 (x :: w2) C1 DR). apply filter_ext_in'. intros n _. rewrite andb_true_r.
      rewrite (ord_at d1 r C1 w1 x w2 DR). auto. }
    rewrite FW, E, bind_ok. fold d3. rewrite R1, bind_ok. fold d5. cbn [bind]. unfold with_letter. rewrite ID. cbn [bind]. fold d6. rewrite Q1, bind_ok. reflexivity.
  - apply (divided_intro d r w1 (x :: w2) ts1 ts2 d2 d7); auto.
    + intros w p I P. rewrite Q3. rewrite (Y5 w p I P), P7, R3, Z4; auto.
    + intros w p I P. rewrite Q3, Y4 by (intros J; apply (NDw w J I)). rewrite P7, R3. apply Z5; auto.
    + rewrite Q4, (cosmetic_pieces _ _ _ _ K6). auto.
    + fold r2. rewrite Q5 by lia. rewrite Y2. assert (RI5 : d_ri d5 = d_ri d4) by reflexivity. rewrite RI5, R4, (cosmetic_pieces _ _ _ _ Z1). auto.
    + intros y Na Nb. rewrite Q5, Y2 by auto. assert (RI5 : d_ri d5 = d_ri d4) by reflexivity. rewrite RI5, R5, Z2; auto.
  - intros w k I. unfold misc_of at 1. rewrite Q3, Y3. fold (misc_of d5 w k).
    assert (B4 : misc_of d4 w k = misc_of d w k). { unfold misc_of. rewrite R3, Z3. destruct (OLD w (LT w I)) as (A&_). rewrite A. auto. }
    destruct (Nat.eqb_spec w x) as [->|N]; cbn [andb]; [rewrite P5, B4; auto|]. unfold misc_of at 1. rewrite P2 by auto. exact B4.
Qed.
Lemma split_unmarked name value d b : (forall w, In w (h_desc (d_h d) (b_root b)) -> ~ has_command name value d w) ->
  split_marked name value d b = (d, Ok [b]).
Proof.
  intros H. unfold split_marked. rewrite filter_none; [auto|]. intros w I. destruct (is_split name value d w) eqn:E; [|auto]. elim (H w I). apply command_ok.
  revert E. unfold is_split, is_command. destruct value; auto. intros E. apply orb_true_iff in E as [E|E]; [apply andb_true_iff in E as [_ ->]; auto|]. rewrite E. apply orb_true_r.
Qed.
Lemma split_errors x n d bundles :
  ((forall c, In c bundles -> b_id c <> Some x) -> split_by_id x n d bundles = (d, Ok bundles)) /\
  (forall pre b post, bundles = pre ++ b :: post -> (forall c, In c pre -> b_id c <> Some x) -> b_id b = Some x ->
     (forall w, In w (h_desc (d_h d) (b_root b)) -> (h_ord (d_h d) w < n)%Z) -> snd (split_by_id x n d bundles) = Raise IndexError).
Proof.
  assert (HI : forall b, b_id b <> Some x -> has_id b x = false).
  { intros b N. unfold has_id. destruct (b_id b) as [y|]; [|auto]. apply str_eqb_neq. congruence. }
  split.
  - induction bundles as [|b l IH]; intros H; [auto|]. cbn [split_by_id]. rewrite HI by (apply H; simpl; auto). rewrite IH by (intros; apply H; simpl; auto). auto.
  - intros pre b post ->. induction pre as [|c pre IH]; intros H ID W; cbn [app split_by_id].
    + unfold has_id. rewrite ID, str_eqb_refl. unfold split_words. rewrite filter_none by (intros w I; apply Z.leb_gt; auto).
      unfold with_letter. rewrite ID. cbn [bind]. destruct (doc_new_root d) as [d1 q]. reflexivity.
    + rewrite HI by (apply H; simpl; auto). specialize (IH ltac:(intros; apply H; simpl; auto) ID W).
      destruct (split_by_id x n d (pre ++ b :: post)) as [d' o]. cbn [snd] in IH. subst o. reflexivity.
Qed.
