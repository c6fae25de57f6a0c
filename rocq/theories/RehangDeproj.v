(** Repeated transform.Proj and transform.Deproj. *)
From Coq Require Import String List NArith ZArith Bool Lia Permutation Sorted.
From Verif Require Import PyStr PyStrFacts PyList PyListFacts PyExn TreeModel TreeSpec TreeFacts TreeRepr TreeOps TreeCalls
  TreeQuery TreeProps DeprelModel RehangModel RehangSpec TreeTreelet RehangProofs RehangFix RehangProj.
Import ListNotations.

Lemma filter_length_le2 {A} (f g : A -> bool) l : (forall x, In x l -> g x = true -> f x = true) ->
  length (filter g l) <= length (filter f l).
Proof.
  induction l as [|a l IH]; intros H; cbn; auto. assert (IH' := IH (fun x Hx => H x (or_intror Hx))).
  pose proof (H a (or_introl eq_refl)) as Ha. destruct (g a), (f a); cbn; try lia; now specialize (Ha eq_refl).
Qed.
Lemma filter_length_lt {A} (f g : A -> bool) l x : (forall x, In x l -> g x = true -> f x = true) ->
  In x l -> f x = true -> g x = false -> length (filter g l) < length (filter f l).
Proof.
  intros H Hx Hf Hg. induction l as [|a l IH]; [destruct Hx|]. cbn.
  pose proof (H a (or_introl eq_refl)) as Ha. assert (Hl : forall y, In y l -> g y = true -> f y = true) by (intros y Hy; apply H; simpl; auto).
  destruct Hx as [->|Hx].
  - rewrite Hf, Hg. cbn. pose proof (filter_length_le2 f g l Hl). lia.
  - specialize (IH Hl Hx). destruct (g a), (f a); cbn; try lia; now specialize (Ha eq_refl).
Qed.

Section Block.
Variable (r : nat).
Notation going := (going r).
Notation lifting := (lifting r).
Notation raising := (raising r).

Definition depth_sum (h : heap) : nat :=
  length (filter (fun xa => belowb (abs h r) (fst xa) (snd xa)) (list_prod (h_desc h r) (r :: h_desc h r))).
Lemma depth_sum_bound h : depth_sum h <= length (h_desc h r) * S (length (h_desc h r)).
Proof. unfold depth_sum. rewrite filter_length_le, prod_length. cbn [length]. lia. Qed.
Lemma depth_sum_lt st st' x p q : raising st st' -> In x (h_desc (l_heap st) r) ->
  h_par (l_heap st) x = Some p -> h_par (l_heap st') x = Some q -> up (l_heap st) p q ->
  depth_sum (l_heap st') < depth_sum (l_heap st).
Proof.
  intros RA Hx Ep Eq U. assert (C := g_start _ _ _ (ra_going _ _ _ RA)). assert (C' := raising_cons _ _ _ RA).
  unfold depth_sum. rewrite (raising_words _ _ _ RA).
  destruct (parent_live _ _ _ _ C (or_intror Hx) Ep) as [Lp _].
  assert (LL : forall y, live (l_heap st') r y <-> live (l_heap st) r y) by (intros y; apply (going_live _ _ _ _ (ra_going _ _ _ RA))).
  apply filter_length_lt with (x := (x, p)).
  - intros [a b] Hab. apply in_prod_iff in Hab as [Ha Hb]. cbn [fst snd].
    assert (La : live (l_heap st) r a) by (now right).
    rewrite (belowb_spec (abs (l_heap st') r) (consistent_wf _ _ C')), (belowb_spec (abs (l_heap st) r) (consistent_wf _ _ C)).
    rewrite <- (up_T _ r C' a b) by (now apply LL). rewrite <- (up_T _ r C a b) by auto. now apply (ra_up _ _ _ RA).
  - apply in_prod_iff. split; auto. destruct Lp; simpl; auto.
  - cbn [fst snd]. rewrite (belowb_spec (abs (l_heap st) r) (consistent_wf _ _ C)), <- (up_T _ r C) by (now right). now constructor.
  - cbn [fst snd]. apply (belowb_false (abs (l_heap st') r) (consistent_wf _ _ C')). rewrite <- (up_T _ r C') by (apply LL; now right).
    intros U'. assert (U2 : in_subtree (l_heap st') q p).
    { inversion U' as [? ? E|? ? ? E U3]; subst; rewrite Eq in E; injection E as ->; [now left|now right]. }
    assert (Lq : live (l_heap st) r q) by (now apply (live_up _ r C p q)).
    destruct U2 as [->|U2]; [now apply (up_irrefl _ r C p Lp)|].
    apply (up_irrefl _ r C p Lp). eapply up_trans; eauto. apply (ra_up _ _ _ RA); auto.
Qed.

Fixpoint proj_times (n : nat) (sh : bool) (lab : plabel) (st : lst) : lst * res unit :=
  match n with
  | O => (st, Ok tt)
  | S n => bind (proj_tree sh lab st r) (fun st _ => proj_times n sh lab st)
  end.
Lemma proj_times_ok sh lab m : forall st, lab <> LOther -> consistent (l_heap st) r -> depth_sum (l_heap st) <= m ->
  exists st', proj_times m sh lab st = (st', Ok tt) /\ raising st st' /\
    forall x, In x (h_desc (l_heap st) r) -> is_nonprojective (l_heap st') x = Ok false.
Proof.
  assert (NW : forall h, consistent h r -> nonprojective_words r h = [] -> forall x, In x (h_desc h r) -> is_nonprojective h x = Ok false).
  { intros h C N x Hx. destruct (nonproj_total r h x C Hx) as [[] E]; auto. exfalso.
    assert (I : In x (nonprojective_words r h)) by (apply filter_In; rewrite E; auto). rewrite N in I. destruct I. }
  induction m as [|m IH]; intros st Hl C Hm; cbn [proj_times].
  - exists st. split; auto. split; [now apply raising_refl|]. apply NW; auto.
    destruct (proj_tree_ok r sh lab st Hl C) as [st' [_ [RA [_ [_ PR]]]]].
    destruct (nonprojective_words r (l_heap st)) as [|w l] eqn:E; auto. exfalso.
    destruct PR as [x [p [q [I1 [I2 [I3 I4]]]]]]; [discriminate|].
    pose proof (depth_sum_lt st st' x p q RA I1 I2 I3 I4). lia.
  - destruct (proj_tree_ok r sh lab st Hl C) as [st1 [E1 [RA [Z [_ PR]]]]]. rewrite E1. cbn [bind].
    destruct (nonprojective_words r (l_heap st)) as [|w l] eqn:E.
    + rewrite (Z eq_refl) in *. clear Z PR E1.
      assert (G : forall k, proj_times k sh lab st = (st, Ok tt)).
      { induction k as [|k IHk]; cbn; auto. destruct (proj_tree_ok r sh lab st Hl C) as [st2 [E2 [_ [Z _]]]].
        rewrite E2, (Z E). cbn. auto. }
      exists st. split; [apply G|]. split; [now apply raising_refl|]. now apply NW.
    + destruct PR as [x [p [q [I1 [I2 [I3 I4]]]]]]; [discriminate|].
      pose proof (depth_sum_lt st st1 x p q RA I1 I2 I3 I4).
      destruct (IH st1 Hl (raising_cons _ _ _ RA)) as [st' [A1 [A2 A3]]]; [lia|].
      exists st'. split; auto. split; [eapply raising_trans; eauto|]. intros y Hy. apply A3. now rewrite (raising_words _ _ _ RA).
Qed.

(** ---- transform.Deproj ---- *)
Definition in_some_subtree (h : heap) (x : nat) (l : list nat) : Prop := exists a, In a l /\ in_subtree h x a.
Lemma deproj_search_ok st label n : forall queue, consistent (l_heap st) r -> (forall x, In x queue -> live (l_heap st) r x) ->
  length queue + length (flat_map (subs (abs (l_heap st) r)) queue) <= n ->
  exists o, deproj_search n st label queue = Ok o /\
    match o with
    | Some q => live (l_heap st) r q /\ in_some_subtree (l_heap st) q queue /\ udep st q = Some label
    | None => forall q, live (l_heap st) r q -> in_some_subtree (l_heap st) q queue -> udep st q <> Some label
    end.
Proof.
  induction n as [|n IH]; intros queue C Hq Hn.
  - destruct queue as [|a queue]; [|cbn in Hn; lia]. cbn. exists None. split; auto. intros q _ [a [[] _]].
  - destruct queue as [|a queue]; cbn [deproj_search]; [exists None; split; auto; intros q _ [a [[] _]]|].
    assert (La : live (l_heap st) r a) by (apply Hq; simpl; auto).
    destruct (ostr_eqb (udep st a) label) eqn:E.
    + exists (Some a). split; auto. split; auto. split; [|now apply ostr_eqb_eq]. exists a. split; [simpl; auto|now left].
    + set (T := abs (l_heap st) r) in *. assert (W : wf T) by (now apply consistent_wf).
      assert (HR : Repr (l_heap st) T) by (now apply consistent_Repr).
      assert (Ech : children (l_heap st) a = chs T a) by (apply (ch_eq _ _ HR); exact La).
      destruct (IH (queue ++ children (l_heap st) a) C) as [o [Eo Ho]].
      * intros x Hx. apply in_app_iff in Hx as [Hx|Hx]; [apply Hq; simpl; auto|]. rewrite Ech in Hx. apply chs_In in Hx. now right.
      * rewrite Ech, flat_map_app, !app_length. pose proof (subs_unfold T W a) as P. apply Permutation_length in P.
        rewrite app_length in P. cbn [flat_map length] in Hn. rewrite app_length in Hn. lia.
      * exists o. split; auto. destruct o as [q|].
        -- destruct Ho as [Lq [[b [Hb Ib]] Eq]]. split; auto. split; auto. apply in_app_iff in Hb as [Hb|Hb].
           ++ exists b. split; [simpl; auto|auto].
           ++ exists a. split; [simpl; auto|]. apply (child_In _ r b a C La) in Hb as [Hb Eb]. right.
              destruct Ib as [->|U]; [now constructor|]. eapply up_trans; eauto. now constructor.
        -- intros q Lq [b [[<-|Hb] Ib]].
           ++ destruct Ib as [->|U]; [intros E2; apply ostr_eqb_eq in E2; congruence|].
              apply Ho; auto. rewrite (up_T _ r C q a Lq) in U. apply below_via_child in U as [[Hw Ew]|[c [Hc U]]].
              ** exists q. split; [|now left]. apply in_app_iff. right. rewrite Ech. apply chs_In. auto.
              ** exists c. split; [apply in_app_iff; right; rewrite Ech; exact Hc|]. right. now rewrite (up_T _ r C q c Lq).
           ++ apply Ho; auto. exists b. split; auto. apply in_app_iff; auto.
Qed.
Lemma flat_map_filter_le {A B} (f : A -> list B) (p : A -> bool) l :
  length (filter p l) + length (flat_map f (filter p l)) <= length l + length (flat_map f l).
Proof. induction l as [|a l IH]; cbn; auto. destruct (p a); cbn; rewrite ?app_length; lia. Qed.
Lemma up_comparable h x a b : up h x a -> up h x b -> in_subtree h a b \/ up h b a.
Proof.
  intros Ha Hb. revert b Hb. induction Ha as [x p Ep|x p a Ep Ha IH]; intros b Hb; inversion Hb as [? ? E|? ? ? E Hb']; subst;
    rewrite Ep in E; injection E as ->.
  - left. now left. - left. now right. - now right. - auto.
Qed.
Lemma sibling_subtree h x p sb q : consistent h r -> In x (h_desc h r) -> h_par h x = Some p -> h_par h sb = Some p -> sb <> x ->
  in_subtree h q sb -> ~ in_subtree h q x.
Proof.
  intros C Hx Ep Es Hn I J. assert (Lx : live h r x) by (now right). assert (Uxp : up h x p) by (now constructor).
  assert (Lp : live h r p) by (eapply parent_live; eauto).
  assert (NP : ~ up h p p) by (now apply (up_irrefl h r C)).
  assert (K : forall u v, h_par h u = Some p -> h_par h v = Some p -> up h u v -> False).
  { intros u v Eu Ev U. apply NP. inversion U as [? ? E|? ? ? E U']; subst; rewrite Eu in E; injection E as ->; [now constructor|].
    eapply up_trans; eauto. now constructor. }
  destruct I as [->|I], J as [J|J]; try congruence.
  - eapply (K sb x); eauto.
  - subst. eapply (K x sb); eauto.
  - destruct (up_comparable h q sb x I J) as [[->|U]|U]; [congruence|eapply (K sb x); eauto|eapply (K x sb); eauto].
Qed.
(** what processing one marked word does *)
Lemma deproj_node_ok st x p : consistent (l_heap st) r -> In x (h_desc (l_heap st) r) -> h_par (l_heap st) x = Some p ->
  exists h', deproj_node st x = (set_heap st h', Ok tt) /\ rehung (l_heap st) h' r /\ only x (l_heap st) h' r /\
    (let candidate q := exists sb, h_par (l_heap st) sb = Some p /\ sb <> x /\ live (l_heap st) r sb /\ in_subtree (l_heap st) q sb /\
       udep st q = Some (l_pproj st x) /\ live (l_heap st) r q in
     (l_pproj st x = [] \/ (forall q, ~ candidate q)) /\ h' = l_heap st \/
     l_pproj st x <> [] /\ exists q, candidate q /\ h_par h' x = Some q).
Proof.
  intros C Hx Ep. unfold deproj_node. destruct (l_pproj st x) as [|ch label0] eqn:El.
  - exists (l_heap st). split; [now destruct st|]. split; [now apply rehung_refl|]. split; [intros y _ _; auto|]. left. auto.
  - set (label := ch :: label0) in *. unfold the_parent. rewrite Ep.
    assert (Lp : live (l_heap st) r p) by (eapply parent_live; eauto; now right).
    set (T := abs (l_heap st) r) in *. assert (W : wf T) by (now apply consistent_wf).
    assert (HR : Repr (l_heap st) T) by (now apply consistent_Repr).
    assert (Ech : children (l_heap st) p = chs T p) by (apply (ch_eq _ _ HR); exact Lp).
    destruct (deproj_search_ok st label (fuel (l_heap st)) (filter (fun n => negb (Nat.eqb n x)) (children (l_heap st) p)) C) as [o [Eo Ho]].
    + intros y Hy. apply filter_In in Hy as [Hy _]. rewrite Ech in Hy. apply chs_In in Hy. now right.
    + etransitivity; [exact (flat_map_filter_le (subs T) _ _)|]. rewrite Ech. pose proof (subs_unfold T W p) as P. apply Permutation_length in P.
      rewrite app_length in P. fold T. rewrite <- P. unfold subs. pose proof (filter_length_le (fun c => belowb T c p) (a_words T)).
      pose proof (words_lt_next _ T W HR). unfold fuel. lia.
    + rewrite Eo. 
      assert (QI : forall q, in_some_subtree (l_heap st) q (filter (fun n => negb (Nat.eqb n x)) (children (l_heap st) p)) <->
        exists sb, h_par (l_heap st) sb = Some p /\ sb <> x /\ live (l_heap st) r sb /\ in_subtree (l_heap st) q sb).
      { intros q. split.
        - intros [b [Hb Ib]]. apply filter_In in Hb as [Hb Nb]. apply negb_true_iff, Nat.eqb_neq in Nb.
          apply (child_In _ r b p C Lp) in Hb as [Hb Eb]. exists b. split; auto. split; auto. split; auto. now right.
        - intros [b [Eb [Nb [Lb Ib]]]]. exists b. split; auto. apply filter_In. split; [|now apply negb_true_iff, Nat.eqb_neq].
          apply (child_In _ r b p C Lp). split; auto. now destruct (parent_live _ _ _ _ C Lb Eb). }
      destruct o as [q|].
      * destruct Ho as [Lq [Iq Eq]]. apply QI in Iq as [sb [S1 [S2 [S3 S4]]]].
        destruct (assign_ok r st x q C Hx Lq) as [h' [E [R [P O]]]].
        { eapply sibling_subtree; eauto. }
        exists h'. split; auto. split; auto. split; auto. right. split; [discriminate|]. exists q. split; auto. exists sb. auto 10.
      * exists (l_heap st). split; [now destruct st|]. split; [now apply rehung_refl|]. split; [intros y _ _; auto|].
        left. split; auto. right. intros q [sb [S1 [S2 [S3 [S4 [S5 S6]]]]]]. apply (Ho q S6); auto. apply QI. exists sb. auto.
Qed.
Lemma deproj_ok st : consistent (l_heap st) r ->
  exists h', deproj st r = (set_heap st h', Ok tt) /\ rehung (l_heap st) h' r /\
    (forall x, In x (h_desc (l_heap st) r) -> l_pproj st x = [] -> h_par h' x = h_par (l_heap st) x).
Proof.
  intros C. unfold deproj, each_word.
  pose (P := fun st' => exists h', st' = set_heap st h' /\ rehung (l_heap st) h' r /\
    (forall x, In x (h_desc (l_heap st) r) -> l_pproj st x = [] -> h_par h' x = h_par (l_heap st) x)).
  destruct (for_each_inv P deproj_node (h_desc (l_heap st) r) st) as [st' [E [h' [-> [R K]]]]].
  - intros x st1 Hx [h1 [-> [R1 K1]]].
    assert (Hx1 : In x (h_desc h1 r)) by (now rewrite (rh_words _ _ _ R1)).
    destruct (parent_exists h1 r x (rh_consistent _ _ _ R1) Hx1) as [p [Ep _]].
    destruct (deproj_node_ok (set_heap st h1) x p (rh_consistent _ _ _ R1) Hx1 Ep) as [h2 [E2 [R2 [O2 D]]]].
    exists (set_heap st h2). split; auto. exists h2. split; auto. split; [eapply rehung_trans; eauto|].
    intros y Hy Ey. rewrite <- K1 by auto. destruct (Nat.eq_dec y x) as [->|Hn].
    + cbn in D. destruct D as [[_ ->]|[D _]]; auto. contradiction.
    + apply O2; auto. cbn. right. now rewrite (rh_words _ _ _ R1).
  - exists (l_heap st). split; [now destruct st|]. split; [now apply rehung_refl|auto].
  - exists h'. auto.
Qed.

(** ---- demo.RehangPrepositions ---- *)
Lemma rehangprep_node_ok st x p g : consistent (l_heap st) r -> In x (h_desc (l_heap st) r) -> l_upos st x = Some (s "ADP") ->
  h_par (l_heap st) x = Some p -> h_par (l_heap st) p = Some g ->
  exists h', rehangprep_node st x = (set_heap st h', Ok tt) /\ rehung (l_heap st) h' r /\
    h_par h' x = Some g /\ h_par h' p = Some x /\ forall y, y <> x -> y <> p -> live (l_heap st) r y -> h_par h' y = h_par (l_heap st) y.
Proof.
  intros C Hx EU Ep Eg. unfold rehangprep_node. rewrite EU. change (ostr_eqb (Some (s "ADP")) (s "ADP")) with true. cbn iota.
  unfold the_parent. rewrite Ep, Eg.
  destruct (flip_ok r true st x p g C Hx Ep Eg) as [st1 [st2 [st3 [E1 [E2 [E3 [R [D1 [D2 [D3 [A [B Q]]]]]]]]]]]].
  rewrite E1. cbn [bind]. injection E2 as <-. rewrite E3. exists (l_heap st3). split; [destruct st, st3; cbn in *; unfold set_heap; cbn; congruence|].
  auto.
Qed.
Lemma rehangprep_root st x : consistent (l_heap st) r -> In x (h_desc (l_heap st) r) -> l_upos st x = Some (s "ADP") ->
  h_par (l_heap st) x = Some r -> rehangprep_node st x = (st, Raise ValueError).
Proof.
  intros C Hx EU Ep. unfold rehangprep_node. rewrite EU. change (ostr_eqb (Some (s "ADP")) (s "ADP")) with true. cbn iota.
  unfold the_parent. rewrite Ep, (c_top _ _ C). unfold assign_parent. rewrite (set_parent_none _ r C x Hx). now destruct st.
Qed.
End Block.

(** ---- statements used by Props_Rehang, in terms of the specification only ---- *)
Section Statements.
Variable (r : nat).
Lemma lifting_spec st st' : lifting r st st' -> rehung (l_heap st) (l_heap st') r /\ lifted (l_heap st) (l_heap st') r /\ same_labels st st'.
Proof. intros L. split; [apply L|]. split; [now apply (lifting_lifted r st st')|apply L]. Qed.
Lemma raising_spec st st' : raising r st st' -> rehung (l_heap st) (l_heap st') r /\ lifted (l_heap st) (l_heap st') r.
Proof. intros [G U]. split; [apply G|]. intros x p Hx Ep. apply U; [now right|now constructor]. Qed.
Lemma udep_in_false st ds : (forall d, In d ds -> udep st r <> Some d) -> udep_in st r ds = false.
Proof. intros H. destruct (udep_in st r ds) eqn:E; auto. apply udep_in_spec in E as [d [A B]]. exfalso. eapply H; eauto. Qed.

Lemma root_flatten_prop st dep : consistent (l_heap st) r ->
  rehung (l_heap st) (l_heap (root_flatten st r dep)) r /\ same_labels st (root_flatten st r dep) /\
  forall x, In x (h_desc (l_heap st) r) -> h_par (l_heap (root_flatten st r dep)) x = Some r /\ h_ch (l_heap (root_flatten st r dep)) x = [].
Proof.
  intros C. destruct (flatten_prop (l_heap st) r C) as [A [B [D E]]].
  destruct (flatten_ok (l_heap st) (abs (l_heap st) r) (consistent_wf _ _ C) (consistent_Repr _ _ C)) as [_ [F [[S1 S2 S3 S4] EO]]].
  cbn [a_root abs] in *. cbn [root_flatten l_heap set_heap]. split; [|split].
  - split; auto. intros y Hy Ny. destruct F as [F1 F2 F3 F4]. unfold same_object.
    rewrite S2, S3, S4, EO. auto 10.
  - intros x. auto.
  - auto.
Qed.
Lemma nonprojective_words_In h x : consistent h r -> In x (h_desc h r) ->
  (In x (nonprojective_words r h) <-> is_nonprojective h x = Ok true).
Proof.
  intros C Hx. unfold nonprojective_words. rewrite filter_In.
  destruct (nonproj_total r h x C Hx) as [b E]. rewrite E. split; [intros [_ ->]; auto|intros X; injection X as ->; auto].
Qed.
Lemma proj_prop sh lab st : lab <> LOther -> consistent (l_heap st) r ->
  exists st', proj_tree sh lab st r = (st', Ok tt) /\
    rehung (l_heap st) (l_heap st') r /\ lifted (l_heap st) (l_heap st') r /\
    ((forall x, In x (h_desc (l_heap st) r) -> is_nonprojective (l_heap st) x = Ok false) -> st' = st) /\
    (forall x, In x (h_desc (l_heap st) r) -> is_nonprojective (l_heap st) x = Ok false -> h_par (l_heap st') x = h_par (l_heap st) x) /\
    ((exists x, In x (h_desc (l_heap st) r) /\ is_nonprojective (l_heap st) x = Ok true) ->
     exists x p q, In x (h_desc (l_heap st) r) /\ h_par (l_heap st) x = Some p /\ h_par (l_heap st') x = Some q /\ up (l_heap st) p q).
Proof.
  intros Hl C. destruct (proj_tree_ok r sh lab st Hl C) as [st' [E [RA [Z [K PR]]]]]. exists st'. split; auto.
  destruct (raising_spec _ _ RA) as [A B]. split; auto. split; auto. split; [|split].
  - intros H. apply Z. destruct (nonprojective_words r (l_heap st)) as [|w l] eqn:En; auto.
    assert (I : In w (nonprojective_words r (l_heap st))) by (rewrite En; simpl; auto).
    assert (Hw : In w (h_desc (l_heap st) r)) by (unfold nonprojective_words in I; apply filter_In in I; tauto).
    apply (nonprojective_words_In _ w C Hw) in I. rewrite (H w Hw) in I. discriminate.
  - intros x Hx Ex. apply K; auto. rewrite (nonprojective_words_In _ x C Hx). congruence.
  - intros [x [Hx Ex]]. apply PR. intros N. apply (nonprojective_words_In _ x C Hx) in Ex. rewrite N in Ex. destruct Ex.
Qed.
Lemma proj_times_prop sh lab st : lab <> LOther -> consistent (l_heap st) r ->
  let n := length (h_desc (l_heap st) r) in
  exists st', proj_times r (n * S n) sh lab st = (st', Ok tt) /\
    rehung (l_heap st) (l_heap st') r /\ lifted (l_heap st) (l_heap st') r /\
    forall x, In x (h_desc (l_heap st) r) -> is_nonprojective (l_heap st') x = Ok false.
Proof.
  intros Hl C n. destruct (proj_times_ok r sh lab (n * S n) st Hl C (depth_sum_bound r _)) as [st' [E [RA N]]].
  exists st'. destruct (raising_spec _ _ RA) as [A B]. auto.
Qed.
Lemma flatten_tree_plain st : consistent (l_heap st) r ->
  exists st', flatten_tree false st r = (st', Ok tt) /\ rehung (l_heap st) (l_heap st') r /\
    forall x, In x (h_desc (l_heap st) r) -> h_par (l_heap st') x = Some r /\ l_dep st' x = Some (s "root").
Proof. intros C. destruct (flatten_tree_ok r false st C (or_intror eq_refl)) as [st' [A [B [D _]]]]. exists st'. auto. Qed.
Lemma flatten_tree_oneroot st first rest : consistent (l_heap st) r -> h_desc (l_heap st) r = first :: rest ->
  exists st', flatten_tree true st r = (st', Ok tt) /\ rehung (l_heap st) (l_heap st') r /\
    h_par (l_heap st') first = Some r /\ l_dep st' first = Some (s "root") /\
    forall x, In x rest -> h_par (l_heap st') x = Some first /\ l_dep st' x = Some (s "dep").
Proof.
  intros C Ed. destruct (flatten_tree_ok r true st C) as [st' [A [B [_ [D _]]]]]; [left; congruence|].
  exists st'. auto.
Qed.
Lemma fixchain_prop ds st : consistent (l_heap st) r -> (forall d, In d ds -> udep st r <> Some d) ->
  exists st', fixchain ds st r = (st', Ok tt) /\
    rehung (l_heap st) (l_heap st') r /\ lifted (l_heap st) (l_heap st') r /\ same_labels st st'.
Proof.
  intros C H. destruct (fixchain_ok r ds st C (udep_in_false _ _ H)) as [st' [E [L _]]]. exists st'. split; auto. now apply lifting_spec.
Qed.
Lemma no_chain_prop ds st : consistent (l_heap st) r -> (forall d, In d ds -> udep st r <> Some d) ->
  (forall x p d, In x (h_desc (l_heap st) r) -> h_par (l_heap st) x = Some p -> In d ds ->
     udep st x = Some d -> udep st p = Some d -> (h_ord (l_heap st) p < h_ord (l_heap st) x)%Z) ->
  exists st', fixchain ds st r = (st', Ok tt) /\
    forall x p d, In x (h_desc (l_heap st') r) -> h_par (l_heap st') x = Some p -> In d ds ->
      ~ (udep st' x = Some d /\ udep st' p = Some d).
Proof.
  intros C H HI. destruct (fixchain_ok r ds st C (udep_in_false _ _ H)) as [st' [E [L N]]]. exists st'. split; auto.
  intros x p d Hx Ep Hd. rewrite (lifting_words _ _ _ L) in Hx. rewrite !(udep_kept st st' _ (li_labels _ _ _ L)). now apply (N HI x Hx).
Qed.
Lemma fixright_edge_prop d st x p g : consistent (l_heap st) r -> In x (h_desc (l_heap st) r) ->
  h_par (l_heap st) x = Some p -> h_par (l_heap st) p = Some g -> udep st x = Some d ->
  (h_ord (l_heap st) x < h_ord (l_heap st) p)%Z ->
  exists st', fixright_node [d] st x = (st', Ok tt) /\ rehung (l_heap st) (l_heap st') r /\
    h_par (l_heap st') x = Some g /\ h_par (l_heap st') p = Some x /\
    l_dep st' x = l_dep st p /\ l_dep st' p = l_dep st x /\
    forall y, y <> x -> y <> p -> live (l_heap st) r y -> l_dep st' y = l_dep st y /\
      (h_par (l_heap st) y = Some p -> d <> s "conj" -> h_par (l_heap st') y = Some x) /\
      (h_par (l_heap st) y <> Some p \/ d = s "conj" -> h_par (l_heap st') y = h_par (l_heap st) y).
Proof.
  intros C Hx Ep Eg Ed Ho. destruct (fixright_one r d st x p g C Hx Ep Eg Ed Ho) as [st' [A1 [A2 [A3 [A4 [A5 [A6 A7]]]]]]].
  exists st'. conjs; auto. intros y Hyx Hyp Ly. destruct (A7 y Hyx Hyp Ly) as [D ->]. split; auto. split.
  - intros E Hd. unfold has_parent. rewrite E, Nat.eqb_refl. destruct (str_eqb d (s "conj")) eqn:Ec; auto. apply str_eqb_eq in Ec. contradiction.
  - intros [N| ->]; [|now rewrite (proj2 (str_eqb_eq _ _) eq_refl)].
    unfold has_parent. destruct (h_par (l_heap st) y) as [q|]; [|now rewrite andb_false_r].
    destruct (Nat.eqb_spec q p) as [->|]; [congruence|]. now rewrite andb_false_r.
Qed.
Lemma fixleaf_prop ds st : consistent (l_heap st) r -> (forall d, In d ds -> udep st r <> Some d) ->
  exists st', fixleaf ds st r = (st', Ok tt) /\
    rehung (l_heap st) (l_heap st') r /\ lifted (l_heap st) (l_heap st') r /\ same_labels st st' /\
    (forall x c d, In d ds -> In x (h_desc (l_heap st') r) -> In c (h_desc (l_heap st') r) ->
       udep st' x = Some d -> h_par (l_heap st') c = Some x ->
       exists a, udep st' c = Some a /\
         In a ([s "fixed"; s "punct"; s "goeswith"; s "reparandum"] ++ if str_eqb d (s "cc") then [] else [s "conj"; s "cc"])) /\
    (forall c p, In c (h_desc (l_heap st) r) -> h_par (l_heap st) c = Some p -> (forall d, In d ds -> udep st p <> Some d) ->
       h_par (l_heap st') c = Some p).
Proof.
  intros C H. destruct (fixleaf_ok r ds st C (udep_in_false _ _ H)) as [st' [E [L [A B]]]]. exists st'. split; auto.
  destruct (lifting_spec _ _ L) as [R [LL SL]]. split; auto. split; auto. split; auto. split.
  - intros x c d Hd Hx Hc Ex Ec. rewrite (lifting_words _ _ _ L) in Hx, Hc.
    rewrite (udep_kept st st' _ (li_labels _ _ _ L)) in Ex. specialize (A x d Hx Hd Ex c Hc Ec).
    apply udep_in_spec in A as [a [A1 A2]]. exists a. rewrite (udep_kept st st' _ (li_labels _ _ _ L)). auto.
  - intros c p Hc Ep N. apply B; auto. destruct (udep_in st p ds) eqn:EE; auto. apply udep_in_spec in EE as [d [D1 D2]]. exfalso. eapply N; eauto.
Qed.
Lemma fixpunctchild_prop st : consistent (l_heap st) r -> l_dep st r <> Some (s "punct") ->
  exists st', fixpunctchild st r = (st', Ok tt) /\
    rehung (l_heap st) (l_heap st') r /\ lifted (l_heap st) (l_heap st') r /\ same_labels st st' /\
    (forall x p, In x (h_desc (l_heap st') r) -> h_par (l_heap st') x = Some p -> l_dep st' p <> Some (s "punct")) /\
    (forall x p, In x (h_desc (l_heap st) r) -> h_par (l_heap st) x = Some p -> l_dep st p <> Some (s "punct") ->
       h_par (l_heap st') x = Some p).
Proof.
  intros C H. destruct (fixpunctchild_ok r st C H) as [st' [E [L [A B]]]]. exists st'. split; auto.
  destruct (lifting_spec _ _ L) as [R [LL SL]]. split; auto. split; auto. split; auto. split; auto.
  intros x p Hx Ep. rewrite (lifting_words _ _ _ L) in Hx. rewrite (proj1 (SL p)). now apply (A x).
Qed.
Lemma fixroot_prop st : consistent (l_heap st) r -> h_desc (l_heap st) r <> [] ->
  exists st' first rest, h_ch (l_heap st) r = first :: rest /\
    fixroot st r = (st', Ok tt) /\ rehung (l_heap st) (l_heap st') r /\
    h_ch (l_heap st') r = [first] /\ udep st' first = Some (s "root") /\
    (forall x, In x (h_desc (l_heap st') r) -> x <> first -> udep st' x <> Some (s "root")) /\
    (forall x, In x rest -> h_par (l_heap st') x = Some first /\ l_dep st' x = Some (s "parataxis")) /\
    (forall x, In x (h_desc (l_heap st) r) -> ~ In x rest -> h_par (l_heap st') x = h_par (l_heap st) x /\
       (udep st x <> Some (s "root") -> x <> first -> l_dep st' x = l_dep st x)) /\
    (udep st first = Some (s "root") -> l_dep st' first = l_dep st first).
Proof.
  intros C Hne. destruct (root_has_child r _ C Hne) as [c [Hc Ec]].
  assert (I : In c (h_ch (l_heap st) r)) by (apply (child_In _ r c r C (or_introl eq_refl)); auto).
  destruct (h_ch (l_heap st) r) as [|first rest] eqn:Ech; [destruct I|].
  destruct (fixroot_ok r st first rest C Ech) as [st' [A1 [A2 [A3 [A4 [A5 [A6 [A7 A8]]]]]]]].
  exists st', first, rest. conjs; auto. intros x Hx. rewrite (rh_words _ _ _ A2) in Hx. now apply A5.
Qed.
Lemma deproj_word_prop st x p : consistent (l_heap st) r -> In x (h_desc (l_heap st) r) -> h_par (l_heap st) x = Some p ->
  let candidate q := exists sb, h_par (l_heap st) sb = Some p /\ sb <> x /\ live (l_heap st) r sb /\ in_subtree (l_heap st) q sb /\
    udep st q = Some (l_pproj st x) /\ live (l_heap st) r q in
  exists h', deproj_node st x = (set_heap st h', Ok tt) /\ rehung (l_heap st) h' r /\
    (forall y, y <> x -> live (l_heap st) r y -> h_par h' y = h_par (l_heap st) y) /\
    ((l_pproj st x = [] \/ (forall q, ~ candidate q)) -> h' = l_heap st) /\
    (l_pproj st x <> [] -> (exists q, candidate q) -> exists q, candidate q /\ h_par h' x = Some q).
Proof.
  intros C Hx Ep candidate. destruct (deproj_node_ok r st x p C Hx Ep) as [h' [E [R [O D]]]]. exists h'. split; auto. split; auto. split; auto.
  cbn zeta in D. fold candidate in D.
  split.
  - intros H. destruct D as [[_ D]|[N [q [D _]]]]; auto. destruct H as [H|H]; [contradiction|]. exfalso. now apply (H q).
  - intros N [q Hq]. destruct D as [[[D|D] _]|[_ D]]; auto; [contradiction|]. exfalso. now apply (D q).
Qed.
End Statements.
