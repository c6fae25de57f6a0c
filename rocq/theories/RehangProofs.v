(** Proofs about the re-attaching blocks. *)
From Coq Require Import String List NArith ZArith Bool Lia Permutation.
From Verif Require Import PyStr PyStrFacts PyList PyListFacts PyExn TreeModel TreeSpec TreeFacts TreeRepr TreeOps TreeCalls
  TreeQuery TreeProps DeprelModel RehangModel RehangSpec TreeTreelet.
Import ListNotations.

Lemma set_parent_next h x p : h_next (fst (set_parent h x p)) = h_next h.
Proof.
  unfold set_parent. destruct (h_kind h x); auto. destruct (h_par h x) as [q|], p as [p|]; auto;
    repeat (cbn; match goal with |- context [if ?b then _ else _] => destruct b | |- context [match ?b with _ => _ end] => destruct b end; auto).
Qed.

Lemma live_same h h' r y : h_desc h' r = h_desc h r -> (live h' r y <-> live h r y).
Proof. unfold live. intros ->. tauto. Qed.
Lemma rehung_refl h r : consistent h r -> rehung h h r.
Proof. intros C. split; auto. intros; unfold same_object; auto 10. Qed.
Lemma rehung_trans h1 h2 h3 r : rehung h1 h2 r -> rehung h2 h3 r -> rehung h1 h3 r.
Proof.
  intros [A1 A2 A3 A4] [B1 B2 B3 B4]. split; auto; try congruence.
  intros y Hy Hn. assert (S1 := A4 y Hy Hn). assert (S2 : same_object h2 h3 y).
  { apply B4; [congruence|]. now rewrite (live_same h1 h2 r y A2). }
  unfold same_object in *. intuition congruence.
Qed.
Lemma rehung_live h h' r y : rehung h h' r -> (live h' r y <-> live h r y).
Proof. intros R. apply live_same. apply R. Qed.
Lemma rehung_ord h h' r y : consistent h r -> rehung h h' r -> live h r y -> h_ord h' y = h_ord h y.
Proof.
  intros C R [->|Hy].
  - now rewrite (c_ord0 _ _ C), (c_ord0 _ _ (rh_consistent _ _ _ R)).
  - apply In_nth_error in Hy as [i Hi].
    rewrite (r_ord h (abs h r) (consistent_Repr h r C) i y Hi).
    apply (r_ord h' (abs h' r) (consistent_Repr h' r (rh_consistent _ _ _ R)) i y). cbn. now rewrite (rh_words _ _ _ R).
Qed.

Lemma attach h r a b : consistent h r -> In a (h_desc h r) -> live h r b -> ~ in_subtree h b a ->
  exists h', set_parent h a (Some b) = (h', Ok tt) /\ rehung h h' r /\ h_par h' a = Some b /\
    (forall y, y <> a -> live h r y -> h_par h' y = h_par h y).
Proof.
  intros C Ha Hb HN. pose proof (set_parent_prop h r C a b Ha Hb) as P.
  pose proof (set_parent_next h a (Some b)) as N.
  destruct (set_parent h a (Some b)) as [h' res]. destruct P as [_ [P2 P3]]. cbn in N.
  assert (DE : {h_par h a = Some b} + {h_par h a <> Some b}) by (decide equality; apply Nat.eq_dec). destruct DE as [E|E].
  - destruct (P2 E) as [-> ->]. exists h. split; auto. split; auto using rehung_refl.
  - destruct (P3 HN E) as [-> [P4 [P5 [P6 [P7 P8]]]]]. exists h'. split; auto. split; [constructor; auto|].
    split; auto.
Qed.

Definition only (a : nat) (h h' : heap) (r : nat) : Prop := forall y, y <> a -> live h r y -> h_par h' y = h_par h y.

Lemma parent_exists h r x : consistent h r -> In x (h_desc h r) -> exists p, h_par h x = Some p /\ live h r p.
Proof. intros C. apply (c_parents h r C). Qed.
Lemma parent_live h r x p : consistent h r -> live h r x -> h_par h x = Some p -> live h r p /\ In x (h_desc h r).
Proof.
  intros C [->|Hx] E; [rewrite (c_top h r C) in E; discriminate|].
  destruct (parent_exists h r x C Hx) as [q [E2 L]]. split; auto. congruence.
Qed.
Lemma live_word_parent h r p : consistent h r -> live h r p -> p <> r -> exists g, h_par h p = Some g /\ live h r g.
Proof. intros C [->|Hp] Hn; [contradiction|]. now apply parent_exists. Qed.
Lemma in_subtree_up h a b c : in_subtree h a b -> up h b c -> up h a c.
Proof. intros [->|H] Hu; auto. eapply up_trans; eauto. Qed.
Lemma up_in_subtree h a b c : up h a b -> in_subtree h b c -> up h a c.
Proof. intros Hu [->|H]; auto. eapply up_trans; eauto. Qed.
Lemma up_not_in h r x a : consistent h r -> live h r x -> up h x a -> ~ in_subtree h a x.
Proof. intros C Hx Hu Hi. apply (up_irrefl h r C x Hx). eapply up_in_subtree; eauto. Qed.

Lemma attach_up h r a b : consistent h r -> In a (h_desc h r) -> up h a b ->
  exists h', set_parent h a (Some b) = (h', Ok tt) /\ rehung h h' r /\ h_par h' a = Some b /\ only a h h' r.
Proof.
  intros C Ha Hu. assert (La : live h r a) by now right.
  apply attach; auto; [now apply (live_up h r C a b)|now apply (up_not_in h r a b)].
Qed.
Lemma up_shrink h h' r a b : consistent h r -> only a h h' r -> h_par h' a = Some b -> up h a b ->
  forall x y, live h r x -> up h' x y -> up h x y.
Proof.
  intros C O E U x y Hx HU. revert Hx. induction HU as [x p Ep|x p y Ep HU IH]; intros Hx.
  - destruct (Nat.eq_dec x a) as [->|Hn]; [congruence|]. apply up_1. rewrite <- (O x Hn Hx). auto.
  - destruct (Nat.eq_dec x a) as [->|Hn].
    + assert (p = b) by congruence. subst p. eapply up_trans; eauto. apply IH. now apply (live_up h r C a b).
    + rewrite (O x Hn Hx) in Ep. eapply up_S; eauto. apply IH. eapply parent_live; eauto.
Qed.
Lemma up_keep h h' r a : consistent h r -> only a h h' r ->
  forall x y, live h r x -> ~ in_subtree h x a -> up h x y -> up h' x y.
Proof.
  intros C O x y Hx HN HU. induction HU as [x p Ep|x p y Ep HU IH].
  - apply up_1. rewrite O; auto. intros ->. apply HN. now left.
  - apply (up_S h' x p); [rewrite O; auto; intros ->; apply HN; now left|].
    apply IH; [eapply parent_live; eauto|]. intros Hi. apply HN. right. eapply up_in_subtree; eauto. now constructor.
Qed.

(** ---- loops over nodes ---- *)
Lemma for_each_prog (P : list nat -> lst -> Prop) f l : forall done st,
  (forall pre x post st, l = pre ++ x :: post -> P (done ++ pre) st ->
     exists st', f st x = (st', Ok tt) /\ P (done ++ pre ++ [x]) st') ->
  P done st -> exists st', for_each f l st = (st', Ok tt) /\ P (done ++ l) st'.
Proof.
  induction l as [|x l IH]; intros done st Hf HP; cbn [for_each].
  - exists st. rewrite app_nil_r. auto.
  - destruct (Hf [] x l st eq_refl) as [st1 [E P1]]; [now rewrite app_nil_r|]. rewrite E. cbn [bind].
    destruct (IH (done ++ [x]) st1) as [st2 [E2 P2]].
    + intros pre y post st0 El HP0. destruct (Hf (x :: pre) y post st0) as [st' [A B]].
      * now rewrite El.
      * now rewrite <- app_assoc in HP0.
      * exists st'. split; auto. now rewrite <- app_assoc.
    + cbn in P1. exact P1.
    + exists st2. split; auto. now rewrite <- app_assoc in P2.
Qed.
Lemma for_each_inv (P : lst -> Prop) f l : forall st,
  (forall x st, In x l -> P st -> exists st', f st x = (st', Ok tt) /\ P st') ->
  P st -> exists st', for_each f l st = (st', Ok tt) /\ P st'.
Proof.
  intros st Hf HP. apply (for_each_prog (fun _ => P) f l [] st); auto.
  intros pre x post st0 El HP0. apply Hf; auto. rewrite El, in_app_iff. simpl; auto.
Qed.

Section Block.
Variable (r : nat).

(** States reached inside a block that started in [st0]. *)
Record going (st0 st : lst) : Prop := {
  g_rehung : rehung (l_heap st0) (l_heap st) r;
  g_start : consistent (l_heap st0) r
}.
Lemma going_cons st0 st : going st0 st -> consistent (l_heap st) r.
Proof. intros [R _]. apply R. Qed.
Lemma going_words st0 st : going st0 st -> h_desc (l_heap st) r = h_desc (l_heap st0) r.
Proof. intros [R _]. apply R. Qed.
Lemma going_live st0 st y : going st0 st -> (live (l_heap st) r y <-> live (l_heap st0) r y).
Proof. intros [R _]. now apply rehung_live. Qed.
Lemma going_refl st : consistent (l_heap st) r -> going st st.
Proof. intros C. split; auto using rehung_refl. Qed.
Lemma going_step st0 st st' : going st0 st -> rehung (l_heap st) (l_heap st') r -> going st0 st'.
Proof. intros [R C] R'. split; auto. eapply rehung_trans; eauto. Qed.
Lemma going_heap st0 st st' : going st0 st -> l_heap st' = l_heap st -> going st0 st'.
Proof. intros [R C] E. split; auto. now rewrite E. Qed.

Lemma assign_ok st a b : consistent (l_heap st) r -> In a (h_desc (l_heap st) r) -> live (l_heap st) r b ->
  ~ in_subtree (l_heap st) b a ->
  exists h', assign_parent st a (Some b) = (set_heap st h', Ok tt) /\ rehung (l_heap st) h' r /\ h_par h' a = Some b /\
    only a (l_heap st) h' r.
Proof.
  intros C Ha Hb HN. destruct (attach (l_heap st) r a b C Ha Hb HN) as [h' [E [R [P O]]]].
  exists h'. unfold assign_parent. rewrite E. auto.
Qed.
Lemma assign_up_ok st a b : consistent (l_heap st) r -> In a (h_desc (l_heap st) r) -> up (l_heap st) a b ->
  exists h', assign_parent st a (Some b) = (set_heap st h', Ok tt) /\ rehung (l_heap st) h' r /\ h_par h' a = Some b /\
    only a (l_heap st) h' r.
Proof.
  intros C Ha Hu. destruct (attach_up (l_heap st) r a b C Ha Hu) as [h' [E [R [P O]]]].
  exists h'. unfold assign_parent. rewrite E. auto.
Qed.
Lemma root_not_in h x : consistent h r -> In x (h_desc h r) -> ~ in_subtree h r x.
Proof.
  intros C Hx [E|U]; [apply (c_rootout h r C); congruence|].
  inversion U as [? ? E|? ? ? E]; subst; rewrite (c_top h r C) in E; discriminate.
Qed.

(** ---- transform.Flatten ---- *)
Lemma flatten_tree_ok oneroot st : consistent (l_heap st) r ->
  h_desc (l_heap st) r <> [] \/ oneroot = false ->
  exists st', flatten_tree oneroot st r = (st', Ok tt) /\ rehung (l_heap st) (l_heap st') r /\
    (oneroot = false -> forall x, In x (h_desc (l_heap st) r) ->
       h_par (l_heap st') x = Some r /\ l_dep st' x = Some (s "root")) /\
    (oneroot = true -> forall first rest, h_desc (l_heap st) r = first :: rest ->
       h_par (l_heap st') first = Some r /\ l_dep st' first = Some (s "root") /\
       forall x, In x rest -> h_par (l_heap st') x = Some first /\ l_dep st' x = Some (s "dep")) /\
    (forall x, ~ In x (h_desc (l_heap st) r) -> l_dep st' x = l_dep st x).
Proof.
  intros C Hne. unfold flatten_tree.
  pose (P1 := fun done st' => going st st' /\
    (forall x, In x done -> h_par (l_heap st') x = Some r /\ l_dep st' x = Some (s "root")) /\
    (forall x, ~ In x (h_desc (l_heap st) r) -> l_dep st' x = l_dep st x)).
  match goal with |- context [for_each ?f ?l st] =>
    destruct (for_each_prog P1 f l [] st) as [st1 [E1 [G1 [D1 L1]]]] end.
  - intros pre x post st1 El [G [D L]]. cbn [app] in *.
    assert (Hx : In x (h_desc (l_heap st1) r)).
    { rewrite (going_words _ _ G), El, in_app_iff. simpl; auto. }
    rewrite (c_roots _ _ (going_cons _ _ G) x) by (now right).
    destruct (assign_ok st1 x r (going_cons _ _ G) Hx (or_introl eq_refl)) as [h' [E [R [Px O]]]].
    { apply root_not_in; auto. apply (going_cons _ _ G). }
    rewrite E. cbn [bind]. eexists. split; [reflexivity|]. split; [|split].
    + apply (going_step st st1); auto.
    + intros y Hy. rewrite in_app_iff in Hy. cbn [l_heap l_dep set_dep set_heap].
      unfold upd. destruct (Nat.eqb_spec y x) as [->|Hn]; [auto|].
      destruct Hy as [Hy|[->|[]]]; [|contradiction]. rewrite O; auto.
      right. rewrite (going_words _ _ G), El, in_app_iff. auto.
    + intros y Hy. cbn. unfold upd. destruct (Nat.eqb_spec y x) as [->|]; auto.
      exfalso. apply Hy. rewrite El, in_app_iff. simpl; auto.
  - split; [now apply going_refl|]. split; [intros ? []|auto].
  - rewrite E1. cbn [bind app] in *. destruct oneroot.
    + destruct (h_desc (l_heap st1) r) as [|first rest] eqn:ED.
      { exfalso. rewrite (going_words _ _ G1) in ED. destruct Hne; [contradiction|discriminate]. }
      assert (ED0 : h_desc (l_heap st) r = first :: rest) by (now rewrite <- (going_words _ _ G1)).
      assert (ND : NoDup (first :: rest)) by (rewrite <- ED; apply (c_once _ _ (going_cons _ _ G1))).
      pose (P2 := fun done st' => going st st' /\ h_par (l_heap st') first = Some r /\ l_dep st' first = Some (s "root") /\
        (forall x, In x done -> h_par (l_heap st') x = Some first /\ l_dep st' x = Some (s "dep")) /\
        (forall x, ~ In x (h_desc (l_heap st) r) -> l_dep st' x = l_dep st x)).
      unfold attach_all.
      match goal with |- context [for_each ?f ?l st1] =>
        destruct (for_each_prog P2 f l [] st1) as [st2 [E2 [G2 [F1 [F2 [D2 L2]]]]]] end.
      * intros pre x post st2 El [G [F1 [F2 [D L]]]]. cbn [app] in *.
        assert (Hx : In x rest) by (rewrite El, in_app_iff; simpl; auto).
        assert (Hxf : x <> first) by (intros ->; inversion ND; contradiction).
        assert (Hxd : In x (h_desc (l_heap st2) r)) by (rewrite (going_words _ _ G), ED0; simpl; auto).
        assert (Hf : live (l_heap st2) r first) by (right; rewrite (going_words _ _ G), ED0; simpl; auto).
        destruct (assign_ok st2 x first (going_cons _ _ G) Hxd Hf) as [h' [E [R [Px O]]]].
        { intros [Eq|U]; [congruence|]. inversion U as [? ? Eq|? q ? Eq U']; subst; rewrite F1 in Eq; injection Eq as <-.
          - apply (c_rootout _ _ (going_cons _ _ G)). auto.
          - exact (root_not_in _ _ (going_cons _ _ G) Hxd (or_intror U')). }
        rewrite E. cbn [bind]. eexists. split; [reflexivity|]. split; [apply (going_step st st2); auto|].
        cbn [l_heap l_dep set_dep set_heap]. unfold upd.
        split; [rewrite O; auto|]. split; [destruct (Nat.eqb_spec first x); [congruence|auto]|]. split.
        -- intros y Hy. rewrite in_app_iff in Hy. destruct (Nat.eqb_spec y x) as [->|Hn]; [auto|].
           destruct Hy as [Hy|[->|[]]]; [|contradiction]. rewrite O; auto.
           right. rewrite (going_words _ _ G), ED0, El. simpl. rewrite in_app_iff. auto.
        -- intros y Hy. destruct (Nat.eqb_spec y x) as [->|]; auto. exfalso. apply Hy. rewrite ED0. simpl; auto.
      * assert (Hf : In first (h_desc (l_heap st) r)) by (rewrite ED0; simpl; auto).
        destruct (D1 first) as [A B]; [exact Hf|]. split; auto. split; auto. split; auto. split; [intros ? []|auto].
      * exists st2. split; auto. split; [apply G2|]. split; [discriminate|]. split; [|auto].
        intros _ f2 r2 Ef. rewrite ED0 in Ef. injection Ef as <- <-. auto.
    + exists st1. split; auto. split; [apply G1|]. split; [|split; [discriminate|auto]].
      intros _ x Hx. apply D1. auto.
Qed.
Lemma flatten_tree_empty st : consistent (l_heap st) r -> h_desc (l_heap st) r = [] ->
  flatten_tree true st r = (st, Raise IndexError).
Proof. intros C E. unfold flatten_tree. rewrite E. cbn. now rewrite E. Qed.

(** ---- ud.FixChain ---- *)
Definition labels_kept (st0 st : lst) : Prop := same_labels st0 st.
Lemma labels_heap st0 st h : labels_kept st0 st -> labels_kept st0 (set_heap st h).
Proof. intros L x. apply L. Qed.
Lemma udep_kept st0 st x : labels_kept st0 st -> udep st x = udep st0 x.
Proof. intros L. unfold udep. now rewrite (proj1 (L x)). Qed.
Lemma udep_in_kept st0 st x l : labels_kept st0 st -> udep_in st x l = udep_in st0 x l.
Proof. intros L. unfold udep_in. now rewrite (udep_kept st0 st x L). Qed.
Lemma labels_trans st0 st1 st2 : labels_kept st0 st1 -> labels_kept st1 st2 -> labels_kept st0 st2.
Proof. intros A B x. destruct (A x) as [? [? ?]], (B x) as [? [? ?]]. repeat split; congruence. Qed.
Lemma labels_refl st : labels_kept st st.
Proof. intros x; auto. Qed.
Lemma ostr_eqb_eq a b : ostr_eqb a b = true <-> a = Some b.
Proof. destruct a; cbn; [rewrite str_eqb_eq|]; split; congruence. Qed.
Lemma udep_in_spec st x l : udep_in st x l = true <-> exists d, In d l /\ udep st x = Some d.
Proof.
  unfold udep_in. rewrite existsb_exists. split; intros [d [A B]]; exists d; split; auto; now apply ostr_eqb_eq.
Qed.

Lemma lifted_refl h : consistent h r -> lifted h h r.
Proof. intros C x p Hx Hp. now apply up_1. Qed.
(** one lift *)
Lemma lift_ok st x p g : consistent (l_heap st) r -> In x (h_desc (l_heap st) r) ->
  h_par (l_heap st) x = Some p -> h_par (l_heap st) p = Some g ->
  exists h', lift_once st x = (set_heap st h', Ok tt) /\ rehung (l_heap st) h' r /\ h_par h' x = Some g /\ only x (l_heap st) h' r.
Proof.
  intros C Hx Ep Eg. unfold lift_once, the_parent. rewrite Ep, Eg.
  apply assign_up_ok; auto. eapply up_S; eauto. now constructor.
Qed.

(** States in which every word hangs on an original ancestor and labels are the original ones. *)
Record lifting (st0 st : lst) : Prop := {
  li_going : going st0 st;
  li_labels : labels_kept st0 st;
  li_up : forall x y, live (l_heap st0) r x -> up (l_heap st) x y -> up (l_heap st0) x y
}.
Lemma lifting_refl st : consistent (l_heap st) r -> lifting st st.
Proof. intros C. split; auto using going_refl, labels_refl. Qed.
Lemma lifting_lifted st0 st : lifting st0 st -> lifted (l_heap st0) (l_heap st) r.
Proof. intros [G _ U] x p Hx Hp. apply U; [now right|]. now apply up_1. Qed.
Lemma lifting_assign st0 st x b h' : lifting st0 st -> rehung (l_heap st) h' r -> h_par h' x = Some b ->
  only x (l_heap st) h' r -> up (l_heap st) x b -> lifting st0 (set_heap st h').
Proof.
  intros [G L U] R P O Hu. split.
  - apply (going_step st0 st); auto.
  - now apply labels_heap.
  - intros a y Ha Hy. apply U; auto.
    eapply (up_shrink (l_heap st) h' r x b); eauto; [apply (going_cons _ _ G)|]. now apply (going_live _ _ _ G).
Qed.
Lemma lifting_words st0 st : lifting st0 st -> h_desc (l_heap st) r = h_desc (l_heap st0) r.
Proof. intros [G _ _]. now apply going_words. Qed.
Lemma lifting_cons st0 st : lifting st0 st -> consistent (l_heap st) r.
Proof. intros [G _ _]. eapply going_cons; eauto. Qed.

(** A parent with a label that the root does not have is a word, so it has a parent. *)
Lemma labelled_parent st p ds : consistent (l_heap st) r -> live (l_heap st) r p ->
  udep_in st p ds = true -> udep_in st r ds = false -> exists g, h_par (l_heap st) p = Some g /\ live (l_heap st) r g.
Proof. intros C Lp H1 H2. apply live_word_parent; auto. intros ->. congruence. Qed.

Lemma fixchain_node_ok ds : forall st0 st x, udep_in st0 r ds = false -> lifting st0 st -> In x (h_desc (l_heap st) r) ->
  exists st', fixchain_node ds st x = (st', Ok tt) /\ lifting st0 st' /\
    only x (l_heap st) (l_heap st') r /\
    (* the final parent, if the old one was not in a chain with a chained grandparent *)
    (forall p, h_par (l_heap st) x = Some p ->
       (forall d, udep st0 x = Some d -> In d ds -> udep st0 p = Some d ->
          forall g, h_par (l_heap st) p = Some g -> udep st0 g <> Some d) ->
       exists q, h_par (l_heap st') x = Some q /\ (q = p \/ (h_par (l_heap st) p = Some q /\ udep st0 x = udep st0 p)) /\
         forall d, In d ds -> ~ (udep st0 x = Some d /\ udep st0 q = Some d)).
Proof.
  induction ds as [|d ds IH]; intros st0 st x Hr L Hx; cbn [fixchain_node].
  - exists st. split; auto. split; auto. split; [intros y _ _; auto|]. intros p Ep _. exists p. auto 6.
  - assert (Hr' : udep_in st0 r ds = false) by (unfold udep_in in *; cbn [existsb] in Hr; apply orb_false_iff in Hr; tauto).
    destruct (parent_exists _ _ _ (lifting_cons _ _ L) Hx) as [p [Ep Lp]].
    rewrite (udep_kept st0 st x (li_labels _ _ L)).
    destruct (ostr_eqb (udep st0 x) d) eqn:Ex.
    + unfold the_parent. rewrite Ep. rewrite (udep_kept st0 st p (li_labels _ _ L)).
      destruct (ostr_eqb (udep st0 p) d) eqn:Epd.
      * destruct (labelled_parent st p (d :: ds) (lifting_cons _ _ L) Lp) as [g [Eg Lg]].
        { rewrite (udep_in_kept st0 st _ _ (li_labels _ _ L)). unfold udep_in. cbn. now rewrite Epd. }
        { now rewrite (udep_in_kept st0 st _ _ (li_labels _ _ L)). }
        destruct (lift_ok st x p g (lifting_cons _ _ L) Hx Ep Eg) as [h' [E [R [P O]]]]. rewrite E. cbn [bind].
        assert (L' : lifting st0 (set_heap st h')).
        { eapply lifting_assign; eauto. eapply up_S; eauto. now constructor. }
        destruct (IH st0 (set_heap st h') x Hr' L') as [st' [E' [L2 [O2 Q]]]].
        { cbn. now rewrite (rh_words _ _ _ R). }
        exists st'. split; auto. split; auto. split.
        { intros y Hn Hy. rewrite O2; auto. cbn. now rewrite (rehung_live _ _ _ _ R). }
        intros p0 Ep0 Hch. assert (p0 = p) by congruence. subst p0.
        apply ostr_eqb_eq in Ex, Epd.
        assert (Ng : udep st0 g <> Some d) by (apply (Hch d); auto; simpl; auto).
        destruct (Q g P) as [q [Q1 [Q2 Q3]]].
        { intros d' Hd1 Hd2 Hd3. exfalso. congruence. }
        exists q. split; auto. destruct Q2 as [->|[Q2 Q2']]; [|exfalso; congruence].
        split; [right; split; congruence|]. intros d' [<-|Hd] [A B]; [contradiction|]. apply (Q3 d'); auto.
      * destruct (IH st0 st x Hr' L Hx) as [st' [E' [L2 [O2 Q]]]]. exists st'. split; auto. split; auto. split; auto.
        intros p0 Ep0 Hch. assert (p0 = p) by congruence. subst p0.
        destruct (Q p Ep) as [q [Q1 [Q2 Q3]]].
        { intros d' A B. apply (Hch d'); auto. simpl; auto. }
        exists q. split; auto. split; auto. intros d' [<-|Hd] [A B]; [|apply (Q3 d'); auto].
        apply ostr_eqb_eq in Ex. destruct Q2 as [->|[Q2 Q2']].
        -- apply ostr_eqb_eq in B. congruence.
        -- rewrite <- Q2' in Epd. rewrite (proj2 (ostr_eqb_eq _ _) Ex) in Epd. discriminate.
    + destruct (IH st0 st x Hr' L Hx) as [st' [E' [L2 [O2 Q]]]]. exists st'. split; auto. split; auto. split; auto.
      intros p0 Ep0 Hch. assert (p0 = p) by congruence. subst p0.
      destruct (Q p Ep) as [q [Q1 [Q2 Q3]]].
      { intros d' A B. apply (Hch d'); auto. simpl; auto. }
      exists q. split; auto. split; auto. intros d' [<-|Hd] [A B]; [|apply (Q3 d'); auto].
      apply ostr_eqb_eq in A. congruence.
Qed.
End Block.
