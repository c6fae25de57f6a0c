(** Proofs about ud.FixPunctChild, ud.FixRoot, transform.Proj and transform.Deproj on whole trees. *)
From Coq Require Import String List NArith ZArith Bool Lia Permutation Sorted.
From Verif Require Import PyStr PyStrFacts PyList PyListFacts PyExn TreeModel TreeSpec TreeFacts TreeRepr TreeOps TreeCalls
  TreeQuery TreeProps DeprelModel RehangModel RehangSpec TreeTreelet RehangProofs RehangFix.
Import ListNotations.

Section Block.
Variable (r : nat).
Notation going := (going r).
Notation lifting := (lifting r).

Lemma fixpunctchild_ok st : consistent (l_heap st) r -> l_dep st r <> Some (s "punct") ->
  exists st', fixpunctchild st r = (st', Ok tt) /\ lifting st st' /\
    (forall x p, In x (h_desc (l_heap st) r) -> h_par (l_heap st') x = Some p -> l_dep st p <> Some (s "punct")) /\
    (forall x p, In x (h_desc (l_heap st) r) -> h_par (l_heap st) x = Some p -> l_dep st p <> Some (s "punct") ->
       h_par (l_heap st') x = Some p).
Proof.
  intros C Hr. unfold fixpunctchild, each_word.
  pose (P := fun done st' => lifting st st' /\
    (forall x, In x (h_desc (l_heap st) r) -> ~ In x done -> h_par (l_heap st') x = h_par (l_heap st) x) /\
    (forall x p, In x done -> h_par (l_heap st') x = Some p -> l_dep st p <> Some (s "punct")) /\
    (forall x p, In x (h_desc (l_heap st) r) -> h_par (l_heap st) x = Some p -> l_dep st p <> Some (s "punct") ->
       h_par (l_heap st') x = Some p)).
  match goal with |- context [for_each ?f ?l st] =>
    destruct (for_each_prog P f l [] st) as [st' [E [L [_ [N K]]]]] end.
  - intros pre x post st1 El [L [U [N K]]]. cbn [app] in *.
    assert (Hx0 : In x (h_desc (l_heap st) r)) by (rewrite El, in_app_iff; simpl; auto).
    assert (Hx : In x (h_desc (l_heap st1) r)) by (now rewrite (lifting_words _ _ _ L)).
    assert (C1 := lifting_cons _ _ _ L).
    destruct (parent_exists _ _ _ C1 Hx) as [p [Ep Lp]].
    destruct (steps_bound r _ p C1 Lp) as [n [HS Hn]].
    destruct (punctchild_loop_ok r st n st1 x p (fuel (l_heap st1)) Hr L Hx Ep HS) as [st2 [q [A1 [A2 [A3 [A4 [A5 [A6 A7]]]]]]]].
    { unfold fuel. lia. }
    assert (LW : forall y, In y (h_desc (l_heap st) r) -> live (l_heap st1) r y).
    { intros y Hy. right. now rewrite (lifting_words _ _ _ L). }
    exists st2. split; auto. split; auto. split; [|split].
    + intros y Hy Hny. rewrite in_app_iff in Hny. cbn in Hny. rewrite A3; [apply U; auto; tauto|intuition|auto].
    + intros y q' Hy Eq. rewrite in_app_iff in Hy. destruct (Nat.eq_dec y x) as [->|Hn'].
      * assert (q' = q) by congruence. now subst.
      * destruct Hy as [Hy|[->|[]]]; [|contradiction]. apply (N y q' Hy). rewrite <- Eq. symmetry. apply A3; auto.
        apply LW. rewrite El, in_app_iff. auto.
    + intros y py Hy Epy Hd. destruct (Nat.eq_dec y x) as [->|Hn'].
      * assert (py = p) by (specialize (K x py Hy Epy Hd); congruence). subst py.
        destruct A6 as [<-|U6]; auto. exfalso. apply Hd. apply A7; auto. now left.
      * rewrite A3; auto.
  - split; [now apply lifting_refl|]. auto 8.
  - exists st'. auto 8.
Qed.

(** ---- ud.FixRoot ---- *)
Lemma fixroot_ok st first rest : consistent (l_heap st) r -> children (l_heap st) r = first :: rest ->
  exists st', fixroot st r = (st', Ok tt) /\ rehung (l_heap st) (l_heap st') r /\
    h_ch (l_heap st') r = [first] /\
    udep st' first = Some (s "root") /\
    (forall x, In x (h_desc (l_heap st) r) -> x <> first -> udep st' x <> Some (s "root")) /\
    (forall x, In x rest -> h_par (l_heap st') x = Some first /\ l_dep st' x = Some (s "parataxis")) /\
    (forall x, In x (h_desc (l_heap st) r) -> ~ In x rest -> h_par (l_heap st') x = h_par (l_heap st) x /\
       (udep st x <> Some (s "root") -> x <> first -> l_dep st' x = l_dep st x)) /\
    (udep st first = Some (s "root") -> l_dep st' first = l_dep st first).
Proof.
  intros C Ech. unfold children in Ech.
  assert (Lr : live (l_heap st) r r) by now left.
  assert (ND := child_NoDup _ _ _ C Lr). rewrite Ech in ND. inversion ND as [|? ? Hnf ND']; subst.
  assert (CH : forall c, In c (first :: rest) <-> In c (h_desc (l_heap st) r) /\ h_par (l_heap st) c = Some r).
  { intros c. rewrite <- Ech. now apply child_In. }
  destruct (proj1 (CH first)) as [Hf Ef]; [simpl; auto|].
  unfold fixroot, children. rewrite Ech.
  pose (P := fun done st1 => going st st1 /\ h_par (l_heap st1) first = Some r /\ l_dep st1 first = l_dep st first /\
     (forall x, In x done -> h_par (l_heap st1) x = Some first /\ l_dep st1 x = Some (s "parataxis")) /\
     (forall x, live (l_heap st) r x -> ~ In x done -> h_par (l_heap st1) x = h_par (l_heap st) x /\ l_dep st1 x = l_dep st x)).
  unfold attach_all.
  match goal with |- context [for_each ?f rest st] =>
    destruct (for_each_prog P f rest [] st) as [st1 [E1 [G1 [P1 [D1 [A1 B1]]]]]] end.
  - intros pre x post st1 El [G [P1 [D1 [A B]]]]. cbn [app] in *.
    assert (Hxr : In x rest) by (rewrite El, in_app_iff; simpl; auto).
    assert (Hxf : x <> first) by (intros ->; contradiction).
    destruct (proj1 (CH x)) as [Hx Ex]; [simpl; auto|].
    assert (Hx1 : In x (h_desc (l_heap st1) r)) by (now rewrite (going_words _ _ _ G)).
    assert (C1 := going_cons _ _ _ G).
    destruct (assign_ok r st1 x first C1 Hx1) as [h' [E [R [Px O]]]].
    { right. now rewrite (going_words _ _ _ G). }
    { intros [Eq|U]; [congruence|]. inversion U as [? ? E|? q ? E U']; subst; rewrite P1 in E; injection E as <-.
      - now apply (c_rootout _ _ C1).
      - exact (root_not_in r _ _ C1 Hx1 (or_intror U')). }
    rewrite E. cbn [bind]. eexists. split; [reflexivity|]. split; [apply (going_step r st st1); auto|]. cbn. unfold upd.
    split; [rewrite O; auto; right; now rewrite (going_words _ _ _ G)|].
    split; [rewrite (proj2 (Nat.eqb_neq first x)); auto|]. split.
    + intros y Hy. rewrite in_app_iff in Hy. destruct (Nat.eqb_spec y x) as [->|Hn]; auto.
      destruct Hy as [Hy|[->|[]]]; [|contradiction]. rewrite O; auto. right. rewrite (going_words _ _ _ G).
      apply (CH y). simpl. right. rewrite El, in_app_iff. auto.
    + intros y Ly Hy. rewrite in_app_iff in Hy. cbn in Hy. destruct (Nat.eqb_spec y x) as [->|Hn]; [exfalso; tauto|].
      rewrite O; auto. now apply (going_live _ _ _ _ G).
  - split; [now apply going_refl|]. split; [auto|]. split; [auto|]. split; [intros ? []|auto].
  - rewrite E1. cbn [bind app] in *.
    set (st2 := if ostr_eqb (udep st1 first) (s "root") then st1 else set_dep st1 first (Some (s "root"))).
    assert (H2 : l_heap st2 = l_heap st1) by (unfold st2; destruct (ostr_eqb _ _); auto).
    assert (U2 : udep st2 first = Some (s "root")).
    { unfold st2. destruct (ostr_eqb (udep st1 first) (s "root")) eqn:E; [now apply ostr_eqb_eq|].
      unfold udep. cbn. unfold upd. rewrite Nat.eqb_refl. reflexivity. }
    assert (D2 : forall x, x <> first -> l_dep st2 x = l_dep st1 x).
    { intros x Hx. unfold st2. destruct (ostr_eqb _ _); auto. cbn. unfold upd. now rewrite (proj2 (Nat.eqb_neq x first)). }
    assert (K2 : udep st first = Some (s "root") -> l_dep st2 first = l_dep st first).
    { intros E. unfold st2. unfold udep at 1. rewrite D1. fold (udep st first). rewrite (proj2 (ostr_eqb_eq _ _) E). auto. }
    pose (P3 := fun done st3 => l_heap st3 = l_heap st1 /\
      (forall x, h_par (l_heap st1) x = Some r -> l_dep st3 x = l_dep st2 x) /\
      (forall x, udep st2 x <> Some (s "root") -> l_dep st3 x = l_dep st2 x) /\
      (forall x, In x done -> h_par (l_heap st1) x <> Some r -> udep st3 x <> Some (s "root")) ).
    match goal with |- context [for_each ?f ?l st2] =>
      destruct (for_each_prog P3 f l [] st2) as [st3 [E3 [H3 [A3 [B3 N3]]]]] end.
    + intros pre x post st3 El [H3 [A3 [B3 N3]]]. cbn [app] in *. eexists. split; [reflexivity|]. rewrite H3.
      destruct (h_par (l_heap st1) x) as [q|] eqn:Eq.
      * destruct (Nat.eqb_spec q r) as [->|Hq]; cbn [negb andb].
        -- split; [auto|]. split; [auto|]. split; [auto|]. intros y Hy. rewrite in_app_iff in Hy.
           destruct Hy as [Hy|[<-|[]]]; auto; congruence.
        -- destruct (ostr_eqb (udep st3 x) (s "root")) eqn:Er.
           ++ split; [auto|]. cbn. unfold upd. split; [|split].
              ** intros y Ey. destruct (Nat.eqb_spec y x) as [->|]; auto. congruence.
              ** intros y Ey. destruct (Nat.eqb_spec y x) as [->|]; auto. exfalso. apply Ey.
                 apply ostr_eqb_eq in Er. unfold udep in *. 
                 assert (DE : {udeprel (l_dep st2 x) = Some (s "root")} + {udeprel (l_dep st2 x) <> Some (s "root")}) by (repeat decide equality).
                 destruct DE as [DE|DE]; auto. rewrite (B3 x DE) in Er. auto.
              ** intros y Hy Ny. unfold udep. cbn. unfold upd. destruct (Nat.eqb_spec y x) as [->|Hn]; [cbn; discriminate|].
                 rewrite in_app_iff in Hy. destruct Hy as [Hy|[->|[]]]; [|contradiction]. now apply N3.
           ++ split; [auto|]. split; [auto|]. split; [auto|]. intros y Hy Ny. rewrite in_app_iff in Hy.
              destruct Hy as [Hy|[<-|[]]]; auto. intros E. apply ostr_eqb_eq in E. congruence.
      * cbn [negb andb]. destruct (ostr_eqb (udep st3 x) (s "root")) eqn:Er.
           ++ split; [auto|]. cbn. unfold upd. split; [|split].
              ** intros y Ey. destruct (Nat.eqb_spec y x) as [->|]; auto. congruence.
              ** intros y Ey. destruct (Nat.eqb_spec y x) as [->|]; auto. exfalso. apply Ey.
                 apply ostr_eqb_eq in Er. unfold udep in *. 
                 assert (DE : {udeprel (l_dep st2 x) = Some (s "root")} + {udeprel (l_dep st2 x) <> Some (s "root")}) by (repeat decide equality).
                 destruct DE as [DE|DE]; auto. rewrite (B3 x DE) in Er. auto.
              ** intros y Hy Ny. unfold udep. cbn. unfold upd. destruct (Nat.eqb_spec y x) as [->|Hn]; [cbn; discriminate|].
                 rewrite in_app_iff in Hy. destruct Hy as [Hy|[->|[]]]; [|contradiction]. now apply N3.
           ++ split; [auto|]. split; [auto|]. split; [auto|]. intros y Hy Ny. rewrite in_app_iff in Hy.
              destruct Hy as [Hy|[<-|[]]]; auto. intros E. apply ostr_eqb_eq in E. congruence.
    + split; [auto|]. split; [auto|]. split; [auto|]. intros ? [].
    + exists st3. split; [auto|]. rewrite H3. split; [apply G1|].
      assert (C1 := going_cons _ _ _ G1). rewrite H2 in N3. cbn [app] in N3. rewrite (going_words _ _ _ G1) in N3.
      assert (OnlyF : forall x, In x (h_desc (l_heap st) r) -> h_par (l_heap st1) x = Some r -> x = first).
      { intros x Hx Ex. destruct (in_dec Nat.eq_dec x rest) as [I|I].
        - destruct (A1 x I) as [E _]. rewrite E in Ex. injection Ex as ->. now apply (c_rootout _ _ C) in Hf.
        - destruct (B1 x (or_intror Hx) I) as [E _]. rewrite E in Ex. assert (I2 : In x (first :: rest)) by (apply CH; auto).
          destruct I2; [auto|contradiction]. }
      split.
      { assert (I : forall c, In c (h_ch (l_heap st1) r) <-> c = first).
        { intros c. rewrite (child_In _ r c r C1 (or_introl eq_refl)), (going_words _ _ _ G1). split.
          - intros [H I]. now apply OnlyF. - intros ->. auto. }
        assert (N1 := child_NoDup _ r r C1 (or_introl eq_refl)).
        destruct (h_ch (l_heap st1) r) as [|a l]; [exfalso; now apply (I first)|].
        assert (a = first) by (apply I; simpl; auto). subst a. f_equal. destruct l as [|b l]; auto.
        assert (b = first) by (apply I; simpl; auto). subst b. exfalso. inversion N1; subst. simpl in *. tauto. }
      split; [unfold udep; rewrite A3 by auto; exact U2|].
      split; [intros x Hx Hn; apply N3; auto|]. split; [|split].
      * intros x Hx. assert (x <> first) by (intros ->; contradiction). destruct (A1 x Hx) as [E D]. split; auto.
        rewrite B3; [rewrite D2; auto|]. unfold udep. rewrite D2, D by auto. cbn. discriminate.
      * intros x Hx Hn. destruct (B1 x (or_intror Hx) Hn) as [E D]. split; [auto|]. intros Nx Nf.
        rewrite B3; [now rewrite D2|]. unfold udep. rewrite D2, D by auto. exact Nx.
      * intros E. rewrite A3 by auto. auto.
Qed.
Lemma fixroot_empty st : consistent (l_heap st) r -> h_desc (l_heap st) r = [] -> fixroot st r = (st, Raise IndexError).
Proof.
  intros C E. unfold fixroot, children. rewrite (c_children _ _ C r (or_introl eq_refl)), E. reflexivity.
Qed.
Lemma root_has_child h : consistent h r -> h_desc h r <> [] -> exists c, In c (h_desc h r) /\ h_par h c = Some r.
Proof.
  intros C Hne. destruct (h_desc h r) as [|w l] eqn:E; [contradiction|].
  assert (Hw : In w (h_desc h r)) by (rewrite E; simpl; auto). rewrite <- E.
  assert (U := c_connected h r C w Hw). clear E Hne l.
  remember r as r0 eqn:Er in U. induction U as [x p Ep|x p a Ep U IH].
  - subst. exists x. auto.
  - subst. destruct (parent_live _ _ _ _ C (or_intror Hw) Ep) as [[->|Hp] _].
    + exfalso. apply (up_irrefl h r C r (or_introl eq_refl) U).
    + auto.
Qed.

(** ---- transform.Proj ---- *)
(** Like [lifting] but labels may change. *)
Record raising (st0 st : lst) : Prop := {
  ra_going : going st0 st;
  ra_up : forall x y, live (l_heap st0) r x -> up (l_heap st) x y -> up (l_heap st0) x y
}.
Lemma raising_refl st : consistent (l_heap st) r -> raising st st.
Proof. intros C. split; auto using going_refl. Qed.
Lemma raising_cons st0 st : raising st0 st -> consistent (l_heap st) r.
Proof. intros [G _]. now apply going_cons in G. Qed.
Lemma raising_words st0 st : raising st0 st -> h_desc (l_heap st) r = h_desc (l_heap st0) r.
Proof. intros [G _]. now apply going_words in G. Qed.
Lemma raising_trans st0 st1 st2 : raising st0 st1 -> raising st1 st2 -> raising st0 st2.
Proof.
  intros [[R1 C] U1] [[R2 C2] U2]. split.
  - split; auto. eapply rehung_trans; eauto.
  - intros x y Lx H. apply U1; auto. apply U2; auto. now rewrite (rehung_live _ _ _ _ R1).
Qed.
Lemma raising_assign st x b h' : consistent (l_heap st) r -> rehung (l_heap st) h' r -> h_par h' x = Some b ->
  only x (l_heap st) h' r -> up (l_heap st) x b -> raising st (set_heap st h').
Proof.
  intros C R P O Hu. split; [split; auto|]. intros a y Ha Hy. eapply (up_shrink (l_heap st) h' r x b); eauto.
Qed.
Lemma nonproj_total h x : consistent h r -> In x (h_desc h r) -> exists b, is_nonprojective h x = Ok b.
Proof. intros C Hx. destruct (parent_exists _ _ _ C Hx) as [p [Ep _]]. destruct (nonprojective_prop h r C x p Hx Ep) as [b [E _]]. eauto. Qed.
Lemma nonproj_parent h x p : consistent h r -> In x (h_desc h r) -> h_par h x = Some p -> is_nonprojective h x = Ok true ->
  exists g, h_par h p = Some g /\ live h r g.
Proof.
  intros C Hx Ep E. destruct (parent_live _ _ _ _ C (or_intror Hx) Ep) as [Lp _]. apply live_word_parent; auto. intros ->.
  unfold is_nonprojective in E. rewrite Ep in E. unfold is_root in E. rewrite (proj2 (c_kinds _ _ C)) in E. discriminate.
Qed.
Lemma lift_loop_ok n : forall st x p f k, consistent (l_heap st) r -> In x (h_desc (l_heap st) r) ->
  h_par (l_heap st) x = Some p -> steps (l_heap st) p n r -> n <= f ->
  exists h' j q, lift_loop f st x k = (set_heap st h', Ok (k + Z.of_nat j)%Z) /\ raising st (set_heap st h') /\
    only x (l_heap st) h' r /\ h_par h' x = Some q /\ steps (l_heap st) p j q /\ is_nonprojective h' x = Ok false /\
    (j = 0 -> is_nonprojective (l_heap st) x = Ok false) /\ (is_nonprojective (l_heap st) x = Ok false -> j = 0 /\ h' = l_heap st).
Proof.
  induction n as [|n IH]; intros st x p f k C Hx Ep HS Hf.
  - inversion HS; subst. assert (E : is_nonprojective (l_heap st) x = Ok false).
    { unfold is_nonprojective. rewrite Ep. unfold is_root. now rewrite (proj2 (c_kinds _ _ C)). }
    exists (l_heap st), 0, r. destruct st as [h d u pp]. cbn in *.
    split; [destruct f; cbn [lift_loop]; cbn; rewrite E, Z.add_0_r; auto|].
    split; [apply raising_refl; auto|]. split; [intros y _ _; auto|]. split; auto.
  - inversion HS as [|? g ? ? Eg HS']; subst.
    destruct (nonproj_total _ x C Hx) as [[] E].
    + destruct f as [|f]; [lia|]. cbn [lift_loop]. rewrite E.
      destruct (lift_ok r st x p g C Hx Ep Eg) as [h1 [E1 [R1 [P1 O1]]]]. rewrite E1. cbn [bind].
      assert (Uxg : up (l_heap st) x g) by (eapply up_S; eauto; now constructor).
      destruct (parent_live _ _ _ _ C (or_intror Hx) Ep) as [Lp _]. destruct (parent_live _ _ _ _ C Lp Eg) as [Lg _].
      assert (Ngx : ~ in_subtree (l_heap st) g x) by (apply (up_not_in _ r x g C); [now right|auto]).
      assert (RA := raising_assign st x g h1 C R1 P1 O1 Uxg).
      destruct (IH (set_heap st h1) x g f (k + 1)%Z) as [h' [j [q [A1 [A2 [A3 [A4 [A5 [A6 [A7 A8]]]]]]]]]].
      * apply R1. * cbn. now rewrite (rh_words _ _ _ R1). * exact P1.
      * cbn. eapply steps_keep; eauto. * lia.
      * exists h', (S j), q. cbn [set_heap l_heap l_dep l_upos l_pproj] in *. split.
        { rewrite A1. do 2 f_equal. lia. }
        split; [eapply raising_trans; eauto|]. split.
        { intros y Hn Ly. rewrite A3; auto. now rewrite (rehung_live _ _ _ _ R1). }
        split; [auto|]. split.
        { apply (steps_S _ p g); auto.
          assert (KB : forall a m b, steps h1 a m b -> ~ in_subtree h1 a x -> live h1 r a -> steps (l_heap st) a m b).
          { intros a m b H. induction H as [a|a c m b Ea H IHs]; intros Na La; [constructor|].
            assert (Lc : live h1 r c) by (eapply parent_live; eauto; apply R1).
            apply (steps_S _ a c).
            - rewrite <- O1; auto; [intros ->; apply Na; now left|]. now rewrite <- (rehung_live _ _ _ _ R1).
            - apply IHs; auto. intros Hi. apply Na. right. eapply up_in_subtree; eauto. now constructor. }
          apply KB; auto.
          - apply (up_not_in _ r x g); [apply R1|apply (rehung_live _ _ _ _ R1); now right|now constructor].
          - now apply (rehung_live _ _ _ _ R1). }
        split; [auto|]. split; [discriminate|]. congruence.
    + exists (l_heap st), 0, p. destruct st as [h d u pp]. cbn in *.
      split; [destruct f; cbn [lift_loop]; cbn; rewrite E, Z.add_0_r; auto|].
      split; [apply raising_refl; auto|]. split; [intros y _ _; auto|]. split; [auto|]. split; [constructor|]. auto.
Qed.
(** Same tree: the same words with the same parents. *)
Definition same_tree (h h' : heap) : Prop :=
  rehung h h' r /\ forall x, In x (h_desc h r) -> h_par h' x = h_par h x.
Lemma same_tree_up h h' : consistent h r -> same_tree h h' -> forall x y, live h r x -> (up h' x y <-> up h x y).
Proof.
  intros C [R E]. assert (E' : forall x, live h r x -> h_par h' x = h_par h x).
  { intros x [->|Hx]; auto. now rewrite (c_top _ _ C), (c_top _ _ (rh_consistent _ _ _ R)). }
  intros x y Lx; split; intros H; revert Lx; induction H as [x p Ep|x p y Ep H IH]; intros Lx.
  - apply up_1. now rewrite <- E'.
  - rewrite E' in Ep by auto. eapply up_S; eauto. apply IH. eapply parent_live; eauto.
  - apply up_1. now rewrite E'.
  - apply (up_S _ x p); [now rewrite E'|]. apply IH. eapply parent_live; eauto.
Qed.
Lemma nonproj_same h h' x : consistent h r -> same_tree h h' -> In x (h_desc h r) -> is_nonprojective h' x = is_nonprojective h x.
Proof.
  intros C S Hx. assert (S2 := S). destruct S2 as [R E].
  destruct (parent_exists _ _ _ C Hx) as [p [Ep Lp]].
  destruct (nonprojective_prop h r C x p Hx Ep) as [b [Eb Hb]].
  assert (Ep' : h_par h' x = Some p) by (now rewrite E).
  destruct (nonprojective_prop h' r (rh_consistent _ _ _ R) x p) as [b' [Eb' Hb']]; auto; [now rewrite (rh_words _ _ _ R)|].
  rewrite Eb, Eb'. f_equal.
  assert (X : b = true <-> b' = true).
  { rewrite Hb, Hb', (rh_words _ _ _ R).
    split; intros [w [A [B D]]]; exists w; split; auto; (split; [|]).
    - rewrite !(rehung_ord _ _ _ _ C R); auto; now right.
    - rewrite (same_tree_up _ _ C S); auto. now right.
    - rewrite !(rehung_ord _ _ _ _ C R) in B; auto; now right.
    - rewrite (same_tree_up _ _ C S) in D; auto. now right. }
  destruct b, b'; auto; [now apply X|symmetry; now apply X].
Qed.
Lemma same_tree_refl h : consistent h r -> same_tree h h.
Proof. intros C. split; auto using rehung_refl. Qed.
Lemma same_tree_trans h1 h2 h3 : same_tree h1 h2 -> same_tree h2 h3 -> same_tree h1 h3.
Proof. intros [R1 E1] [R2 E2]. split; [eapply rehung_trans; eauto|]. intros x Hx. rewrite E2, E1; auto. now rewrite (rh_words _ _ _ R1). Qed.

Lemma nonproj_key_ok sh st x : consistent (l_heap st) r -> In x (h_desc (l_heap st) r) -> is_nonprojective (l_heap st) x = Ok true ->
  exists h' k, nonproj_key sh st x = (set_heap st h', Ok k) /\ same_tree (l_heap st) h'.
Proof.
  intros C Hx En. unfold nonproj_key, the_parent. destruct (parent_exists _ _ _ C Hx) as [p [Ep Lp]]. rewrite Ep.
  destruct sh.
  - eexists (l_heap st), _. split; [destruct st; reflexivity|]. now apply same_tree_refl.
  - destruct (nonproj_parent _ _ _ C Hx Ep En) as [g [Eg Lg]].
    destruct (lift_ok r st x p g C Hx Ep Eg) as [h1 [E1 [R1 [P1 O1]]]]. rewrite E1. cbn [bind].
    assert (C1 : consistent h1 r) by apply R1.
    assert (Lg1 : live h1 r g) by (now apply (rehung_live _ _ _ _ R1)).
    destruct (steps_bound r h1 g C1 Lg1) as [n [HS Hn]].
    assert (Hx1 : In x (h_desc h1 r)) by (now rewrite (rh_words _ _ _ R1)).
    destruct (lift_loop_ok n (set_heap st h1) x g (fuel h1) 1 C1 Hx1 P1 HS) as [h2 [j [q [A1 [A2 [A3 [A4 [A5 [A6 _]]]]]]]]]; [unfold fuel; lia|].
    cbn [set_heap l_heap l_dep l_upos l_pproj] in *. rewrite A1. cbn [bind].
    assert (R2 : rehung h1 h2 r) by apply (g_rehung _ _ _ (ra_going _ _ A2)).
    assert (C2 : consistent h2 r) by apply R2.
    assert (W2 : h_desc h2 r = h_desc (l_heap st) r) by (rewrite (rh_words _ _ _ R2); apply R1).
    destruct (assign_ok r (mkL h2 (l_dep st) (l_upos st) (l_pproj st)) x p C2) as [h3 [E3 [R3 [P3 O3]]]].
    { cbn. now rewrite W2. }
    { cbn. unfold live. now rewrite W2. }
    { cbn. intros [->|U].
      - apply (up_irrefl _ r C x Lp). now constructor.
      - (* p below x in h2, hence p below x in st *)
        assert (U1 : up h1 p x) by (apply (ra_up _ _ A2); auto; now apply (rehung_live _ _ _ _ R1)).
        assert (Uxg : up (l_heap st) x g) by (eapply up_S; eauto; now constructor).
        assert (U0 : up (l_heap st) p x) by (eapply (up_shrink (l_heap st) h1 r x g); eauto).
        apply (up_irrefl _ r C p Lp). eapply up_trans; eauto. now constructor. }
    cbn in E3. unfold set_heap in *. cbn in *. rewrite E3. cbn [bind]. exists h3. eexists. split; [reflexivity|]. split.
    + eapply rehung_trans; eauto. eapply rehung_trans; eauto.
    + intros y Hy. destruct (Nat.eq_dec y x) as [->|Hn']; [congruence|].
      rewrite O3 by (auto; right; now rewrite W2). rewrite A3 by (auto; right; now rewrite (rh_words _ _ _ R1)). apply O1; auto. now right.
Qed.
Lemma nonproj_infos_ok sh l : forall st, consistent (l_heap st) r -> incl l (h_desc (l_heap st) r) ->
  exists h' ks, nonproj_infos sh l st = (set_heap st h', Ok ks) /\ same_tree (l_heap st) h' /\
    map snd ks = filter (fun x => match is_nonprojective (l_heap st) x with Ok b => b | _ => false end) l /\
    (filter (fun x => match is_nonprojective (l_heap st) x with Ok b => b | _ => false end) l = [] -> h' = l_heap st).
Proof.
  induction l as [|x l IH]; intros st C HI; cbn [nonproj_infos].
  - exists (l_heap st), []. split; [destruct st; auto|]. split; [now apply same_tree_refl|]. auto.
  - assert (Hx : In x (h_desc (l_heap st) r)) by (apply HI; simpl; auto).
    assert (HI' : incl l (h_desc (l_heap st) r)) by (intros y Hy; apply HI; simpl; auto).
    cbn [filter]. destruct (nonproj_total _ x C Hx) as [[] E]; rewrite E.
    + destruct (nonproj_key_ok sh st x C Hx E) as [h1 [k [E1 S1]]]. rewrite E1. cbn [bind].
      assert (S1' := S1). destruct S1' as [R1 _].
      destruct (IH (set_heap st h1)) as [h2 [ks [E2 [S2 [M _]]]]]; [apply R1|cbn; now rewrite (rh_words _ _ _ R1)|].
      rewrite E2. cbn [bind]. exists h2, ((k, x) :: ks). split; [reflexivity|]. cbn in S2. split; [eapply same_tree_trans; eauto|].
      split; [|discriminate]. cbn [map snd]. f_equal. rewrite M. apply filter_ext_in. intros y Hy. cbn.
      rewrite (nonproj_same _ _ y C S1); auto.
    + apply IH; auto.
Qed.
Definition nonprojective_words (h : heap) : list nat :=
  filter (fun x => match is_nonprojective h x with Ok b => b | _ => false end) (h_desc h r).
Lemma proj_lift_ok lab st x : lab <> LOther -> consistent (l_heap st) r -> In x (h_desc (l_heap st) r) ->
  exists st' p q j, proj_lift lab st x = (st', Ok tt) /\ raising st st' /\ only x (l_heap st) (l_heap st') r /\
    h_par (l_heap st) x = Some p /\ h_par (l_heap st') x = Some q /\ steps (l_heap st) p j q /\
    is_nonprojective (l_heap st') x = Ok false /\ (j = 0 -> is_nonprojective (l_heap st) x = Ok false /\ st' = st) /\
    (lab = LMisc -> l_dep st' = l_dep st /\ l_upos st' = l_upos st) /\ l_upos st' = l_upos st /\
    (forall y, y <> x -> l_dep st' y = l_dep st y /\ l_pproj st' y = l_pproj st y) /\
    (lab = LMisc -> j <> 0 -> l_pproj st' x = match udep st p with Some d => d | None => [] end).
Proof.
  intros Hl C Hx. destruct (parent_exists _ _ _ C Hx) as [p [Ep Lp]].
  destruct (steps_bound r _ p C Lp) as [n [HS Hn]].
  destruct (lift_loop_ok n st x p (fuel (l_heap st)) 0 C Hx Ep HS) as [h' [j [q [A1 [A2 [A3 [A4 [A5 [A6 [A7 A8]]]]]]]]]]; [unfold fuel; lia|].
  unfold proj_lift. rewrite A1. cbn [bind]. rewrite Z.add_0_l, Ep.
  destruct (Z.eqb_spec (Z.of_nat j) 0) as [J|J].
  - assert (j = 0) by lia. subst j. destruct (A8 (A7 eq_refl)) as [_ ->].
    exists st, p, q, 0. assert (ES : set_heap st (l_heap st) = st) by (now destruct st). rewrite ES in *.
    split; [auto|]. split; [auto|]. split; [auto|]. split; [auto|]. split; [auto|]. split; [auto|]. split; [auto|]. split; [auto|]. split; [auto|]. split; [auto|]. split; [auto|]. intros _ H; congruence.
  - assert (j <> 0) by lia. destruct lab; [| |contradiction]; unfold mark.
    + eexists _, p, q, j. split; [reflexivity|]. split; [destruct A2 as [G U]; split; [now apply (going_heap r st (set_heap st h'))|exact U]|].
      cbn. split; [auto|]. split; [auto|]. split; [auto|]. split; [auto|]. split; [auto|]. split; [intros; lia|]. split; [auto|]. split; [auto|]. split.
      * intros y Hy. unfold upd. rewrite (proj2 (Nat.eqb_neq y x)); auto.
      * intros _ _. unfold upd. now rewrite Nat.eqb_refl.
    + eexists _, p, q, j. split; [reflexivity|]. split; [destruct A2 as [G U]; split; [now apply (going_heap r st (set_heap st h'))|exact U]|].
      cbn. split; [auto|]. split; [auto|]. split; [auto|]. split; [auto|]. split; [auto|]. split; [intros; lia|]. split; [discriminate|]. split; [auto|]. split.
      * intros y Hy. unfold upd. rewrite (proj2 (Nat.eqb_neq y x)); auto.
      * discriminate.
Qed.

Lemma steps_in_subtree h n c q : steps h c n q -> in_subtree h c q.
Proof. induction 1 as [|x p n a E H IH]; [now left|]. right. destruct IH as [<-|]; [now constructor|eapply up_S; eauto]. Qed.
Lemma proj_tree_ok sh lab st : lab <> LOther -> consistent (l_heap st) r ->
  exists st', proj_tree sh lab st r = (st', Ok tt) /\ raising st st' /\
    (nonprojective_words (l_heap st) = [] -> st' = st) /\
    (forall x, In x (h_desc (l_heap st) r) -> ~ In x (nonprojective_words (l_heap st)) -> h_par (l_heap st') x = h_par (l_heap st) x) /\
    (nonprojective_words (l_heap st) <> [] -> exists x p q, In x (h_desc (l_heap st) r) /\
       h_par (l_heap st) x = Some p /\ h_par (l_heap st') x = Some q /\ up (l_heap st) p q).
Proof.
  intros Hl C. unfold proj_tree.
  destruct (nonproj_infos_ok sh (h_desc (l_heap st) r) st C (incl_refl _)) as [h1 [ks [E1 [S1 [M K]]]]]. rewrite E1. cbn [bind].
  fold (nonprojective_words (l_heap st)) in M, K.
  set (todo := map snd (sort_on fst ks)).
  assert (PT : Permutation todo (nonprojective_words (l_heap st))).
  { rewrite <- M. unfold todo. apply Permutation_map. apply sort_on_perm. }
  assert (S1' := S1). destruct S1' as [R1 E1'].
  assert (RA1 : raising st (set_heap st h1)).
  { split; [split; auto|]. intros x y Lx H. cbn in H. now apply (same_tree_up _ _ C S1). }
  assert (HT : forall x, In x todo -> In x (h_desc (l_heap st) r)).
  { intros x Hx. apply (Permutation_in _ PT) in Hx. unfold nonprojective_words in Hx. apply filter_In in Hx. tauto. }
  pose (P := fun done st' => raising st st' /\
     (forall x, In x (h_desc (l_heap st) r) -> ~ In x done -> h_par (l_heap st') x = h_par (l_heap st) x) /\
     (done = [] -> st' = set_heap st h1) /\
     (done <> [] -> exists x p q, In x done /\ h_par (l_heap st) x = Some p /\ h_par (l_heap st') x = Some q /\ up (l_heap st) p q)).
  destruct (for_each_prog P (proj_lift lab) todo [] (set_heap st h1)) as [st' [E [RA [U [Z1 PR]]]]].
  - intros pre x post st1 El [RA [U [Z1 PR]]]. cbn [app] in *.
    assert (Hx0 : In x (h_desc (l_heap st) r)) by (apply HT; rewrite El, in_app_iff; simpl; auto).
    assert (C1 := raising_cons _ _ RA).
    destruct (proj_lift_ok lab st1 x Hl C1) as [st2 [p [q [j [B1 [B2 [B3 [B4 [B5 [B6 [B7 [B8 _]]]]]]]]]]]].
    { now rewrite (raising_words _ _ RA). }
    assert (LW : forall y, In y (h_desc (l_heap st) r) -> live (l_heap st1) r y) by (intros y Hy; right; now rewrite (raising_words _ _ RA)).
    exists st2. split; [auto|]. split; [eapply raising_trans; eauto|]. split; [|split].
    + intros y Hy Hn. rewrite in_app_iff in Hn. cbn in Hn. rewrite B3; [apply U; auto; tauto|intuition|auto].
    + intros H. destruct pre; discriminate.
    + intros _. destruct pre as [|a pre'].
      * (* the first one *)
        assert (Z2 := Z1 eq_refl). subst st1. cbn [set_heap l_heap] in *. rewrite E1' in B4 by auto. exists x, p, q. split; [simpl; auto|]. split; [auto|]. split; auto.
        assert (J : j <> 0).
        { intros J. destruct (B8 J) as [B9 _]. rewrite (nonproj_same _ _ x C S1 Hx0) in B9.
          assert (I : In x (nonprojective_words (l_heap st))) by (apply (Permutation_in _ PT); rewrite El; simpl; auto).
          unfold nonprojective_words in I. apply filter_In in I as [_ I]. rewrite B9 in I. discriminate. }
        destruct (parent_live _ _ _ _ C (or_intror Hx0) B4) as [Lp _].
        apply (same_tree_up _ _ C S1); auto. destruct j; [contradiction|].
        inversion B6 as [|? c ? ? Ec Hc]; subst. apply steps_in_subtree in Hc as [<-|]; [now constructor|eapply up_S; eauto].
      * destruct (PR ltac:(discriminate)) as [w [pw [qw [W1 [W2 [W3 W4]]]]]].
        assert (Hw0 : In w (h_desc (l_heap st) r)) by (apply HT; rewrite El, in_app_iff; auto).
        destruct (Nat.eq_dec w x) as [->|Hwx].
        -- exists x, pw, q. split; [rewrite in_app_iff; auto|]. split; [auto|]. split; auto.
           assert (p = qw) by congruence. subst p. assert (Lq : live (l_heap st1) r qw) by (eapply parent_live; eauto).
           assert (Lq0 : live (l_heap st) r qw) by (now apply (going_live _ _ _ _ (ra_going _ _ RA))).
           assert (I : in_subtree (l_heap st1) qw q).
           { eapply steps_in_subtree; eauto. }
           destruct I as [<-|I]; auto. eapply up_trans; eauto. apply (ra_up _ _ RA); auto.
        -- exists w, pw, qw. split; [rewrite in_app_iff; auto|]. split; [auto|]. split; [rewrite B3; auto|auto].
  - split; [auto|]. split; [auto|]. split; [auto|]. intros H; contradiction.
  - cbn [app] in *. exists st'. split; [auto|]. split; [auto|]. split; [|split].
    + intros N. assert (T0 : todo = []) by (apply Permutation_nil; rewrite N in PT; now symmetry).
      rewrite (Z1 T0), (K N). now destruct st.
    + intros x Hx N. apply U; auto. intros H. apply N. now apply (Permutation_in _ PT).
    + intros N. destruct PR as [x [p [q [I1 [I2 [I3 I4]]]]]].
      * intros T0. apply N. rewrite T0 in PT. now apply Permutation_nil.
      * exists x, p, q. auto.
Qed.
End Block.
