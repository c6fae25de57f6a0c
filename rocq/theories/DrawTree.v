(** Drawn trees of consistent sentences (C71). *)
From Coq Require Import String List NArith ZArith Bool Lia Sorted Permutation.
From Verif Require Import PyStr PyList PyListFacts PyExn TreeModel TreeSpec TreeFacts TreeProps EmptySpec CorefSpec CorefSpan DrawModel DrawSpec DrawProofs.
Import ListNotations.
Local Open Scope nat_scope.

Lemma sorted_words h : forall l k, map (h_ord h) l = map Z.of_nat (seq k (length l)) ->
  StronglySorted (fun a b => (h_ord h a < h_ord h b)%Z) l /\ forall y, In y l -> (Z.of_nat k <= h_ord h y)%Z.
Proof.
  induction l as [|a l IH]; intros k E; [split; [constructor|intros y []]|]. cbn in E. injection E as EA E. destruct (IH (S k) E) as [A B]. split.
  - constructor; auto. rewrite Forall_forall. intros y J. specialize (B y J). lia.
  - intros y [<-|J]; [lia|]. specialize (B y J). lia.
Qed.
Lemma sorted_nth_le {A} (R : A -> A -> Prop) (l : list A) : StronglySorted R l -> forall i j a b, nth_error l i = Some a -> nth_error l j = Some b -> i < j -> R a b.
Proof.
  induction 1 as [|c l S IH F]; intros i j a b NI NJ L; [destruct i; discriminate|]. rewrite Forall_forall in F. destruct j as [|j]; [lia|]. destruct i as [|i]; cbn in *.
  - injection NI as <-. apply F. now apply nth_error_In in NJ.
  - apply (IH i j); auto. lia.
Qed.
Lemma increasing_index h all : increasing h all -> forall k i y, nth_error all i = Some y -> index_of h all k y = Some (k + i).
Proof.
  intros INC. assert (N : forall l k y, (forall z, In z l -> okey h z <> okey h y) -> index_of h l k y = None).
  { induction l as [|a l IH]; intros k y H; [reflexivity|]. cbn. rewrite IH by (intros z J; apply H; now right). destruct (Z.eqb_spec (okey h a) (okey h y)) as [E|]; auto. exfalso. apply (H a); auto. now left. }
  induction INC as [|a l S IH F]; intros k i y Y; [destruct i; discriminate|]. rewrite Forall_forall in F. destruct i as [|i]; cbn in Y; cbn [index_of].
  - injection Y as ->. rewrite N; [rewrite Z.eqb_refl; f_equal; lia|]. intros z J E. specialize (F z J). rewrite !okey_position in E. lia.
  - rewrite (IH (Datatypes.S k) i y Y). f_equal. lia.
Qed.

Lemma Permutation_in_iff {A} (l k : list A) a : Permutation l k -> (In a l <-> In a k).
Proof. intros P. split; apply Permutation_in; auto. now symmetry. Qed.

Section tree.
  Variables (h : heap) (r x : nat) (o : dopts).
  Hypothesis C : consistent h r.
  Hypothesis G : o_empty o = true -> good_empties h r.
  Hypothesis X : live h r x.
  Definition sub (y : nat) : Prop := live h r y /\ in_subtree h y x.
  Lemma live_pos y : live h r y -> position h y = (10 * h_ord h y)%Z /\ is_empty h y = false.
  Proof.
    intros L. unfold position, is_empty. destruct (c_kinds h r C) as [K KR]. destruct L as [->|L]; [rewrite KR|rewrite (K y L)]; auto.
  Qed.
  Lemma words_inc : increasing h (r :: h_desc h r).
  Proof.
    destruct (sorted_words h (h_desc h r) 1 (c_ords h r C)) as [A B]. constructor.
    - eapply strongly_sorted_impl; [|exact A]. cbn. intros a b Ha Hb L. rewrite (proj1 (live_pos a (or_intror Ha))), (proj1 (live_pos b (or_intror Hb))). lia.
    - rewrite Forall_forall. intros y J. rewrite (proj1 (live_pos y (or_intror J))), (proj1 (live_pos r (or_introl eq_refl))), (c_ord0 h r C). specialize (B y J). lia.
  Qed.
  Lemma lists_spec l (Q : nat -> Prop) : lists h r l Q -> increasing h l /\ forall y, In y l <-> live h r y /\ Q y.
  Proof.
    intros (f & F & ->). split; [apply filter_StronglySorted; exact words_inc|]. intros y. rewrite filter_In. split.
    - intros [J E]. assert (L : live h r y) by (destruct J as [<-|J]; [now left|now right]). split; auto. now apply F.
    - intros [L Q0]. split; [destruct L as [->|L]; [now left|now right]|]. now apply F.
  Qed.
  Lemma sub_words : exists l, descendants_add_self h x = Ok l /\ increasing h l /\ forall y, In y l <-> sub y.
  Proof.
    destruct (descendants_prop h r C x X) as (l & E & _ & L). exists (list_call h x l true false false). unfold descendants_add_self. rewrite E. split; auto.
    destruct (lists_spec _ _ (L true false false)) as [A B]. split; auto. intros y. rewrite B. unfold sub, in_subtree. intuition discriminate.
  Qed.
  Lemma hull_min (l : list nat) a k : increasing h l -> l = a :: k -> forall c, In c l -> (position h a <= position h c)%Z.
  Proof. intros S ->. inversion S; subst. rewrite Forall_forall in H2. intros c [<-|J]; [lia|]. specialize (H2 c J). lia. Qed.
  Lemma hull_max (l : list nat) z : increasing h l -> last_opt l = Some z -> forall c, In c l -> (position h c <= position h z)%Z.
  Proof.
    intros S E c J. apply ReaderProofs.last_snoc in E as (k & ->). apply in_app_iff in J as [J|[->|[]]]; [|lia]. apply increasing_app in S as (_ & _ & D). specialize (D c z J (or_introl eq_refl)). lia.
  Qed.
  Lemma rows_ok : exists all, rows h o x = Ok all /\ picture_rows h r o x all.
  Proof.
    unfold rows, picture_rows, in_picture. destruct sub_words as (l & E & INC & IN). destruct (o_empty o) eqn:OE.
    2:{ exists l. split; auto. split; auto. intros y. rewrite IN. unfold sub. split; [auto|]. intros [H|(H & _)]; [exact H|discriminate]. }
    specialize (G eq_refl). unfold is_root. destruct (c_kinds h r C) as [K KR]. destruct X as [XR|XW].
    - replace (h_kind h x) with KRoot by congruence. exists (x :: descendants_and_empty h x). split; [reflexivity|]. rewrite XR. destruct (dae_order h r C G) as [A B]. split.
      + constructor; auto. rewrite Forall_forall. intros y J. rewrite (proj1 (live_pos r (or_introl eq_refl))), (c_ord0 h r C). apply B in J as [J|J].
        * rewrite (proj1 (live_pos y (or_intror J))). pose proof (proj2 (sorted_words h (h_desc h r) 1 (c_ords h r C)) y J). lia.
        * unfold position. rewrite (ge_kind h r G y J). pose proof (ge_range h r G y J). lia.
      + intros y. cbn [In]. rewrite B. unfold in_tree, live, in_subtree. split.
        * intros [<-|[J|J]]; [left; auto|left; split; auto; right; now apply (c_connected h r C)|right; auto].
        * intros [[[->|J] _]|(_ & J & _)]; auto.
    - rewrite (K x XW), E. cbn [rbind]. assert (XL : In x l) by (apply IN; split; [exact X|now left]). destruct l as [|a k] eqn:EL; [destruct XL|]. rewrite <- EL in *. destruct (last_opt l) as [z|] eqn:EZ; [|apply last_opt_None in EZ; congruence].
      assert (NR : ~ sub r). { intros [_ [H|H]]; [rewrite <- H in XW; now apply (c_rootout h r C)|]. inversion H; subst; rewrite (c_top h r C) in *; discriminate. }
      assert (LW : forall y, In y l -> In y (h_desc h r)). { intros y J. apply IN in J. destruct (proj1 J) as [->|J2]; [contradiction|exact J2]. }
      rewrite (c_roots h r C x X). set (es := filter _ (h_emp h r)).
      assert (ES : forall e, In e es <-> In e (h_emp h r) /\ (position h a < position h e < position h z)%Z).
      { intros e. unfold es. rewrite filter_In, andb_true_iff, !Z.ltb_lt, !okey_position. tauto. }
      assert (AZ : In a l /\ In z l /\ forall c, In c l -> (position h a <= position h c <= position h z)%Z).
      { split; [rewrite EL; now left|]. split; [now apply last_opt_In|]. intros c J. split; [now apply (hull_min l a k)|now apply (hull_max l z)]. }
      destruct AZ as (AL & ZL & HU). eexists. split; [reflexivity|]. split.
      + apply sorted_increasing.
        * apply NoDup_app; [now apply (increasing_nodup h)|unfold es; apply NoDup_filter; apply (EmptyProofs.sorted_eord_nodup h); apply (ge_sorted h r G)|].
          intros y J J2. apply LW in J. apply ES in J2 as [J2 _]. specialize (K y J). rewrite (ge_kind h r G y J2) in K. discriminate.
        * intros y y' J J'. assert (T : forall u, In u (l ++ es) -> in_tree h r u) by (intros u Hu; apply in_app_iff in Hu as [Hu|Hu]; [left; auto|right; now apply ES in Hu]). apply (position_inj h r y y' C G); auto.
      + intros y. rewrite (Permutation_in_iff _ _ y (sort_on_perm (okey h) (l ++ es))), in_app_iff, IN, ES. unfold sub. split.
        * intros [J|[J B]]; [now left|]. right. split; auto. split; auto. right. exists a, z. split; [now apply IN|]. split; [now apply IN|exact B].
        * intros [J|(_ & J & [E1|(u & v & U & V & B)])]; [now left| |].
          { exfalso. rewrite E1 in XW. now apply (c_rootout h r C). }
          right. split; auto. apply IN in U, V. pose proof (HU u U). pose proof (HU v V). lia.
  Qed.

  Variable all : list nat.
  Hypothesis ALL : picture_rows h r o x all.
  Lemma sub_row y : sub y -> In y all.
  Proof. intros S. apply (proj2 ALL). now left. Qed.
  Lemma sub_x : sub x.
  Proof. split; [exact X|now left]. Qed.
  Lemma live_parent y : live h r y -> the_parent h y = h_par h y.
  Proof. intros L. unfold the_parent. now rewrite (proj2 (live_pos y L)). Qed.
  Lemma has_parent_spec y c : has_parent h y c = true <-> h_par h c = Some y.
  Proof. unfold has_parent. destruct (h_par h c) as [q|]; [rewrite Nat.eqb_eq|]; split; congruence. Qed.
  Lemma child_spec y c : live h r y -> (In c (h_ch h y) <-> In c (h_desc h r) /\ h_par h c = Some y).
  Proof. intros L. rewrite (c_children h r C y L), filter_In, has_parent_spec. tauto. Qed.
  Lemma child_sub y c : sub y -> In c (h_ch h y) -> sub c.
  Proof.
    intros [L S] J. apply (child_spec y c L) in J as [J P]. split; [now right|]. right. destruct S as [->|S]; [now apply up_1|now apply (up_S h c y)].
  Qed.
  Lemma sub_ch y c : sub y -> (In c (h_ch h y) <-> In c all /\ the_parent h c = Some y).
  Proof.
    intros S. split.
    - intros J. pose proof (child_sub y c S J) as SC. split; [now apply sub_row|]. rewrite live_parent by apply SC. now apply (child_spec y c (proj1 S)).
    - intros [J P]. apply (child_spec y c (proj1 S)). apply (proj2 ALL) in J as [[L _]|(OE & E & _)].
      + rewrite live_parent in P by auto. split; auto. destruct L as [->|L]; auto. rewrite (c_top h r C) in P. discriminate.
      + unfold the_parent, is_empty in P. rewrite (ge_kind h r (G OE) c E) in P. discriminate.
  Qed.
  Lemma sub_par y : sub y -> y <> x -> exists p, the_parent h y = Some p /\ sub p.
  Proof.
    intros [L [E|U]] N; [contradiction|]. rewrite live_parent by auto. inversion U as [? p P|? p a P U2]; subst.
    - exists x. split; auto using sub_x.
    - exists p. split; auto. split; [|now right]. apply (live_up h r C y p L). now apply up_1.
  Qed.
  Lemma top_par p : the_parent h x = Some p -> ~ sub p.
  Proof.
    rewrite live_parent by exact X. intros P [L [E|U]].
    - subst p. apply (up_irrefl h r C x X). now apply up_1.
    - apply (up_irrefl h r C x X). now apply (up_S h x p).
  Qed.
  Lemma no_self y : sub y -> the_parent h y <> Some y.
  Proof. intros [L _]. rewrite live_parent by auto. intros P. apply (up_irrefl h r C y L). now apply up_1. Qed.
  Lemma sub_ind (Q : nat -> Prop) : Q x -> (forall y c, sub y -> Q y -> In c (h_ch h y) -> Q c) -> forall y, sub y -> Q y.
  Proof.
    intros QX QC y [L [->|U]]; auto. assert (GEN : forall y a, up h y a -> live h r y -> Q a -> (forall z c, (live h r z /\ in_subtree h z a) -> Q z -> In c (h_ch h z) -> Q c) -> live h r a -> Q y).
    { clear y L U QX QC. induction 1 as [y p P|y p a P U IH]; intros L QA QC LA.
      - apply (QC p y); auto; [split; auto; now left|]. apply (child_spec p y LA). split; auto. destruct L as [->|L]; auto. rewrite (c_top h r C) in P. discriminate.
      - assert (LP : live h r p) by (apply (live_up h r C y p L); now apply up_1). apply (QC p y); auto; [split; auto; now right|]. apply (child_spec p y LP). split; auto. destruct L as [->|L]; auto. rewrite (c_top h r C) in P. discriminate. }
    apply (GEN y x U L QX QC X).
  Qed.
  Lemma row_order i j a b : nth_error all i = Some a -> nth_error all j = Some b -> (position h a <= position h b)%Z -> i <= j.
  Proof.
    intros NI NJ L. destruct (Nat.le_gt_cases i j) as [|GT]; auto. pose proof (sorted_nth_le _ all (proj1 ALL) j i b a NJ NI GT) as B. cbn in B. lia.
  Qed.
  Lemma hull v : sub v -> exists a l z, list_call h v (h_ch h v) true false false = a :: l /\ last_opt (a :: l) = Some z /\
    In a (v :: h_ch h v) /\ In z (v :: h_ch h v) /\
    forall c, In c (v :: h_ch h v) -> forall i j k, nth_error all i = Some a -> nth_error all j = Some c -> nth_error all k = Some z -> i <= j <= k.
  Proof.
    intros [L _]. destruct (children_prop h r C v L) as [_ CP]. specialize (CP true false false). unfold children in CP. destruct (lists_spec _ _ CP) as [INC IN]. clear CP.
    assert (FAM : forall c, In c (list_call h v (h_ch h v) true false false) <-> In c (v :: h_ch h v)).
    { intros c. rewrite IN. cbn [In]. rewrite (child_spec v c L). split.
      - intros [LC [[P|[_ ->]] _]]; auto. right. split; auto. destruct LC as [->|LC]; auto. rewrite (c_top h r C) in P. discriminate.
      - intros [<-|[J P]]; [split; auto; split; [auto|split; intros; discriminate]|]. split; [now right|]. split; [auto|split; intros; discriminate]. }
    destruct (list_call h v (h_ch h v) true false false) as [|a l] eqn:E; [exfalso; apply (proj2 (FAM v)); now left|].
    destruct (last_opt (a :: l)) as [z|] eqn:Z; [|apply last_opt_None in Z; discriminate]. exists a, l, z. split; auto. split; auto. split; [apply FAM; now left|]. split; [apply FAM; now apply last_opt_In|].
    intros c J i j k NI NJ NK. apply FAM in J. split; [apply (row_order i j a c)|apply (row_order j k c z)]; auto; [now apply (hull_min _ a l INC eq_refl)|now apply (hull_max _ z INC Z)].
  Qed.
  Lemma all_nodup : NoDup all.
  Proof. apply (increasing_nodup h). apply ALL. Qed.

  Hypothesis HINTS : o_hints o = true.
  Variables (marked : nat -> bool) (values : nat -> list str).
  Let text y := node_text h marked (values y) y.
  Lemma loop_result : exists P, draw_loop (S (length all)) o h text all (repeat [] (length all)) [x] = Ok P /\ length P = length all /\
    (forall i j y p, sub y -> y <> x -> h_par h y = Some p -> nth_error all i = Some y -> nth_error all j = Some p -> shows P i j) /\
    (forall i j P2, continues P P2 -> nth_error all i = Some x -> ~ shows P2 i j) /\
    (forall i y l, nth_error all i = Some y -> nth_error P i = Some l -> sub y -> exists g k, l = g ++ (if classic o then text y else []) ++ k /\ only_drawing g /\ only_drawing k) /\
    (forall i y l, nth_error all i = Some y -> nth_error P i = Some l -> ~ sub y -> only_drawing l).
  Proof.
    pose proof (inv_start o h text all x sub sub_x) as I0.
    destruct (loop_inv o h text all x sub HINTS all_nodup sub_row sub_ch child_sub top_par no_self (fun y i N => increasing_index h all (proj1 ALL) 0 i y N) hull
      (S (length all)) _ _ _ _ I0 ltac:(cbn; lia)) as (col & D & P & E & I).
    exists P. split; [exact E|]. split; [exact (in_len _ _ _ _ _ _ _ _ _ _ I)|]. split; [|split; [|split]].
    - intros i j y p S N PY NI NJ. apply (result_shows o h text all x sub all_nodup sub_row sub_ch child_sub sub_par top_par sub_ind col D P I i j y p); auto. rewrite live_parent; auto. apply S.
    - exact (result_top o h text all x sub col D P I).
    - exact (result_line o h text all x sub sub_row sub_ch child_sub sub_par top_par sub_ind col D P I).
    - exact (result_other o h text all x sub sub_x sub_ch child_sub col D P I).
  Qed.

  (** ---- The texts ---- *)
  Lemma add_texts_length f : forall l P, length P = length l -> length (add_texts f l P) = length l.
  Proof. induction l as [|y l IH]; intros [|p P] E; cbn in *; auto; try discriminate. Qed.
  Lemma add_texts_nth f : forall l P i y k, nth_error l i = Some y -> nth_error P i = Some k -> nth_error (add_texts f l P) i = Some (f y k).
  Proof.
    induction l as [|y0 l IH]; intros [|p P] [|i] y k A B; try discriminate; cbn in *; [congruence|]. now apply IH.
  Qed.
  Lemma add_texts_continues f P : length P = length all -> (forall y k, exists t, f y k = k ++ t) -> continues P (add_texts f all P).
  Proof.
    intros L F i k N. assert (LI : i < length all) by (rewrite <- L; apply nth_error_Some; congruence). destruct (nth_error all i) as [y|] eqn:Y; [|apply nth_error_None in Y; lia].
    destruct (F y k) as (t & E). exists t. rewrite <- E. now apply add_texts_nth.
  Qed.
  Lemma aligned_continues f P : length P = length all -> continues P (aligned f all P).
  Proof. intros L. unfold aligned. apply add_texts_continues; auto. intros y k. eexists. reflexivity. Qed.
  Lemma aligned_length f P : length P = length all -> length (aligned f all P) = length all.
  Proof. intros L. now apply add_texts_length. Qed.
  Lemma finish_continues P : length P = length all -> continues P (finish o h marked values all P) /\ length (finish o h marked values all P) = length all.
  Proof.
    intros L. unfold finish. destruct (o_layout o).
    - split; [|now apply add_texts_length]. apply add_texts_continues; auto. intros y k. destruct (is_empty h y); [eexists; reflexivity|exists []; now rewrite app_nil_r].
    - split; [|now apply add_texts_length]. apply add_texts_continues; auto. intros y k. eexists. reflexivity.
    - split; [|now apply aligned_length]. now apply aligned_continues.
    - generalize (seq 0 (o_attrs o)) as js. intros js. revert P L. induction js as [|j js IH]; intros P L; cbn [fold_left]; [split; [apply continues_refl|exact L]|].
      destruct (IH (aligned (fun y => node_text h marked [nth j (values y) []] y) all P)) as [A B]; [now apply aligned_length|]. split; auto. eapply continues_trans; [now apply aligned_continues|exact A].
  Qed.
  Lemma texts_snoc ts l g t : has_texts ts l -> only_drawing g -> has_texts (ts ++ [t]) (l ++ g ++ t).
  Proof.
    induction 1 as [g0 D0|g0 t0 ts l D0 H IH]; intros DG; cbn [app].
    - replace (g0 ++ g ++ t) with ((g0 ++ g) ++ t ++ []) by (rewrite app_nil_r; now rewrite <- app_assoc). constructor; [now apply drawing_app|]. constructor. intros a [].
    - replace ((g0 ++ t0 ++ l) ++ g ++ t) with (g0 ++ t0 ++ (l ++ g ++ t)) by (now rewrite <- !app_assoc). constructor; auto.
  Qed.
  Lemma spaces_drawing n : only_drawing (repeat SPACE n).
  Proof. intros a J. apply repeat_spec in J as ->. now left. Qed.
  Lemma finish_texts P : length P = length all ->
    (forall i y l, nth_error all i = Some y -> nth_error P i = Some l -> sub y -> exists g k, l = g ++ (if classic o then text y else []) ++ k /\ only_drawing g /\ only_drawing k) ->
    (forall i y l, nth_error all i = Some y -> nth_error P i = Some l -> ~ sub y -> only_drawing l) ->
    forall i y, nth_error all i = Some y -> exists l, nth_error (finish o h marked values all P) i = Some l /\ has_texts (texts_of o h marked values y) l.
  Proof.
    intros L SUB OTHER i y Y. assert (LI : i < length P) by (rewrite L; apply nth_error_Some; congruence). destruct (nth_error P i) as [l|] eqn:N; [|apply nth_error_None in N; lia].
    assert (DEC : (sub y /\ is_empty h y = false) \/ (~ sub y /\ is_empty h y = true)).
    { pose proof (nth_error_In _ _ Y) as J. apply (proj2 ALL) in J as [J|(OE & J & _)]; [left; split; auto; now apply live_pos|]. assert (E : is_empty h y = true) by (unfold is_empty; now rewrite (ge_kind h r (G OE) y J)).
      right. split; auto. intros [LV _]. rewrite (proj2 (live_pos y LV)) in E. discriminate. }
    assert (PLAIN : classic o = false -> only_drawing l).
    { intros NC. destruct DEC as [[S _]|[S _]]; [|now apply (OTHER i y)]. destruct (SUB i y l Y N S) as (g & k & -> & DG & DK). rewrite NC. now apply drawing_app. }
    unfold finish, texts_of. unfold classic in *. fold text. destruct (o_layout o) eqn:LY.
    - eexists. split; [apply (add_texts_nth _ all P i y l Y N)|]. destruct DEC as [[S ->]|[S ->]].
      + destruct (SUB i y l Y N S) as (g & k & -> & DG & DK). constructor; auto. now constructor.
      + specialize (OTHER i y l Y N S). fold (text y). replace (l ++ text y) with (l ++ text y ++ []) by (now rewrite app_nil_r). constructor; auto. constructor. intros a [].
    - eexists. split; [apply (add_texts_nth _ all P i y l Y N)|]. fold (text y). replace (l ++ text y) with (l ++ text y ++ []) by (now rewrite app_nil_r). constructor; [now apply PLAIN|]. constructor. intros a [].
    - eexists. split; [apply (add_texts_nth _ all P i y l Y N)|]. fold (text y). rewrite app_assoc. replace ((l ++ repeat SPACE (max_length P - length l)) ++ text y) with ((l ++ repeat SPACE (max_length P - length l)) ++ text y ++ []) by (now rewrite app_nil_r).
      constructor; [apply drawing_app; [now apply PLAIN|apply spaces_drawing]|]. constructor. intros a [].
    - assert (H0 : has_texts [] l) by (constructor; now apply PLAIN).
      assert (GEN : forall js ts l P, length P = length all -> nth_error P i = Some l -> has_texts ts l ->
        exists l', nth_error (fold_left (fun P j => aligned (fun y => node_text h marked [nth j (values y) []] y) all P) js P) i = Some l' /\
          has_texts (ts ++ map (fun j => node_text h marked [nth j (values y) []] y) js) l').
      { clear - Y. induction js as [|j js IH]; intros ts l P L N H0; cbn [fold_left map]; [exists l; now rewrite app_nil_r|].
        replace (ts ++ node_text h marked [nth j (values y) []] y :: map (fun j0 => node_text h marked [nth j0 (values y) []] y) js)
          with ((ts ++ [node_text h marked [nth j (values y) []] y]) ++ map (fun j0 => node_text h marked [nth j0 (values y) []] y) js) by (now rewrite <- app_assoc).
        eapply IH; [now apply aligned_length|apply (add_texts_nth _ all P i y l Y N)|]. apply texts_snoc; auto using spaces_drawing. }
      apply (GEN (seq 0 (o_attrs o)) [] l P); auto.
  Qed.
End tree.

(** The picture exists, shows exactly the tree, and contains the texts. *)
Theorem draw_correct h r x o marked values : consistent h r -> (o_empty o = true -> good_empties h r) -> live h r x -> o_hints o = true ->
  exists P all, draw o h marked values x = Ok P /\ picture_rows h r o x all /\ length P = length all /\
    (forall i j y, nth_error all i = Some y -> live h r y -> (shows P i j <-> exists p, y <> x /\ h_par h y = Some p /\ nth_error all j = Some p)) /\
    (forall i y, nth_error all i = Some y -> exists l, nth_error P i = Some l /\ has_texts (texts_of o h marked values y) l).
Proof.
  intros C G X HINTS. destruct (rows_ok h r x o C G X) as (all & ER & ALL).
  destruct (loop_result h r x o C G X all ALL HINTS marked values) as (P & EP & LEN & SH & TOP & LI & OT).
  destruct (finish_continues h o all marked values P LEN) as [CO LEN']. exists (finish o h marked values all P), all. unfold draw. rewrite ER. cbn [rbind]. rewrite EP. cbn [rbind].
  split; [reflexivity|]. split; [exact ALL|]. split; [exact LEN'|]. split.
  - intros i j y Y L. assert (S : sub h r x y). { pose proof (nth_error_In _ _ Y) as J. apply (proj2 ALL) in J as [J|(OE & J & _)]; auto. exfalso. pose proof (live_pos h r C y L) as [_ E]. unfold is_empty in E. now rewrite (ge_kind h r (G OE) y J) in E. }
    split.
    + intros S1. destruct (Nat.eq_dec y x) as [->|N]; [now apply (TOP i j _ CO) in S1|]. destruct (sub_par h r x C X y S N) as (p & EPar & SP). rewrite (live_parent h r C y L) in EPar. exists p. split; auto. split; auto.
      destruct (In_nth_error all p (sub_row h r x o all ALL p SP)) as (j' & J). pose proof (shows_ext _ _ _ _ CO (SH i j' y p S N EPar Y J)) as S2. now rewrite (shows_unique _ _ _ _ S1 S2).
    + intros (p & N & PY & J). apply (shows_ext P); auto. now apply (SH i j y p).
  - intros i y Y. now apply (finish_texts h r x o C G all ALL marked values P LEN LI OT).
Qed.
Lemma picture_unique h r o x l l' : picture_rows h r o x l -> picture_rows h r o x l' -> l = l'.
Proof.
  intros [S E] [S' E']. apply (key_sorted_unique (position h)); auto.
  apply NoDup_Permutation; [eapply increasing_nodup; eauto|eapply increasing_nodup; eauto|]. intros y. rewrite E, E'. tauto.
Qed.
(** The picture determines the tree. *)
Theorem draw_determines h1 r1 x1 o1 m1 v1 h2 r2 x2 o2 m2 v2 P all1 all2 :
  consistent h1 r1 -> (o_empty o1 = true -> good_empties h1 r1) -> live h1 r1 x1 -> o_hints o1 = true -> picture_rows h1 r1 o1 x1 all1 -> draw o1 h1 m1 v1 x1 = Ok P ->
  consistent h2 r2 -> (o_empty o2 = true -> good_empties h2 r2) -> live h2 r2 x2 -> o_hints o2 = true -> picture_rows h2 r2 o2 x2 all2 -> draw o2 h2 m2 v2 x2 = Ok P ->
  forall i j y1 y2, nth_error all1 i = Some y1 -> live h1 r1 y1 -> nth_error all2 i = Some y2 -> live h2 r2 y2 ->
    ((exists p, y1 <> x1 /\ h_par h1 y1 = Some p /\ nth_error all1 j = Some p) <-> (exists p, y2 <> x2 /\ h_par h2 y2 = Some p /\ nth_error all2 j = Some p)).
Proof.
  intros C1 G1 X1 H1 R1 E1 C2 G2 X2 H2 R2 E2 i j y1 y2 N1 L1 N2 L2.
  destruct (draw_correct h1 r1 x1 o1 m1 v1 C1 G1 X1 H1) as (P1 & a1 & F1 & S1 & _ & T1 & _). rewrite E1 in F1. injection F1 as <-. rewrite (picture_unique _ _ _ _ _ _ S1 R1) in T1.
  destruct (draw_correct h2 r2 x2 o2 m2 v2 C2 G2 X2 H2) as (P2 & a2 & F2 & S2 & _ & T2 & _). rewrite E2 in F2. injection F2 as <-. rewrite (picture_unique _ _ _ _ _ _ S2 R2) in T2.
  rewrite <- (T1 i j y1 N1 L1), <- (T2 i j y2 N2 L2). tauto.
Qed.
