(** The results about trees restated on the observable attributes. *)
From Coq Require Import String List NArith ZArith Bool Lia Permutation Sorted.
From Verif Require Import PyStr PyList PyListFacts PyExn TreeModel TreeSpec TreeFacts TreeRepr TreeOps TreeRemove
  TreeShift TreeCalls TreeQuery TreeTreelet.
Import ListNotations.

Lemma world_consistent rs h : world rs h -> forall r, In r rs -> consistent h r.
Proof. intros Hw. apply (f_tree _ _ (world_forest _ _ Hw)). Qed.
Lemma world_disjoint rs h : world rs h -> NoDup rs /\
  forall r1 r2 x, In r1 rs -> In r2 rs -> live h r1 x -> live h r2 x -> r1 = r2.
Proof.
  intros Hw. split; [apply (f_once _ _ (world_forest _ _ Hw))|].
  intros r1 r2 x H1 H2 L1 L2.
  rewrite <- (c_roots _ _ (world_consistent _ _ Hw r1 H1) x L1). apply (c_roots _ _ (world_consistent _ _ Hw r2 H2) x L2).
Qed.
Lemma world_total rs h r o : world rs h -> In r rs -> op_args_live h r o -> snd (tree_step h o) <> Diverge.
Proof. intros Hw Hr Ho. eapply forest_step; eauto using world_forest. Qed.

Lemma world_local rs h r o q y : world rs h -> In r rs -> op_args_live h r o -> In q rs -> q <> r ->
  live h q y -> same_object h (fst (tree_step h o)) y.
Proof.
  intros Hw Hr Ho Hq Hne Hy. pose proof (world_forest _ _ Hw) as [F1 F2 F3 F4].
  destruct (step_ok h (abs h r) (consistent_wf _ _ (F3 r Hr)) (consistent_Repr _ _ (F3 r Hr)) (F4 r Hr) o Ho)
    as [h' [res [T' [E [R [W' [ER [FR [EE ND]]]]]]]]].
  rewrite E. cbn [fst].
  assert (HN : ~ touched h (abs h r) y).
  { intros Ht. apply (touched_root h (abs h r)) in Ht; auto using consistent_wf, consistent_Repr; try (apply consistent_wf; auto); try (apply consistent_Repr; auto).
    rewrite (c_roots _ _ (F3 q Hq) y Hy) in Ht. contradiction. }
  assert (HL : y < h_next h) by (apply (c_alloc _ _ (F3 q Hq)); auto).
  unfold same_object. destruct FR. repeat split; auto.
Qed.

Section One.
Variables (h : heap) (r : nat).
Hypothesis C : consistent h r.
Let T := abs h r.
Let W : wf T := consistent_wf h r C.
Let HR : Repr h T := consistent_Repr h r C.

Lemma live_node y : live h r y <-> node_of T y.
Proof. reflexivity. Qed.
Lemma up_T x a : live h r x -> (up h x a <-> below T x a).
Proof. intros Hx. apply (up_iff h T HR W x a Hx). Qed.
Lemma live_up x a : live h r x -> up h x a -> live h r a.
Proof. intros Hx Hu. apply up_T in Hu; auto. now apply (below_node T W) in Hu. Qed.
Lemma sub_T x a : live h r x -> (in_subtree h x a <-> below_eq T x a).
Proof. intros Hx. unfold in_subtree, below_eq. now rewrite up_T. Qed.

Lemma set_parent_prop a b : In a (h_desc h r) -> live h r b ->
  let (h', res) := set_parent h a (Some b) in
  (in_subtree h b a -> h' = h /\ res = Raise CycleError) /\
  (h_par h a = Some b -> h' = h /\ res = Ok tt) /\
  (~ in_subtree h b a -> h_par h a <> Some b ->
     res = Ok tt /\ consistent h' r /\ h_desc h' r = h_desc h r /\ h_par h' a = Some b /\
     (forall y, live h r y -> y <> a -> h_par h' y = h_par h y) /\
     (forall y, y < h_next h -> ~ live h r y -> same_object h h' y)).
Proof.
  intros Ha Hb. destruct (set_parent_ok h T W HR a b Ha Hb) as [S1 [S2 S3]].
  destruct (set_parent h a (Some b)) as [h' res] eqn:E. split; [|split].
  - intros Hs. apply (sub_T b a Hb) in Hs. specialize (S2 Hs). try rewrite E in S2. injection S2 as -> ->. auto.
  - intros Hp. apply (r_par h T HR) in Ha as Hpa. rewrite Hp in Hpa. injection Hpa as Hpa.
    specialize (S1 (eq_sym Hpa)). injection S1 as -> ->. auto.
  - intros Hs Hp. rewrite (sub_T b a Hb) in Hs.
    destruct S3 as [h2 [E2 [R [F [SS _]]]]]; [intros ->; apply Hs; left; auto|intros B; apply Hs; right; auto|].
    injection E2 as -> ->. split; auto.
    assert (WR : wf (t_reattach T a b)).
    { apply wf_reattach; auto; [intros ->; apply Hs; left; auto|intros B; apply Hs; right; auto]. }
    split; [exact (Repr_consistent h2 _ R WR)|]. split; [exact (r_desc _ _ R)|].
    split.
    + rewrite (r_par _ _ R a Ha). cbn. unfold set_fun. now rewrite Nat.eqb_refl.
    + split.
      * intros y [->|Hy] Hn; [rewrite (c_top h r C); exact (r_parroot _ _ R)|].
        rewrite (r_par _ _ R y Hy), (r_par h T HR y Hy). cbn. unfold set_fun. destruct (Nat.eqb_spec y a); [contradiction|auto].
      * intros y Hy Hn. destruct F. unfold same_object. repeat split; auto.
Qed.
Lemma set_parent_none a : In a (h_desc h r) -> set_parent h a None = (h, Raise ValueError).
Proof. intros Ha. unfold set_parent. rewrite (r_kind h T HR a Ha), (r_par h T HR a Ha). auto. Qed.
Lemma set_parent_root p : set_parent h r p = (h, Raise AttributeError).
Proof. unfold set_parent. rewrite (proj2 (c_kinds h r C)). auto. Qed.

Lemma remove_prop x m : (forall e, In e (h_emp h r) -> h_kind h e = KEmpty /\ e < h_next h) -> In x (h_desc h r) ->
  exists h', node_remove h x m = (h', Ok tt) /\ consistent h' r /\
    ((exists mode, m = Some mode /\ starts_with (s "rehang") mode = true) ->
       kept h h' r (fun w => w <> x) /\
       forall w p, In w (h_desc h' r) -> h_par h w = Some p ->
         h_par h' w = if Nat.eqb p x then h_par h x else Some p) /\
    (~ (exists mode, m = Some mode /\ starts_with (s "rehang") mode = true) ->
       kept h h' r (fun w => ~ in_subtree h w x) /\
       forall w, In w (h_desc h' r) -> h_par h' w = h_par h w).
Proof.
  intros HE Hx. destruct (remove_ok h T W HR x Hx m) as [h' [res [E [R [F [SS HO]]]]]].
  exists h'. rewrite E. rewrite HO by exact HE.
  split; auto. pose proof (t_removed_wf T W x m Hx) as WR.
  split; [pose proof (Repr_consistent h' _ R WR) as CC; now rewrite t_removed_root in CC|].
  unfold t_removed in *.
  assert (RD : h_desc h' r = a_words (if rehangs m && nonempty (chs T x) then t_remove_rehang T x else t_remove T x)).
  { pose proof (r_desc _ _ R) as D. destruct (_ && _); exact D. }
  assert (HC : forall w, In w (h_desc h r) -> nonempty (chs T x) = false -> ~ below T w x).
  { intros w Hw Hc B. assert (chs T x = []) by (destruct (chs T x); [auto|discriminate]).
    apply (chs_nil_subs T W) in H. apply (subs_In T W) in B. rewrite H in B. destruct B. }
  split.
  - intros [mode [-> Hm]]. assert (RH : rehangs (Some mode) = true) by exact Hm.
    rewrite RH in *. cbn [andb] in *. destruct (nonempty (chs T x)) eqn:Ec.
    + split.
      * exists (fun w => negb (Nat.eqb w x)). split; [intros w _; rewrite negb_true_iff, Nat.eqb_neq; tauto|exact RD].
      * intros w p Hw Hp. assert (Hw' := Hw). rewrite RD in Hw'.
        rewrite (r_par _ _ R w Hw'). cbn [a_par t_remove_rehang].
        assert (Hwd : In w (a_words T)) by (apply filter_In in Hw'; tauto).
        rewrite (r_par h T HR w Hwd) in Hp. assert (Ep : a_par T w = p) by congruence. rewrite Ep.
        destruct (Nat.eqb p x); auto. now rewrite (r_par h T HR x Hx).
    + split.
      * exists (fun w => negb (insubb T w x)). split; [|exact RD].
        intros w Hw. rewrite negb_true_iff, <- not_true_iff_false, (insubb_spec T W). specialize (HC w Hw eq_refl). tauto.
      * intros w p Hw Hp. assert (Hw' := Hw). rewrite RD in Hw'. rewrite (r_par _ _ R w Hw').
        assert (Hwd : In w (a_words T)) by (apply filter_In in Hw'; tauto).
        rewrite (r_par h T HR w Hwd) in Hp. assert (Ep : a_par T w = p) by congruence. cbn [a_par t_remove]. rewrite Ep.
        destruct (Nat.eqb_spec p x) as [->|]; auto. exfalso.
        apply (HC w Hwd eq_refl). rewrite <- Ep. now constructor.
  - intros Hm. assert (RH : rehangs m = false).
    { destruct m as [mode|]; auto. destruct (rehangs (Some mode)) eqn:E2; auto. exfalso. apply Hm. exists mode. auto. }
    rewrite RH in *. cbn [andb] in *. split.
    + exists (fun w => negb (insubb T w x)). split; [|exact RD].
      intros w Hw. rewrite negb_true_iff, <- not_true_iff_false, (insubb_spec T W), (sub_T w x (or_intror Hw)).
      unfold below_eq. tauto.
    + intros w Hw. assert (Hw' := Hw). rewrite RD in Hw'. rewrite (r_par _ _ R w Hw').
      assert (Hwd : In w (a_words T)) by (apply filter_In in Hw'; tauto).
      now rewrite (r_par h T HR w Hwd).
Qed.

(** ---- shift_* ---- *)
Definition shift_result (x y : nat) (wc sk : bool) (pre : nat -> Prop) (m : heap * res unit) : Prop :=
  let (h', res) := m in
  (wc = false /\ up h y x -> h' = h /\ res = if sk then Ok tt else Raise ValueError) /\
  (~ (wc = false /\ up h y x) -> res = Ok tt /\ consistent h' r /\ reordered h h' r x wc pre /\
     forall w, live h r w -> h_par h' w = h_par h w).

Lemma refused_iff x y wc : live h r y -> (refused T x y wc = true <-> wc = false /\ up h y x).
Proof.
  intros Hy. unfold refused. rewrite andb_true_iff, negb_true_iff, (belowb_spec T W), (up_T y x Hy). tauto.
Qed.
Lemma moved_par h' x wc ref : moved_to h h' T x wc ref ->
  consistent h' r /\ forall w, live h r w -> h_par h' w = h_par h w.
Proof.
  intros [_ [R _]]. pose proof (wf_move T W x wc (Z.to_nat (ref - 1))) as WM.
  split; [exact (Repr_consistent _ _ R WM)|].
  intros w [->|Hw]; [rewrite (c_top h r C); exact (r_parroot _ _ R)|].
  rewrite (r_par h T HR w Hw). apply (r_par _ _ R).
  cbn [a_words t_move].
  destruct (mvset T x wc w) eqn:Em; rewrite !in_app_iff, !filter_In, Em; cbn; [tauto|].
  assert (In w (firstn (Z.to_nat (ref - 1)) (a_words T) ++ skipn (Z.to_nat (ref - 1)) (a_words T))) as Hin
    by (rewrite firstn_skipn; exact Hw).
  apply in_app_iff in Hin. tauto.
Qed.
Lemma reordered_ext h' x wc (p1 p2 : nat -> Prop) : (forall w, In w (h_desc h r) -> (p1 w <-> p2 w)) ->
  reordered h h' r x wc p1 -> reordered h h' r x wc p2.
Proof. intros E [mv [pr [H1 [H2 H3]]]]. exists mv, pr. split; auto. split; auto. intros w Hw. rewrite H2 by auto. auto. Qed.

Lemma shift_build x y wc sk pre (m : heap * res unit) : live h r y ->
  (refused T x y wc = true -> m = (h, refusal sk)) ->
  (refused T x y wc = false -> exists h' ref, m = (h', Ok tt) /\ moved_to h h' T x wc ref /\ reordered h h' r x wc pre) ->
  shift_result x y wc sk pre m.
Proof.
  intros Hy H1 H2. unfold shift_result. destruct m as [h' res]. split.
  - intros HF. apply refused_iff in HF; auto. specialize (H1 HF). injection H1 as -> ->. auto.
  - intros HF. rewrite <- refused_iff in HF by auto. apply not_true_iff_false in HF.
    destruct (H2 HF) as [h2 [ref [E [M O]]]]. injection E as -> ->. split; auto.
    destruct (moved_par h2 x wc ref M) as [A B]. auto.
Qed.
Lemma after_node_prop x y wc sk : In x (h_desc h r) -> live h r y ->
  shift_result x y wc sk (fun w => (h_ord h w <= h_ord h y)%Z) (shift_after_node h x y wc sk).
Proof.
  intros Hx Hy. destruct (after_node_ok h T W HR x y wc sk Hx Hy) as [H1 H2]. apply shift_build; auto.
  intros HF. destruct (H2 HF) as [h' [? [? ?]]]. eauto.
Qed.
Lemma before_node_prop x y wc sk : In x (h_desc h r) -> In y (h_desc h r) ->
  shift_result x y wc sk (fun w => (h_ord h w < h_ord h y)%Z) (shift_before_node h x y wc sk).
Proof.
  intros Hx Hy. destruct (before_node_ok h T W HR x y wc sk Hx Hy) as [H1 H2]. apply shift_build; auto; [now right|].
  intros HF. destruct (H2 HF) as [h' [? [? ?]]]. eauto.
Qed.
Lemma refw x y v : live h r v -> (ref_word_T T x y v <-> ref_word h x y v).
Proof. intros Hv. unfold ref_word, ref_word_T. now rewrite up_T. Qed.
Lemma after_subtree_prop x y wc sk : In x (h_desc h r) -> live h r y ->
  shift_result x y wc sk (fun w => exists v, live h r v /\ ref_word h x y v /\ (h_ord h w <= h_ord h v)%Z)
    (shift_after_subtree h x y wc sk).
Proof.
  intros Hx Hy. destruct (after_subtree_ok h T W HR x y wc sk Hx Hy) as [H1 H2]. apply shift_build; auto.
  intros HF. destruct (H2 HF) as [h' [ref [? [? RO]]]]. exists h', ref. split; auto. split; auto.
  eapply reordered_ext; [|exact RO]. intros w _. cbn. split; intros [v [A1 [A2 A3]]]; exists v; split; auto; split; auto; apply refw; auto.
Qed.
Lemma before_subtree_prop x y wc sk : In x (h_desc h r) -> In y (h_desc h r) ->
  shift_result x y wc sk (fun w => forall v, live h r v -> ref_word h x y v -> (h_ord h w < h_ord h v)%Z)
    (shift_before_subtree h x y wc sk).
Proof.
  intros Hx Hy. destruct (before_subtree_ok h T W HR x y wc sk Hx Hy) as [H1 H2]. apply shift_build; auto; [now right|].
  intros HF. destruct (H2 HF) as [h' [ref [? [? RO]]]]. exists h', ref. split; auto. split; auto.
  eapply reordered_ext; [|exact RO]. intros w _. cbn. split; intros A v A1 A2; apply A; auto; apply refw; auto.
Qed.
Lemma before_root_prop x wc sk :
  shift_before_node h x r wc sk = (h, Raise ValueError) /\ shift_before_subtree h x r wc sk = (h, Raise ValueError).
Proof. exact (before_root_ok h T W HR x wc sk). Qed.

(** ---- queries ---- *)
Lemma live_In y : live h r y <-> In y (r :: h_desc h r).
Proof. unfold live. cbn. intuition. Qed.

Lemma lists_call x f (P : nat -> Prop) asf fo po : live h r x -> (forall w, live h r w -> (f w = true <-> P w)) -> ~ P x ->
  lists h r (list_call h x (filter f (r :: h_desc h r)) asf fo po)
    (fun w => (P w \/ (asf = true /\ w = x)) /\ (po = true -> (h_ord h w <= h_ord h x)%Z) /\
              (po = false -> fo = true -> (h_ord h x <= h_ord h w)%Z)).
Proof.
  intros Hx Hf HN. assert (Efx : f x = false) by (apply not_true_iff_false; rewrite Hf; auto).
  pose proof (list_call_ok h T W HR x f asf fo po Hx Efx) as E. cbn [a_root a_words T abs] in E.
  eexists. split; [|exact E]. intros w Hw. rewrite andb_true_iff, orb_true_iff, andb_true_iff, Nat.eqb_eq, (Hf w Hw).
  assert (EQ : (if po then Z.leb (h_ord h w) (h_ord h x) else if fo then Z.leb (h_ord h x) (h_ord h w) else true) = true <->
    (po = true -> (h_ord h w <= h_ord h x)%Z) /\ (po = false -> fo = true -> (h_ord h x <= h_ord h w)%Z)).
  { destruct po; [rewrite Z.leb_le; intuition; discriminate|]. destruct fo; [rewrite Z.leb_le; intuition; discriminate|intuition; discriminate]. }
  rewrite EQ. tauto.
Qed.
Lemma filter_live_ext f g : (forall w, live h r w -> f w = g w) -> filter f (r :: h_desc h r) = filter g (r :: h_desc h r).
Proof. intros H. apply filter_ext_in'. intros w Hw. apply H, live_In, Hw. Qed.

Lemma descendants_prop x : live h r x -> exists l, descendants h x = Ok l /\
  lists h r l (fun w => up h w x) /\
  forall asf fo po, lists h r (list_call h x l asf fo po)
    (fun w => (up h w x \/ (asf = true /\ w = x)) /\ (po = true -> (h_ord h w <= h_ord h x)%Z) /\
              (po = false -> fo = true -> (h_ord h x <= h_ord h w)%Z)).
Proof.
  intros Hx. exists (subs T x). split; [exact (descendants_ok h T W HR x Hx)|].
  assert (E : subs T x = filter (fun w => belowb T w x) (r :: h_desc h r)).
  { unfold subs. cbn [a_words T abs filter]. destruct (belowb T r x) eqn:B; auto.
    apply (belowb_spec T W) in B. exfalso. exact (root_not_below T W x B). }
  assert (HF : forall w, live h r w -> (belowb T w x = true <-> up h w x)).
  { intros w Hw. rewrite (belowb_spec T W), up_T; tauto. }
  rewrite E. split; [eexists; split; [exact HF|reflexivity]|].
  intros. apply (lists_call x (fun w => belowb T w x) (fun w => up h w x)); auto.
  rewrite up_T by auto. apply (below_irrefl T W).
Qed.
Lemma children_prop x : live h r x ->
  lists h r (children h x) (fun w => h_par h w = Some x) /\
  forall asf fo po, lists h r (list_call h x (children h x) asf fo po)
    (fun w => (h_par h w = Some x \/ (asf = true /\ w = x)) /\ (po = true -> (h_ord h w <= h_ord h x)%Z) /\
              (po = false -> fo = true -> (h_ord h x <= h_ord h w)%Z)).
Proof.
  intros Hx. unfold children.
  assert (HF : forall w, live h r w -> (has_parent h x w = true <-> h_par h w = Some x)).
  { intros w _. unfold has_parent. destruct (h_par h w) as [q|]; [rewrite Nat.eqb_eq|]; split; congruence. }
  assert (E : h_ch h x = filter (has_parent h x) (r :: h_desc h r)).
  { rewrite (c_children h r C x Hx). cbn [filter]. unfold has_parent at 2. now rewrite (c_top h r C). }
  rewrite E. split; [eexists; split; [exact HF|reflexivity]|].
  intros. apply (lists_call x (has_parent h x) (fun w => h_par h w = Some x)); auto.
  intros Hp. destruct Hx as [->|Hx]; [rewrite (c_top h r C) in Hp; discriminate|].
  apply (below_irrefl T W x). apply (up_T x x (or_intror Hx)). now constructor.
Qed.
Lemma siblings_prop x p : In x (h_desc h r) -> h_par h x = Some p -> exists l, siblings h x = Ok l /\
  lists h r l (fun w => h_par h w = Some p /\ w <> x) /\
  forall asf fo po, lists h r (list_call h x l asf fo po)
    (fun w => ((h_par h w = Some p /\ w <> x) \/ (asf = true /\ w = x)) /\ (po = true -> (h_ord h w <= h_ord h x)%Z) /\
              (po = false -> fo = true -> (h_ord h x <= h_ord h w)%Z)).
Proof.
  intros Hx Hp. unfold siblings. rewrite Hp. eexists. split; [reflexivity|].
  set (f := fun w => has_parent h p w && negb (Nat.eqb w x)).
  assert (Lp : live h r p) by (destruct (c_parents h r C x Hx) as [q [E L]]; congruence).
  assert (HF : forall w, live h r w -> (f w = true <-> h_par h w = Some p /\ w <> x)).
  { intros w _. unfold f. rewrite andb_true_iff, negb_true_iff, Nat.eqb_neq. unfold has_parent.
    destruct (h_par h w) as [q|]; [rewrite Nat.eqb_eq|]; intuition congruence. }
  assert (E : filter (fun n => negb (Nat.eqb n x)) (h_ch h p) = filter f (r :: h_desc h r)).
  { rewrite (c_children h r C p Lp), filter_filter. cbn [filter]. unfold f at 1, has_parent at 2. now rewrite (c_top h r C). }
  rewrite E. split; [eexists; split; [exact HF|reflexivity]|].
  intros. apply (lists_call x f (fun w => h_par h w = Some p /\ w <> x)); auto; [now right|tauto].
Qed.

Lemma is_descendant_prop x a : live h r x -> live h r a ->
  exists b, is_descendant_of h x a = Ok b /\ (b = true <-> up h x a).
Proof.
  intros Hx Ha. exists (belowb T x a). split; [exact (is_descendant_ok h T W HR x a Hx Ha)|].
  rewrite (belowb_spec T W), up_T; tauto.
Qed.
Lemma up_irrefl x : live h r x -> ~ up h x x.
Proof. intros Hx. rewrite up_T by auto. apply (below_irrefl T W). Qed.

Lemma neighbours_prop i x : nth_error (r :: h_desc h r) i = Some x ->
  next_node h x = nth_error (r :: h_desc h r) (S i) /\
  prev_node h x = Ok (match i with O => None | S j => nth_error (r :: h_desc h r) j end).
Proof.
  intros Hi. assert (Hx : live h r x) by (apply live_In; eapply nth_error_In; eauto).
  pose proof (next_ok h T HR x Hx) as HN.
  pose proof (prev_ok h T HR x Hx) as HP. cbn [a_words a_root T abs] in *. rewrite HN, HP.
  destruct i as [|i].
  - injection Hi as <-. rewrite Nat.eqb_refl, (c_ord0 h r C). auto.
  - cbn [nth_error] in Hi. pose proof (r_ord h T HR i x Hi) as Ho. rewrite Ho.
    replace (Z.to_nat (Z.of_nat i + 1)) with (S i) by lia. split; auto.
    destruct (Nat.eqb_spec x r) as [->|_]; [exfalso; apply (c_rootout h r C); eapply nth_error_In; eauto|].
    replace (Z.to_nat (Z.of_nat i + 1 - 1)) with i by lia. auto.
Qed.
Lemma walk_prop : walk (S (length (h_desc h r))) h r = h_desc h r.
Proof.
  assert (G : forall n i x, nth_error (r :: h_desc h r) i = Some x -> length (r :: h_desc h r) <= n + i ->
              walk n h x = skipn (S i) (r :: h_desc h r)).
  { induction n as [|n IH]; intros i x Hi Hn.
    - exfalso. assert (i < length (r :: h_desc h r)) by (apply nth_error_Some; congruence). lia.
    - cbn [walk]. destruct (neighbours_prop i x Hi) as [-> _].
      destruct (nth_error (r :: h_desc h r) (S i)) as [y|] eqn:E.
      + rewrite (IH (S i) y E) by lia.
        destruct (nth_error_split _ _ E) as [l1 [l2 [El Ll]]]. rewrite El.
        rewrite <- Ll, !skipn_app, Nat.sub_diag, skipn_all, (skipn_all2 l1) by lia.
        replace (S (length l1) - length l1) with 1 by lia. reflexivity.
      + apply nth_error_None in E. now rewrite skipn_all2. }
  rewrite (G _ 0 r); [reflexivity|reflexivity|cbn; lia].
Qed.

Lemma up_live_word x a : up h x a -> live h r x -> In x (h_desc h r).
Proof. intros Hu Hx. apply up_T in Hu; auto. now apply below_word in Hu. Qed.

Lemma nonprojective_prop x p : In x (h_desc h r) -> h_par h x = Some p ->
  exists b, is_nonprojective h x = Ok b /\
  (b = true <-> exists w, In w (h_desc h r) /\
     ((h_ord h x < h_ord h w < h_ord h p)%Z \/ (h_ord h p < h_ord h w < h_ord h x)%Z) /\ ~ up h w p).
Proof.
  intros Hx Hp. destruct (is_nonprojective_ok h T W HR x Hx) as [b [E Hb]]. exists b. split; auto.
  rewrite (r_par h T HR x Hx) in Hp. assert (Ep : a_par T x = p) by congruence. rewrite Ep in Hb. rewrite Hb. unfold between.
  split; intros [w [H1 [H2 H3]]]; exists w; split; auto; split; auto; [rewrite up_T by (now right)|rewrite <- up_T by (now right)]; auto.
Qed.
Lemma gap_prop x : In x (h_desc h r) -> exists b, is_nonprojective_gap h x = Ok b /\
  (b = true <-> exists X a c, live h r X /\ live h r a /\ live h r c /\ ~ in_subtree h x X /\
     in_subtree h a X /\ in_subtree h c X /\ (h_ord h a < h_ord h x < h_ord h c)%Z).
Proof.
  intros Hx. destruct (gap_ok h T W HR x Hx) as [b [E Hb]]. exists b. split; auto. rewrite Hb.
  assert (SL : forall a X, live h r X -> below_eq T a X -> live h r a).
  { intros a X HX [->|B]; auto. right. now apply below_word in B. }
  split.
  - intros [X [a [c [H1 [H2 [H3 [H4 [H5 H6]]]]]]]]. exists X, a, c.
    assert (La : live h r a) by exact (SL a X H1 H4). assert (Lc : live h r c) by exact (SL c X H1 H5).
    split; auto. split; auto. split; auto. rewrite !sub_T by (auto; now right). unfold below_eq. intuition.
  - intros [X [a [c [H1 [H2 [H3 [H4 [H5 [H6 H7]]]]]]]]]. exists X, a, c. split; auto.
    rewrite sub_T in H4 by (now right). rewrite sub_T in H5, H6 by auto. unfold below_eq in *. intuition.
Qed.

(** ---- get_attrs ---- *)
Lemma steps_path x n : live h r x -> steps h x n r -> exists l, path T x l /\ length l = n.
Proof.
  intros Hx HS. remember r as r0 eqn:Er in HS. revert Hx. induction HS as [x|x p n a E HS IH]; intros Hx.
  - subst. exists []. split; auto. constructor.
  - subst. destruct Hx as [->|Hx]; [rewrite (c_top h r C) in E; discriminate|].
    rewrite (r_par h T HR x Hx) in E. assert (Ep : a_par T x = p) by congruence. subst p.
    destruct IH as [l [P L]]; auto; [exact (wf_parent T W x Hx)|]. exists (a_par T x :: l). split; [now constructor|cbn; lia].
Qed.
Lemma depth_prop x : live h r x -> exists n, attr_depth h x = Ok (Z.of_nat n) /\ steps h x n r.
Proof.
  intros Hx. destruct (in_subtree_steps h x r) as [n Hn].
  { destruct Hx as [->|Hx]; [left; auto|right; now apply (c_connected h r C)]. }
  exists n. split; auto. destruct (steps_path x n Hx Hn) as [l [P <-]]. exact (attr_depth_ok h T W HR x l P).
Qed.
Lemma attrs_prop x p : In x (h_desc h r) -> h_par h x = Some p ->
  (p = r -> attr_dir h x = s "root" /\ attr_edge h x = 0%Z) /\
  (p <> r -> attr_edge h x = (h_ord h x - h_ord h p)%Z /\
     ((h_ord h x < h_ord h p)%Z -> attr_dir h x = s "left") /\
     ((h_ord h p < h_ord h x)%Z -> attr_dir h x = s "right") /\
     h_ord h x <> h_ord h p) /\
  attr_children h x = Z.of_nat (length (children h x)) /\
  exists l, siblings h x = Ok l /\ attr_siblings h x = Z.of_nat (length l).
Proof.
  intros Hx Hp. unfold attr_dir, attr_edge, attr_children, attr_siblings, children, precedes_in_tree. rewrite Hp.
  assert (Lp : live h r p) by (destruct (c_parents h r C x Hx) as [q [E L]]; congruence).
  pose proof (is_root_iff h T W HR p Lp) as ER. cbn [a_root T abs] in ER. rewrite ER.
  split; [|split; [|split]].
  - intros ->. rewrite Nat.eqb_refl. auto.
  - intros Hn. destruct (Nat.eqb_spec p r); [contradiction|]. split; auto.
    split; [intros; destruct (Z.ltb_spec (h_ord h x) (h_ord h p)); auto; lia|].
    split; [intros; destruct (Z.ltb_spec (h_ord h x) (h_ord h p)); auto; lia|].
    intros E. apply (ord_inj h T HR x p (or_intror Hx) Lp) in E. subst p. apply (up_irrefl x); [now right|now constructor].
  - auto.
  - unfold siblings. rewrite Hp. eexists. split; [reflexivity|].
    assert (ND : NoDup (h_ch h p)) by (rewrite (c_children h r C p Lp); apply NoDup_filter, (c_once h r C)).
    assert (Hin : In x (h_ch h p)).
    { rewrite (c_children h r C p Lp). apply filter_In. split; auto. unfold has_parent. rewrite Hp. apply Nat.eqb_refl. }
    clear -ND Hin. assert (S (length (filter (fun n => negb (Nat.eqb n x)) (h_ch h p))) = length (h_ch h p)); [|lia].
    induction (h_ch h p) as [|y l IH]; [destruct Hin|]. inversion ND as [|? ? N1 N2]; subst. cbn [filter length].
    destruct (Nat.eqb_spec y x) as [->|Hn]; cbn [negb length].
    + f_equal. rewrite filter_all; auto. intros z Hz. apply negb_true_iff, Nat.eqb_neq. intros ->. contradiction.
    + f_equal. apply IH; auto. destruct Hin; [contradiction|auto].
Qed.

(** ---- find_minimal_common_treelet ---- *)
Lemma lowest_T nodes a : (forall x, In x nodes -> live h r x) -> nodes <> [] -> lowest_common h nodes a -> live h r a.
Proof.
  intros HL Hn [H1 _]. destruct nodes as [|x nodes]; [contradiction|]. assert (Lx : live h r x) by (apply HL; simpl; auto).
  destruct (H1 x (or_introl eq_refl)) as [<-|Hu]; auto. eapply live_up; eauto.
Qed.
Lemma treelet_returns nodes : NoDup nodes -> nodes <> [] -> (forall x, In x nodes -> live h r x) ->
  exists head added, find_minimal_common_treelet h nodes = Ok (head, added) /\ live h r head /\ NoDup added /\
    (forall y, In y added -> live h r y /\ ~ In y nodes).
Proof.
  intros ND HN HL. destruct (treelet_general h T W HR nodes ND HL HN) as [Q [m [nw [hi [head [added [_ [F [H1 [H2 [H3 _]]]]]]]]]]].
  exists head, added. auto.
Qed.
Lemma treelet_near_prop nodes a : NoDup nodes -> nodes <> [] -> (forall x, In x nodes -> live h r x) ->
  lowest_common h nodes a ->
  (forall x y n d, In x nodes -> In y nodes -> steps h x n a -> steps h y d r -> n <= d) ->
  exists added, find_minimal_common_treelet h nodes = Ok (a, added) /\ NoDup added /\
    (forall y, live h r y -> (In y added <-> ~ In y nodes /\ in_subtree h y a /\ exists x, In x nodes /\ in_subtree h x y)) /\
    (forall y, In y added -> live h r y).
Proof.
  intros ND HN HL HA Near. assert (La : live h r a) by (eapply lowest_T; eauto).
  destruct HA as [A1 A2].
  destruct (treelet_near h T W HR nodes ND HL a) with (3 := HN) as [head [added [E [H1 [H2 [H3 [H4 H5]]]]]]]; auto.
  { intros g Hg. apply sub_T; auto. }
  assert (head = a) as ->.
  { assert (B1 : below_eq T head a) by (apply H4; auto; intros g Hg; apply sub_T; auto).
    assert (B2 : in_subtree h a head) by (apply A2; intros g Hg; apply sub_T; auto; apply H3; auto).
    apply sub_T in B2; auto. destruct B1 as [->|B1], B2 as [B2|B2]; auto. exfalso. now apply (below_asym T W head a). }
  exists added. split; auto. split; auto.
  assert (SL : forall y X, live h r X -> below_eq T y X -> live h r y).
  { intros y X HX [->|B]; auto. right. now apply below_word in B. }
  split.
  - intros y Ly. rewrite H5, sub_T by auto. split; intros [B1 [B2 [x [B3 B4]]]]; split; auto; split; auto; exists x; split; auto; apply sub_T; auto.
  - intros y Hy. apply H5 in Hy as [_ [B2 _]]. eapply SL; eauto.
Qed.

Lemma flatten_prop : consistent (flatten h r) r /\ h_desc (flatten h r) r = h_desc h r /\
  (forall w, In w (h_desc h r) -> h_par (flatten h r) w = Some r /\ h_ch (flatten h r) w = []) /\
  h_ch (flatten h r) r = h_desc h r.
Proof.
  destruct (flatten_ok h T W HR) as [R _]. pose proof (wf_flatten T W) as WF.
  split; [exact (Repr_consistent _ _ R WF)|]. split; [exact (r_desc _ _ R)|]. split.
  - intros w Hw. split; [exact (r_par _ _ R w Hw)|].
    rewrite (r_ch _ _ R w (or_intror Hw) : h_ch (flatten h r) w = _). apply filter_none. intros c _.
    apply Nat.eqb_neq. intros E2. change (r = w) in E2. apply (c_rootout h r C). rewrite <- E2 in Hw. exact Hw.
  - rewrite (r_ch _ _ R r (or_introl eq_refl) : h_ch (flatten h r) r = _). apply filter_all. intros c _. apply Nat.eqb_refl.
Qed.
End One.

Lemma up_trans h x y z : up h x y -> up h y z -> up h x z.
Proof. induction 1 as [x p E|x p a E H IH]; intros; eapply up_S; eauto. Qed.

(** ---- parent in another tree ---- *)
Lemma cross_parent h r1 r2 a b p : consistent h r1 -> consistent h r2 -> r1 <> r2 ->
  In a (h_desc h r1) -> live h r2 b -> h_par h a = Some p ->
  set_parent h a (Some b) = (put_ch h p (filter (fun c => negb (Nat.eqb c a)) (h_ch h p)), Raise ValueError).
Proof.
  intros C1 C2 Hne Ha Hb Hp.
  assert (Ra : h_root h a = r1) by (apply (c_roots h r1 C1); now right).
  assert (Lp : live h r1 p) by (destruct (c_parents h r1 C1 a Ha) as [q [E L]]; congruence).
  assert (Rp : h_root h p = r1) by now apply (c_roots h r1 C1).
  assert (Rb : h_root h b = r2) by now apply (c_roots h r2 C2).
  unfold set_parent. rewrite (proj1 (c_kinds h r1 C1) a Ha), Hp.
  destruct (Nat.eqb_spec p b) as [->|Hpb]; [congruence|].
  assert (Eb : is_empty h b = false) by (apply (not_empty h (abs h r2)); auto; now apply consistent_Repr).
  rewrite Eb. destruct (Nat.eqb_spec a b) as [->|Hab]; [congruence|].
  assert (ED : (if nonempty (h_ch h a) then is_descendant_of h b a else Ok false) = Ok false).
  { destruct (nonempty (h_ch h a)) eqn:En; auto. unfold is_descendant_of. rewrite En.
    destruct (is_root h b) eqn:Er; auto.
    pose proof (consistent_wf h r2 C2) as W2. pose proof (consistent_Repr h r2 C2) as R2.
    destruct Hb as [->|Hb]; [unfold is_root in Er; rewrite (proj2 (c_kinds h r2 C2)) in Er; discriminate|].
    destruct (c_parents h r2 C2 b Hb) as [q [Eq Lq]]. rewrite Eq.
    destruct (path_exists (abs h r2) W2 q Lq) as [l P].
    rewrite (climbs_ok h (abs h r2) R2 q l a (fuel h) P).
    - f_equal. apply orb_false_iff. split.
      + apply Nat.eqb_neq. intros ->. apply Hne. rewrite <- Ra. now apply (c_roots h r2 C2).
      + apply mem_false. intros Hin. apply (path_below _ W2 q l a P) in Hin. apply (below_node _ W2) in Hin.
        apply Hne. rewrite <- Ra. now apply (c_roots h r2 C2).
    - pose proof (path_length _ W2 q l P). pose proof (words_lt_next h _ W2 R2). unfold fuel. lia. }
  rewrite ED.
  assert (Hin : In a (h_ch h p)).
  { rewrite (c_children h r1 C1 p Lp). apply filter_In. split; auto. unfold has_parent. rewrite Hp. apply Nat.eqb_refl. }
  assert (ND : NoDup (h_ch h p)) by (rewrite (c_children h r1 C1 p Lp); apply NoDup_filter, (c_once h r1 C1)).
  rewrite (list_remove_filter a _ ND Hin). cbn [h_root put_ch set_ch]. rewrite Rp, Rb.
  destruct (Nat.eqb_spec r1 r2); [contradiction|]. reflexivity.
Qed.
