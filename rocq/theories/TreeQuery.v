(** Queries on consistent trees: descendants, children, siblings, ancestors, neighbours,
    attributes and projectivity. *)
From Coq Require Import String List NArith ZArith Bool Lia Permutation Sorted.
From Verif Require Import PyStr PyList PyListFacts PyExn TreeModel TreeSpec TreeFacts TreeRepr TreeOps TreeShift TreeCalls.
Import ListNotations.

Lemma perm_filter {A} (f : A -> bool) l1 l2 : Permutation l1 l2 -> Permutation (filter f l1) (filter f l2).
Proof.
  induction 1 as [|x l1 l2 P IH|x y l|l1 l2 l3 P1 IH1 P2 IH2]; cbn; auto.
  - destruct (f x); auto.
  - destruct (f x), (f y); auto. apply perm_swap.
  - eapply perm_trans; eauto.
Qed.

Section Query.
Variables (h : heap) (T : atree).
Hypothesis W : wf T.
Hypothesis HR : Repr h T.
Notation root := (a_root T).
Notation words := (a_words T).
Notation par := (a_par T).
Let N0 : node_of T root := or_introl eq_refl.
Let NW : forall x, In x words -> node_of T x := fun x H => or_intror H.

Lemma all_sorted : StronglySorted (key_lt (h_ord h)) (root :: words).
Proof.
  constructor; [apply (words_sorted h T HR)|]. apply Forall_forall. intros w Hw.
  unfold key_lt. rewrite (r_ord0 h T HR). pose proof (word_ord h T HR w Hw). lia.
Qed.
Lemma all_NoDup : NoDup (root :: words).
Proof. constructor; [apply (wf_rootfresh T W)|apply (wf_nodup T W)]. Qed.

Lemma sort_all f l : Permutation l (filter f (root :: words)) -> sort_nodes h l = filter f (root :: words).
Proof. intros P. apply sort_on_unique; auto. apply filter_StronglySorted, all_sorted. Qed.

(** ListOfNodes.__call__ on a list of words in word order that does not contain its origin. *)
Lemma list_call_ok x f asf fo po : node_of T x -> f x = false ->
  list_call h x (filter f (root :: words)) asf fo po =
  filter (fun w => (f w || (asf && Nat.eqb w x)) &&
                   (if po then Z.leb (h_ord h w) (h_ord h x)
                    else if fo then Z.leb (h_ord h x) (h_ord h w) else true)) (root :: words).
Proof.
  intros Hx Hf. unfold list_call.
  assert (E : (if asf then sort_nodes h (filter f (root :: words) ++ [x]) else filter f (root :: words)) =
              filter (fun w => f w || (asf && Nat.eqb w x)) (root :: words)).
  { destruct asf; cbn [andb].
    - apply sort_all.
      rewrite <- (filter_eqb_single x (root :: words) all_NoDup) at 1; [|destruct Hx as [->|]; simpl; auto].
      apply filter_or_perm. intros w _ H1 H2. apply Nat.eqb_eq in H2. congruence.
    - apply filter_ext. intros; now rewrite orb_false_r. }
  rewrite E. destruct po; [|destruct fo].
  - rewrite filter_filter. auto.
  - rewrite filter_filter. auto.
  - apply filter_ext. intros; now rewrite andb_true_r.
Qed.

Lemma filter_root_words f : f root = false -> filter f (root :: words) = filter f words.
Proof. intros E. cbn. now rewrite E. Qed.

Lemma siblings_ok x : In x words ->
  siblings h x = Ok (filter (fun w => Nat.eqb (par w) (par x) && negb (Nat.eqb w x)) words).
Proof.
  intros Hx. unfold siblings. rewrite (r_par h T HR x Hx), (r_ch h T HR _ (wf_parent T W x Hx)).
  now rewrite filter_filter.
Qed.

Lemma next_ok x : node_of T x ->
  next_node h x = nth_error words (Z.to_nat (h_ord h x)).
Proof.
  intros Hx. unfold next_node. rewrite (r_root h T HR x Hx), (r_desc h T HR).
  apply py_nth_nonneg. apply (node_ord h T HR x Hx).
Qed.
Lemma prev_ok x : node_of T x ->
  prev_node h x = if Nat.eqb x root then Ok None
                  else Ok (nth_error (root :: words) (Z.to_nat (h_ord h x - 1))).
Proof.
  intros Hx. unfold prev_node. rewrite (r_root h T HR x Hx), (r_desc h T HR).
  destruct (Nat.eqb_spec x root) as [->|Hn]; [rewrite (r_ord0 h T HR); auto|].
  assert (Hw : In x words) by (destruct Hx; [contradiction|auto]).
  pose proof (word_ord h T HR x Hw) as Ho.
  destruct (Z.ltb_spec (h_ord h x - 1) 0); [lia|].
  destruct (Z.eqb_spec (h_ord h x - 1) 0) as [->|Hz]; auto.
  rewrite py_nth_nonneg by lia.
  replace (Z.to_nat (h_ord h x - 1)) with (S (Z.to_nat (h_ord h x - 1 - 1))) by lia. cbn [nth_error].
  destruct (nth_error words (Z.to_nat (h_ord h x - 1 - 1))) eqn:E; auto.
  apply nth_error_None in E. lia.
Qed.

(** ---- depth ---- *)
Lemma depth_loop_ok x l : path T x l -> forall n v, length l <= n ->
  depth_loop n h (Some x) v = Ok (v + Z.of_nat (length l))%Z.
Proof.
  intros P. induction P as [|x l Hx P IH]; intros n v Hn.
  - destruct n; cbn [depth_loop]; rewrite (is_root_iff h T W HR root N0), Nat.eqb_refl; do 2 f_equal; cbn; lia.
  - assert (E : is_root h x = false).
    { rewrite (is_root_iff h T W HR x (NW x Hx)). apply Nat.eqb_neq. intros ->. now apply (wf_rootfresh T W). }
    destruct n as [|n]; cbn [length] in *; [lia|]. cbn [depth_loop]. rewrite E, (r_par h T HR x Hx), IH by lia.
    f_equal. lia.
Qed.
Lemma attr_depth_ok x l : path T x l -> attr_depth h x = Ok (Z.of_nat (length l)).
Proof.
  intros P. unfold attr_depth. rewrite (depth_loop_ok x l P); auto.
  pose proof (path_length T W x l P). pose proof (words_lt_next h T W HR). unfold fuel. lia.
Qed.

(** ---- is_nonprojective ---- *)
Lemma count_le k : (0 <= k <= Z.of_nat (length words))%Z ->
  length (filter (fun w => Z.leb (h_ord h w) k) words) = Z.to_nat k.
Proof.
  intros Hk. destruct (firstn_filter_ord h words 0 (Z.to_nat k) (words_pos h T HR)) as [E _].
  cbn [Nat.add] in E. rewrite Z2Nat.id in E by lia. rewrite <- E, firstn_length. lia.
Qed.
Lemma count_between a b : (0 <= a < b)%Z -> (b <= Z.of_nat (length words) + 1)%Z ->
  Z.of_nat (length (filter (fun w => Z.ltb a (h_ord h w) && Z.ltb (h_ord h w) b) words)) = (b - a - 1)%Z.
Proof.
  intros Ha Hb. pose proof (count_le (b - 1)) as C1. pose proof (count_le a) as C2.
  specialize (C1 ltac:(lia)). specialize (C2 ltac:(lia)).
  assert (E : length (filter (fun w => Z.leb (h_ord h w) (b - 1)) words) =
    length (filter (fun w => Z.leb (h_ord h w) a) words) +
    length (filter (fun w => Z.ltb a (h_ord h w) && Z.ltb (h_ord h w) b) words)).
  { clear -Ha. induction (a_words T) as [|w l IH]; auto. cbn [filter].
    destruct (Z.leb_spec (h_ord h w) (b - 1)), (Z.leb_spec (h_ord h w) a), (Z.ltb_spec a (h_ord h w)),
      (Z.ltb_spec (h_ord h w) b); cbn [andb length]; try lia. }
  lia.
Qed.
Lemma filter_len_all {A} (f : A -> bool) l : length (filter f l) = length l <-> (forall x, In x l -> f x = true).
Proof.
  induction l as [|x l IH]; cbn; [split; [intros _ ? []|auto]|].
  destruct (f x) eqn:E; cbn.
  - rewrite <- Nat.succ_inj_wd in IH. rewrite IH. split; [intros H y [->|Hy]; auto|intros H; auto].
  - split; [intros H; pose proof (filter_length_le f l); lia|]. intros H. specialize (H x (or_introl eq_refl)). congruence.
Qed.

Definition between (a b w : nat) : Prop :=
  (h_ord h a < h_ord h w < h_ord h b)%Z \/ (h_ord h b < h_ord h w < h_ord h a)%Z.

Lemma is_nonprojective_ok x : In x words -> exists b, is_nonprojective h x = Ok b /\
  (b = true <-> exists w, In w words /\ between x (par x) w /\ ~ below T w (par x)).
Proof.
  intros Hx. unfold is_nonprojective. rewrite (r_par h T HR x Hx).
  pose proof (wf_parent T W x Hx) as Hp.
  rewrite (is_root_iff h T W HR _ Hp). destruct (Nat.eqb_spec (par x) root) as [E|Hn].
  - exists false. split; auto. split; [discriminate|]. intros [w [H1 [H2 H3]]]. exfalso; apply H3. rewrite E. now apply (wf_reach T W).
  - assert (Hpw : In (par x) words) by (destruct Hp; [contradiction|auto]).
    assert (Hd : h_ord h x <> h_ord h (par x)).
    { intros E. apply (ord_inj h T HR) in E; auto. apply (below_irrefl T W x). rewrite E at 2. now constructor. }
    set (p := par x) in *.
    set (o1 := Z.min (h_ord h x) (h_ord h p)). set (o2 := Z.max (h_ord h x) (h_ord h p)).
    pose proof (word_ord h T HR x Hx) as O1. pose proof (word_ord h T HR p Hpw) as O2.
    assert (BT : forall w, between x p w <-> (o1 < h_ord h w < o2)%Z) by (intros w; unfold between, o1, o2; lia).
    destruct (Z.eqb_spec (o2 - o1) 1) as [E|Hne].
    + exists false. split; auto. split; [discriminate|]. intros [w [_ [H2 _]]]. apply BT in H2. lia.
    + destruct (unordered_ok h T W HR p Hp) as [l [-> PL]]. cbn [rbind]. eexists. split; [reflexivity|].
      set (bt := fun n => Z.ltb o1 (h_ord h n) && Z.ltb (h_ord h n) o2).
      assert (EL : length (filter bt l) = length (filter bt (subs T p))).
      { apply Permutation_length. now apply perm_filter. }
      rewrite EL. clear EL. unfold subs. rewrite filter_filter.
      assert (EE : filter (fun w => belowb T w p && bt w) words = filter (fun w => belowb T w p) (filter bt words)).
      { rewrite filter_filter. apply filter_ext. intros; apply andb_comm. }
      rewrite EE. clear EE.
      assert (CB : Z.of_nat (length (filter bt words)) = (o2 - o1 - 1)%Z).
      { apply count_between; unfold o1, o2; lia. }
      rewrite negb_true_iff, Z.eqb_neq, <- CB.
      pose proof (filter_len_all (fun w => belowb T w p) (filter bt words)) as FL.
      split.
      * intros Hne2. destruct (forallb (fun w => belowb T w p) (filter bt words)) eqn:FA.
        -- rewrite forallb_forall in FA. apply FL in FA. lia.
        -- assert (EX : exists w, In w (filter bt words) /\ belowb T w p = false).
           { clear -FA. induction (filter bt words) as [|w l IH]; [discriminate|]. cbn in FA.
             destruct (belowb T w p) eqn:B; [|exists w; simpl; auto]. destruct (IH FA) as [v [? ?]]. exists v; simpl; auto. }
           destruct EX as [w [Hw B]]. apply filter_In in Hw as [Hw Hb]. exists w. split; auto. split.
           ++ apply BT. unfold bt in Hb. apply andb_true_iff in Hb. lia.
           ++ now apply (belowb_false T W).
      * intros [w [Hw [Hb HN]]] E. apply HN. apply (belowb_spec T W). apply (proj1 FL); [lia|].
        apply filter_In. split; auto. apply BT in Hb. unfold bt. apply andb_true_iff. lia.
Qed.

(** ---- is_nonprojective_gap ---- *)
Lemma climb_all_ok x l : path T x l -> forall n acc, length l <= n ->
  climb_all n h x acc = Ok (root, rev l ++ acc).
Proof.
  intros P. induction P as [|x l Hx P IH]; intros n acc Hn.
  - destruct n; cbn [climb_all]; rewrite (r_parroot h T HR); auto.
  - destruct n as [|n]; cbn [length] in Hn; [lia|]. cbn [climb_all]. rewrite (r_par h T HR x Hx), IH by lia.
    cbn [rev]. now rewrite <- app_assoc.
Qed.
Lemma gap_scan_ok test anc l : (forall w, In w l -> In w words) ->
  gap_scan h test anc l = Ok (existsb (fun w => test (par w) && negb (mem (par w) anc)) l).
Proof.
  induction l as [|w l IH]; intros H; auto. cbn [gap_scan existsb].
  rewrite (r_par h T HR w (H w (or_introl eq_refl))). destruct (_ && _); auto. apply IH. simpl in H; auto.
Qed.

(** An edge whose two ends lie on different sides of x. *)
Lemma crossing_edge x X a : node_of T X -> In x words -> X <> x -> ~ below T x X ->
  (a = X \/ below T a X) -> forall (side : bool),
  (if side then (h_ord h a < h_ord h x)%Z else (h_ord h x < h_ord h a)%Z) ->
  (if side then (h_ord h x < h_ord h X)%Z else (h_ord h X < h_ord h x)%Z) ->
  exists w, In w words /\ par w <> x /\ ~ below T x (par w) /\
    (if side then (h_ord h w < h_ord h x < h_ord h (par w))%Z else (h_ord h (par w) < h_ord h x < h_ord h w)%Z).
Proof.
  intros HX Hx Hn Hb Ha side S1 S2.
  destruct Ha as [->|Ha]; [destruct side; lia|].
  induction Ha as [a Hw|a X Hw Ha IH].
  - exists a. split; auto. split; auto. split; auto. destruct side; lia.
  - assert (Hp : par a <> x) by (intros E; rewrite E in Ha; auto).
    assert (Hpn : node_of T (par a)) by now apply (wf_parent T W).
    assert (Hd : h_ord h (par a) <> h_ord h x) by (intros E; apply (ord_inj h T HR) in E; auto).
    assert (Hbp : ~ below T x (par a)) by (intros B; apply Hb; eapply below_trans; eauto).
    destruct side.
    + destruct (Z_lt_le_dec (h_ord h (par a)) (h_ord h x)); [apply IH; auto|].
      exists a. split; auto. split; auto. split; auto. lia.
    + destruct (Z_lt_le_dec (h_ord h x) (h_ord h (par a))); [apply IH; auto|].
      exists a. split; auto. split; auto. split; auto. lia.
Qed.

Lemma gap_ok x : In x words -> exists b, is_nonprojective_gap h x = Ok b /\
  (b = true <-> exists X a c, node_of T X /\ X <> x /\ ~ below T x X /\
     (a = X \/ below T a X) /\ (c = X \/ below T c X) /\ (h_ord h a < h_ord h x < h_ord h c)%Z).
Proof.
  intros Hx. destruct (path_exists T W x (NW x Hx)) as [l P].
  unfold is_nonprojective_gap. rewrite (climb_all_ok x l P).
  2:{ pose proof (path_length T W x l P). pose proof (words_lt_next h T W HR). unfold fuel. lia. }
  cbn [rbind]. rewrite (r_desc h T HR). pose proof (word_ord h T HR x Hx) as Ho.
  set (anc := rev l ++ [x]).
  assert (HA : forall y, mem y anc = false <-> y <> x /\ ~ below T x y).
  { intros y. rewrite mem_false. unfold anc. rewrite in_app_iff, <- in_rev, (path_below T W x l y P). simpl. intuition. }
  assert (E1 : py_to words (h_ord h x - 1) = filter (fun w => Z.leb (h_ord h w) (h_ord h x - 1)) words).
  { unfold py_to. rewrite py_bound_nonneg by lia.
    destruct (firstn_filter_ord h words 0 (Z.to_nat (h_ord h x - 1)) (words_pos h T HR)) as [-> _].
    cbn [Nat.add]. now rewrite Z2Nat.id by lia. }
  assert (E2 : py_from words (h_ord h x) = filter (fun w => negb (Z.leb (h_ord h w) (h_ord h x))) words).
  { unfold py_from. rewrite py_bound_nonneg by lia.
    destruct (firstn_filter_ord h words 0 (Z.to_nat (h_ord h x)) (words_pos h T HR)) as [_ ->].
    cbn [Nat.add]. now rewrite Z2Nat.id by lia. }
  rewrite E1, E2, !gap_scan_ok; try (intros w Hw; apply filter_In in Hw; tauto).
  cbn [rbind].
  set (b1 := existsb _ _). set (b2 := existsb _ _).
  assert (B1 : b1 = true <-> exists w, In w words /\ par w <> x /\ ~ below T x (par w) /\ (h_ord h w < h_ord h x < h_ord h (par w))%Z).
  { unfold b1. rewrite existsb_exists. split.
    - intros [w [Hw Ht]]. apply filter_In in Hw as [Hw Hl]. apply andb_true_iff in Ht as [Ht Hm].
      apply negb_true_iff, HA in Hm. unfold precedes_in_tree in Ht. exists w. split; auto. split; [tauto|]. split; [tauto|]. lia.
    - intros [w [Hw [H1 [H2 H3]]]]. exists w. split; [apply filter_In; split; auto; lia|].
      apply andb_true_iff. split; [unfold precedes_in_tree; lia|]. apply negb_true_iff, HA; auto. }
  assert (B2 : b2 = true <-> exists w, In w words /\ par w <> x /\ ~ below T x (par w) /\ (h_ord h (par w) < h_ord h x < h_ord h w)%Z).
  { unfold b2. rewrite existsb_exists. split.
    - intros [w [Hw Ht]]. apply filter_In in Hw as [Hw Hl]. apply andb_true_iff in Ht as [Ht Hm].
      apply negb_true_iff, HA in Hm. unfold precedes_in_tree in Ht. exists w. split; auto. split; [tauto|]. split; [tauto|]. lia.
    - intros [w [Hw [H1 [H2 H3]]]]. exists w. split; [apply filter_In; split; auto; lia|].
      apply andb_true_iff. split; [unfold precedes_in_tree; lia|]. apply negb_true_iff, HA; auto. }
  exists (b1 || b2). split; [destruct b1; auto|]. rewrite orb_true_iff, B1, B2. clear b1 b2 B1 B2. split.
  - intros [[w [Hw [H1 [H2 H3]]]]|[w [Hw [H1 [H2 H3]]]]].
    + exists (par w), w, (par w). split; [now apply (wf_parent T W)|]. split; auto. split; auto.
      split; [right; now constructor|]. split; auto.
    + exists (par w), (par w), w. split; [now apply (wf_parent T W)|]. split; auto. split; auto.
      split; auto. split; [right; now constructor|]. auto.
  - intros [X [a [c [HX [Hn [Hb [Ha [Hc Hac]]]]]]]].
    assert (Hd : h_ord h X <> h_ord h x) by (intros E; apply (ord_inj h T HR) in E; auto).
    destruct (Z_lt_le_dec (h_ord h x) (h_ord h X)).
    + left. destruct (crossing_edge x X a HX Hx Hn Hb Ha true) as [w [? [? [? ?]]]]; try lia. exists w; auto.
    + right. destruct (crossing_edge x X c HX Hx Hn Hb Hc false) as [w [? [? [? ?]]]]; try lia. exists w; auto.
Qed.
End Query.
