(** Consequences of [Repr]: positions, sorting, traversal loops. *)
From Coq Require Import String List NArith ZArith Bool Lia Permutation Sorted.
From Verif Require Import PyStr PyList PyListFacts PyExn TreeModel TreeSpec TreeFacts.
Import ListNotations.

Lemma strongly_sorted_nth {A} (R : A -> A -> Prop) (l : list A) :
  (forall i j x y, i < j -> nth_error l i = Some x -> nth_error l j = Some y -> R x y) ->
  StronglySorted R l.
Proof.
  induction l as [|x l IH]; intros H; constructor.
  - apply IH. intros i j a b Hij Ha Hb. apply (H (S i) (S j)); auto; lia.
  - rewrite Forall_forall. intros y Hy. apply In_nth_error in Hy as [j Hj].
    apply (H 0 (S j)); auto; lia.
Qed.
Lemma NoDup_bounded (l : list nat) n : NoDup l -> (forall x, In x l -> x < n) -> length l <= n.
Proof.
  intros ND H. rewrite <- (seq_length n 0). apply NoDup_incl_length; auto.
  intros x Hx. apply in_seq. apply H in Hx. lia.
Qed.

(** [pos_ok h k l]: the elements of l have ords k+1, k+2, ... *)
Definition pos_ok (h : heap) (k : nat) (l : list nat) : Prop :=
  forall i x, nth_error l i = Some x -> h_ord h x = (Z.of_nat (k + i) + 1)%Z.

Lemma pos_ok_nil h k : pos_ok h k [].
Proof. intros [|i] x H; discriminate. Qed.
Lemma pos_ok_cons h k x l : pos_ok h k (x :: l) <-> h_ord h x = (Z.of_nat k + 1)%Z /\ pos_ok h (S k) l.
Proof.
  split.
  - intros H; split.
    + rewrite (H 0 x eq_refl). f_equal. f_equal. lia.
    + intros i y Hy. rewrite (H (S i) y Hy). f_equal. f_equal. lia.
  - intros [H1 H2] [|i] y; simpl.
    + intros [= <-]. rewrite H1. f_equal. f_equal. lia.
    + intros Hy. rewrite (H2 i y Hy). f_equal. f_equal. lia.
Qed.
Lemma pos_ok_app h k l1 l2 : pos_ok h k (l1 ++ l2) <-> pos_ok h k l1 /\ pos_ok h (k + length l1) l2.
Proof.
  revert k; induction l1 as [|x l1 IH]; intros k; simpl.
  - rewrite Nat.add_0_r. split; [intros; split; auto; apply pos_ok_nil|tauto].
  - rewrite !pos_ok_cons, IH. replace (k + S (length l1)) with (S k + length l1) by lia. tauto.
Qed.
Lemma pos_ok_ext h h' k l : (forall x, In x l -> h_ord h' x = h_ord h x) -> pos_ok h k l -> pos_ok h' k l.
Proof. intros E H i x Hx. rewrite E; auto. eapply nth_error_In; eauto. Qed.
Lemma pos_ok_sorted h k l : pos_ok h k l -> StronglySorted (key_lt (h_ord h)) l.
Proof.
  intros H. apply strongly_sorted_nth. intros i j x y Hij Hx Hy.
  unfold key_lt. rewrite (H i x Hx), (H j y Hy). lia.
Qed.
Lemma pos_ok_In h k l x : pos_ok h k l -> In x l -> exists i, nth_error l i = Some x /\ h_ord h x = (Z.of_nat (k + i) + 1)%Z.
Proof. intros H Hx. apply In_nth_error in Hx as [i Hi]. exists i; split; auto. Qed.

Section R.
Variables (h : heap) (T : atree).
Hypothesis W : wf T.
Hypothesis HR : Repr h T.
Notation root := (a_root T).
Notation words := (a_words T).
Notation par := (a_par T).

Lemma words_pos : pos_ok h 0 words.
Proof. intros i x Hx. now apply (r_ord h T HR). Qed.
Lemma words_sorted : StronglySorted (key_lt (h_ord h)) words.
Proof. eapply pos_ok_sorted. apply words_pos. Qed.
Lemma word_ord x : In x words -> (1 <= h_ord h x <= Z.of_nat (length words))%Z.
Proof.
  intros Hx. destruct (pos_ok_In _ _ _ _ words_pos Hx) as [i [Hi ->]].
  assert (i < length words) by (apply nth_error_Some; congruence). lia.
Qed.
Lemma node_ord x : node_of T x -> (0 <= h_ord h x <= Z.of_nat (length words))%Z.
Proof. intros [->|Hx]; [rewrite (r_ord0 h T HR); lia|apply word_ord in Hx; lia]. Qed.
Lemma ord_inj x y : node_of T x -> node_of T y -> h_ord h x = h_ord h y -> x = y.
Proof.
  intros [->|Hx] [->|Hy] E; auto.
  - apply word_ord in Hy. rewrite (r_ord0 h T HR) in E. lia.
  - apply word_ord in Hx. rewrite (r_ord0 h T HR) in E. lia.
  - destruct (pos_ok_In _ _ _ _ words_pos Hx) as [i [Hi Ei]].
    destruct (pos_ok_In _ _ _ _ words_pos Hy) as [j [Hj Ej]].
    assert (i = j) by lia. congruence.
Qed.
Lemma word_nth x : In x words -> nth_error words (Z.to_nat (h_ord h x - 1)) = Some x.
Proof.
  intros Hx. destruct (pos_ok_In _ _ _ _ words_pos Hx) as [i [Hi ->]].
  replace (Z.to_nat _) with i by lia. auto.
Qed.
Lemma nth_word i x : nth_error words i = Some x -> h_ord h x = (Z.of_nat i + 1)%Z.
Proof. apply (r_ord h T HR). Qed.

Lemma sort_filter l f : Permutation l (filter f words) -> sort_nodes h l = filter f words.
Proof.
  intros P. apply sort_on_unique; auto. apply filter_StronglySorted. apply words_sorted.
Qed.
Lemma words_lt_next : length words < h_next h.
Proof.
  assert (length (root :: words) <= h_next h).
  { apply NoDup_bounded.
    - constructor; [apply (wf_rootfresh T W)|apply (wf_nodup T W)].
    - intros x [<-|Hx]; apply (r_alloc h T HR); [left|right]; auto. }
  simpl in *; lia.
Qed.
Lemma ch_eq y : node_of T y -> h_ch h y = chs T y.
Proof. apply (r_ch h T HR). Qed.
Lemma ch_nonempty y : node_of T y -> nonempty (h_ch h y) = true <-> exists c, In c words /\ par c = y.
Proof.
  intros Hy. rewrite ch_eq by auto. split.
  - destruct (chs T y) as [|c l] eqn:E; [discriminate|]. intros _. exists c.
    apply chs_In. rewrite E. now left.
  - intros [c Hc]. apply chs_In in Hc. destruct (chs T y); auto.
Qed.
Lemma par_word x : In x words -> h_par h x = Some (par x).
Proof. apply (r_par h T HR). Qed.
Lemma is_root_iff x : node_of T x -> is_root h x = Nat.eqb x root.
Proof.
  unfold is_root. intros [->|Hx].
  - rewrite (r_kindroot h T HR), Nat.eqb_refl; auto.
  - rewrite (r_kind h T HR x Hx). symmetry. apply Nat.eqb_neq. intros ->.
    now apply (wf_rootfresh T W).
Qed.
Lemma not_empty x : node_of T x -> is_empty h x = false.
Proof.
  unfold is_empty. intros [->|Hx]; [rewrite (r_kindroot h T HR)|rewrite (r_kind h T HR x Hx)]; auto.
Qed.

Lemma climbs_ok c l a n : path T c l -> length l < n ->
  climbs_to n h a (Some c) = Ok (Nat.eqb c a || mem a l).
Proof.
  intros H; revert n; induction H as [|x l Hx H IH]; intros n Hn; simpl in *.
  - destruct n; [lia|]. simpl. destruct (Nat.eqb root a) eqn:E; auto.
    rewrite (r_parroot h T HR). destruct n; auto.
  - destruct n; [lia|]. simpl. destruct (Nat.eqb x a) eqn:E; auto.
    rewrite (par_word x Hx). rewrite IH by lia. simpl. now rewrite (Nat.eqb_sym a).
Qed.
Lemma is_descendant_ok x a : node_of T x -> node_of T a ->
  is_descendant_of h x a = Ok (belowb T x a).
Proof.
  intros Hx Ha. unfold is_descendant_of. rewrite is_root_iff by auto.
  destruct (Nat.eqb_spec x root) as [->|Hn].
  - f_equal. symmetry. apply belowb_false; auto. intros H. now apply root_not_below in H.
  - destruct Hx as [|Hx]; [congruence|].
    destruct (nonempty (h_ch h a)) eqn:E.
    + rewrite (par_word x Hx).
      destruct (path_exists T W (par x) (wf_parent T W x Hx)) as [l Hl].
      rewrite (climbs_ok _ l).
      * f_equal. apply eq_true_iff_eq. rewrite orb_true_iff, Nat.eqb_eq, mem_In.
        rewrite (path_below T W _ _ _ Hl), belowb_spec by auto. rewrite (below_cases T x a). tauto.
      * auto.
      * apply path_length in Hl; auto. unfold fuel. pose proof words_lt_next. lia.
    + f_equal. symmetry. apply belowb_false; auto. intros H.
      apply below_via_child in H; auto.
      assert (nonempty (h_ch h a) = true); [|congruence].
      apply ch_nonempty; auto. destruct H as [[H1 H2]|[c [Hc _]]]; eauto.
      apply chs_In in Hc. eauto.
Qed.

Lemma filter_length_le {A} (f : A -> bool) l : length (filter f l) <= length l.
Proof. induction l as [|x l IH]; simpl; auto. destruct (f x); simpl; lia. Qed.
Lemma Permutation_flat_map {A B} (f : A -> list B) l1 l2 :
  Permutation l1 l2 -> Permutation (flat_map f l1) (flat_map f l2).
Proof.
  induction 1; simpl; auto.
  - now apply Permutation_app_head.
  - rewrite !app_assoc. apply Permutation_app_tail. apply Permutation_app_comm.
  - etransitivity; eauto.
Qed.

Lemma desc_loop_ok n : forall stack acc,
  (forall x, In x stack -> node_of T x) ->
  length stack + length (flat_map (subs T) stack) <= n ->
  exists l, desc_loop n h stack acc = Ok l /\ Permutation l (acc ++ flat_map (subs T) stack).
Proof.
  induction n as [|n IH]; intros stack acc Hs Hn.
  - destruct stack; simpl in *; [|lia]. exists acc. split; auto. now rewrite app_nil_r.
  - destruct stack as [|x rest].
    + simpl. exists acc. split; auto. now rewrite app_nil_r.
    + cbn [desc_loop]. rewrite ch_eq by (apply Hs; simpl; auto).
      destruct (IH (rev (chs T x) ++ rest) (acc ++ chs T x)) as [l [H1 H2]].
      * intros y Hy. apply in_app_iff in Hy as [Hy|Hy]; [|apply Hs; simpl; auto].
        apply in_rev in Hy. apply chs_In in Hy. right; tauto.
      * pose proof (subs_unfold T W x) as P. apply Permutation_length in P.
        assert (length (flat_map (subs T) (rev (chs T x))) = length (flat_map (subs T) (chs T x))) as E.
        { apply Permutation_length. apply Permutation_flat_map. symmetry. apply Permutation_rev. }
        rewrite app_length in P. rewrite flat_map_app, !app_length, rev_length, E.
        simpl in Hn. rewrite app_length in Hn. lia.
      * exists l; split; auto. rewrite H2. rewrite flat_map_app. simpl.
        rewrite <- app_assoc. apply Permutation_app_head. rewrite app_assoc.
        apply Permutation_app_tail.
        transitivity (chs T x ++ flat_map (subs T) (chs T x)).
        -- apply Permutation_app_head. apply Permutation_flat_map. symmetry. apply Permutation_rev.
        -- symmetry. now apply subs_unfold.
Qed.
Lemma unordered_ok x : node_of T x ->
  exists l, unordered_descendants h x = Ok l /\ Permutation l (subs T x).
Proof.
  intros Hx. unfold unordered_descendants. rewrite ch_eq by auto.
  destruct (desc_loop_ok (fuel h) (rev (chs T x)) (chs T x)) as [l [H1 H2]].
  - intros y Hy. apply in_rev in Hy. apply chs_In in Hy. right; tauto.
  - pose proof (subs_unfold T W x) as P. apply Permutation_length in P.
    assert (length (flat_map (subs T) (rev (chs T x))) = length (flat_map (subs T) (chs T x))) as E.
    { apply Permutation_length. apply Permutation_flat_map. symmetry. apply Permutation_rev. }
    rewrite rev_length, E. rewrite app_length in P. rewrite <- P.
    pose proof (filter_length_le (fun c => belowb T c x) words).
    unfold subs, fuel. pose proof words_lt_next. lia.
  - exists l; split; auto. rewrite H2.
    transitivity (chs T x ++ flat_map (subs T) (chs T x)).
    + apply Permutation_app_head. apply Permutation_flat_map. symmetry. apply Permutation_rev.
    + symmetry. now apply subs_unfold.
Qed.
Lemma descendants_ok x : node_of T x -> descendants h x = Ok (subs T x).
Proof.
  intros Hx. unfold descendants. rewrite is_root_iff by auto.
  destruct (Nat.eqb_spec x root) as [->|Hn].
  - rewrite (r_desc h T HR). now rewrite subs_root.
  - destruct (unordered_ok x Hx) as [l [-> P]]. simpl. f_equal. now apply sort_filter.
Qed.
Lemma filter_or_perm (f g : nat -> bool) l : (forall x, In x l -> f x = true -> g x = true -> False) ->
  Permutation (filter f l ++ filter g l) (filter (fun x => f x || g x) l).
Proof.
  induction l as [|x l IH]; simpl; intros H; auto.
  assert (IH' : Permutation (filter f l ++ filter g l) (filter (fun x => f x || g x) l)) by (apply IH; eauto).
  destruct (f x) eqn:E1, (g x) eqn:E2; simpl.
  - exfalso; eauto.
  - now constructor.
  - rewrite <- Permutation_middle. now constructor.
  - auto.
Qed.
Lemma filter_eqb_single x l : NoDup l -> In x l -> filter (fun y => Nat.eqb y x) l = [x].
Proof.
  induction l as [|y l IH]; simpl; intros ND H; [tauto|]. inversion ND as [|? ? N1 N2]; subst.
  destruct (Nat.eqb_spec y x) as [->|Hn].
  - f_equal. apply filter_none. intros z Hz. apply Nat.eqb_neq. intros ->; auto.
  - destruct H; [congruence|auto].
Qed.
Lemma descendants_add_self_ok x : In x words ->
  descendants_add_self h x = Ok (filter (fun y => insubb T y x) words).
Proof.
  intros Hx. unfold descendants_add_self. rewrite descendants_ok by (right; auto). simpl.
  unfold list_call. f_equal. apply sort_filter.
  rewrite Permutation_app_comm.
  rewrite <- (filter_eqb_single x words) by (auto; apply (wf_nodup T W)).
  apply filter_or_perm. intros y Hy E1 E2. apply Nat.eqb_eq in E1; subst.
  apply belowb_spec in E2; auto. now apply below_irrefl in E2.
Qed.
End R.
