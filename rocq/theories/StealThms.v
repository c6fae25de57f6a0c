(** steal_nodes on documents. *)
From Coq Require Import String List NArith ZArith Bool Lia Permutation Sorted.
From Verif Require Import PyStr PyList PyListFacts PyExn TreeModel TreeSpec TreeFacts TreeRepr TreeOps TreeCalls
  DualDictModel DocModel StealModel StealSpec StealProofs.
Import ListNotations.

Lemma same_nodes_eq : forall a b, same_nodes a b = true <-> a = b.
Proof.
  induction a as [|x a IH]; intros [|y b]; cbn; split; intros H; try discriminate; auto.
  - apply andb_true_iff in H as [H1 H2]. apply Nat.eqb_eq in H1. apply IH in H2. congruence.
  - injection H as -> ->. rewrite Nat.eqb_refl. now apply IH.
Qed.

Definition steal_body (d : doc) (self old : nat) (nodes : list nat) : doc * res unit :=
  let whole := same_nodes nodes (h_desc (d_h d) old) in
  let start := Z.of_nat (length (h_desc (d_h d) self)) in
  let (h, o) := steal_loop (d_h d) self old whole nodes start nodes in
  bind (with_h d h, o) (fun d _ =>
  bind (if whole then
          let d := with_h d (put_desc (d_h d) old []) in
          let d := put_mwts d self (d_mwts d self ++ d_mwts d old) in
          (put_mwts d old [], Ok tt)
        else
          let d := with_h d (put_desc (d_h d) old (filter (fun n => negb (mem n nodes)) (h_desc (d_h d) old))) in
          match last_opt nodes with
          | None => (d, Ok tt)
          | Some y => match d_mwt d y with
                      | None => (d, Ok tt)
                      | Some m => steal_mwt d self m nodes nodes
                      end
          end) (fun d _ =>
  (with_h d (put_desc (d_h d) self (h_desc (d_h d) self ++ nodes)), Ok tt))).

Lemma steal_unfold d self old nodes : nodes <> [] -> (forall y, In y nodes -> h_root (d_h d) y = old) ->
  steal_nodes d self nodes = steal_body d self old (sort_nodes (d_h d) nodes).
Proof.
  intros Hne RT. unfold steal_nodes. destruct nodes as [|x rest] eqn:EN; [congruence|].
  rewrite (RT x (or_introl eq_refl)).
  replace (existsb (fun y => negb (Nat.eqb (h_root (d_h d) y) old)) rest) with false; [reflexivity|].
  symmetry. apply not_true_is_false. intros H. apply existsb_exists in H as (y & Hy & H2).
  rewrite (RT y (or_intror Hy)), Nat.eqb_refl in H2. discriminate.
Qed.

Section D.
  Variables (d : doc) (r r2 : nat) (nodes : list nat).
  Notation h := (d_h d).
  Hypothesis C1 : consistent h r.
  Hypothesis C2 : consistent h r2.
  Hypothesis Hr : r <> r2.
  Hypothesis Hne : nodes <> [].
  Hypothesis HND : NoDup nodes.
  Hypothesis Hin : incl nodes (h_desc h r2).
  Hypothesis Hfree : all_words h r2 nodes \/ last_free d r2 nodes.

  Let moved := filter (fun w => mem w nodes) (h_desc h r2).
  Let stay := filter (fun w => negb (mem w nodes)) (h_desc h r2).

  Lemma mem_moved w : mem w moved = mem w nodes.
  Proof.
    unfold moved. rewrite mem_filter. destruct (mem w nodes) eqn:E; [|now rewrite andb_false_r].
    apply mem_In in E. apply Hin in E. apply mem_In in E. now rewrite E.
  Qed.
  Lemma disjoint y : node_of (abs h r) y -> ~ node_of (abs h r2) y.
  Proof.
    intros A B. assert (L1 : live h r y) by exact A. assert (L2 : live h r2 y) by exact B.
    apply Hr. rewrite <- (c_roots _ _ C1 y L1). apply (c_roots _ _ C2 y L2).
  Qed.

  Lemma sorted_moved : sort_nodes h nodes = moved.
  Proof.
    apply (sort_filter h (abs h r2) (consistent_Repr _ _ C2)). cbn. apply NoDup_Permutation; auto.
    - apply NoDup_filter, (c_once _ _ C2).
    - intros x. rewrite filter_In, mem_In. split; [intros H; split; auto|tauto].
  Qed.
  Lemma moved_fix : filter (fun w => mem w moved) (a_words (abs h r2)) = moved.
  Proof. cbn. unfold moved at 2. apply filter_ext_in'. intros. apply mem_moved. Qed.
  Lemma stay_eq : filter (fun w => negb (mem w moved)) (a_words (abs h r2)) = stay.
  Proof. cbn. unfold stay. apply filter_ext_in'. intros. now rewrite mem_moved. Qed.

  Lemma steal_doc : exists d', steal_nodes d r nodes = (d', Ok tt) /\
    h_desc (d_h d') r = h_desc h r ++ moved /\ h_desc (d_h d') r2 = stay /\
    consistent (d_h d') r /\ consistent_with_gaps (d_h d') r2 /\
    (forall k, h_desc h r2 = stay ++ k -> consistent (d_h d') r2) /\
    (forall w p, In w nodes -> h_par h w = Some p -> h_par (d_h d') w = Some (if mem p nodes then p else r)) /\
    (forall w p, In w stay -> h_par h w = Some p -> h_par (d_h d') w = Some (if mem p nodes then r2 else p)) /\
    (forall w, In w (h_desc h r) -> h_par (d_h d') w = h_par h w /\ h_ch (d_h d') w = h_ch h w /\ h_ord (d_h d') w = h_ord h w) /\
    (forall w, In w stay -> h_ord (d_h d') w = h_ord h w) /\
    (forall y, ~ live h r y -> ~ live h r2 y -> same_object h (d_h d') y) /\
    h_emp (d_h d') = h_emp h /\ h_eord (d_h d') = h_eord h /\
    d_at d' = d_at d /\ d_ri d' = d_ri d /\ d_mwt d' = d_mwt d /\ d_m d' = d_m d /\ d_mnext d' = d_mnext d /\
    (all_words h r2 nodes -> d_mwts d' r = d_mwts d r ++ d_mwts d r2 /\ d_mwts d' r2 = [] /\
                             forall t, t <> r -> t <> r2 -> d_mwts d' t = d_mwts d t) /\
    (~ all_words h r2 nodes -> d_mwts d' = d_mwts d).
  Proof.
    pose proof (consistent_Repr _ _ C1) as R1. pose proof (consistent_Repr _ _ C2) as R2.
    pose proof (consistent_wf _ _ C1) as W1. pose proof (consistent_wf _ _ C2) as W2.
    assert (RT : forall y, In y nodes -> h_root h y = r2).
    { intros y Hy. apply (c_roots _ _ C2). right. now apply Hin. }
    set (whole := same_nodes moved (h_desc h r2)).
    assert (HWh : whole = true <-> all_words h r2 nodes).
    { unfold whole. rewrite same_nodes_eq. unfold moved, all_words. split.
      - intros E w Hw. rewrite <- E in Hw. apply filter_In in Hw as [_ Hw]. now apply mem_In.
      - intros A. apply filter_all. intros w Hw. apply mem_In. auto. }
    destruct (steal_loop_ok h (abs h r) (abs h r2) moved R2 W2 disjoint moved_fix whole) with (l := moved) (D := @nil nat) (h := h)
      as (h' & EL & F).
    { intros E w Hw. apply mem_In. rewrite mem_moved. apply HWh in E. apply mem_In. now apply E. }
    { reflexivity. }
    { now apply inv_start. }
    cbn [length Z.of_nat] in EL. rewrite Z.add_0_r in EL. change (a_root (abs h r)) with r in EL. change (a_root (abs h r2)) with r2 in EL.
    change (a_words (abs h r)) with (h_desc h r) in EL.
    pose proof (repr_to h _ _ _ R1 R2 W1 W2 disjoint moved_fix h' F stay) as RTo.
    pose proof (wf_to _ _ _ W1 W2 disjoint moved_fix) as WTo.
    pose proof (gaps_from h _ _ _ R2 W2 disjoint moved_fix h' F stay (eq_sym stay_eq)) as GF.
    pose proof (prefix_from h _ _ _ R2 W2 disjoint moved_fix h' F stay (eq_sym stay_eq)) as PF.
    pose proof (Repr_consistent _ _ RTo WTo) as CT.
    cbv zeta in RTo, GF, PF. change (a_root (abs h r)) with r in *. change (a_root (abs h r2)) with r2 in *.
    change (a_words (abs h r)) with (h_desc h r) in *. change (a_words (abs h r2)) with (h_desc h r2) in *.
    change (a_root (t_to (abs h r) (abs h r2) moved)) with r in CT.
    set (hF := put_desc (put_desc h' r2 stay) r (h_desc h r ++ moved)) in *.
    assert (ED : h_desc h' = h_desc h) by apply (v_desc _ _ _ _ _ _ F).
    exists (if whole
            then with_h (put_mwts (put_mwts d r (d_mwts d r ++ d_mwts d r2)) r2 []) hF
            else with_h d hF).
    split.
    { rewrite (steal_unfold d r r2 nodes Hne RT), sorted_moved. unfold steal_body. fold whole. rewrite EL. cbn [bind].
      destruct whole eqn:EWh.
      - cbn [bind with_h d_h d_mwts put_mwts]. unfold hF.
        assert (ES : stay = []). { unfold stay. apply filter_none. intros w Hw. apply negb_false_iff, mem_In. now apply HWh. }
        assert (EX : h_desc (put_desc h' r2 []) r = h_desc h r) by (unfold put_desc; cbn; now rewrite upd_other, ED).
        rewrite EX, ES. reflexivity.
      - cbn [with_h d_h]. destruct Hfree as [A|A]; [apply HWh in A; discriminate|]. specialize (A).
        assert (EM : match last_opt moved with
                     | Some y => d_mwt d y = None | None => True end).
        { destruct (last_opt moved) as [y|] eqn:E; auto. }
        rewrite ED.
        replace (filter (fun n => negb (mem n moved)) (h_desc h r2)) with stay by (symmetry; apply stay_eq).
        assert (EX : h_desc (put_desc h' r2 stay) r = h_desc h r) by (unfold put_desc; cbn; now rewrite upd_other, ED).
        destruct (last_opt moved) as [y|]; cbn [bind with_h d_h d_mwt]; [rewrite EM|]; cbn [bind with_h d_h];
          rewrite EX; reflexivity. }
    assert (EH : d_h (if whole then with_h (put_mwts (put_mwts d r (d_mwts d r ++ d_mwts d r2)) r2 []) hF else with_h d hF) = hF)
      by (destruct whole; auto).
    rewrite !EH.
    assert (Q : h_par hF = h_par h' /\ h_ch hF = h_ch h' /\ h_root hF = h_root h' /\
                h_kind hF = h_kind h' /\ h_ord hF = h_ord h' /\ h_emp hF = h_emp h' /\ h_eord hF = h_eord h') by (repeat split).
    destruct Q as (Q2 & Q3 & Q4 & Q5 & Q6 & Q7 & Q8).
    assert (DR2 : forall w, In w (h_desc h r) -> ~ In w (h_desc h r2)).
    { intros w A B. apply (disjoint w); right; auto. }
    assert (SM : forall w, In w stay <-> In w (h_desc h r2) /\ ~ In w nodes).
    { intros w. unfold stay. rewrite filter_In, negb_true_iff, mem_false. tauto. }
    assert (AP : forall w p, h_par h w = Some p -> a_par (abs h r2) w = p) by (intros w p E; cbn; now rewrite E).
    split. { unfold hF. cbn. now rewrite upd_same. }
    split. { unfold hF. cbn. rewrite upd_other, upd_same; auto. }
    split; [exact CT|]. split; [exact GF|]. split; [exact PF|].
    split.
    { intros w p Hw E. rewrite Q2, (v_par _ _ _ _ _ _ F). apply Hin in Hw as Hw2. apply mem_In in Hw2.
      change (a_words (abs h r2)) with (h_desc h r2). rewrite Hw2. unfold cp. rewrite mem_moved, (proj2 (mem_In w nodes) Hw).
      rewrite mem_moved, (AP w p E). reflexivity. }
    split.
    { intros w p Hw E. apply SM in Hw as [H1 H2]. rewrite Q2, (v_par _ _ _ _ _ _ F). apply mem_In in H1.
      change (a_words (abs h r2)) with (h_desc h r2). rewrite H1. unfold cp. rewrite mem_moved, (proj2 (mem_false w nodes) H2).
      rewrite mem_moved, (AP w p E). reflexivity. }
    assert (NM : forall w, ~ In w nodes -> ~ In w moved).
    { intros w A. apply mem_false. rewrite mem_moved. now apply mem_false. }
    split.
    { intros w Hw. split; [|split].
      - rewrite Q2, (v_par _ _ _ _ _ _ F). change (a_words (abs h r2)) with (h_desc h r2).
        now rewrite (proj2 (mem_false w (h_desc h r2)) (DR2 w Hw)).
      - rewrite Q3. apply (v_cho _ _ _ _ _ _ F).
        + intros ->. now apply (c_rootout _ _ C1).
        + apply disjoint. now right.
      - rewrite Q6. apply (v_ord _ _ _ _ _ _ F). apply NM. intros A. now apply (DR2 w Hw), Hin. }
    split.
    { intros w Hw. rewrite Q6. apply (v_ord _ _ _ _ _ _ F). apply NM. now apply SM. }
    split.
    { intros y N1 N2. assert (Hyn : ~ In y nodes) by (intros A; apply N2; right; auto).
      unfold same_object. rewrite Q2, Q3, Q4, Q5, Q6, Q7, Q8.
      rewrite (v_kind _ _ _ _ _ _ F), (v_emp _ _ _ _ _ _ F), (v_eord _ _ _ _ _ _ F), (v_root _ _ _ _ _ _ F), (v_par _ _ _ _ _ _ F).
      rewrite mem_moved, (proj2 (mem_false y nodes) Hyn). change (a_words (abs h r2)) with (h_desc h r2).
      rewrite (proj2 (mem_false y (h_desc h r2))) by (intros A; apply N2; right; auto).
      rewrite (v_ord _ _ _ _ _ _ F) by (now apply NM). rewrite (v_cho _ _ _ _ _ _ F).
      - repeat split. unfold hF. cbn. rewrite !upd_other; [now rewrite ED|intros ->; apply N2; left; auto|intros ->; apply N1; left; auto].
      - intros ->. apply N1. left. auto.
      - exact N2. }
    split. { rewrite Q7. apply (v_emp _ _ _ _ _ _ F). }
    split. { rewrite Q8. apply (v_eord _ _ _ _ _ _ F). }
    destruct whole eqn:EWh.
    - repeat (split; [reflexivity|]). split; [|intros A; exfalso; apply A, HWh; auto].
      intros _. cbn. rewrite upd_same, !upd_other, upd_same by auto. repeat split. intros t A B. rewrite !upd_other; auto.
    - repeat (split; [reflexivity|]). split; [|reflexivity]. intros A. apply HWh in A. discriminate.
  Qed.
End D.

(** The statements used in Props_Steal. *)
Lemma steal_whole : forall d r r2 nodes, consistent (d_h d) r -> consistent (d_h d) r2 -> r <> r2 ->
  nodes <> [] -> Permutation nodes (h_desc (d_h d) r2) ->
  exists d', steal_nodes d r nodes = (d', Ok tt) /\
    h_desc (d_h d') r = h_desc (d_h d) r ++ h_desc (d_h d) r2 /\ h_desc (d_h d') r2 = [] /\
    consistent (d_h d') r /\ consistent (d_h d') r2 /\
    (forall w, In w (h_desc (d_h d) r2) ->
       (h_par (d_h d) w = Some r2 -> h_par (d_h d') w = Some r) /\
       (h_par (d_h d) w <> Some r2 -> h_par (d_h d') w = h_par (d_h d) w)) /\
    (forall w, In w (h_desc (d_h d) r) -> h_par (d_h d') w = h_par (d_h d) w) /\
    (forall y, ~ live (d_h d) r y -> ~ live (d_h d) r2 y -> same_object (d_h d) (d_h d') y) /\
    d_at d' = d_at d /\ d_ri d' = d_ri d.
Proof.
  intros d r r2 nodes C1 C2 Hr Hne HP.
  assert (A : all_words (d_h d) r2 nodes). { intros w Hw. eapply Permutation_in; [apply Permutation_sym; eassumption|auto]. }
  assert (I : incl nodes (h_desc (d_h d) r2)). { intros w Hw. eapply Permutation_in; eassumption. }
  assert (ND : NoDup nodes). { eapply Permutation_NoDup; [apply Permutation_sym; eassumption|apply (c_once _ _ C2)]. }
  destruct (steal_doc d r r2 nodes C1 C2 Hr Hne ND I (or_introl A))
    as (d' & E & D1 & D2 & K1 & K2 & K3 & P1 & P2 & P3 & O & X & Y1 & Y2 & Z1 & Z2 & _).
  assert (EM : filter (fun w => mem w nodes) (h_desc (d_h d) r2) = h_desc (d_h d) r2).
  { apply filter_all. intros w Hw. apply mem_In. auto. }
  assert (ES : filter (fun w => negb (mem w nodes)) (h_desc (d_h d) r2) = []).
  { apply filter_none. intros w Hw. apply negb_false_iff, mem_In. auto. }
  rewrite EM in D1. rewrite ES in D2. exists d'. split; [exact E|]. split; [exact D1|]. split; [exact D2|]. split; [exact K1|].
  split. { apply (K3 (h_desc (d_h d) r2)). now rewrite ES. }
  split; [|split; [intros w Hw; apply (P3 w Hw)|auto]].
  intros w Hw. destruct (c_parents _ _ C2 w Hw) as (p & Ep & Lp). rewrite Ep.
  specialize (P1 w p (A w Hw) Ep). rewrite P1.
  assert (NR : ~ In r2 nodes). { intros H. apply I in H. revert H. apply (c_rootout _ _ C2). }
  split.
  - intros H. injection H as ->. now rewrite (proj2 (mem_false r2 nodes) NR).
  - intros H. destruct Lp as [->|Lp]; [congruence|]. apply A, mem_In in Lp. now rewrite Lp.
Qed.

Lemma steal_whole_mwts : forall d r r2 nodes, consistent (d_h d) r -> consistent (d_h d) r2 -> r <> r2 ->
  nodes <> [] -> Permutation nodes (h_desc (d_h d) r2) ->
  exists d', steal_nodes d r nodes = (d', Ok tt) /\
    d_mwts d' r = d_mwts d r ++ d_mwts d r2 /\ d_mwts d' r2 = [] /\
    (forall t, t <> r -> t <> r2 -> d_mwts d' t = d_mwts d t) /\
    d_m d' = d_m d /\ d_mwt d' = d_mwt d /\ h_emp (d_h d') = h_emp (d_h d).
Proof.
  intros d r r2 nodes C1 C2 Hr Hne HP.
  assert (A : all_words (d_h d) r2 nodes). { intros w Hw. eapply Permutation_in; [apply Permutation_sym; eassumption|auto]. }
  assert (I : incl nodes (h_desc (d_h d) r2)). { intros w Hw. eapply Permutation_in; eassumption. }
  assert (ND : NoDup nodes). { eapply Permutation_NoDup; [apply Permutation_sym; eassumption|apply (c_once _ _ C2)]. }
  destruct (steal_doc d r r2 nodes C1 C2 Hr Hne ND I (or_introl A))
    as (d' & E & D1 & D2 & K1 & K2 & K3 & P1 & P2 & P3 & O & X & Y1 & Y2 & Z1 & Z2 & Z3 & Z4 & Z5 & Z6 & Z7).
  exists d'. destruct (Z6 A) as (Q1 & Q2 & Q3). repeat (split; auto).
Qed.

Lemma steal_part : forall d r r2 nodes, consistent (d_h d) r -> consistent (d_h d) r2 -> r <> r2 ->
  nodes <> [] -> NoDup nodes -> incl nodes (h_desc (d_h d) r2) -> last_free d r2 nodes ->
  exists d', steal_nodes d r nodes = (d', Ok tt) /\
    h_desc (d_h d') r = h_desc (d_h d) r ++ filter (fun w => mem w nodes) (h_desc (d_h d) r2) /\
    h_desc (d_h d') r2 = filter (fun w => negb (mem w nodes)) (h_desc (d_h d) r2) /\
    consistent (d_h d') r /\ consistent_with_gaps (d_h d') r2 /\
    (final_words (d_h d) r2 nodes -> consistent (d_h d') r2) /\
    (forall w p, In w (h_desc (d_h d) r2) -> h_par (d_h d) w = Some p ->
       h_par (d_h d') w = Some (match mem w nodes, mem p nodes with
                                | true, true | false, false => p
                                | true, false => r
                                | false, true => r2
                                end)) /\
    (forall w, In w (h_desc (d_h d) r) -> h_par (d_h d') w = h_par (d_h d) w) /\
    (forall y, ~ live (d_h d) r y -> ~ live (d_h d) r2 y -> same_object (d_h d) (d_h d') y) /\
    d_at d' = d_at d /\ d_ri d' = d_ri d.
Proof.
  intros d r r2 nodes C1 C2 Hr Hne ND I LF.
  destruct (steal_doc d r r2 nodes C1 C2 Hr Hne ND I (or_intror LF))
    as (d' & E & D1 & D2 & K1 & K2 & K3 & P1 & P2 & P3 & O & X & Y1 & Y2 & Z1 & Z2 & _).
  exists d'. split; [exact E|]. split; [exact D1|]. split; [exact D2|]. split; [exact K1|]. split; [exact K2|].
  split.
  { intros (st & mv & EQ & H1 & H2). apply (K3 mv). rewrite EQ at 2. rewrite filter_app.
    rewrite (filter_all _ st) by (intros w Hw; apply negb_true_iff, mem_false; auto).
    rewrite (filter_none _ mv) by (intros w Hw; apply negb_false_iff, mem_In; auto).
    now rewrite app_nil_r. }
  split; [|split; [intros w Hw; apply (P3 w Hw)|auto]].
  intros w p Hw Ep. destruct (mem w nodes) eqn:Ew.
  - apply mem_In in Ew. rewrite (P1 w p Ew Ep). destruct (mem p nodes); auto.
  - assert (S : In w (filter (fun w => negb (mem w nodes)) (h_desc (d_h d) r2))) by (apply filter_In; split; [auto|now rewrite Ew]).
    rewrite (P2 w p S Ep). destruct (mem p nodes); auto.
Qed.

Lemma steal_none d r : steal_nodes d r [] = (d, Raise IndexError).
Proof. reflexivity. Qed.
Lemma steal_several d r nodes x y : In x nodes -> In y nodes -> h_root (d_h d) x <> h_root (d_h d) y ->
  steal_nodes d r nodes = (d, Raise ValueError).
Proof.
  intros Hx Hy Hne. unfold steal_nodes. destruct nodes as [|z rest]; [destruct Hx|].
  replace (existsb (fun u => negb (Nat.eqb (h_root (d_h d) u) (h_root (d_h d) z))) rest) with true; auto.
  symmetry. apply existsb_exists. destruct (Nat.eq_dec (h_root (d_h d) x) (h_root (d_h d) z)) as [E|E].
  - exists y. split; [destruct Hy as [->|Hy]; [congruence|auto]|]. apply negb_true_iff, Nat.eqb_neq. congruence.
  - exists x. split; [destruct Hx as [->|Hx]; [congruence|auto]|]. apply negb_true_iff, Nat.eqb_neq. congruence.
Qed.
