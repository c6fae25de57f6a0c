(** Proofs about the numbering of empty nodes. *)
From Coq Require Import String List ZArith Bool Lia Sorting.Sorted Sorting.Permutation.
From Verif Require Import PyStr PyList PyListFacts PyExn TreeModel TreeSpec TreeFacts TreeRepr TreeOps TreeRemove TreeShift TreeCalls TreeProps EmptySpec.
Import ListNotations.
Local Open Scope Z_scope.

(** ---- The greedy numbering ---- *)
Fixpoint greedy (last : Z) (l : list (Z * Z)) : list Z :=
  match l with
  | [] => []
  | (c, f) :: l => let n := 10 * c + f in
                   let n := if n <=? last then last + 1 else n in n :: greedy n l
  end.

Definition roomy (l : list (Z * Z)) : Prop :=
  forall pre c f mid f' post, l = pre ++ (c, f) :: mid ++ (c, f') :: post -> f + Z.of_nat (length mid) + 1 <= 9.
Definition le_c (a b : Z * Z) : Prop := fst a <= fst b.

Lemma roomy_tail p l : roomy (p :: l) -> roomy l.
Proof. intros H pre c f mid f' post E. apply (H (p :: pre) c f mid f' post). simpl. now rewrite E. Qed.

Lemma greedy_spec l : forall c g,
  roomy l -> StronglySorted le_c l -> (forall p, In p l -> 1 <= snd p <= 9) ->
  (forall p, In p l -> c <= fst p) -> g <= 9 ->
  (forall mid f post, l = mid ++ (c, f) :: post -> g + Z.of_nat (length mid) + 1 <= 9) ->
  StronglySorted Z.lt (greedy (10 * c + g) l) /\
  (forall n, In n (greedy (10 * c + g) l) -> 10 * c + g < n) /\
  Forall2 (fun p n => 10 * fst p < n < 10 * fst p + 10) l (greedy (10 * c + g) l).
Proof.
  induction l as [|[c1 f1] l IH]; intros c g HR HS HF HC Hg HB.
  - simpl. repeat split; try constructor. intros n [].
  - assert (F1 : 1 <= f1 <= 9) by (apply (HF (c1, f1)); left; auto).
    assert (C1 : c <= c1) by (apply (HC (c1, f1)); left; auto).
    inversion HS as [|? ? S1 S2]; subst. rewrite Forall_forall in S2.
    set (g1 := if c1 =? c then Z.max f1 (g + 1) else f1).
    assert (E : (if 10 * c1 + f1 <=? 10 * c + g then 10 * c + g + 1 else 10 * c1 + f1) = 10 * c1 + g1).
    { unfold g1. destruct (Z.eqb_spec c1 c) as [Ec|]; destruct (Z.leb_spec (10 * c1 + f1) (10 * c + g)); lia. }
    cbn [greedy]. rewrite E.
    assert (G1 : g1 <= 9 /\ f1 <= g1).
    { unfold g1. destruct (Z.eqb_spec c1 c) as [->|]; [|lia]. specialize (HB [] f1 l eq_refl). simpl in HB. lia. }
    destruct (IH c1 g1) as [A [B D]].
    + eapply roomy_tail; eauto.
    + auto.
    + intros p Hp. apply HF. right; auto.
    + intros p Hp. apply (S2 p Hp).
    + lia.
    + intros mid f post ->. pose proof (HR [] c1 f1 mid f post eq_refl) as R1.
      unfold g1. destruct (Z.eqb_spec c1 c) as [->|]; [|lia].
      specialize (HB ((c, f1) :: mid) f post eq_refl). cbn [length] in HB. lia.
    + assert (LT : 10 * c + g < 10 * c1 + g1).
      { unfold g1. destruct (Z.eqb_spec c1 c) as [->|]; lia. }
      split; [|split].
      * constructor; auto. apply Forall_forall. exact B.
      * intros n [<-|Hn]; [auto|]. specialize (B n Hn). lia.
      * constructor; auto. simpl. lia.
Qed.
Lemma greedy_ok l : roomy l -> StronglySorted le_c l -> (forall p, In p l -> 1 <= snd p <= 9) ->
  (forall p, In p l -> 0 <= fst p) ->
  StronglySorted Z.lt (greedy 0 l) /\ Forall2 (fun p n => 10 * fst p < n < 10 * fst p + 10) l (greedy 0 l).
Proof.
  intros HR HS HF HC. destruct l as [|[c f] l]; [split; constructor|].
  assert (F1 : 1 <= f <= 9) by (apply (HF (c, f)); left; auto).
  assert (C1 : 0 <= c) by (apply (HC (c, f)); left; auto).
  inversion HS as [|? ? S1 S2]; subst. rewrite Forall_forall in S2.
  cbn [greedy]. destruct (Z.leb_spec (10 * c + f) 0); [lia|].
  destruct (greedy_spec l c f) as [A [B D]].
  - eapply roomy_tail; eauto.
  - auto.
  - intros p Hp. apply HF. right; auto.
  - intros p Hp. apply (S2 p Hp).
  - lia.
  - intros mid f' post ->. exact (HR [] c f mid f' post eq_refl).
  - split.
    + constructor; auto. apply Forall_forall. exact B.
    + constructor; auto. simpl. lia.
Qed.

(** ---- The two renumbering loops compute it ---- *)
Lemma renumber_emp_greedy fm (v : nat -> nat) l : forall h last, NoDup l -> (forall e, In e l -> assoc fm e = Some (v e)) ->
  map (h_eord (fst (renumber_emp h fm last l))) l = greedy last (map (fun e => (h_ord h (v e), h_eord h e mod 10)) l).
Proof.
  induction l as [|e l IH]; intros h last ND HA; auto. inversion ND as [|? ? N1 N2]; subst.
  cbn [renumber_emp]. rewrite (HA e) by (left; auto). cbn [map greedy].
  set (n := if _ : bool then _ else _).
  f_equal.
  - rewrite (oe_eord _ _ _ (renumber_emp_only fm l _ n) e N1). cbn. now upds.
  - rewrite IH; auto; [|intros; apply HA; right; auto]. f_equal. apply map_ext_in. intros y Hy.
    cbn. rewrite upd_other by congruence. auto.
Qed.
Definition leaf_target (my o : Z) : Z := if 10 * my <? o then o - 10 else o.
Lemma renumber_leaf_greedy my (c : nat -> Z) l : forall h last, NoDup l ->
  StronglySorted (fun a b => h_eord h a < h_eord h b) l ->
  (forall e, In e l -> last < h_eord h e \/ 10 * my < h_eord h e) ->
  (forall e, In e l -> leaf_target my (h_eord h e) = 10 * c e + h_eord h e mod 10) ->
  map (h_eord (renumber_emp_leaf h my last l)) l = greedy last (map (fun e => (c e, h_eord h e mod 10)) l).
Proof.
  induction l as [|e l IH]; intros h last ND SS HL HC; auto. inversion ND as [|? ? N1 N2]; subst.
  inversion SS as [|? ? S1 S2]; subst. rewrite Forall_forall in S2.
  cbn [renumber_emp_leaf map greedy]. rewrite <- (HC e) by (left; auto).
  set (h1 := if _ : bool then _ else h).
  set (n := if leaf_target my (h_eord h e) <=? last then last + 1 else leaf_target my (h_eord h e)).
  assert (E : h_eord h1 e = n /\ forall y, y <> e -> h_eord h1 y = h_eord h y).
  { unfold h1, n, leaf_target. destruct (Z.ltb_spec (10 * my) (h_eord h e)).
    - split; [cbn; now upds|]. intros y Hy. cbn. now rewrite upd_other.
    - split; auto. destruct (HL e (or_introl eq_refl)); [|lia].
      destruct (Z.leb_spec (h_eord h e) last); lia. }
  destruct E as [E1 E2]. f_equal.
  - now rewrite (oe_eord _ _ _ (renumber_emp_leaf_only l h1 my _) e N1).
  - assert (NE : forall y, In y l -> y <> e) by congruence.
    rewrite E1, IH; auto.
    + f_equal. apply map_ext_in. intros y Hy. now rewrite E2 by auto.
    + clear -S1 E2 NE. induction S1; constructor; [apply IHS1; intros; apply NE; right; auto|].
      rewrite Forall_forall in *. intros y Hy. rewrite !E2; auto; apply NE; simpl; auto.
    + intros y Hy. rewrite E2 by auto. specialize (S2 y Hy). unfold n, leaf_target.
      destruct (Z.ltb_spec (10 * my) (h_eord h e)); [right; lia|].
      destruct (Z.leb_spec (h_eord h e) last); [destruct (HL e (or_introl eq_refl)); lia|left; lia].
    + intros y Hy. rewrite E2 by auto. apply HC. right; auto.
Qed.

(** ---- Counting the surviving words before an empty node ---- *)
Definition cnt (h : heap) (K : list nat) (e : nat) : Z :=
  Z.of_nat (length (filter (fun w => 10 * h_ord h w <? h_eord h e) K)).

Lemma filter_prefix {A} (key : A -> Z) (l : list A) b : StronglySorted (key_lt key) l ->
  filter (fun w => 10 * key w <? b) l = firstn (length (filter (fun w => 10 * key w <? b) l)) l.
Proof.
  induction 1 as [|a l S IH F]; auto. rewrite Forall_forall in F. cbn [filter].
  destruct (Z.ltb_spec (10 * key a) b).
  - cbn [length firstn]. now rewrite <- IH.
  - rewrite filter_none; auto. intros w Hw. apply Z.ltb_ge. specialize (F w Hw). unfold key_lt in F. lia.
Qed.
Lemma filter_mono_length {A} (f g : A -> bool) l : (forall x, In x l -> f x = true -> g x = true) ->
  (length (filter f l) <= length (filter g l))%nat.
Proof.
  induction l as [|a l IH]; intros H; auto. cbn [filter].
  assert (length (filter f l) <= length (filter g l))%nat by (apply IH; intros; apply H; simpl; auto).
  destruct (f a) eqn:E; [rewrite (H a (or_introl eq_refl) E)|destruct (g a)]; cbn [length]; lia.
Qed.
Lemma firstn_In_nth {A} (l : list A) : forall n i x, NoDup l -> nth_error l i = Some x -> (In x (firstn n l) <-> (i < n)%nat).
Proof.
  induction l as [|a l IH]; intros n i x ND Hi; [destruct i; discriminate|].
  inversion ND as [|? ? N1 N2]; subst. destruct n as [|n]; [simpl; lia|]. destruct i as [|i]; simpl in Hi.
  - injection Hi as ->. simpl. split; [lia|auto].
  - assert (In x l) by (eapply nth_error_In; eauto). simpl. rewrite <- Nat.succ_lt_mono, <- (IH n i x N2 Hi).
    split; [intros [->|]; [contradiction|auto]|auto].
Qed.

Section Numbering.
Variables (h h' : heap) (K : list nat).
Hypothesis KS : StronglySorted (key_lt (h_ord h)) K.
Hypothesis KN : NoDup K.
Hypothesis KP : pos_ok h' 0 K.

Lemma cnt_before w e : In w K -> (10 * h_ord h w < h_eord h e <-> h_ord h' w <= cnt h K e).
Proof.
  intros Hw. destruct (pos_ok_In _ _ _ _ KP Hw) as [i [Hi Ho]]. rewrite Ho. unfold cnt.
  set (fl := filter _ K).
  assert (E : In w fl <-> 10 * h_ord h w < h_eord h e).
  { unfold fl. rewrite filter_In, Z.ltb_lt. tauto. }
  rewrite <- E. unfold fl at 1. rewrite (filter_prefix (h_ord h) K (h_eord h e) KS). fold fl.
  rewrite (firstn_In_nth K _ i w KN Hi). lia.
Qed.
Lemma cnt_mono e e' : h_eord h e <= h_eord h e' -> cnt h K e <= cnt h K e'.
Proof.
  intros H. unfold cnt. apply inj_le, filter_mono_length. intros w _. rewrite !Z.ltb_lt. lia.
Qed.
Lemma cnt_nonneg e : 0 <= cnt h K e.
Proof. unfold cnt. lia. Qed.
Lemma cnt_eq_all e e' : h_eord h e <= h_eord h e' -> cnt h K e = cnt h K e' ->
  forall w, In w K -> 10 * h_ord h w < h_eord h e' -> 10 * h_ord h w < h_eord h e.
Proof. intros H E w Hw. rewrite (cnt_before w e Hw), (cnt_before w e' Hw). lia. Qed.

(** The greedy numbering by counts has the required properties. *)
Lemma numbering_ok l : StronglySorted (fun a b => h_eord h a < h_eord h b) l ->
  (forall e, In e l -> h_eord h e mod 10 <> 0) ->
  (forall pre e mid e' post, l = pre ++ e :: mid ++ e' :: post ->
     (forall w, In w K -> 10 * h_ord h w < h_eord h e' -> 10 * h_ord h w < h_eord h e) ->
     h_eord h e mod 10 + Z.of_nat (length mid) + 1 <= 9) ->
  map (h_eord h') l = greedy 0 (map (fun e => (cnt h K e, h_eord h e mod 10)) l) ->
  StronglySorted (fun a b => h_eord h' a < h_eord h' b) l /\
  (forall e, In e l -> h_eord h' e mod 10 <> 0 /\ 0 < h_eord h' e < 10 * (cnt h K e + 1) /\
     forall w, In w K -> (10 * h_ord h w < h_eord h e <-> 10 * h_ord h' w < h_eord h' e)).
Proof.
  intros SS FR RM EQ.
  set (F := fun e => (cnt h K e, h_eord h e mod 10)) in *.
  assert (SS0 : forall pre e mid e' post, l = pre ++ e :: mid ++ e' :: post -> h_eord h e < h_eord h e').
  { intros pre e mid e' post E. rewrite E in SS. clear -SS. induction pre as [|a pre IH]; inversion SS; subst; auto.
    rewrite Forall_forall in *. apply H2, in_app_iff. right. left. auto. }
  destruct (greedy_ok (map F l)) as [G1 G2].
  - intros pre c f mid f' post E.
    destruct (map_eq_app _ _ _ _ E) as [l1 [l2 [E1 [E2 E3]]]].
    destruct l2 as [|e l2]; [discriminate|]. cbn [map] in E3. injection E3 as E4 E5 E6.
    destruct (map_eq_app _ _ _ _ E6) as [l3 [l4 [E7 [E8 E9]]]].
    destruct l4 as [|e' l4]; [discriminate|]. cbn [map] in E9. injection E9 as E10 E11 E12.
    subst l2. rewrite <- E5, <- E8, map_length.
    apply (RM l1 e l3 e' l4); auto.
    apply cnt_eq_all; [|congruence]. apply Z.lt_le_incl, (SS0 l1 e l3 e' l4); auto.
  - clear -SS. induction SS as [|a l S IH FA]; cbn [map]; constructor; auto. rewrite Forall_forall in *.
    intros p Hp. apply in_map_iff in Hp as [b [<- Hb]]. unfold le_c, F. cbn [fst]. apply cnt_mono.
    specialize (FA b Hb). lia.
  - intros p Hp. apply in_map_iff in Hp as [e [<- He]]. unfold F. cbn [snd]. specialize (FR e He).
    pose proof (Z.mod_pos_bound (h_eord h e) 10). lia.
  - intros p Hp. apply in_map_iff in Hp as [e [<- He]]. apply cnt_nonneg.
  - rewrite <- EQ in G1, G2. split.
    + clear -G1. induction l as [|a l IH]; constructor; cbn [map] in G1; inversion G1; subst; auto.
      rewrite Forall_forall in *. intros b Hb. apply H2, in_map; auto.
    + assert (G : forall e, In e l -> 10 * cnt h K e < h_eord h' e < 10 * cnt h K e + 10).
      { clear -G2. induction l as [|a l IH]; intros e He; [destruct He|]. cbn [map] in G2. inversion G2; subst.
        destruct He as [->|He]; auto. }
      intros e He. specialize (G e He). pose proof (cnt_nonneg e). split; [|split].
      * intros E. apply Z.mod_divide in E; [|lia]. destruct E as [k E]. lia.
      * lia.
      * intros w Hw. rewrite (cnt_before w e Hw). lia.
Qed.
End Numbering.

(** ---- What remove() does to the empty nodes ---- *)
Lemma follow_map_ext h h' rm l : h_kind h' = h_kind h -> forall prev, follow_map h' rm prev l = follow_map h rm prev l.
Proof.
  intros E. induction l as [|x l IH]; intros prev; cbn [follow_map]; auto.
  unfold is_empty. rewrite E. now rewrite !IH.
Qed.
Section RemoveEmp.
Variables (h : heap) (T : atree).
Hypothesis W : wf T.
Hypothesis HR : Repr h T.
Variable x : nat.
Hypothesis Hx : In x (a_words T).
Notation root := (a_root T).
Notation words := (a_words T).
Hypothesis HE : emps_ok h root.

Lemma remove_shape m : exists h', node_remove h x m = (h', Ok tt) /\
  (h_emp h root = [] \/
   (a_words (t_removed T x m) = filter (fun y => negb (Nat.eqb y x)) words /\
    exists h3, h' = renumber_emp_leaf h3 (h_ord h x) 0 (h_emp h root) /\ h_eord h3 = h_eord h) \/
   (t_removed T x m = t_remove T x /\
    exists hv, h' = fst (renumber_emp hv (follow_map h (filter (fun y => insubb T y x) words) root (descendants_and_empty h root)) 0
                          (h_emp h root)) /\ h_eord hv = h_eord h)).
Proof.
  destruct (remove_ok h T W HR x Hx m) as [h' [res [EQ [R' [_ [_ HK]]]]]].
  assert (EK : emp_kinds h root).
  { intros e He. split; [apply (e_kind _ _ HE)|apply (e_alloc _ _ HE)]; auto. }
  rewrite (HK EK) in EQ. exists h'. split; auto. clear res HK.
  destruct (h_emp h root) as [|e0 em0] eqn:EM; [left; auto|right]. rewrite <- EM in *. 
  assert (NEM : nonempty (h_emp h root) = true) by (rewrite EM; auto). clear EM.
  unfold node_remove in EQ. rewrite (par_word h T HR x Hx), (l1_eq h T W HR x Hx) in EQ.
  set (l1 := filter _ words) in EQ. set (h1 := put_ch h (a_par T x) l1) in EQ.
  set (h2 := match m with Some _ => _ | None => _ end) in EQ.
  assert (H2 : h_root h2 = h_root h /\ h_desc h2 = h_desc h /\ h_ord h2 = h_ord h /\ h_emp h2 = h_emp h /\ h_eord h2 = h_eord h).
  { unfold h2. destruct m as [m|]; [|now unfold h1]. destruct (_ && _); [|now unfold h1]. cbv zeta.
    cbn [h_root h_desc h_ord h_emp h_eord put_ch set_ch].
    destruct (reparent_all_fields (h_ch h1 x) (Some (a_par T x)) h1) as [[A1 A2 A3 A4] [B1 [B2 [B3 _]]]].
    rewrite A3, B2, B1, A4, B3. now unfold h1. }
  destruct H2 as [H2r [H2d [H2o [H2e H2f]]]].
  rewrite H2r, (r_root h T HR x (or_intror Hx)) in EQ.
  destruct (nonempty (h_ch h2 x)) eqn:NC; cbn [negb] in EQ.
  - (* a subtree *)
    right.
    assert (NR : rehangs m && nonempty (chs T x) = false /\ h2 = h1).
    { assert (E1 : h_ch h1 x = chs T x).
      { unfold h1. cbn. rewrite upd_other; [apply (r_ch h T HR); right; auto|].
        intros E. apply (below_irrefl T W x). apply (below_cases T x x). auto. }
      unfold h2 in NC |- *. destruct m as [m|]; cbn [rehangs]; [|split; auto].
      rewrite E1 in NC |- *. rewrite (andb_comm (starts_with _ _)). destruct (nonempty (chs T x) && starts_with (s "rehang") m) eqn:EB; [|split; auto].
      cbn in NC. rewrite upd_same in NC. discriminate. }
    destruct NR as [NR E2]. split; [unfold t_removed; now rewrite NR|]. rewrite E2 in EQ.
    change (h_emp h1) with (h_emp h) in EQ. rewrite NEM in EQ.
    unfold h1 in EQ at 1. rewrite (desc_add_self_detached h T W HR x Hx) in EQ. cbn [rbind] in EQ.
    rewrite (follow_map_ext h h1) in EQ by reflexivity. change (descendants_and_empty h1) with (descendants_and_empty h) in EQ.
    set (fm := follow_map _ _ _ _) in *.
    destruct (unordered_descendants h1 root) as [d| |]; try (injection EQ; discriminate).
    cbv zeta in EQ. set (hv := renumber _ _ _) in EQ.
    destruct (renumber_fields (sort_nodes h1 d) (put_desc h1 root (sort_nodes h1 d)) 1) as [[A1 A2 A3 A4] [B1 [B2 [B3 B4]]]].
    fold hv in A4, B4. exists hv. split; [|rewrite B4; reflexivity].
    destruct (nonempty fm) eqn:NF.
    + rewrite A4 in EQ. change (h_emp (put_desc h1 root (sort_nodes h1 d))) with (h_emp h) in EQ. now rewrite EQ.
    + exfalso. destruct (h_emp h root) as [|e em] eqn:EM; [discriminate|].
      destruct (follow_map_In h (filter (fun y => insubb T y x) words) (descendants_and_empty h root) root e) as [v Hv].
      * unfold descendants_and_empty. eapply Permutation_in; [symmetry; apply sort_on_perm|].
        apply in_app_iff. right. rewrite EM. left; auto.
      * unfold is_empty. rewrite (e_kind _ _ HE); auto. rewrite EM. left; auto.
      * fold fm in Hv. destruct fm; discriminate.
  - (* a leaf *)
    left.
    assert (ET : a_words (t_removed T x m) = filter (fun y => negb (Nat.eqb y x)) words).
    { unfold t_removed. destruct (rehangs m && nonempty (chs T x)) eqn:RH; [reflexivity|].
      assert (E1 : h_ch h1 x = chs T x).
      { unfold h1. cbn. rewrite upd_other; [apply (r_ch h T HR); right; auto|].
        intros E. apply (below_irrefl T W x). apply (below_cases T x x). auto. }
      assert (E0 : chs T x = []).
      { unfold h2 in NC. destruct m as [m|]; cbn [rehangs] in RH.
        - rewrite E1, andb_comm, RH, E1 in NC. now destruct (chs T x).
        - rewrite E1 in NC. now destruct (chs T x). }
      simpl. apply filter_ext_in'. intros y Hy. f_equal. unfold insubb.
      rewrite (proj2 (belowb_false T W y x)); [now rewrite orb_false_r|].
      intros HB. apply (subs_In T W) in HB. rewrite (chs_nil_subs T W x E0) in HB. destruct HB. }
    split; auto. rewrite H2d, (r_desc h T HR) in EQ.
    rewrite (list_remove_filter x words (wf_nodup T W) Hx) in EQ.
    cbv zeta in EQ. cbn [h_ord put_desc set_desc] in EQ. rewrite H2o in EQ.
    set (h3 := renumber _ _ _) in EQ. exists h3.
    match goal with H3 := renumber ?a ?b ?c |- _ => destruct (renumber_fields c a b) as [[A1 A2 A3 A4] [B1 [B2 [B3 B4]]]] end.
    fold h3 in A4, B4. rewrite A4 in EQ. cbn [h_emp put_desc set_desc] in EQ. rewrite H2e in EQ.
    split; [now injection EQ as <-|]. rewrite B4. cbn. exact H2f.
Qed.
End RemoveEmp.

Lemma sorted_strict {A} (key : A -> Z) l : StronglySorted (fun a b => Z.leb (key a) (key b) = true) l -> NoDup l ->
  (forall a b, In a l -> In b l -> key a = key b -> a = b) -> StronglySorted (key_lt key) l.
Proof.
  induction 1 as [|a l S IH F]; intros ND IN; constructor; inversion ND as [|? ? N1 N2]; subst.
  - apply IH; auto. intros; apply IN; simpl; auto.
  - rewrite Forall_forall in *. intros b Hb. specialize (F b Hb). apply Z.leb_le in F. unfold key_lt.
    destruct (Z.eq_dec (key a) (key b)) as [E|]; [|lia]. exfalso. apply N1.
    rewrite (IN a b) by (simpl; auto). auto.
Qed.
Lemma sorted_app {A} (R : A -> A -> Prop) l1 x l2 : StronglySorted R (l1 ++ x :: l2) ->
  (forall y, In y l1 -> R y x) /\ (forall y, In y l2 -> R x y).
Proof.
  induction l1 as [|a l1 IH]; simpl; intros S; inversion S as [|? ? S1 F]; subst; rewrite Forall_forall in F.
  - split; [intros y []|auto].
  - destruct (IH S1) as [I1 I2]. split; auto. intros y [<-|Hy]; auto. apply F, in_app_iff. simpl; auto.
Qed.
Lemma count_pos h o l : o mod 10 <> 0 -> forall k, pos_ok h k l ->
  Z.of_nat (length (filter (fun w => 10 * h_ord h w <? o) l)) = Z.max 0 (Z.min (Z.of_nat (length l)) (o / 10 - Z.of_nat k)).
Proof.
  intros Ho. pose proof (Z.div_mod o 10). pose proof (Z.mod_pos_bound o 10).
  induction l as [|a l IH]; intros k HP; [simpl; lia|]. apply pos_ok_cons in HP as [HA HP]. specialize (IH (S k) HP).
  cbn [filter]. destruct (Z.ltb_spec (10 * h_ord h a) o); cbn [length]; lia.
Qed.

Lemma follow_ord h hh rm l : forall prev k, NoDup l ->
  pos_ok hh k (filter (fun y => negb (is_empty h y) && negb (mem y rm)) l) -> h_ord hh prev = Z.of_nat k ->
  forall pre e post, l = pre ++ e :: post -> is_empty h e = true ->
  exists v, assoc (follow_map h rm prev l) e = Some v /\
    h_ord hh v = Z.of_nat (k + length (filter (fun y => negb (is_empty h y) && negb (mem y rm)) pre)).
Proof.
  induction l as [|a l IH]; intros prev k ND HP Hk pre e post E He; [destruct pre; discriminate|].
  inversion ND as [|? ? N1 N2]; subst. destruct pre as [|b pre]; cbn [app] in E; injection E as <- E.
  - cbn [follow_map]. rewrite He. cbn [assoc]. rewrite Nat.eqb_refl. exists prev. split; auto. simpl. rewrite Hk. f_equal. lia.
  - assert (NE : a <> e) by (intros ->; apply N1; rewrite E; apply in_app_iff; simpl; auto).
    cbn [follow_map filter] in *. destruct (is_empty h a) eqn:EA; cbn [negb andb] in *.
    + cbn [assoc]. rewrite (proj2 (Nat.eqb_neq a e) NE). eapply IH; eauto.
    + destruct (mem a rm); cbn [negb] in *; [eapply IH; eauto|].
      apply pos_ok_cons in HP as [H1 H2].
      destruct (IH a (S k) N2 H2 ltac:(lia) pre e post E He) as [v [V1 V2]].
      exists v. split; auto. rewrite V2. cbn [length]. f_equal. lia.
Qed.

Lemma sorted_eord_nodup h l : StronglySorted (fun a b => h_eord h a < h_eord h b) l -> NoDup l.
Proof.
  induction 1 as [|a l S IH F]; constructor; auto. rewrite Forall_forall in F. intros H. specialize (F a H). simpl in F. lia.
Qed.
Lemma good_emps h r : good_empties h r -> emps_ok h r.
Proof. intros []. constructor; auto. eapply sorted_eord_nodup; eauto. Qed.

Lemma survivors h r x m h' : consistent h r ->
  ((exists mode, m = Some mode /\ starts_with (s "rehang") mode = true) -> kept h h' r (fun w => w <> x)) ->
  (~ (exists mode, m = Some mode /\ starts_with (s "rehang") mode = true) -> kept h h' r (fun w => ~ in_subtree h w x)) ->
  exists f, (forall w, In w (h_desc h r) -> (f w = true <-> survives h x m w)) /\ h_desc h' r = filter f (h_desc h r).
Proof.
  intros C H1 H2. unfold survives. destruct m as [m|].
  - destruct (starts_with (s "rehang") m) eqn:E.
    + apply H1. eauto.
    + apply H2. intros [mode [EM ES]]. injection EM as <-. congruence.
  - apply H2. intros [mode [EM _]]. discriminate.
Qed.

Lemma remove_empties h r x m : consistent h r -> good_empties h r -> In x (h_desc h r) -> room h r x m ->
  exists h', node_remove h x m = (h', Ok tt) /\ consistent h' r /\ h_emp h' r = h_emp h r /\ good_empties h' r /\
    (forall w, In w (h_desc h' r) <-> In w (h_desc h r) /\ survives h x m w) /\
    forall w e, In w (h_desc h' r) -> In e (h_emp h r) -> (before_empty h w e <-> before_empty h' w e).
Proof.
  intros C G Hx RM.
  pose proof (consistent_wf h r C) as W. pose proof (consistent_Repr h r C) as HR.
  pose proof (good_emps h r G) as HE. set (T := abs h r) in *.
  destruct (remove_prop h r C x m) as [h' [EQ [C' [K1 K2]]]]; auto.
  { intros e He. split; [apply (ge_kind _ _ G)|apply (ge_alloc _ _ G)]; auto. }
  destruct (survivors h r x m h' C (fun A => proj1 (K1 A)) (fun A => proj1 (K2 A))) as [f [Hf ED]]. clear K1 K2.
  destruct (remove_ok h T W HR x Hx m) as [h0 [res [EQ0 [R' [_ [SS _]]]]]].
  rewrite EQ in EQ0. injection EQ0 as <- <-.
  assert (EK : a_words (t_removed T x m) = h_desc h' r).
  { rewrite <- (r_desc _ _ R'), t_removed_root. reflexivity. }
  set (K := h_desc h' r) in *.
  assert (KS : StronglySorted (key_lt (h_ord h)) K).
  { rewrite ED. apply filter_StronglySorted, (words_sorted h T HR). }
  assert (KN : NoDup K) by apply (c_once _ _ C').
  assert (KP : pos_ok h' 0 K) by apply (words_pos h' (abs h' r) (consistent_Repr _ _ C')).
  assert (KI : forall w, In w K <-> In w (h_desc h r) /\ survives h x m w).
  { intros w. rewrite ED, filter_In. split; intros [A B]; split; auto; apply (Hf w A); auto. }
  assert (EE : h_emp h' r = h_emp h r) by (destruct SS as [_ _ _ ->]; auto).
  assert (NUM : map (h_eord h') (h_emp h r) = greedy 0 (map (fun e => (cnt h K e, h_eord h e mod 10)) (h_emp h r))).
  { destruct (remove_shape h T W HR x Hx HE m) as [h1 [EQ1 SH]]. rewrite EQ in EQ1. injection EQ1 as <-.
    change (a_root T) with r in SH. rewrite EK in SH.
    destruct SH as [->|[[EF [h3 [-> E3]]]|[ET [hv [Eh EV]]]]].
    - reflexivity.
    - rewrite <- E3.
      transitivity (greedy 0 (map (fun e => (cnt h K e, h_eord h3 e mod 10)) (h_emp h r))); [|reflexivity].
      apply (renumber_leaf_greedy (h_ord h x) (cnt h K)).
      + apply (e_once _ _ HE).
      + rewrite E3. apply (ge_sorted _ _ G).
      + intros e He. left. rewrite E3. apply (ge_range _ _ G e He).
      + intros e He. rewrite E3. pose proof (ge_frac _ _ G e He) as FR. pose proof (ge_range _ _ G e He) as RG.
        pose proof (count_pos h (h_eord h e) _ FR 0%nat (words_pos h T HR)) as CW.
        change (a_words T) with (h_desc h r) in CW.
        pose proof (Z.div_mod (h_eord h e) 10). pose proof (Z.mod_pos_bound (h_eord h e) 10).
        destruct (leaf_words h T W HR x Hx) as [P [Q [EW [EO EPQ]]]].
        change (a_words T) with (h_desc h r) in *. rewrite EPQ in EF.
        unfold cnt. rewrite EF. rewrite EW in CW at 1. rewrite !filter_app, !app_length in *. cbn [filter] in CW.
        unfold leaf_target. destruct (Z.ltb_spec (10 * h_ord h x) (h_eord h e)); cbn [length] in CW; lia.
    - assert (OO : h_ord h' = h_ord hv).
      { rewrite Eh. apply (oe_ord _ _ _ (renumber_emp_only _ _ _ _)). }
      rewrite ET in EK. set (rm := filter (fun y => insubb T y x) (a_words T)) in Eh.
      set (L := descendants_and_empty h r) in Eh.
      set (kw := fun y => negb (is_empty h y) && negb (mem y rm)).
      assert (PL : Permutation L (h_desc h r ++ h_emp h r)) by apply sort_on_perm.
      assert (IE : forall e, In e (h_emp h r) -> is_empty h e = true).
      { intros e He. unfold is_empty. now rewrite (ge_kind _ _ G e He). }
      assert (IW : forall w, In w (h_desc h r) -> is_empty h w = false).
      { intros e He. unfold is_empty. now rewrite (proj1 (c_kinds _ _ C) e He). }
      assert (NDL : NoDup L).
      { apply (Permutation_NoDup (Permutation_sym PL)). apply NoDup_app; [apply (c_once _ _ C)|apply (e_once _ _ HE)|].
        intros y H1 H2. specialize (IE y H2). rewrite (IW y H1) in IE. discriminate. }
      assert (SL : StronglySorted (fun a b => Z.leb (okey h a) (okey h b) = true) L) by apply sort_on_sorted.
      assert (MW : forall y, In y (h_desc h r) -> mem y rm = insubb T y x).
      { intros y Hy. destruct (insubb T y x) eqn:EI.
        - apply mem_In. apply filter_In. auto.
        - apply mem_false. intros H. apply filter_In in H as [_ H]. congruence. }
      assert (FK : filter kw L = K).
      { apply (key_sorted_unique (h_ord h)); auto.
        - apply sorted_strict.
          + assert (FS : StronglySorted (fun a b => Z.leb (okey h a) (okey h b) = true) (filter kw L)) by (apply filter_StronglySorted; auto).
            assert (FW : forall y, In y (filter kw L) -> is_empty h y = false).
            { intros y Hy. apply filter_In in Hy as [_ Hy]. unfold kw in Hy. apply andb_true_iff in Hy as [Hy _]. now apply negb_true_iff. }
            clear -FS FW. induction FS as [|a l S IH F]; constructor.
            * apply IH. intros; apply FW; simpl; auto.
            * rewrite Forall_forall in *. intros b Hb. specialize (F b Hb). unfold okey in F.
              rewrite (FW a), (FW b) in F by (simpl; auto). rewrite Z.leb_le in *. lia.
          + apply NoDup_filter; auto.
          + intros a b Ha Hb. apply filter_In in Ha as [Ha1 Ha2], Hb as [Hb1 Hb2]. unfold kw in *.
            apply andb_true_iff in Ha2 as [Ha2 _], Hb2 as [Hb2 _]. apply negb_true_iff in Ha2, Hb2.
            apply (Permutation_in _ PL), in_app_iff in Ha1, Hb1.
            assert (In a (h_desc h r)) by (destruct Ha1; auto; rewrite IE in Ha2; [discriminate|auto]).
            assert (In b (h_desc h r)) by (destruct Hb1; auto; rewrite IE in Hb2; [discriminate|auto]).
            apply (ord_inj h T HR); right; auto.
        - assert (PF : Permutation (filter kw L) (filter kw (h_desc h r ++ h_emp h r))).
          { clear -PL. induction PL as [|y l1 l2 P IH|y z l1|l1 l2 l3 P1 IH1 P2 IH2]; simpl; auto.
            - destruct (kw y); auto.
            - destruct (kw y), (kw z); auto. apply perm_swap.
            - eapply perm_trans; eauto. }
          rewrite PF, filter_app, (filter_none kw (h_emp h r)), app_nil_r.
          + rewrite <- EK. simpl. change (a_words T) with (h_desc h r). erewrite filter_ext_in'; [reflexivity|].
            intros y Hy. unfold kw. rewrite (IW y Hy), (MW y Hy). reflexivity.
          + intros y Hy. unfold kw. now rewrite (IE y Hy). }
      assert (FO : forall e, In e (h_emp h r) -> exists v, assoc (follow_map h rm r L) e = Some v /\ h_ord hv v = cnt h K e).
      { intros e He.
        assert (HL : In e L) by (apply (Permutation_in _ (Permutation_sym PL)), in_app_iff; auto).
        destruct (in_split _ _ HL) as [pre [post EL]].
        destruct (follow_ord h hv rm L r 0 NDL) with (pre := pre) (e := e) (post := post) as [v [V1 V2]]; auto.
        - fold kw. rewrite FK. apply (pos_ok_ext h'); auto. intros. now rewrite OO.
        - rewrite <- OO. apply (c_ord0 _ _ C').
        - exists v. split; auto. rewrite V2. fold kw. unfold cnt. f_equal. rewrite Nat.add_0_l. f_equal.
          rewrite <- FK, EL, !filter_app. cbn [filter]. unfold kw at 3. rewrite (IE e He). cbn [negb andb].
          rewrite EL in SL. destruct (sorted_app _ _ _ _ SL) as [S1 S2]. clear V1 V2.
          assert (KE : okey h e = h_eord h e) by (unfold okey; now rewrite (IE e He)).
          pose proof (ge_frac _ _ G e He) as FR.
          rewrite (filter_all _ (filter kw pre)), (filter_none _ (filter kw post)).
          + now rewrite app_nil_r.
          + intros y Hy. apply filter_In in Hy as [Hy Hk]. specialize (S2 y Hy). rewrite KE in S2.
            unfold kw in Hk. apply andb_true_iff in Hk as [Hk _]. unfold okey in S2. apply negb_true_iff in Hk. rewrite Hk in S2.
            apply Z.leb_le in S2. apply Z.ltb_ge. lia.
          + intros y Hy. apply filter_In in Hy as [Hy Hk]. specialize (S1 y Hy). rewrite KE in S1.
            unfold kw in Hk. apply andb_true_iff in Hk as [Hk _]. unfold okey in S1. apply negb_true_iff in Hk. rewrite Hk in S1.
            apply Z.leb_le in S1. apply Z.ltb_lt.
            assert (10 * h_ord h y <> h_eord h e); [|lia]. intros E. apply FR. rewrite <- E, Z.mul_comm. apply Z.mod_mul. lia. }
      set (fm := follow_map h rm r L) in *.
      rewrite Eh, (renumber_emp_greedy fm (fun e => match assoc fm e with Some v => v | None => O end)).
      + f_equal. apply map_ext_in. intros e He. destruct (FO e He) as [v [-> V]]. now rewrite V, EV.
      + apply (e_once _ _ HE).
      + intros e He. destruct (FO e He) as [v [-> V]]. auto. }
  destruct (numbering_ok h h' K KS KN KP (h_emp h r)) as [N1 N2]; auto.
  - apply (ge_sorted _ _ G).
  - apply (ge_frac _ _ G).
  - intros pre e mid e' post E HW. apply (RM pre e mid e' post E). intros w Hw HS. apply HW. apply KI. auto.
  - exists h'. conjs.
    + destruct SS as [S1 S2 S3 S4]. constructor; rewrite EE; auto.
      * intros e He. apply (N2 e He).
      * intros e He. destruct (N2 e He) as [_ [B _]]. fold K. split; [lia|].
        assert (cnt h K e <= Z.of_nat (length K)) by (unfold cnt; apply inj_le, filter_length_le). lia.
      * rewrite S2. apply (ge_kind _ _ G).
      * rewrite S1. apply (ge_alloc _ _ G).
      * rewrite S3. apply (ge_root _ _ G).
    + intros w e Hw He. apply (N2 e He). auto.
Qed.

(** ---- create_empty_child ---- *)
Lemma slot_spec h base l : StronglySorted (fun a b => h_eord h a < h_eord h b) l -> forall nw, nw <= base + 9 ->
  match empty_slot h base nw l with
  | None => forall i, nw <= i <= base + 9 -> exists e, In e l /\ h_eord h e = i
  | Some o => nw <= o <= base + 9 /\ (forall e, In e l -> h_eord h e <> o) /\
              forall i, nw <= i < o -> exists e, In e l /\ h_eord h e = i
  end.
Proof.
  induction 1 as [|a l S IH F]; intros nw Hn; cbn [empty_slot].
  - split; [lia|]. split; [intros e []|intros; lia].
  - rewrite Forall_forall in F. destruct (Z.ltb_spec nw (h_eord h a)).
    + split; [lia|]. split; [|intros; lia]. intros e [<-|He]; [lia|]. specialize (F e He). simpl in F. lia.
    + destruct (Z.eqb_spec (h_eord h a) nw) as [E|E].
      * destruct (Z.eqb_spec nw (base + 9)) as [E9|E9].
        -- intros i Hi. exists a. split; [left; auto|lia].
        -- specialize (IH (nw + 1)). destruct (empty_slot h base (nw + 1) l) as [o|].
           ++ destruct IH as [A [B D]]; [lia|]. split; [lia|]. split.
              ** intros e [<-|He]; [lia|auto].
              ** intros i Hi. destruct (Z.eq_dec i nw) as [->|]; [exists a; split; [left; auto|lia]|].
                 destruct (D i) as [e [? ?]]; [lia|]. exists e. split; [right|]; auto.
           ++ intros i Hi. destruct (Z.eq_dec i nw) as [->|]; [exists a; split; [left; auto|lia]|].
              destruct (IH ltac:(lia) i) as [e [? ?]]; [lia|]. exists e. split; [right|]; auto.
      * specialize (IH nw Hn). destruct (empty_slot h base nw l) as [o|].
        -- destruct IH as [A [B D]]. split; [lia|]. split.
           ++ intros e [<-|He]; [lia|auto].
           ++ intros i Hi. destruct (D i) as [e [? ?]]; [lia|]. exists e. split; [right|]; auto.
        -- intros i Hi. destruct (IH i) as [e [? ?]]; [lia|]. exists e. split; [right|]; auto.
Qed.

Lemma sorted_snoc {A} (R : A -> A -> Prop) l x : StronglySorted R l -> (forall y, In y l -> R y x) -> StronglySorted R (l ++ [x]).
Proof.
  induction 1 as [|a l S IH F]; intros H; simpl; constructor; try constructor.
  - apply IH. intros; apply H; simpl; auto.
  - rewrite Forall_forall in *. intros y Hy. apply in_app_iff in Hy as [Hy|[<-|[]]]; auto. apply H. simpl; auto.
Qed.
Lemma last_opt_max h l z : StronglySorted (fun a b => h_eord h a < h_eord h b) l -> last_opt l = Some z ->
  forall e, In e l -> h_eord h e <= h_eord h z.
Proof.
  intros S L e He. destruct l as [|a l0] using rev_ind; [discriminate|]. rewrite last_opt_app in L. injection L as ->.
  apply in_app_iff in He as [He|[<-|[]]]; [|lia].
  change (l0 ++ [z]) with (l0 ++ z :: []) in S. apply sorted_app in S as [S _]. apply Z.lt_le_incl, S, He.
Qed.

Lemma create_empty_spec h r x (after : bool) : consistent h r -> good_empties h r -> In x (h_desc h r) ->
  let base := 10 * (if after then h_ord h x else h_ord h x - 1) in
  exists h', fst (create_empty_child h x after) = h' /\ consistent h' r /\ good_empties h' r /\
    h_desc h' r = h_desc h r /\
    (forall y, (y < h_next h)%nat -> h_ord h' y = h_ord h y /\ h_eord h' y = h_eord h y /\ h_par h' y = h_par h y) /\
    ((snd (create_empty_child h x after) = Raise TypeError /\ h_emp h' r = h_emp h r /\ forall i, 1 <= i <= 9 -> taken h r (base + i)) \/
     (exists k, 1 <= k <= 9 /\ ~ taken h r (base + k) /\ (forall i, 1 <= i < k -> taken h r (base + i)) /\
        snd (create_empty_child h x after) = Ok (h_next h) /\
        (forall e, In e (h_emp h' r) <-> e = h_next h \/ In e (h_emp h r)) /\ h_eord h' (h_next h) = base + k)).
Proof.
  intros C G Hx base.
  pose proof (consistent_wf h r C) as W. pose proof (consistent_Repr h r C) as HR.
  pose proof (good_emps h r G) as HE. set (T := abs h r) in *.
  assert (LX : live h r x) by (right; auto).
  assert (Hr : (r < h_next h)%nat) by (apply (c_alloc _ _ C); left; auto).
  pose proof (c_alloc _ _ C x LX) as AX.
  pose proof (word_ord h T HR x Hx) as OX. change (a_words T) with (h_desc h r) in OX.
  destruct (create_empty_fields h r x after (c_roots _ _ C x LX) Hr) as [F1 [F2 [F3 [F4 F5]]]].
  destruct (step_ok h T W HR HE (OpEmptyChild x after) Hx) as [hs [res [T' [E1 [R' [W' [ET _]]]]]]].
  cbn [tree_step] in E1.
  set (h' := fst (create_empty_child h x after)) in *.
  assert (hs = h') as -> .
  { unfold h'. destruct (create_empty_child h x after) as [a [| |]]; cbn in *; congruence. }
  pose proof (Repr_consistent _ _ R' W') as C'. rewrite ET in C'. change (a_root T) with r in C'. clear E1 R' W' ET.
  assert (ED : h_desc h' r = h_desc h r) by (destruct (F2 r) as [_ [_ [_ [_ [_ [-> _]]]]]]; auto; lia).
  assert (OLD : forall y, (y < h_next h)%nat -> h_ord h' y = h_ord h y /\ h_eord h' y = h_eord h y /\ h_par h' y = h_par h y).
  { intros y Hy. destruct (F2 y) as [? [? [? [? [? [? [? ?]]]]]]]; [lia|]. auto. }
  exists h'. split; [auto|]. split; [auto|].
  (* the list *)
  assert (KEY : (snd (create_empty_child h x after) = Raise TypeError /\ h_emp h' r = h_emp h r /\ forall i, 1 <= i <= 9 -> taken h r (base + i)) \/
     (exists k, 1 <= k <= 9 /\ ~ taken h r (base + k) /\ (forall i, 1 <= i < k -> taken h r (base + i)) /\
        snd (create_empty_child h x after) = Ok (h_next h) /\ h_eord h' (h_next h) = base + k /\
        StronglySorted (fun a b => h_eord h' a < h_eord h' b) (h_emp h' r) /\
        Permutation (h_emp h' r) (h_next h :: h_emp h r))).
  { clear F1 F2 F3 F4 F5 C' ED OLD. unfold h', create_empty_child. clear h'. rewrite (c_roots _ _ C x LX).
    cbv beta iota zeta delta [alloc]. set (h1 := mkHeap _ _ _ _ _ _ _ _ _).
    assert (A1 : h_emp h1 r = h_emp h r) by (unfold h1; cbn; rewrite upd_other; [auto|lia]).
    assert (A2 : h_ord h1 x = h_ord h x) by (unfold h1; cbn; rewrite upd_other; [auto|lia]).
    assert (A3 : forall e, In e (h_emp h r) -> h_eord h1 e = h_eord h e).
    { intros e He. unfold h1. cbn. rewrite upd_other; auto. pose proof (ge_alloc _ _ G e He). lia. }
    rewrite A1, A2. fold base.
    assert (S1 : StronglySorted (fun a b => h_eord h1 a < h_eord h1 b) (h_emp h r)).
    { pose proof (ge_sorted _ _ G) as S. clear -S A3. induction S as [|a l S IH F]; constructor.
      - apply IH. intros; apply A3; simpl; auto.
      - rewrite Forall_forall in *. intros b Hb. rewrite !A3 by (simpl; auto). now apply F. }
    pose proof (slot_spec h1 base _ S1 (base + 1) ltac:(lia)) as SP.
    destruct (empty_slot h1 base (base + 1) (h_emp h r)) as [o|].
    - right. destruct SP as [B1 [B2 B3]]. exists (o - base). split; [lia|].
      replace (base + (o - base)) with o by lia. split; [|split].
      + intros [e [He Ho]]. apply (B2 e He). now rewrite A3.
      + intros i Hi. destruct (B3 (base + i)) as [e [He Ho]]; [lia|]. exists e. rewrite A3 in Ho; auto.
      + set (h2 := put_eord h1 (h_next h) o).
        assert (A4 : h_emp h2 r = h_emp h r) by exact A1. rewrite A4.
        assert (A5 : forall e, In e (h_emp h r) -> h_eord h2 e = h_eord h1 e).
        { intros e He. unfold h2. cbn. rewrite upd_other; auto. pose proof (ge_alloc _ _ G e He). lia. }
        assert (A6 : h_eord h2 (h_next h) = o) by (unfold h2; cbn; now upds).
        assert (S2 : StronglySorted (fun a b => h_eord h2 a < h_eord h2 b) (h_emp h r)).
        { clear -S1 A5. induction S1 as [|a l S IH F]; constructor.
          - apply IH. intros; apply A5; simpl; auto.
          - rewrite Forall_forall in *. intros b Hb. rewrite !A5 by (simpl; auto). now apply F. }
        assert (NN : ~ In (h_next h) (h_emp h r)) by (intros H; pose proof (ge_alloc _ _ G _ H); lia).
        assert (PSN : Permutation (h_emp h r ++ [h_next h]) (h_next h :: h_emp h r))
          by (symmetry; apply Permutation_cons_append).
        destruct (last_opt (h_emp h r)) as [z|] eqn:EL; [destruct (Z.ltb_spec (h_eord h2 z) o)|];
          cbn [snd fst h_eord h_emp put_emp set_emp]; rewrite upd_same; (split; [auto|split; [exact A6|split; [|auto]]]).
        * apply sorted_snoc; auto. intros y Hy. rewrite A6. pose proof (last_opt_max h2 _ z S2 EL y Hy). lia.
        * apply sorted_strict.
          -- apply sort_on_sorted.
          -- apply (Permutation_NoDup (Permutation_sym (sort_on_perm _ _))).
             apply (Permutation_NoDup (Permutation_sym PSN)). constructor; auto. apply (e_once _ _ HE).
          -- assert (INJ : forall a b, In a (h_next h :: h_emp h r) -> In b (h_next h :: h_emp h r) -> h_eord h2 a = h_eord h2 b -> a = b).
             { assert (NE : forall e, In e (h_emp h r) -> h_eord h2 e <> o) by (intros e He; rewrite A5 by auto; now apply B2).
               intros a b [<-|Ha] [<-|Hb] E; auto.
               - exfalso. rewrite A6 in E. now apply (NE b Hb).
               - exfalso. rewrite A6 in E. now apply (NE a Ha).
               - clear -S2 Ha Hb E. induction S2 as [|c l S IH F]; [destruct Ha|]. rewrite Forall_forall in F.
                 destruct Ha as [<-|Ha], Hb as [<-|Hb]; auto.
                 + specialize (F b Hb). cbv beta in F. lia.
                 + specialize (F a Ha). cbv beta in F. lia. }
             intros a b Ha Hb. apply INJ.
             ++ apply (Permutation_in _ PSN), (Permutation_in _ (sort_on_perm (h_eord h2) _)), Ha.
             ++ apply (Permutation_in _ PSN), (Permutation_in _ (sort_on_perm (h_eord h2) _)), Hb.
        * rewrite sort_on_perm. auto.
        * apply last_opt_None in EL. rewrite EL. simpl. repeat constructor.
    - left. cbn [fst snd]. split; auto. split; auto. intros i Hi. destruct (SP (base + i)) as [e [He Ho]]; [lia|].
      exists e. rewrite A3 in Ho; auto. }
  assert (GE : good_empties h' r).
  { assert (OE : forall e, In e (h_emp h r) -> h_eord h' e = h_eord h e /\ h_kind h' e = h_kind h e /\ h_root h' e = h_root h e).
    { intros e He. destruct (F2 e) as [? [? [? [? [? [? [? ?]]]]]]]; auto. pose proof (ge_alloc _ _ G e He). lia. }
    destruct KEY as [[_ [EM _]]|[k [Hk [_ [_ [_ [EO [SS PE]]]]]]]].
    - constructor; rewrite EM; rewrite ?ED.
      + pose proof (ge_sorted _ _ G) as S. clear -S OE. induction S as [|a l S IH F]; constructor.
        * apply IH. intros; apply OE; simpl; auto.
        * rewrite Forall_forall in *. intros b Hb. destruct (OE a) as [-> _]; [simpl; auto|]. destruct (OE b) as [-> _]; [simpl; auto|]. now apply F.
      + intros e He. destruct (OE e He) as [-> _]. now apply (ge_frac _ _ G).
      + intros e He. destruct (OE e He) as [-> _]. now apply (ge_range _ _ G).
      + intros e He. destruct (OE e He) as [_ [-> _]]. now apply (ge_kind _ _ G).
      + intros e He. pose proof (ge_alloc _ _ G e He). lia.
      + intros e He. destruct (OE e He) as [_ [_ ->]]. now apply (ge_root _ _ G).
    - assert (CASE : forall e, In e (h_emp h' r) -> e = h_next h \/ In e (h_emp h r)).
      { intros e He. apply (Permutation_in _ PE) in He. destruct He; auto. }
      constructor; auto; intros e He; rewrite ?ED; destruct (CASE e He) as [->|Ho]; auto.
      + rewrite EO. unfold base. rewrite Z.add_comm, Z.mul_comm, Z.mod_add by lia. rewrite Z.mod_small; lia.
      + destruct (OE e Ho) as [-> _]. now apply (ge_frac _ _ G).
      + rewrite EO. unfold base. destruct after; lia.
      + destruct (OE e Ho) as [-> _]. now apply (ge_range _ _ G).
      + destruct (OE e Ho) as [_ [-> _]]. now apply (ge_kind _ _ G).
      + lia.
      + pose proof (ge_alloc _ _ G e Ho). lia.
      + destruct (OE e Ho) as [_ [_ ->]]. now apply (ge_root _ _ G). }
  split; [auto|]. split; [auto|]. split; [auto|].
  destruct KEY as [KEY|[k [Hk [K1 [K2 [K3 [K4 [_ PE]]]]]]]]; [left; auto|right].
  exists k. repeat (split; [assumption|]). split; auto. intros e. split; intros He.
  - apply (Permutation_in _ PE) in He. destruct He; auto.
  - apply (Permutation_in _ (Permutation_sym PE)). simpl. destruct He; auto.
Qed.

(** ---- shift_* ---- *)
Definition moved_ord (my ref o : Z) : Z :=
  if (my <? o) && (o <? ref) then o - 1 else if (ref <=? o) && (o <? my) then o + 1 else o.

Lemma moved_ords h h' T x wc ref : wf T -> Repr h T -> In x (a_words T) ->
  (wc || negb (nonempty (chs T x)) = true) -> moved_to h h' T x wc ref ->
  forall w, In w (a_words T) -> w <> x -> h_ord h' w = moved_ord (h_ord h x) ref (h_ord h w).
Proof.
  intros W HR Hx HS [HB [R' _]] w Hw Hn.
  set (k := Z.to_nat (ref - 1)) in *.
  assert (MV : forall y, In y (a_words T) -> mvset T x wc y = Nat.eqb y x).
  { intros y Hy. unfold mvset. destruct wc; auto. cbn [orb] in HS. unfold insubb.
    rewrite (proj2 (belowb_false T W y x)); [now rewrite orb_false_r|].
    intros HB'. apply (subs_In T W) in HB'. rewrite (chs_nil_subs T W x) in HB'; [destruct HB'|].
    destruct (chs T x); [auto|discriminate]. }
  rewrite (t_move_ext T _ (fun y => Nat.eqb y x)) in R' by exact MV.
  pose proof (words_pos _ _ R') as P'. cbn [t_move a_words] in P'.
  pose proof (words_pos h T HR) as P0.
  destruct (leaf_words h T W HR x Hx) as [P [Q [EW [EO EF]]]].
  assert (NP : ~ In x P /\ ~ In x Q).
  { pose proof (wf_nodup T W) as ND. rewrite EW in ND. apply NoDup_remove_2 in ND. rewrite in_app_iff in ND. tauto. }
  assert (FNx : forall l, ~ In x l -> filter (fun y => negb (Nat.eqb y x)) l = l).
  { intros l Hl. apply filter_all. intros y Hy. apply negb_true_iff, Nat.eqb_neq. congruence. }
  assert (FX : filter (fun y => Nat.eqb y x) (a_words T) = [x]) by (apply filter_eqb_single; [apply (wf_nodup T W)|auto]).
  rewrite FX in P'.
  assert (LEN : length (a_words T) = (length P + 1 + length Q)%nat) by (rewrite EW, app_length; cbn [length]; lia).
  assert (FI : forall l (y : nat) n, In y (firstn n l) -> In y l).
  { intros l y n H. rewrite <- (firstn_skipn n l). apply in_app_iff. auto. }
  assert (SI : forall l (y : nat) n, In y (skipn n l) -> In y l).
  { intros l y n H. rewrite <- (firstn_skipn n l). apply in_app_iff. auto. }
  assert (OW : exists i, nth_error (a_words T) i = Some w /\ h_ord h w = Z.of_nat i + 1).
  { destruct (pos_ok_In _ _ _ _ P0 Hw) as [i [A B]]. exists i. rewrite B. split; auto. }
  destruct (le_lt_dec k (length P)) as [LK|LK].
  - (* to the left *)
    set (P1 := firstn k P). set (P2 := skipn k P).
    assert (EP : P = P1 ++ P2) by (symmetry; apply firstn_skipn).
    assert (L1 : length P1 = k) by (apply firstn_length_le; auto).
    assert (L2 : length P = (k + length P2)%nat) by (rewrite EP, app_length; lia).
    assert (E1 : firstn k (a_words T) = P1).
    { rewrite EW, firstn_app. replace (k - length P)%nat with 0%nat by lia. simpl. now rewrite app_nil_r. }
    assert (E2 : skipn k (a_words T) = P2 ++ x :: Q).
    { rewrite EW, skipn_app. replace (k - length P)%nat with 0%nat by lia. reflexivity. }
    rewrite E1, E2, filter_app in P'. cbn [filter] in P'. rewrite Nat.eqb_refl in P'. cbn [negb] in P'.
    rewrite (FNx P1), (FNx P2), (FNx Q) in P'; try tauto; try (intros H; apply (proj1 NP); rewrite EP, in_app_iff; auto; fail).
    rewrite EW, EP in P0. rewrite !pos_ok_app in P', P0. rewrite !pos_ok_cons in P'. rewrite pos_ok_cons in P0.
    rewrite app_length in P0. cbn [length] in *. destruct P' as [A1 [[A2 _] A34]]. apply pos_ok_app in A34 as [A3 A4]. destruct P0 as [[B1 B2] [B3 B4]].
    unfold moved_ord. rewrite EW, EP in Hw. rewrite !in_app_iff in Hw. simpl in Hw.
    rewrite EO. destruct Hw as [[Hw|Hw]|[Hw|Hw]]; [| |congruence|].
    + destruct (pos_ok_In _ _ _ _ A1 Hw) as [i [I1 ->]]. destruct (pos_ok_In _ _ _ _ B1 Hw) as [j [J1 ->]].
      assert (i = j) as -> by (apply (NoDup_nth_error P1); [|apply nth_error_Some; congruence|congruence];
        pose proof (wf_nodup T W) as ND; rewrite EW, EP in ND; now apply NoDup_app_inv, proj1, NoDup_app_inv, proj1 in ND).
      assert (j < length P1)%nat by (apply nth_error_Some; congruence).
      repeat match goal with |- context [(?a <? ?b)] => destruct (Z.ltb_spec a b) | |- context [(?a <=? ?b)] => destruct (Z.leb_spec a b) end; cbn [andb]; lia.
    + destruct (pos_ok_In _ _ _ _ A3 Hw) as [i [I1 ->]]. destruct (pos_ok_In _ _ _ _ B2 Hw) as [j [J1 ->]].
      assert (i = j) as -> by (apply (NoDup_nth_error P2); [|apply nth_error_Some; congruence|congruence];
        pose proof (wf_nodup T W) as ND; rewrite EW, EP in ND; now apply NoDup_app_inv, proj1, NoDup_app_inv, proj2, proj1 in ND).
      assert (j < length P2)%nat by (apply nth_error_Some; congruence).
      repeat match goal with |- context [(?a <? ?b)] => destruct (Z.ltb_spec a b) | |- context [(?a <=? ?b)] => destruct (Z.leb_spec a b) end; cbn [andb]; lia.
    + destruct (pos_ok_In _ _ _ _ A4 Hw) as [i [I1 ->]]. destruct (pos_ok_In _ _ _ _ B4 Hw) as [j [J1 ->]].
      assert (i = j) as -> by (apply (NoDup_nth_error Q); [|apply nth_error_Some; congruence|congruence];
        pose proof (wf_nodup T W) as ND; rewrite EW in ND; apply NoDup_app_inv, proj2, proj1 in ND; now inversion ND).
      repeat match goal with |- context [(?a <? ?b)] => destruct (Z.ltb_spec a b) | |- context [(?a <=? ?b)] => destruct (Z.leb_spec a b) end; cbn [andb]; lia.
  - (* to the right *)
    set (n := (k - length P - 1)%nat).
    set (Q1 := firstn n Q). set (Q2 := skipn n Q).
    assert (EQ : Q = Q1 ++ Q2) by (symmetry; apply firstn_skipn).
    assert (L1 : length Q1 = n) by (apply firstn_length_le; lia).
    assert (E1 : firstn k (a_words T) = P ++ x :: Q1).
    { rewrite EW, firstn_app, firstn_all2 by lia. replace (k - length P)%nat with (S n) by lia. reflexivity. }
    assert (E2 : skipn k (a_words T) = Q2).
    { rewrite EW, skipn_app, skipn_all2 by lia. replace (k - length P)%nat with (S n) by lia. reflexivity. }
    rewrite E1, E2, filter_app in P'. cbn [filter] in P'. rewrite Nat.eqb_refl in P'. cbn [negb] in P'.
    rewrite (FNx P), (FNx Q1), (FNx Q2) in P'; try tauto; try (intros H; apply (proj2 NP); rewrite EQ, in_app_iff; auto; fail).
    rewrite EW, EQ in P0. rewrite !pos_ok_app in P'. rewrite pos_ok_app, pos_ok_cons, pos_ok_app in P0. rewrite !pos_ok_cons in P'.
    rewrite app_length in P'. cbn [length] in *. destruct P' as [[A1 A2] [[A3 _] A4]]. destruct P0 as [B1 [B2 [B3 B4]]].
    unfold moved_ord. rewrite EW, EQ in Hw. rewrite in_app_iff in Hw. simpl in Hw. rewrite in_app_iff in Hw.
    rewrite EO. pose proof (wf_nodup T W) as ND. rewrite EW, EQ in ND.
    assert (NDP : NoDup P) by now apply NoDup_app_inv, proj1 in ND.
    assert (NDQ : NoDup (Q1 ++ Q2)) by (apply NoDup_app_inv, proj2, proj1 in ND; now inversion ND).
    assert (NDQ1 : NoDup Q1) by now apply NoDup_app_inv, proj1 in NDQ.
    assert (NDQ2 : NoDup Q2) by now apply NoDup_app_inv, proj2, proj1 in NDQ.
    destruct Hw as [Hw|[Hw|[Hw|Hw]]]; [|congruence| |].
    + destruct (pos_ok_In _ _ _ _ A1 Hw) as [i [I1 ->]]. destruct (pos_ok_In _ _ _ _ B1 Hw) as [j [J1 ->]].
      assert (i = j) as -> by (apply (NoDup_nth_error P); [auto|apply nth_error_Some; congruence|congruence]).
      assert (j < length P)%nat by (apply nth_error_Some; congruence).
      repeat match goal with |- context [(?a <? ?b)] => destruct (Z.ltb_spec a b) | |- context [(?a <=? ?b)] => destruct (Z.leb_spec a b) end; cbn [andb]; lia.
    + destruct (pos_ok_In _ _ _ _ A2 Hw) as [i [I1 ->]]. destruct (pos_ok_In _ _ _ _ B3 Hw) as [j [J1 ->]].
      assert (i = j) as -> by (apply (NoDup_nth_error Q1); [auto|apply nth_error_Some; congruence|congruence]).
      assert (j < length Q1)%nat by (apply nth_error_Some; congruence).
      repeat match goal with |- context [(?a <? ?b)] => destruct (Z.ltb_spec a b) | |- context [(?a <=? ?b)] => destruct (Z.leb_spec a b) end; cbn [andb]; lia.
    + destruct (pos_ok_In _ _ _ _ A4 Hw) as [i [I1 ->]]. destruct (pos_ok_In _ _ _ _ B4 Hw) as [j [J1 ->]].
      assert (i = j) as -> by (apply (NoDup_nth_error Q2); [auto|apply nth_error_Some; congruence|congruence]).
      assert (j < length Q2)%nat by (apply nth_error_Some; congruence).
      repeat match goal with |- context [(?a <? ?b)] => destruct (Z.ltb_spec a b) | |- context [(?a <=? ?b)] => destruct (Z.leb_spec a b) end; cbn [andb]; lia.
Qed.

Lemma good_same h h' r : good_empties h r -> h_emp h' r = h_emp h r ->
  (forall e, In e (h_emp h r) -> h_eord h' e = h_eord h e /\ h_kind h' e = h_kind h e /\ h_root h' e = h_root h e) ->
  (h_next h <= h_next h')%nat -> (length (h_desc h r) <= length (h_desc h' r))%nat -> good_empties h' r.
Proof.
  intros G EE HE HN HL. constructor; rewrite EE.
  - eapply strongly_sorted_impl; [|apply (ge_sorted _ _ G)]. intros a b Ha Hb. simpl.
    destruct (HE a Ha) as [-> _], (HE b Hb) as [-> _]. auto.
  - intros e He. destruct (HE e He) as [-> _]. now apply (ge_frac _ _ G).
  - intros e He. destruct (HE e He) as [-> _]. pose proof (ge_range _ _ G e He). lia.
  - intros e He. destruct (HE e He) as [_ [-> _]]. now apply (ge_kind _ _ G).
  - intros e He. pose proof (ge_alloc _ _ G e He). lia.
  - intros e He. destruct (HE e He) as [_ [_ ->]]. now apply (ge_root _ _ G).
Qed.

Lemma shift_moved h r o x wc : consistent h r -> op_args_live h r o -> shift_of o = Some (x, wc) ->
  In x (h_desc h r) /\
  (fst (tree_step h o) = h \/ exists ref, moved_to h (fst (tree_step h o)) (abs h r) x wc ref).
Proof.
  intros C Ho Hs. pose proof (consistent_wf h r C) as W. pose proof (consistent_Repr h r C) as HR. set (T := abs h r) in *.
  destruct o as [a|a p|a m|a y w sk|a y w sk|a y w sk|a y w sk|a|a after]; cbn [shift_of] in Hs; try discriminate;
    injection Hs as -> ->; cbn [op_args_live] in Ho; destruct Ho as [Hx Hy]; (split; [exact Hx|]); cbn [tree_step].
  - destruct (after_node_ok h T W HR x y wc sk Hx Hy) as [H1 H2]. destruct (refused T x y wc) eqn:B.
    + rewrite H1 by auto. left; auto.
    + destruct H2 as [h' [-> [M _]]]; auto. right; eauto.
  - destruct Hy as [->|Hy]; [pose proof (proj1 (before_root_ok h T W HR x wc sk)) as BR; change (a_root T) with r in BR; rewrite BR; left; auto|].
    destruct (before_node_ok h T W HR x y wc sk Hx Hy) as [H1 H2]. destruct (refused T x y wc) eqn:B.
    + rewrite H1 by auto. left; auto.
    + destruct H2 as [h' [-> [M _]]]; auto. right; eauto.
  - destruct (after_subtree_ok h T W HR x y wc sk Hx Hy) as [H1 H2]. destruct (refused T x y wc) eqn:B.
    + rewrite H1 by auto. left; auto.
    + destruct H2 as [h' [ref [-> [M _]]]]; auto. right; eauto.
  - destruct Hy as [->|Hy]; [pose proof (proj2 (before_root_ok h T W HR x wc sk)) as BR; change (a_root T) with r in BR; rewrite BR; left; auto|].
    destruct (before_subtree_ok h T W HR x y wc sk Hx Hy) as [H1 H2]. destruct (refused T x y wc) eqn:B.
    + rewrite H1 by auto. left; auto.
    + destruct H2 as [h' [ref [-> [M _]]]]; auto. right; eauto.
Qed.

Lemma single_iff h r x (wc : bool) : consistent h r -> In x (h_desc h r) ->
  (wc || negb (nonempty (chs (abs h r) x)) = true <-> wc = true \/ h_ch h x = []).
Proof.
  intros C Hx. rewrite (ch_eq h (abs h r) (consistent_Repr _ _ C) x) by (right; auto).
  destruct wc; cbn [orb]; [tauto|]. destruct (chs (abs h r) x); cbn; intuition discriminate.
Qed.

Lemma pure_before my ref ow oe : ow <> my -> 10 * my <> oe ->
  (10 * ow < oe <-> 10 * moved_ord my ref ow < single_eord my ref oe).
Proof.
  intros Hn Hm. unfold moved_ord, single_eord.
  repeat match goal with |- context [(?a <? ?b)] => destruct (Z.ltb_spec a b) | |- context [(?a <=? ?b)] => destruct (Z.leb_spec a b) end;
    cbn [andb]; lia.
Qed.

Lemma moved_length h h' r x wc ref : consistent h r -> moved_to h h' (abs h r) x wc ref -> length (h_desc h' r) = length (h_desc h r).
Proof.
  intros C [_ [R _]]. pose proof (r_desc _ _ R) as E. cbn [a_root t_move abs] in E. rewrite E. cbn [a_words t_move abs].
  set (mv := mvset (abs h r) x wc). set (k := Z.to_nat (ref - 1)). change (a_words (abs h r)) with (h_desc h r).
  rewrite !app_length.
  assert (L : forall l, (length (filter (fun y => negb (mv y)) l) + length (filter mv l) = length l)%nat).
  { induction l as [|a l IH]; auto. cbn [filter]. destruct (mv a); cbn [negb length]; lia. }
  pose proof (L (h_desc h r)) as L0. rewrite <- (firstn_skipn k (h_desc h r)) in L0 at 1.
  rewrite filter_app, app_length in L0. lia.
Qed.

Lemma shift_single h r o x wc : consistent h r -> good_empties h r -> op_args_live h r o -> shift_of o = Some (x, wc) ->
  wc = true \/ h_ch h x = [] ->
  let h' := fst (tree_step h o) in
  h_emp h' r = h_emp h r /\
  (forall w e, In w (h_desc h r) -> w <> x -> In e (h_emp h r) -> (before_empty h w e <-> before_empty h' w e)) /\
  (~ empties_around h r x -> good_empties h' r).
Proof.
  intros C G Ho Hs H1 h'. pose proof (good_emps h r G) as HE.
  pose proof (consistent_wf h r C) as W. pose proof (consistent_Repr h r C) as HR.
  destruct (shift_moved h r o x wc C Ho Hs) as [Hx [EH|[ref M]]].
  - fold h' in EH. rewrite EH. split; [auto|]. split; [tauto|auto].
  - fold h' in M. apply (single_iff h r x wc C Hx) in H1. pose proof (moved_length _ _ _ _ _ _ C M) as ML.
    pose proof (moved_ords h h' (abs h r) x wc ref W HR Hx H1 M) as MO.
    destruct M as [HB [R [F [S [M1 _]]]]]. specialize (M1 H1 (e_once _ _ HE)).
    change (a_root (abs h r)) with r in *. change (a_words (abs h r)) with (h_desc h r) in *.
    assert (EE : h_emp h' r = h_emp h r) by (destruct S as [_ _ _ ->]; auto).
    split; [auto|]. split.
    + intros w e Hw Hn He. unfold before_empty. rewrite (MO w Hw Hn), (M1 e He). apply pure_before.
      2:{ intros E. apply (ge_frac _ _ G e He). rewrite <- E, Z.mul_comm. apply Z.mod_mul. lia. }
      intros E. apply Hn. apply (ord_inj h (abs h r) HR); [right; auto|right; auto|auto].
    + intros NA.
      pose proof (word_ord h (abs h r) HR x Hx) as OX. change (a_words (abs h r)) with (h_desc h r) in OX.
      set (my := h_ord h x) in *.
      assert (NA' : forall a b, In a (h_emp h r) -> In b (h_emp h r) ->
                10 * (my - 1) < h_eord h a < 10 * my -> 10 * my < h_eord h b < 10 * (my + 1) -> False).
      { intros a b Ha Hb Ea Eb. apply NA. split; [exists a|exists b]; auto. }
      destruct S as [S1 S2 S3 S4]. constructor; rewrite EE; rewrite ?ML.
      * eapply strongly_sorted_impl; [|apply (ge_sorted _ _ G)]. intros a b Ha Hb HL. cbv beta in *.
        rewrite (M1 a Ha), (M1 b Hb). specialize (NA' a b Ha Hb).
        pose proof (ge_frac _ _ G a Ha) as FA. pose proof (ge_frac _ _ G b Hb) as FB.
        assert (10 * my <> h_eord h a) by (intros E; apply FA; rewrite <- E, Z.mul_comm; apply Z.mod_mul; lia).
        assert (10 * my <> h_eord h b) by (intros E; apply FB; rewrite <- E, Z.mul_comm; apply Z.mod_mul; lia).
        assert (10 * ref <> h_eord h a) by (intros E; apply FA; rewrite <- E, Z.mul_comm; apply Z.mod_mul; lia).
        assert (10 * (my - 1) <> h_eord h a) by (intros E; apply FA; rewrite <- E, Z.mul_comm; apply Z.mod_mul; lia).
        assert (10 * (my + 1) <> h_eord h b) by (intros E; apply FB; rewrite <- E, Z.mul_comm; apply Z.mod_mul; lia).
        assert (10 * ref <> h_eord h b) by (intros E; apply FB; rewrite <- E, Z.mul_comm; apply Z.mod_mul; lia).
        unfold single_eord.
        repeat match goal with |- context [(?a <? ?b)] => destruct (Z.ltb_spec a b) end; cbn [andb]; try lia;
          exfalso; apply NA'; lia.
      * intros e He. rewrite (M1 e He). pose proof (ge_frac _ _ G e He) as FE.
        unfold single_eord.
        destruct (_ <? _); [|destruct (_ <? _); [|auto]]; destruct (_ && _); auto.
        -- replace (h_eord h e - 10) with (h_eord h e + (-1) * 10) by lia. now rewrite Z.mod_add by lia.
        -- replace (h_eord h e + 10) with (h_eord h e + 1 * 10) by lia. now rewrite Z.mod_add by lia.
      * intros e He. rewrite (M1 e He). pose proof (ge_range _ _ G e He) as RE. unfold single_eord.
        repeat match goal with |- context [(?a <? ?b)] => destruct (Z.ltb_spec a b) end; cbn [andb]; lia.
      * rewrite S2. apply (ge_kind _ _ G).
      * rewrite S1. apply (ge_alloc _ _ G).
      * rewrite S3. apply (ge_root _ _ G).
Qed.

Lemma shift_subtree h r o x : consistent h r -> good_empties h r -> op_args_live h r o -> shift_of o = Some (x, false) ->
  h_ch h x <> [] ->
  let h' := fst (tree_step h o) in
  h_emp h' r = h_emp h r /\ (forall e, In e (h_emp h r) -> h_eord h' e = h_eord h e) /\ good_empties h' r.
Proof.
  intros C G Ho Hs H1 h'.
  destruct (shift_moved h r o x false C Ho Hs) as [Hx [EH|[ref M]]].
  - fold h' in EH. rewrite EH. auto.
  - fold h' in M. pose proof (moved_length _ _ _ _ _ _ C M) as ML. destruct M as [HB [R [F [S [_ M2]]]]].
    assert (EO : h_eord h' = h_eord h).
    { apply M2. destruct (false || negb (nonempty (chs (abs h r) x))) eqn:E; auto.
      apply (single_iff h r x false C Hx) in E. destruct E; [discriminate|contradiction]. }
    destruct S as [S1 S2 S3 S4]. assert (EE : h_emp h' r = h_emp h r) by now rewrite S4.
    split; auto. split; [intros; now rewrite EO|]. apply (good_same h); auto; rewrite ?EO, ?S2, ?S3, ?S1, ?ML; auto.
Qed.

Lemma harmless_step h r o : consistent h r -> good_empties h r -> op_args_live h r o -> harmless h r o ->
  good_empties (fst (tree_step h o)) r.
Proof.
  intros C G Ho Hh. pose proof (good_emps h r G) as HE.
  pose proof (consistent_wf h r C) as W. pose proof (consistent_Repr h r C) as HR.
  assert (SH : forall x wc, shift_of o = Some (x, wc) -> (wc = true \/ h_ch h x = [] -> ~ empties_around h r x) ->
             good_empties (fst (tree_step h o)) r).
  { intros x wc Hs HA. destruct (shift_moved h r o x wc C Ho Hs) as [Hx _].
    destruct (wc || negb (nonempty (chs (abs h r) x))) eqn:E.
    - apply (single_iff h r x wc C Hx) in E. apply (shift_single h r o x wc); auto.
    - apply orb_false_iff in E as [-> E]. apply (shift_subtree h r o x); auto.
      rewrite (ch_eq h (abs h r) HR x) by (right; auto). destruct (chs (abs h r) x); discriminate. }
  assert (NE : forall e, In e (h_emp h r) -> ~ node_of (abs h r) e).
  { intros e He [->|Hw]; pose proof (ge_kind _ _ G _ He) as K; destruct (c_kinds _ _ C) as [K1 K2].
    - cbn in K. rewrite K2 in K. discriminate.
    - rewrite K1 in K; [discriminate|auto]. }
  assert (SAME : forall h', framed h h' (node_of (abs h r)) -> same_static h h' -> (length (h_desc h r) <= length (h_desc h' r))%nat ->
             good_empties h' r).
  { intros h' F [S1 S2 S3 S4] L. apply (good_same h); auto; [now rewrite S4| |lia].
    intros e He. rewrite S2, S3. split; auto. apply (fr_eord _ _ _ F); auto. now apply (ge_alloc _ _ G). }
  destruct o as [x|x p|x m|x y wc sk|x y wc sk|x y wc sk|x y wc sk|x|x after]; try (eapply SH; [reflexivity|exact Hh]);
    cbn [op_args_live tree_step harmless] in *.
  - destruct (create_child_ok h (abs h r) W HR x Ho) as [h' [E [R [F [E1 [E2 E3]]]]]].
    rewrite E. cbn [fst]. unfold create_child, alloc in E. cbn in E. injection E as E.
    assert (Hr : (r < h_next h)%nat) by (apply (c_alloc _ _ C); left; auto).
    apply (good_same h); auto; [rewrite <- E; cbn; upds; auto| |lia|].
    + intros e He. pose proof (ge_alloc _ _ G e He). rewrite <- E. cbn. upds. auto.
    + pose proof (r_desc _ _ R) as D. cbn in D. rewrite D, app_length. lia.
  - assert (Hx : live h r x) by (destruct p; intuition). destruct Hx as [->|Hx].
    { unfold set_parent. rewrite (proj2 (c_kinds _ _ C)). auto. }
    destruct p as [p|]; [|unfold set_parent; rewrite (proj1 (c_kinds _ _ C) x Hx), (r_par h _ HR x Hx); auto].
    destruct Ho as [_ [Hp|[Hk _]]].
    + destruct (set_parent_ok h (abs h r) W HR x p Hx Hp) as [_ [H2 H3]].
      destruct (Nat.eqb_spec p x) as [->|Hne]; [rewrite H2 by auto; auto|].
      destruct (belowb (abs h r) p x) eqn:B.
      * rewrite H2; [auto|]. right. now apply (belowb_spec _ W).
      * destruct H3 as [h' [-> [R [F [S _]]]]]; auto; [now apply (belowb_false _ W)|].
        cbn [fst]. apply SAME; auto. pose proof (r_desc _ _ R) as D. cbn in D. now rewrite D.
    + unfold set_parent. rewrite (proj1 (c_kinds _ _ C) x Hx), (r_par h _ HR x Hx). unfold is_empty. rewrite Hk.
      destruct (Nat.eqb _ _); auto.
  - destruct (remove_empties h r x m C G Ho Hh) as [h' [-> [_ [_ [G' _]]]]]. exact G'.
  - subst x. destruct (flatten_ok h (abs h r) W HR) as [R [F [S _]]]. cbn [fst]. apply SAME; auto.
    pose proof (r_desc _ _ R) as D. cbn in D |- *. now rewrite D.
  - destruct (create_empty_spec h r x after C G Ho) as [h' [E [_ [G' _]]]].
    replace (fst (void (create_empty_child h x after))) with h'; auto.
    rewrite <- E. now destruct (create_empty_child h x after) as [a [| |]].
Qed.

Lemma careful_world rs h : careful rs h -> world rs h.
Proof. induction 1; [constructor|constructor; auto|econstructor; eauto]. Qed.
Lemma careful_good rs h : careful rs h -> forall r, In r rs -> good_empties h r.
Proof.
  induction 1 as [|rs h CA IH|rs h r o CA IH Hr Ho Hh]; intros q Hq.
  - destruct Hq.
  - pose proof (world_forest _ _ (careful_world _ _ CA)) as FO. unfold new_root, alloc in *. cbn [fst snd] in *.
    destruct Hq as [<-|Hq].
    + constructor; cbn; upds; try (intros e []). constructor.
    + pose proof (f_alloc _ _ FO q Hq) as HN. specialize (IH q Hq).
      apply (good_same h); auto; cbn; try (upds; auto; fail); try lia.
      * intros e He. pose proof (ge_alloc _ _ IH e He). upds. auto.
  - pose proof (world_forest _ _ (careful_world _ _ CA)) as FO. pose proof (f_tree _ _ FO) as FT.
    destruct (Nat.eq_dec q r) as [->|Hne]; [apply harmless_step; auto|].
    pose proof (consistent_wf h r (FT r Hr)) as W. pose proof (consistent_Repr h r (FT r Hr)) as HR.
    destruct (step_ok h (abs h r) W HR (f_emp _ _ FO r Hr) o Ho) as [h' [res [T' [E [R [W' [ER [FR _]]]]]]]].
    rewrite E. cbn [fst].
    assert (HO : forall y, h_root h y = q -> ~ touched h (abs h r) y).
    { intros y Ey Ht. apply Hne. rewrite <- Ey. apply (touched_root h (abs h r)) in Ht; auto. apply (f_emp _ _ FO r Hr). }
    assert (HQ : h_root h q = q) by (apply (c_roots _ _ (FT q Hq)); left; auto).
    specialize (IH q Hq). pose proof (f_alloc _ _ FO q Hq) as AQ.
    apply (good_same h); auto.
    + apply (fr_emp _ _ _ FR); auto.
    + intros e He. pose proof (ge_alloc _ _ IH e He). pose proof (ge_root _ _ IH e He) as ER1. destruct FR. repeat split; auto.
    + apply (fr_next _ _ _ FR).
    + rewrite (fr_desc _ _ _ FR); auto.
Qed.

Lemma create_many_spec r calls : forall h, consistent h r -> good_empties h r -> (forall c, In c calls -> In (fst c) (h_desc h r)) ->
  good_empties (create_many h calls) r /\ consistent (create_many h calls) r /\
  h_desc (create_many h calls) r = h_desc h r /\
  forall y, (y < h_next h)%nat -> h_ord (create_many h calls) y = h_ord h y /\ h_eord (create_many h calls) y = h_eord h y.
Proof.
  induction calls as [|[x after] calls IH]; intros h C G HC; cbn [create_many]; [do 3 (split; [solve [auto]|]); auto|].
  assert (Hx : In x (h_desc h r)) by (apply (HC (x, after)); left; auto).
  destruct (create_empty_spec h r x after C G Hx) as [h' [E [C' [G' [ED [OLD _]]]]]]. rewrite E.
  assert (HN : (h_next h <= h_next h')%nat).
  { rewrite <- E. destruct (create_empty_fields h r x after) as [-> _]; [apply (c_roots _ _ C); right; auto|apply (c_alloc _ _ C); left; auto|lia]. }
  destruct (IH h' C' G') as [A [B [D F]]].
  - intros c Hc. rewrite ED. apply HC. right; auto.
  - split; [auto|]. split; [auto|]. split; [congruence|]. intros y Hy.
    destruct (F y) as [F1 F2]; [lia|]. destruct (OLD y Hy) as [O1 [O2 _]]. split; congruence.
Qed.
