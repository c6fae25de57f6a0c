(** Node.remove on represented trees. *)
From Coq Require Import String List NArith ZArith Bool Lia Permutation Sorted.
From Verif Require Import PyStr PyList PyListFacts PyExn TreeModel TreeSpec TreeFacts TreeRepr TreeOps.
Import ListNotations.

Definition emp_kinds (h : heap) (r : nat) : Prop :=
  forall e, In e (h_emp h r) -> h_kind h e = KEmpty /\ e < h_next h.

Definition rehangs (children : option str) : bool :=
  match children with Some m => starts_with (s "rehang") m | None => false end.
Definition t_removed (T : atree) (x : nat) (children : option str) : atree :=
  if rehangs children && nonempty (chs T x) then t_remove_rehang T x else t_remove T x.

Lemma reparent_all_fields l p : forall h0, let h1 := reparent_all h0 l p in
  same_static h0 h1 /\ h_ord h1 = h_ord h0 /\ h_desc h1 = h_desc h0 /\ h_eord h1 = h_eord h0 /\
  h_ch h1 = h_ch h0 /\
  (forall y, h_par h1 y = if mem y l then p else h_par h0 y).
Proof.
  induction l as [|x l IH]; intros h0; cbn [reparent_all].
  - simpl. repeat split; auto.
  - destruct (IH (put_par h0 x p)) as [[] [? [? [? [? Hp]]]]].
    repeat split; auto.
    intros y. rewrite Hp. cbn. unfold mem. cbn. unfold upd.
    destruct (Nat.eqb y x), (existsb (Nat.eqb y) l); auto.
Qed.
Lemma reparent_all_framed l p (S : nat -> Prop) : forall h0, (forall y, In y l -> S y) ->
  framed h0 (reparent_all h0 l p) S.
Proof.
  induction l as [|x l IH]; intros h0 Hl; simpl; [apply framed_refl|].
  eapply framed_trans; [apply framed_par; apply Hl; simpl; auto|apply IH; intros; apply Hl; simpl; auto].
Qed.

Lemma desc_loop_ext h1 h2 : h_ch h1 = h_ch h2 -> forall n st acc, desc_loop n h1 st acc = desc_loop n h2 st acc.
Proof.
  intros E. induction n as [|n IH]; intros [|x st] acc; simpl; auto. now rewrite E, IH.
Qed.

Lemma desc_loop_ext_in h1 h2 (P : nat -> Prop) : (forall y, P y -> h_ch h1 y = h_ch h2 y) ->
  (forall y c, P y -> In c (h_ch h2 y) -> P c) ->
  forall n st acc, (forall y, In y st -> P y) -> desc_loop n h1 st acc = desc_loop n h2 st acc.
Proof.
  intros E HC. induction n as [|n IH]; intros [|x st] acc Hs; simpl; auto.
  assert (Hx : P x) by (apply Hs; simpl; auto).
  rewrite (E x Hx), IH; auto.
  intros y Hy. apply in_app_iff in Hy as [Hy|Hy]; [apply (HC x); auto; now apply in_rev|apply Hs; simpl; auto].
Qed.

Lemma follow_map_In h rm l : forall prev e, In e l -> is_empty h e = true ->
  exists v, assoc (follow_map h rm prev l) e = Some v.
Proof.
  induction l as [|x l IH]; intros prev e He Hk; simpl in *; [tauto|].
  destruct (Nat.eq_dec x e) as [->|Hn].
  - rewrite Hk. simpl. rewrite Nat.eqb_refl. eauto.
  - destruct He as [|He]; [congruence|].
    destruct (is_empty h x); simpl.
    + destruct (Nat.eqb_spec x e); [congruence|]. auto.
    + destruct (mem x rm); auto.
Qed.
Lemma renumber_emp_ok fm l : (forall e, In e l -> exists v, assoc fm e = Some v) ->
  forall h last, snd (renumber_emp h fm last l) = Ok tt.
Proof.
  induction l as [|e l IH]; intros H h last; simpl; auto.
  destruct (H e) as [v ->]; simpl; auto. apply IH. intros; apply H; simpl; auto.
Qed.

Lemma split_at_word {A} (l : list A) i x : nth_error l i = Some x -> l = firstn i l ++ x :: skipn (S i) l.
Proof.
  revert i; induction l as [|y l IH]; intros [|i] H; simpl in *; try discriminate.
  - now injection H as ->.
  - f_equal. now apply IH.
Qed.
Lemma filter_neq_split (P Q : list nat) x : NoDup (P ++ x :: Q) ->
  filter (fun y => negb (Nat.eqb y x)) (P ++ x :: Q) = P ++ Q.
Proof.
  intros ND. apply NoDup_remove in ND as [ND Hx]. rewrite filter_app. simpl. rewrite Nat.eqb_refl. simpl.
  rewrite !filter_all; auto; intros y Hy; apply negb_true_iff, Nat.eqb_neq; intros ->; apply Hx, in_app_iff; auto.
Qed.

Section Remove.
Variables (h : heap) (T : atree).
Hypothesis W : wf T.
Hypothesis HR : Repr h T.
Notation root := (a_root T).
Notation words := (a_words T).
Notation par := (a_par T).
Let N0 : node_of T root := or_introl eq_refl.
Let NW : forall x, In x words -> node_of T x := fun x H => or_intror H.

Variable x : nat.
Hypothesis Hx : In x words.
Notation p := (par x).
Let Hp : node_of T p := wf_parent T W x Hx.
Let Hpx : p <> x.
Proof. intros E. apply (below_irrefl T W x). rewrite <- E at 2. now constructor. Qed.
Let Hxr : x <> root.
Proof. intros E. apply (wf_rootfresh T W). rewrite <- E. auto. Qed.

Lemma In_remove y : In y (a_words (t_remove T x)) <-> In y words /\ y <> x /\ ~ below T y x.
Proof.
  simpl. rewrite filter_In, negb_true_iff. unfold insubb. rewrite orb_false_iff, Nat.eqb_neq, (belowb_false T W). tauto.
Qed.
Lemma wf_remove : wf (t_remove T x).
Proof.
  assert (HP : forall y, In y (a_words (t_remove T x)) -> node_of (t_remove T x) (par y)).
  { intros y Hy. apply In_remove in Hy as [H1 [H2 H3]]. destruct (wf_parent T W y H1) as [E|E]; [left; auto|].
    right. apply In_remove. split; auto. rewrite (below_cases T y x) in H3. split; tauto. }
  constructor.
  - apply NoDup_filter, (wf_nodup T W).
  - simpl. rewrite filter_In. intros [H _]. now apply (wf_rootfresh T W).
  - exact HP.
  - intros y Hy. assert (H0 := Hy). apply In_remove in H0 as [H1 _].
    destruct (path_exists T W y (NW y H1)) as [l Hl].
    revert Hy. clear H1. induction Hl as [|y l Hy Hl IH]; intros Hi.
    + apply In_remove in Hi as [Hi _]. exfalso; now apply (wf_rootfresh T W).
    + simpl. destruct (HP y Hi) as [E|E].
      * simpl in E. rewrite <- E. change (below (t_remove T x) y (a_par (t_remove T x) y)). now constructor.
      * apply below_up; auto.
Qed.

Lemma In_rehang y : In y (a_words (t_remove_rehang T x)) <-> In y words /\ y <> x.
Proof. simpl. rewrite filter_In, negb_true_iff, Nat.eqb_neq. tauto. Qed.
Lemma wf_rehang : wf (t_remove_rehang T x).
Proof.
  assert (Hn : forall y, node_of T y -> y <> x -> node_of (t_remove_rehang T x) y).
  { intros y [Hy|Hy] Hn; [left; auto|right; apply In_rehang; auto]. }
  assert (HP : forall y, In y (a_words (t_remove_rehang T x)) -> node_of (t_remove_rehang T x) (a_par (t_remove_rehang T x) y)).
  { intros y Hy. apply In_rehang in Hy as [H1 H2]. simpl. destruct (Nat.eqb_spec (par y) x); apply Hn; auto.
    now apply (wf_parent T W). }
  constructor.
  - apply NoDup_filter, (wf_nodup T W).
  - simpl. rewrite filter_In. intros [H _]. now apply (wf_rootfresh T W).
  - exact HP.
  - assert (G : forall n y l, path T y l -> length l < n -> In y (a_words (t_remove_rehang T x)) ->
              below (t_remove_rehang T x) y root).
    { induction n as [|n IH]; intros y l Hl Hlen Hi; [lia|].
      assert (Hy := Hi). apply In_rehang in Hy as [Hy Hyx].
      assert (exists l', path T (a_par (t_remove_rehang T x) y) l' /\ length l' < length l) as [l' [Hl' Hlen']].
      { inversion Hl as [|? l0 H1 H2]; subst; [exfalso; now apply (wf_rootfresh T W)|]. simpl.
        destruct (Nat.eqb_spec (par y) x) as [E|E].
        - rewrite E in H2. inversion H2 as [|? l1 H3 H4]; subst; [congruence|]. exists l1. simpl; split; auto; lia.
        - exists l0. simpl; split; auto; lia. }
      destruct (HP y Hi) as [E|E].
      * change (a_root (t_remove_rehang T x)) with root in E. rewrite <- E. now constructor.
      * apply below_up; auto. apply (IH _ l'); auto. lia. }
    intros y Hy. assert (H0 := Hy). apply In_rehang in H0 as [H1 _].
    destruct (path_exists T W y (NW y H1)) as [l Hl]. eapply G; eauto.
Qed.

(** Leaf path: the word list without x and its renumbering. *)
Lemma leaf_words : exists P Q, words = P ++ x :: Q /\ h_ord h x = (Z.of_nat (length P) + 1)%Z /\
  filter (fun y => negb (Nat.eqb y x)) words = P ++ Q.
Proof.
  destruct (pos_ok_In _ _ _ _ (words_pos h T HR) Hx) as [i [Hi Ho]].
  exists (firstn i words), (skipn (S i) words).
  pose proof (split_at_word _ _ _ Hi) as E.
  assert (L : length (firstn i words) = i).
  { apply firstn_length_le. assert (i < length words) by (apply nth_error_Some; congruence). lia. }
  split; auto. split; [rewrite L; exact Ho|].
  rewrite E at 1. apply filter_neq_split. rewrite <- E. apply (wf_nodup T W).
Qed.

(** The common last part of the leaf path. *)
Lemma leaf_finish h1 : h_desc h1 root = words -> h_ord h1 = h_ord h -> h_root h1 = h_root h ->
  h_emp h1 root = h_emp h root -> h_ch h1 x = [] ->
  exists h', match list_remove x (h_desc h1 root) with
        | None => (h1, Ok tt)
        | Some d =>
          let h := put_desc h1 root d in
          let my_ord := h_ord h x in
          let h := renumber h my_ord (py_from d (my_ord - 1)) in
          (renumber_emp_leaf h my_ord 0 (h_emp h root), Ok tt)
        end = (h', Ok tt) /\
    same_static h1 h' /\ h_par h' = h_par h1 /\ h_ch h' = h_ch h1 /\
    h_desc h' root = filter (fun y => negb (Nat.eqb y x)) words /\
    pos_ok h' 0 (filter (fun y => negb (Nat.eqb y x)) words) /\ h_ord h' root = 0%Z /\
    framed h1 h' (touched h T).
Proof.
  intros Ed Eo Er Ee Ec. rewrite Ed.
  rewrite (list_remove_filter x words (wf_nodup T W) Hx).
  destruct leaf_words as [P [Q [EW [EO EF]]]]. rewrite EF.
  cbn [h_ord put_desc set_desc]. rewrite Eo, EO.
  replace (Z.of_nat (length P) + 1 - 1)%Z with (Z.of_nat (length P)) by lia.
  assert (EQ : py_from (P ++ Q) (Z.of_nat (length P)) = Q).
  { unfold py_from. rewrite py_bound_nonneg by (rewrite ?app_length; lia).
    rewrite Nat2Z.id. rewrite skipn_app, skipn_all, Nat.sub_diag. reflexivity. }
  rewrite EQ. set (h2 := put_desc h1 root (P ++ Q)).
  set (h3 := renumber h2 _ Q).
  destruct (renumber_fields Q h2 (Z.of_nat (length P) + 1)) as [[A1 A2 A3 A4] [B1 [B2 [B3 B4]]]].
  fold h3 in A1, A2, A3, A4, B1, B2, B3, B4.
  pose proof (renumber_emp_leaf_only (h_emp h3 root) h3 (Z.of_nat (length P) + 1) 0) as HO.
  set (h4 := renumber_emp_leaf _ _ _ _) in *. destruct HO as [C1 C2 C3 C4 C5 C6 C7 C8 C9].
  exists h4. split; [reflexivity|].
  assert (ND : NoDup (P ++ Q)) by (rewrite <- EF; apply NoDup_filter, (wf_nodup T W)).
  assert (HQ : forall y, In y (P ++ Q) -> In y words).
  { intros y Hy. rewrite EW. apply in_app_iff in Hy. apply in_app_iff. simpl. tauto. }
  assert (D1 : h_next h2 = h_next h1) by reflexivity. assert (D2 : h_kind h2 = h_kind h1) by reflexivity.
  assert (D3 : h_root h2 = h_root h1) by reflexivity. assert (D4 : h_emp h2 = h_emp h1) by reflexivity.
  assert (D5 : h_par h2 = h_par h1) by reflexivity. assert (D6 : h_ch h2 = h_ch h1) by reflexivity.
  split; [constructor; congruence|]. split; [congruence|]. split; [congruence|]. split; [|split; [|split]].
  - rewrite C7, B3. unfold h2. cbn. upds. auto.
  - apply pos_ok_app.
    split.
    + apply (pos_ok_ext h); [|apply (proj1 (proj1 (pos_ok_app h 0 P (x :: Q)) ltac:(rewrite <- EW; apply (words_pos h T HR))))].
      intros y Hy. rewrite C3. unfold h3. rewrite renumber_out.
      * cbn. now rewrite Eo.
      * now apply (NoDup_app_inv _ _ ND).
    + apply (pos_ok_ext h3); [intros; now rewrite C3|]. simpl. apply renumber_pos.
      now apply (NoDup_app_inv _ _ ND).
  - rewrite C3. unfold h3. rewrite renumber_out.
    + cbn. rewrite Eo. apply (r_ord0 h T HR).
    + intros H. apply (wf_rootfresh T W). apply HQ, in_app_iff; auto.
  - apply (framed_trans h1 h2); [|apply (framed_trans h2 h3)].
    + apply framed_desc. left. exact N0.
    + apply renumber_framed. intros y Hy. left. right. apply HQ, in_app_iff; auto.
    + apply (only_eord_framed h3 h4 (h_emp h3 root)); [|constructor; auto]. intros y Hy. right.
      rewrite A4 in Hy. unfold h2 in Hy. cbn in Hy. now rewrite Ee in Hy.
Qed.

(** What the children lists become. *)
Lemma l1_eq : list_remove x (h_ch h p) = Some (filter (fun c => Nat.eqb (par c) p && negb (Nat.eqb c x)) words).
Proof.
  rewrite (r_ch h T HR p Hp), (list_remove_filter x).
  - now rewrite filter_filter.
  - apply NoDup_filter, (wf_nodup T W).
  - apply filter_In. split; auto. apply Nat.eqb_refl.
Qed.

Lemma remove_chs y : node_of (t_remove T x) y ->
  filter (fun c => Nat.eqb (par c) y) (a_words (t_remove T x)) =
  filter (fun c => Nat.eqb (par c) y && negb (Nat.eqb c x)) words.
Proof.
  intros Hy. simpl. rewrite filter_filter. apply filter_ext_in'. intros c Hc.
  unfold insubb. destruct (Nat.eqb_spec c x); simpl; [now rewrite andb_false_r|].
  rewrite andb_true_r. destruct (Nat.eqb_spec (par c) y) as [E|E]; [|now rewrite andb_false_r].
  rewrite andb_true_r. apply negb_true_iff, (belowb_false T W). rewrite (below_cases T c x).
  intros [_ [H|H]].
  - assert (y = x) by congruence. subst y. destruct Hy as [Hy|Hy]; [simpl in Hy; congruence|]. apply In_remove in Hy. tauto.
  - rewrite E in H. destruct Hy as [Hy|Hy].
    + simpl in Hy. rewrite Hy in H. now apply (root_not_below T W) in H.
    + apply In_remove in Hy. tauto.
Qed.
Lemma remove_chs_other y : y <> p ->
  filter (fun c => Nat.eqb (par c) y && negb (Nat.eqb c x)) words = filter (fun c => Nat.eqb (par c) y) words.
Proof.
  intros Hy. apply filter_ext_in'. intros c Hc. destruct (Nat.eqb_spec c x) as [->|]; [|now rewrite andb_true_r].
  destruct (Nat.eqb_spec (par x) y); [congruence|reflexivity].
Qed.

Lemma node_T_remove y : node_of (t_remove T x) y -> node_of T y.
Proof. intros [Hy|Hy]; [left; auto|right]. now apply In_remove in Hy. Qed.

Lemma desc_add_self_detached l :
  descendants_add_self (put_ch h p l) x = Ok (filter (fun y => insubb T y x) words).
Proof.
  rewrite <- (descendants_add_self_ok h T W HR x Hx).
  unfold descendants_add_self, descendants. change (is_root (put_ch h p l) x) with (is_root h x).
  assert (E : unordered_descendants (put_ch h p l) x = unordered_descendants h x).
  { unfold unordered_descendants. cbn [h_ch put_ch set_ch]. upds.
    change (fuel (put_ch h p l)) with (fuel h).
    apply (desc_loop_ext_in _ _ (fun y => below T y x)).
    - intros y Hy. cbn. rewrite upd_other; auto. intros ->.
      apply (below_irrefl T W x). apply (below_cases T x x). auto.
    - intros y c Hy Hc. rewrite (ch_eq h T HR y (NW y (below_word T _ _ Hy))) in Hc.
      apply (chs_In T) in Hc as [Hc <-]. now apply below_up.
    - intros y Hy. apply in_rev in Hy. rewrite (ch_eq h T HR x (NW x Hx)) in Hy.
      apply (chs_In T) in Hy as [Hy <-]. now constructor. }
  rewrite E. reflexivity.
Qed.

Lemma remove_ok children :
  exists h' res, node_remove h x children = (h', res) /\ Repr h' (t_removed T x children) /\
    framed h h' (touched h T) /\ same_static h h' /\ (emp_kinds h root -> res = Ok tt).
Proof.
  unfold node_remove. rewrite (par_word h T HR x Hx), l1_eq.
  set (l1 := filter _ words). set (h1 := put_ch h p l1).
  assert (Ex : h_ch h1 x = chs T x).
  { unfold h1. cbn. upds. apply (r_ch h T HR); auto. }
  assert (F1 : framed h h1 (touched h T)) by (apply framed_ch; left; auto).
  assert (S1 : same_static h h1) by (constructor; auto).
  set (h2 := match children with Some _ => _ | None => _ end).
  destruct (rehangs children && nonempty (chs T x)) eqn:RH.
  - (* rehang *)
    apply andb_true_iff in RH as [R1 R2].
    unfold t_removed. rewrite R1, R2. cbn [andb].
    destruct children as [m|]; [|discriminate]. cbn [rehangs] in R1.
    assert (E2 : h2 = put_ch (put_ch (put_ch (reparent_all h1 (chs T x) (Some p)) p (l1 ++ chs T x)) p
                       (sort_nodes h (l1 ++ chs T x))) x []).
    { unfold h2. rewrite Ex, R1, R2. cbn [andb].
      destruct (reparent_all_fields (chs T x) (Some p) h1) as [_ [O1 [_ [_ [O2 _]]]]].
      cbv zeta. rewrite O2. cbn [h_ch put_ch set_ch]. rewrite Ex.
      replace (h_ch h1 p) with l1 by (unfold h1; cbn; now upds).
      rewrite upd_same. unfold sort_nodes. cbn [h_ord put_ch set_ch]. rewrite O1. reflexivity. }
    destruct (reparent_all_fields (chs T x) (Some p) h1) as [[A1 A2 A3 A4] [B1 [B2 [B3 [B4 B5]]]]].
    assert (SE : sort_nodes h (l1 ++ chs T x) =
                 filter (fun c => Nat.eqb (a_par (t_remove_rehang T x) c) p && negb (Nat.eqb c x)) words).
    { apply (sort_filter h T HR). unfold l1, chs. rewrite filter_or_perm.
      - erewrite filter_ext_in'; [reflexivity|]. intros c Hc. simpl.
        destruct (Nat.eqb_spec (par c) x) as [E|E].
        + rewrite Nat.eqb_refl, orb_true_r. simpl. symmetry. apply negb_true_iff, Nat.eqb_neq.
          intros ->. now apply Hpx.
        + now rewrite orb_false_r.
      - intros c Hc H1 H2. apply andb_true_iff in H1 as [H1 _]. apply Nat.eqb_eq in H1, H2. congruence. }
    rewrite SE in E2. clear SE. set (l3 := filter _ words) in E2.
    assert (EC : h_ch h2 = upd (upd (upd (h_ch h1) p (l1 ++ chs T x)) p l3) x []).
    { rewrite E2. cbn. now rewrite B4. }
    assert (EP : forall y, h_par h2 y = if mem y (chs T x) then Some p else h_par h y).
    { intros y. rewrite E2. cbn. apply B5. }
    assert (S2 : same_static h h2) by (rewrite E2; constructor; cbn; auto).
    assert (F2 : framed h h2 (touched h T)).
    { rewrite E2. repeat (match goal with |- framed ?a (put_ch ?b _ _) _ =>
        apply (framed_trans a b); [|apply framed_ch; left; solve [auto]] end).
      apply (framed_trans h h1); [exact F1|]. apply reparent_all_framed. intros y Hy. left. right.
      now apply (chs_In T) in Hy. }
    assert (ED : h_desc h2 = h_desc h) by (rewrite E2; cbn; auto).
    assert (EO : h_ord h2 = h_ord h) by (rewrite E2; cbn; auto).
    clearbody h2. clear E2.
    assert (E0 : h_ch h2 x = []) by (rewrite EC; upds; auto).
    rewrite E0. cbn [nonempty negb].
    replace (h_root h2 x) with root by (destruct S2 as [_ _ -> _]; now rewrite (r_root h T HR x (NW x Hx))).
    destruct (leaf_finish h2) as [h' [EQ [S3 [P3 [C3 [D3 [O3 [R3 F3]]]]]]]]; auto.
    + now rewrite ED, (r_desc h T HR).
    + apply S2.
    + now rewrite (ss_emp _ _ S2).
    + exists h', (Ok tt). split; [exact EQ|]. split; [|split; [|split]]; auto.
      * assert (NE : forall y, node_of (t_remove_rehang T x) y -> node_of T y /\ y <> x).
        { intros y [Hy|Hy]; [simpl in Hy; subst; auto|]. apply In_rehang in Hy as [? ?]; auto. }
        constructor.
        -- exact D3.
        -- intros i y Hi. now apply O3.
        -- exact R3.
        -- intros y Hy. rewrite P3, EP. apply In_rehang in Hy as [Hy Hyx]. simpl.
           destruct (Nat.eqb_spec (par y) x) as [E|E].
           ++ rewrite (proj2 (mem_In y (chs T x))); auto. now apply (chs_In T).
           ++ rewrite (proj2 (mem_false y (chs T x))); [now apply (r_par h T HR)|].
              intros H. apply (chs_In T) in H. tauto.
        -- rewrite P3, EP. simpl. rewrite (proj2 (mem_false root (chs T x))); [apply (r_parroot h T HR)|].
           intros H. apply (chs_In T) in H as [H _]. now apply (wf_rootfresh T W).
        -- intros y Hy. destruct (NE y Hy) as [Hy1 Hy2]. rewrite C3, EC. simpl a_words. rewrite filter_filter.
           destruct (Nat.eq_dec y p) as [->|Hyp]; upds.
           ++ unfold l3. apply filter_ext_in'. intros. apply andb_comm.
           ++ unfold h1. cbn [h_ch put_ch set_ch]. upds. rewrite (r_ch h T HR y Hy1).
              apply filter_ext_in'. intros c Hc. simpl.
              destruct (Nat.eqb_spec c x) as [->|]; simpl; [now apply Nat.eqb_neq; auto|].
              destruct (Nat.eqb_spec (par c) x) as [E|E]; auto.
              destruct (Nat.eqb_spec (par c) y); destruct (Nat.eqb_spec p y); congruence.
        -- intros y Hy. rewrite (ss_root _ _ S3), (ss_root _ _ S2). now apply (r_root h T HR), NE.
        -- intros y Hy. rewrite (ss_kind _ _ S3), (ss_kind _ _ S2). apply (r_kind h T HR). now apply In_rehang in Hy.
        -- rewrite (ss_kind _ _ S3), (ss_kind _ _ S2). apply (r_kindroot h T HR).
        -- intros y Hy. rewrite (ss_next _ _ S3), (ss_next _ _ S2). now apply (r_alloc h T HR), NE.
      * eapply framed_trans; eauto.
      * eapply same_static_trans; eauto.
  - (* no rehang *)
    assert (E2 : h2 = h1).
    { unfold h2. destruct children as [m|]; auto. rewrite Ex. cbn [rehangs] in RH.
      rewrite andb_comm, RH. auto. }
    rewrite E2. clear h2 E2. unfold t_removed. rewrite RH.
    replace (h_root h1 x) with root by (unfold h1; cbn; now rewrite (r_root h T HR x (NW x Hx))).
    assert (G : forall h', same_static h1 h' -> h_par h' = h_par h1 -> h_ch h' = h_ch h1 ->
      h_desc h' root = a_words (t_remove T x) -> pos_ok h' 0 (a_words (t_remove T x)) ->
      h_ord h' root = 0%Z -> Repr h' (t_remove T x)).
    { intros h' S3 P3 C3 D3 O3 R3. constructor.
      - exact D3.
      - intros i y Hi. now apply O3.
      - exact R3.
      - intros y Hy. rewrite P3. apply In_remove in Hy as [Hy _]. now apply (r_par h T HR).
      - rewrite P3. apply (r_parroot h T HR).
      - intros y Hy. rewrite C3. unfold h1. cbn [h_ch put_ch set_ch]. change (a_par (t_remove T x)) with par. rewrite (remove_chs y Hy).
        destruct (Nat.eq_dec y p) as [->|Hyp]; upds; auto.
        rewrite remove_chs_other by auto. now apply (r_ch h T HR), node_T_remove.
      - intros y Hy. rewrite (ss_root _ _ S3). now apply (r_root h T HR), node_T_remove.
      - intros y Hy. rewrite (ss_kind _ _ S3). apply (r_kind h T HR). now apply In_remove in Hy.
      - rewrite (ss_kind _ _ S3). apply (r_kindroot h T HR).
      - intros y Hy. rewrite (ss_next _ _ S3). now apply (r_alloc h T HR), node_T_remove. }
    destruct (nonempty (h_ch h1 x)) eqn:NE; cbn [negb].
    + (* a subtree *)
      set (d := a_words (t_remove T x)).
      assert (ND : NoDup d) by (apply NoDup_filter, (wf_nodup T W)).
      set (hv := renumber (put_desc h1 root d) 1 d).
      assert (FV : framed h1 hv (touched h T)).
      { apply (framed_trans h1 (put_desc h1 root d)); [apply framed_desc; left; auto|].
        apply renumber_framed. intros y Hy. left. right. now apply In_remove in Hy. }
      destruct (renumber_fields d (put_desc h1 root d) 1) as [[A1 A2 A3 A4] [B1 [B2 [B3 B4]]]].
      fold hv in A1, A2, A3, A4, B1, B2, B3, B4.
      assert (SV : same_static h1 hv) by (constructor; auto).
      assert (RV : Repr hv (t_remove T x)).
      { apply G; auto.
        - rewrite B3. cbn. now upds.
        - apply (renumber_pos d (put_desc h1 root d) 0); auto.
        - unfold hv. rewrite renumber_out; [apply (r_ord0 h T HR)|].
          intros H. apply In_remove in H as [H _]. now apply (wf_rootfresh T W). }
      destruct (unordered_ok hv (t_remove T x) wf_remove RV root (or_introl eq_refl)) as [l [Hl PL]].
      assert (Hl1 : unordered_descendants h1 root = Ok l).
      { rewrite <- Hl. unfold unordered_descendants, fuel. rewrite A1. change (h_next (put_desc h1 root d)) with (h_next h1).
        rewrite B2. change (h_ch (put_desc h1 root d)) with (h_ch h1).
        apply desc_loop_ext. now rewrite B2. }
      assert (ES : sort_nodes h1 l = d).
      { apply (sort_filter h T HR). rewrite PL.
        change root with (a_root (t_remove T x)). rewrite (subs_root _ wf_remove). reflexivity. }
      rewrite Hl1. 
      set (fm := if nonempty (h_emp h1 root) then _ else _).
      assert (FM : exists m, fm = Ok m /\ (emp_kinds h root -> forall e, In e (h_emp h root) -> exists v, assoc m e = Some v)).
      { unfold fm. change (h_emp h1) with (h_emp h). destruct (nonempty (h_emp h root)) eqn:NEE.
        - assert (exists rm, descendants_add_self h1 x = Ok rm) as [rm ->].
          { eexists. apply desc_add_self_detached. }
          cbn [rbind]. eexists. split; [reflexivity|]. intros EK e He. apply follow_map_In.
          + unfold descendants_and_empty. eapply Permutation_in; [symmetry; apply sort_on_perm|].
            apply in_app_iff. right. exact He.
          + unfold is_empty. change (h_kind h1) with (h_kind h). destruct (EK e He) as [-> _]. auto.
        - exists []. split; auto. intros _ e He. destruct (h_emp h root); [destruct He|discriminate]. }
      destruct FM as [m [-> FM]]. cbv zeta. rewrite ES. fold d hv. 
      destruct (nonempty m).
      * pose proof (renumber_emp_only m (h_emp hv root) hv 0) as HO.
        pose proof (renumber_emp_ok m (h_emp hv root)) as HK.
        assert (EE : h_emp hv root = h_emp h root) by (rewrite A4; reflexivity).
        destruct (renumber_emp hv m 0 (h_emp hv root)) as [h' res] eqn:ER. cbn [fst] in HO.
        exists h', res. split; auto. split; [eapply only_eord_Repr; eauto|]. split; [|split].
        -- eapply framed_trans; [exact F1|]. eapply framed_trans; [exact FV|].
           eapply only_eord_framed; [|exact HO]. intros y Hy. right. now rewrite EE in Hy.
        -- eapply same_static_trans; [exact S1|]. eapply same_static_trans; [exact SV|]. eapply only_eord_static; eauto.
        -- intros EK. rewrite EE in HK, ER. specialize (HK (FM EK) hv 0%Z). rewrite ER in HK. exact HK.
      * exists hv, (Ok tt). split; auto. split; [auto|]. split; [eapply framed_trans; eauto|]. split; auto. eapply same_static_trans; eauto.
    + (* a leaf *)
      assert (E0 : chs T x = []) by (rewrite Ex in NE; destruct (chs T x); [auto|discriminate]).
      assert (ET : filter (fun y => negb (Nat.eqb y x)) words = a_words (t_remove T x)).
      { simpl. apply filter_ext_in'. intros y Hy. f_equal. unfold insubb.
        rewrite (proj2 (belowb_false T W y x)); [now rewrite orb_false_r|].
        intros HB. apply (subs_In T W) in HB. rewrite (chs_nil_subs T W x E0) in HB. destruct HB. }
      destruct (leaf_finish h1) as [h' [EQ [S3 [P3 [C3 [D3 [O3 [R3 F3]]]]]]]]; auto.
      * apply (r_desc h T HR).
      * congruence.
      * exists h', (Ok tt). split; [exact EQ|]. rewrite ET in *. split; [now apply G|].
        split; [eapply framed_trans; eauto|]. split; auto. eapply same_static_trans; eauto.
Qed.
End Remove.
