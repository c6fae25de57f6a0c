(** Proofs about ud.FixPseudoCop. *)
From Coq Require Import String List NArith ZArith Bool Lia.
From Verif Require Import PyStr PyStrFacts PyList PyListFacts PyExn TreeModel TreeSpec TreeFacts TreeRepr TreeOps TreeCalls
  TreeQuery TreeProps DeprelModel RehangModel RehangSpec TreeTreelet RehangProofs RehangFix PcopModel PcopSpec.
Import ListNotations.

Lemma listed_b lemma lemmas x : existsb (ostr_eqb (lemma x)) lemmas = true <-> listed lemma lemmas x.
Proof.
  rewrite existsb_exists. unfold listed. split.
  - intros [l [Hl E]]. apply ostr_eqb_eq in E. eauto.
  - intros [l [E Hl]]. exists l. split; auto. now apply ostr_eqb_eq.
Qed.
Lemma copular_b nca st x :
  ostr_eqb (udep st x) (s "cop") || nca && ostr_eqb (udep st x) (s "aux") = true <-> copular nca st x.
Proof. unfold copular. rewrite orb_true_iff, andb_true_iff, !ostr_eqb_eq. tauto. Qed.
Lemma clausal_b d : existsb (fun p => starts_with p d) clause_labels = true <-> clausal d.
Proof.
  rewrite existsb_exists. unfold clausal. split.
  - intros [p [Hp E]]. apply starts_with_spec in E as [t ->]. exists p, t. split; auto.
  - intros [p [t [-> Hp]]]. exists p. split; auto. apply starts_with_spec. eauto.
Qed.
Definition moves_b (st : lst) (y : nat) : bool :=
  match udep st y with Some d => existsb (fun p => starts_with p d) clause_labels | None => false end.
Lemma moves_b_spec st y : moves_b st y = true <-> moves st y.
Proof.
  unfold moves_b, moves. destruct (udep st y) as [d|].
  - rewrite clausal_b. split; [eauto|]. intros [d' [E H]]. now injection E as <-.
  - split; [discriminate|]. intros [d [E _]]. discriminate E.
Qed.
Lemma udep_some st y : l_dep st y <> None -> exists d, udep st y = Some d.
Proof.
  unfold udep, udeprel. destruct (l_dep st y) as [d|]; [|congruence]. intros _.
  destruct (split COLON d) as [|a l] eqn:E; eauto. exfalso. revert E. apply split_nonempty.
Qed.

Ltac conjs := repeat match goal with |- _ /\ _ => split end.
(** The loop over the children of the old parent p: those with clause labels move to x. *)
Lemma children_ok r st x p : consistent (l_heap st) r -> In x (h_desc (l_heap st) r) -> h_par (l_heap st) p = Some x -> live (l_heap st) r p ->
  (forall c, In c (h_desc (l_heap st) r) -> h_par (l_heap st) c = Some p -> l_dep st c <> None) ->
  exists st', for_each (pcop_child x) (children (l_heap st) p) st = (st', Ok tt) /\ rehung (l_heap st) (l_heap st') r /\
    l_dep st' = l_dep st /\ l_upos st' = l_upos st /\ l_pproj st' = l_pproj st /\
    (forall y, live (l_heap st) r y -> h_par (l_heap st') y =
       if has_parent (l_heap st) p y && moves_b st y then Some x else h_par (l_heap st) y).
Proof.
  intros C Hx Ep Lp HL.
  pose (P := fun done st2 => going r st st2 /\ l_dep st2 = l_dep st /\ l_upos st2 = l_upos st /\ l_pproj st2 = l_pproj st /\
        forall y, live (l_heap st) r y -> h_par (l_heap st2) y = if in_dec Nat.eq_dec y done then if moves_b st y then Some x else h_par (l_heap st) y else h_par (l_heap st) y).
  assert (Hpx : p <> x) by (intros ->; apply (up_irrefl _ r C x Lp); now constructor).
  assert (Nx : ~ In x (h_ch (l_heap st) p)).
  { intros I. apply (child_In _ _ _ _ C Lp) in I as [_ I]. apply (up_irrefl _ r C x (or_intror Hx)). eapply up_S; eauto. now constructor. }
  destruct (for_each_prog P (pcop_child x) (children (l_heap st) p) [] st) as [st2 [E [G [D1 [D2 [D3 Q]]]]]].
  - intros pre c post st2 El [G [D1 [D2 [D3 Q]]]]. cbn [app] in *.
    assert (Hc : In c (h_ch (l_heap st) p)) by (unfold children in El; rewrite El, in_app_iff; simpl; auto).
    assert (Hcp : ~ In c pre).
    { pose proof (child_NoDup _ _ _ C Lp) as ND. unfold children in El. rewrite El in ND. apply NoDup_remove_2 in ND. rewrite in_app_iff in ND. tauto. }
    assert (Np : forall y, ~ In y (h_ch (l_heap st) p) -> ~ In y pre).
    { intros y N I. apply N. unfold children in El. rewrite El, in_app_iff. auto. }
    assert (Npp : ~ In p (h_ch (l_heap st) p)).
    { intros I. apply (child_In _ _ _ _ C Lp) in I as [_ I]. congruence. }
    apply (child_In _ _ _ _ C Lp) in Hc as [Hc Ec].
    assert (U2 : udep st2 c = udep st c) by (unfold udep; now rewrite D1).
    destruct (udep_some st c (HL c Hc Ec)) as [d Ud].
    assert (Mc : moves_b st c = existsb (fun p => starts_with p d) clause_labels) by (unfold moves_b; now rewrite Ud).
    unfold pcop_child. rewrite U2, Ud, <- Mc. destruct (moves_b st c) eqn:M.
    + assert (Hc2 : In c (h_desc (l_heap st2) r)) by (now rewrite (going_words _ _ _ G)).
      assert (Ep2 : h_par (l_heap st2) p = Some x).
      { rewrite Q by auto. destruct (in_dec Nat.eq_dec p pre) as [I|]; auto. now apply Np in I. }
      assert (Ec2 : h_par (l_heap st2) c = Some p).
      { rewrite Q by (now right). destruct (in_dec Nat.eq_dec c pre); [contradiction|auto]. }
      destruct (assign_up_ok r st2 c x (going_cons _ _ _ G) Hc2) as [h' [E [R [P' O]]]].
      { eapply up_S; eauto. now constructor. }
      exists (set_heap st2 h'). split; auto. split; [apply (going_step r st st2); auto|]. cbn. conjs; auto.
      intros y Hy. destruct (Nat.eq_dec y c) as [->|Hn].
      * rewrite P', M. destruct (in_dec Nat.eq_dec c (pre ++ [c])) as [|N]; auto. exfalso. apply N, in_app_iff. simpl; auto.
      * rewrite O, Q; auto; [|now apply (going_live _ _ _ _ G)].
        destruct (in_dec Nat.eq_dec y pre) as [I|N], (in_dec Nat.eq_dec y (pre ++ [c])) as [I2|N2]; auto.
        -- exfalso. apply N2, in_app_iff; auto.
        -- exfalso. apply in_app_iff in I2 as [I2|[I2|[]]]; auto.
    + exists st2. split; auto. split; auto. conjs; auto.
      intros y Hy. rewrite Q by auto. destruct (Nat.eq_dec y c) as [->|Hn].
      * rewrite M. destruct (in_dec Nat.eq_dec c pre), (in_dec Nat.eq_dec c (pre ++ [c])); auto.
      * destruct (in_dec Nat.eq_dec y pre) as [I|N], (in_dec Nat.eq_dec y (pre ++ [c])) as [I2|N2]; auto.
        -- exfalso. apply N2, in_app_iff; auto.
        -- exfalso. apply in_app_iff in I2 as [I2|[I2|[]]]; auto.
  - split; [now apply going_refl|]. conjs; auto.
  - exists st2. split; auto. split; [apply G|]. conjs; auto. intros y Hy. rewrite Q by auto. cbn [app]. unfold children.
    destruct (in_dec Nat.eq_dec y (h_ch (l_heap st) p)) as [I|N].
    + apply (child_In _ _ _ _ C Lp) in I as [_ I]. unfold has_parent. rewrite I, Nat.eqb_refl. auto.
    + unfold has_parent. destruct (h_par (l_heap st) y) as [q|] eqn:Eq; auto. destruct (Nat.eqb_spec q p) as [->|]; auto.
      exfalso. apply N. apply (child_In _ _ _ _ C Lp). split; auto. now destruct (parent_live _ _ _ _ C Hy Eq).
Qed.

(** One pseudo-copula. *)
Lemma pcop_edge r lemma lemmas nca st x p g : consistent (l_heap st) r -> In x (h_desc (l_heap st) r) ->
  h_par (l_heap st) x = Some p -> h_par (l_heap st) p = Some g -> listed lemma lemmas x -> copular nca st x ->
  (forall c, In c (h_desc (l_heap st) r) -> h_par (l_heap st) c = Some p -> l_dep st c <> None) ->
  exists st', pcop_node lemma lemmas nca st x = (st', Ok tt) /\ rehung (l_heap st) (l_heap st') r /\
    h_par (l_heap st') x = Some g /\ h_par (l_heap st') p = Some x /\
    l_dep st' x = l_dep st p /\ l_dep st' p = Some (s "xcomp") /\ l_upos st' x = Some (s "VERB") /\
    (forall y, y <> x -> l_upos st' y = l_upos st y) /\
    (forall y, y <> x -> y <> p -> l_dep st' y = l_dep st y) /\ l_pproj st' = l_pproj st /\
    (forall y, y <> x -> y <> p -> live (l_heap st) r y ->
      (h_par (l_heap st) y = Some p -> moves st y -> h_par (l_heap st') y = Some x) /\
      (h_par (l_heap st) y <> Some p \/ ~ moves st y -> h_par (l_heap st') y = h_par (l_heap st) y)).
Proof.
  intros C Hx Ep Eg Hl Hc HL. unfold pcop_node. rewrite (proj2 (listed_b _ _ _) Hl), (proj2 (copular_b _ _ _) Hc).
  unfold the_parent. rewrite Ep, Eg.
  assert (Hxp : x <> p) by (intros ->; apply (up_irrefl _ r C p (or_intror Hx)); now constructor).
  destruct (parent_live _ _ _ _ C (or_intror Hx) Ep) as [Lp _].
  destruct (parent_live _ _ _ _ C Lp Eg) as [Lg Hp].
  assert (Hpg : p <> g) by (intros ->; apply (up_irrefl _ r C g Lp); now constructor).
  destruct (assign_up_ok r st x g C Hx) as [h1 [E1 [R1 [P1 O1]]]]; [eapply up_S; eauto; now constructor|].
  rewrite E1. cbn [bind].
  match goal with |- context [assign_parent ?t p (Some x)] => set (st1 := t) end.
  assert (C1 : consistent (l_heap st1) r) by apply R1.
  assert (W1 : h_desc (l_heap st1) r = h_desc (l_heap st) r) by apply R1.
  assert (Ep1 : h_par (l_heap st1) p = Some g) by (cbn; rewrite O1; auto).
  assert (Lp1 : live (l_heap st1) r p) by (now apply (rehung_live _ _ _ _ R1)).
  destruct (assign_ok r st1 p x C1) as [h2 [E2 [R2 [P2 O2]]]].
  { now rewrite W1. }
  { right. now rewrite W1. }
  { intros [->|U]; [congruence|].
    assert (Upg : up (l_heap st1) p g) by (now constructor).
    inversion U as [? ? E|? q ? E U']; subst; cbn in E; rewrite P1 in E; injection E as <-; [congruence|].
    apply (up_irrefl _ r C1 p Lp1). eapply up_trans; eauto. }
  rewrite E2. cbn [bind].
  match goal with |- context [for_each _ (children (l_heap ?t) p) _] => set (st2 := t) end.
  assert (C2 : consistent (l_heap st2) r) by apply R2.
  assert (W2 : h_desc (l_heap st2) r = h_desc (l_heap st) r) by (rewrite <- W1; apply R2).
  assert (L12 : forall y, live (l_heap st) r y -> live (l_heap st1) r y) by (intros y; apply (rehung_live _ _ _ _ R1)).
  assert (L2 : forall y, live (l_heap st2) r y <-> live (l_heap st) r y).
  { intros y. unfold st2. cbn. rewrite (rehung_live _ _ _ _ R2). apply (rehung_live _ _ _ _ R1). }
  assert (Q2 : forall y, y <> x -> y <> p -> live (l_heap st) r y -> h_par (l_heap st2) y = h_par (l_heap st) y).
  { intros y N1 N2 Ly. unfold st2. cbn. rewrite O2 by auto. unfold st1. cbn. now apply O1. }
  assert (X2 : h_par (l_heap st2) x = Some g).
  { unfold st2. cbn. rewrite O2; auto. apply L12. now right. }
  assert (DD : forall y, y <> x -> y <> p -> l_dep st2 y = l_dep st y).
  { intros y N1 N2. unfold st2, st1. cbn. now rewrite !upd_other. }
  destruct (children_ok r st2 x p C2) as [st3 [E3 [R3 [D3 [U3 [M3 Q3]]]]]].
  { now rewrite W2. } { exact P2. } { now apply L2. }
  { intros c Hc2 Ec. rewrite W2 in Hc2.
    assert (c <> x) by congruence. assert (c <> p) by (intros ->; unfold st2 in Ec; cbn in Ec; congruence).
    rewrite DD by auto. apply HL; auto. rewrite Q2 in Ec; auto. now right. }
  exists st3. split; auto.
  split. { eapply rehung_trans; [exact R1|]. eapply rehung_trans; [exact R2|exact R3]. }
  assert (Px : has_parent (l_heap st2) p x = false).
  { unfold has_parent. rewrite X2. apply Nat.eqb_neq. congruence. }
  assert (Pp : has_parent (l_heap st2) p p = false).
  { unfold has_parent. unfold st2. cbn. rewrite P2. apply Nat.eqb_neq. congruence. }
  conjs.
  - rewrite Q3 by (apply L2; now right). rewrite Px. exact X2.
  - rewrite Q3 by (now apply L2). rewrite Pp. exact P2.
  - rewrite D3. unfold st2, st1. cbn. rewrite upd_other, upd_same by auto. auto.
  - rewrite D3. unfold st2. cbn. now rewrite upd_same.
  - rewrite U3. unfold st2. cbn. now rewrite upd_same.
  - intros y N. rewrite U3. unfold st2. cbn. now rewrite upd_other.
  - intros y N1 N2. rewrite D3. auto.
  - rewrite M3. reflexivity.
  - intros y N1 N2 Ly. rewrite Q3 by (now apply L2). rewrite Q2 by auto.
    assert (MM : moves_b st2 y = moves_b st y) by (unfold moves_b, udep; now rewrite DD).
    rewrite MM. unfold has_parent. rewrite Q2 by auto. split.
    + intros Ey My. rewrite Ey, Nat.eqb_refl, (proj2 (moves_b_spec _ _) My). reflexivity.
    + intros [N|N].
      * destruct (h_par (l_heap st) y) as [q|]; auto. destruct (Nat.eqb_spec q p) as [->|]; auto. congruence.
      * destruct (moves_b st y) eqn:M; [apply moves_b_spec in M; contradiction|]. now rewrite andb_false_r.
Qed.

Lemma pcop_skip lemma lemmas nca st x : ~ (listed lemma lemmas x /\ copular nca st x) ->
  exists st', pcop_node lemma lemmas nca st x = (st', Ok tt) /\ l_heap st' = l_heap st /\ l_dep st' = l_dep st /\ l_pproj st' = l_pproj st /\
    (forall y, l_upos st' y = l_upos st y \/ (y = x /\ listed lemma lemmas x /\ l_upos st' y = Some (s "VERB"))).
Proof.
  intros N. unfold pcop_node. destruct (existsb (ostr_eqb (lemma x)) lemmas) eqn:E; [|exists st; conjs; auto].
  apply listed_b in E. destruct (ostr_eqb (udep st x) (s "cop") || nca && ostr_eqb (udep st x) (s "aux")) eqn:E2.
  { apply copular_b in E2. tauto. }
  destruct (nca && ostr_eqb (l_upos st x) (s "AUX")); [|exists st; conjs; auto].
  exists (set_upos st x (Some (s "VERB"))). conjs; auto. intros y. cbn. unfold upd.
  destruct (Nat.eqb_spec y x); auto.
Qed.

Lemma xcomp_not_copular nca st x : l_dep st x = Some (s "xcomp") -> ~ copular nca st x.
Proof. intros E [H|[_ H]]; unfold udep in H; rewrite E in H; vm_compute in H; discriminate H. Qed.

(** The words not visited yet: their labels are the old ones or xcomp, and the ones at the top were there before. *)
Lemma pcop_ok r lemma lemmas nca st : consistent (l_heap st) r -> all_labelled st r -> none_at_top lemma lemmas nca st r ->
  exists st', pcop lemma lemmas nca st r = (st', Ok tt) /\ rehung (l_heap st) (l_heap st') r /\ all_labelled st' r /\ l_pproj st' = l_pproj st /\
    (forall y, l_upos st' y = l_upos st y \/ (listed lemma lemmas y /\ l_upos st' y = Some (s "VERB"))) /\
    ((forall x, In x (h_desc (l_heap st) r) -> ~ (listed lemma lemmas x /\ copular nca st x)) ->
     l_heap st' = l_heap st /\ l_dep st' = l_dep st).
Proof.
  intros C HL HT. unfold pcop, each_word.
  pose (P := fun (done : list nat) st2 => going r st st2 /\ all_labelled st2 r /\ l_pproj st2 = l_pproj st /\
    (forall y, l_upos st2 y = l_upos st y \/ (listed lemma lemmas y /\ l_upos st2 y = Some (s "VERB"))) /\
    (forall z, In z (h_desc (l_heap st) r) -> ~ In z done ->
       (l_dep st2 z = l_dep st z \/ l_dep st2 z = Some (s "xcomp")) /\ (h_par (l_heap st2) z = Some r -> h_par (l_heap st) z = Some r)) /\
    ((forall x, In x (h_desc (l_heap st) r) -> ~ (listed lemma lemmas x /\ copular nca st x)) ->
     l_heap st2 = l_heap st /\ l_dep st2 = l_dep st)).
  destruct (for_each_prog P (pcop_node lemma lemmas nca) (h_desc (l_heap st) r) [] st) as [st' [E [G [A [M [U [_ S]]]]]]].
  - intros pre x post st2 El [G [A [M [U [Z S]]]]]. cbn [app] in *.
    assert (Hx : In x (h_desc (l_heap st) r)) by (rewrite El, in_app_iff; simpl; auto).
    assert (Hn : ~ In x pre).
    { assert (ND : NoDup (h_desc (l_heap st) r)) by (apply (c_once _ _ C)). rewrite El in ND. apply NoDup_remove_2 in ND. rewrite in_app_iff in ND. tauto. }
    assert (Hx2 : In x (h_desc (l_heap st2) r)) by (now rewrite (going_words _ _ _ G)).
    assert (DE : {listed lemma lemmas x /\ copular nca st2 x} + {~ (listed lemma lemmas x /\ copular nca st2 x)}).
    { destruct (existsb (ostr_eqb (lemma x)) lemmas && (ostr_eqb (udep st2 x) (s "cop") || nca && ostr_eqb (udep st2 x) (s "aux"))) eqn:E.
      - left. apply andb_true_iff in E as [E1 E2]. now rewrite listed_b in E1; rewrite copular_b in E2.
      - right. intros [E1 E2]. rewrite <- listed_b in E1. rewrite <- copular_b in E2. rewrite E1, E2 in E. discriminate E. }
    destruct DE as [[Hl Hc]|N].
    + destruct (parent_exists _ _ _ (going_cons _ _ _ G) Hx2) as [p [Ep Lp]].
      assert (Hc0 : copular nca st x).
      { destruct (Z x Hx Hn) as [[D|D] _]; [|exfalso; eapply xcomp_not_copular; eauto]. unfold copular, udep in *. now rewrite D in Hc. }
      assert (Npr : p <> r) by (intros ->; apply (HT x Hx Hl Hc0), (Z x Hx Hn), Ep).
      assert (Hp : In p (h_desc (l_heap st2) r)) by (destruct Lp; [contradiction|auto]).
      destruct (parent_exists _ _ _ (going_cons _ _ _ G) Hp) as [g [Eg Lg]].
      destruct (pcop_edge r lemma lemmas nca st2 x p g (going_cons _ _ _ G) Hx2 Ep Eg Hl Hc) as [st3 [E3 [R3 [X1 [X2 [X3 [X4 [X5 [X6 [X7 [X8 X9]]]]]]]]]]].
      { intros c Hc1 _. now apply A. }
      exists st3. split; auto. split; [eapply going_step; eauto|]. conjs.
      * intros y Hy. rewrite (rh_words _ _ _ R3) in Hy. destruct (Nat.eq_dec y p) as [->|Np]; [rewrite X4; discriminate|].
        destruct (Nat.eq_dec y x) as [->|Nx]; [rewrite X3; now apply A|]. rewrite X7; auto.
      * congruence.
      * intros y. destruct (Nat.eq_dec y x) as [->|Nx]; [auto|]. rewrite X6 by auto. apply U.
      * intros z Hz Nz. rewrite in_app_iff in Nz.
        assert (Nzx : z <> x) by (intros ->; apply Nz; simpl; auto).
        assert (Nzp : ~ In z pre) by tauto. destruct (Z z Hz Nzp) as [Z1 Z2].
        assert (Nxr : x <> r) by (intros ->; apply (c_rootout _ _ C); auto).
        destruct (Nat.eq_dec z p) as [->|Np]; [split; auto; congruence|].
        rewrite X7 by auto. split; auto. intros Er. apply Z2.
        assert (Lz : live (l_heap st2) r z) by (right; now rewrite (going_words _ _ _ G)).
        destruct (X9 z Nzx Np Lz) as [Y1 Y2].
        destruct (moves_b st2 z) eqn:Mz; [apply moves_b_spec in Mz|].
        -- assert (DP : {h_par (l_heap st2) z = Some p} + {h_par (l_heap st2) z <> Some p}) by (decide equality; apply Nat.eq_dec).
           destruct DP as [DP|DP]; [rewrite Y1 in Er by auto; congruence|]. rewrite Y2 in Er; auto.
        -- rewrite Y2 in Er; auto. right. rewrite <- moves_b_spec, Mz. discriminate.
      * intros H. exfalso. now apply (H x Hx).
    + destruct (pcop_skip lemma lemmas nca st2 x N) as [st3 [E3 [K1 [K2 [K3 K4]]]]].
      exists st3. split; auto. split; [eapply going_heap; eauto|]. conjs.
      * unfold all_labelled. rewrite K1, K2. exact A.
      * congruence.
      * intros y. destruct (K4 y) as [K|[-> [K5 K6]]]; [rewrite K; apply U|auto].
      * intros z Hz Nz. rewrite in_app_iff in Nz. rewrite K1, K2. apply Z; tauto.
      * intros H. rewrite K1, K2. auto.
  - split; [now apply going_refl|]. conjs; auto.
  - exists st'. split; auto. split; [apply G|]. conjs; auto.
Qed.

(** A pseudo-copula attached to the technical root: ValueError, and the state is unchanged. *)
Lemma pcop_top r lemma lemmas nca st x : consistent (l_heap st) r -> In x (h_desc (l_heap st) r) ->
  h_par (l_heap st) x = Some r -> listed lemma lemmas x -> copular nca st x ->
  pcop_node lemma lemmas nca st x = (st, Raise ValueError).
Proof.
  intros C Hx Ep Hl Hc. unfold pcop_node. rewrite (proj2 (listed_b _ _ _) Hl), (proj2 (copular_b _ _ _) Hc).
  unfold the_parent. rewrite Ep, (c_top _ _ C). unfold assign_parent, set_parent.
  rewrite (proj1 (c_kinds _ _ C) x Hx), Ep. cbn [bind]. now destruct st.
Qed.
Lemma pcop_other lemma lemmas nca st x : ~ (listed lemma lemmas x /\ copular nca st x) ->
  exists st', pcop_node lemma lemmas nca st x = (st', Ok tt) /\ l_heap st' = l_heap st /\ l_dep st' = l_dep st /\ l_pproj st' = l_pproj st /\
    (forall y, y <> x -> l_upos st' y = l_upos st y) /\
    (nca = true /\ listed lemma lemmas x /\ l_upos st x = Some (s "AUX") -> l_upos st' x = Some (s "VERB")) /\
    (~ (nca = true /\ listed lemma lemmas x /\ l_upos st x = Some (s "AUX")) -> l_upos st' x = l_upos st x).
Proof.
  intros N. unfold pcop_node. destruct (existsb (ostr_eqb (lemma x)) lemmas) eqn:E.
  - apply listed_b in E. destruct (ostr_eqb (udep st x) (s "cop") || nca && ostr_eqb (udep st x) (s "aux")) eqn:E2.
    { apply copular_b in E2. tauto. }
    destruct (nca && ostr_eqb (l_upos st x) (s "AUX")) eqn:E3.
    + apply andb_true_iff in E3 as [E3 E4]. apply ostr_eqb_eq in E4.
      exists (set_upos st x (Some (s "VERB"))). conjs; auto.
      * intros y Hy. cbn. now rewrite upd_other.
      * intros _. cbn. now rewrite upd_same.
      * intros H. exfalso. apply H. auto.
    + exists st. conjs; auto. intros [H1 [_ H2]]. apply ostr_eqb_eq in H2. rewrite H1, H2 in E3. discriminate E3.
  - exists st. conjs; auto. intros [_ [H _]]. apply listed_b in H. congruence.
Qed.

(** ---- a dependent without a label ---- *)
Lemma for_each_app f l1 l2 st : for_each f (l1 ++ l2) st = bind (for_each f l1 st) (fun st _ => for_each f l2 st).
Proof.
  revert st. induction l1 as [|x l1 IH]; intros st; cbn [app for_each]; [reflexivity|].
  destruct (f st x) as [st1 [[]|e|]]; cbn [bind]; auto.
Qed.
Lemma first_unlabelled (d : nat -> option str) l c : In c l -> d c = None ->
  exists pre c0 post, l = pre ++ c0 :: post /\ d c0 = None /\ forall y, In y pre -> d y <> None.
Proof.
  induction l as [|a l IH]; intros [] E.
  - subst. exists [], c, l. split; [reflexivity|]. split; [auto|intros y []].
  - destruct (d a) as [u|] eqn:Ea.
    + destruct (IH H E) as [pre [c0 [post [-> [A B]]]]]. exists (a :: pre), c0, post. split; [reflexivity|]. split; auto.
      intros y [<-|Hy]; [congruence|auto].
    + exists [], a, l. split; [reflexivity|]. split; [auto|intros y []].
Qed.
Lemma children_error r st x p c : consistent (l_heap st) r -> h_par (l_heap st) p = Some x -> live (l_heap st) r p ->
  In c (h_desc (l_heap st) r) -> h_par (l_heap st) c = Some p -> l_dep st c = None ->
  snd (for_each (pcop_child x) (children (l_heap st) p) st) = Raise TypeError.
Proof.
  intros C Ep Lp Hc Ec Dc.
  assert (Ic : In c (h_ch (l_heap st) p)) by (now apply (child_In _ _ _ _ C Lp)).
  destruct (first_unlabelled (l_dep st) _ c Ic Dc) as [l [c0 [l2 [El [D0 DL]]]]].
  unfold children. rewrite El, for_each_app.
  assert (ND : NoDup (l ++ c0 :: l2)) by (rewrite <- El; apply (child_NoDup _ _ _ C Lp)).
  pose (P := fun done st2 => going r st st2 /\ l_dep st2 = l_dep st /\
        forall y, live (l_heap st) r y -> ~ In y done -> h_par (l_heap st2) y = h_par (l_heap st) y).
  destruct (for_each_prog P (pcop_child x) l [] st) as [st2 [E [G [D1 Q]]]].
  - intros pre n post st2 Er [G [D1 Q]]. cbn [app] in *.
    assert (Hn : In n (h_ch (l_heap st) p)) by (rewrite El, Er, !in_app_iff; simpl; auto).
    assert (Hnp : ~ In n pre).
    { rewrite Er in ND. rewrite <- app_assoc in ND. cbn [app] in ND. apply NoDup_remove_2 in ND. rewrite in_app_iff in ND. tauto. }
    assert (Npp : ~ In p pre).
    { intros I. assert (I2 : In p (h_ch (l_heap st) p)) by (rewrite El, Er, !in_app_iff; auto).
      apply (child_In _ _ _ _ C Lp) in I2 as [_ I2]. apply (up_irrefl _ r C p Lp). now constructor. }
    apply (child_In _ _ _ _ C Lp) in Hn as [Hn En].
    assert (U2 : udep st2 n = udep st n) by (unfold udep; now rewrite D1).
    destruct (udep_some st n) as [d Ud]. { apply DL. rewrite Er, in_app_iff. simpl; auto. }
    unfold pcop_child. rewrite U2, Ud. destruct (existsb _ clause_labels).
    + destruct (assign_up_ok r st2 n x (going_cons _ _ _ G)) as [h' [E [R [P' O]]]].
      { now rewrite (going_words _ _ _ G). }
      { apply (up_S _ n p); [rewrite Q; auto; now right|]. constructor. now rewrite Q. }
      exists (set_heap st2 h'). split; auto. split; [apply (going_step r st st2); auto|]. cbn. split; auto.
      intros y Ly Ny. rewrite in_app_iff in Ny. rewrite O; [apply Q; tauto| |now apply (going_live _ _ _ _ G)].
      intros ->. apply Ny. simpl; auto.
    + exists st2. split; auto. split; auto. split; auto. intros y Ly Ny. apply Q; auto. rewrite in_app_iff in Ny. tauto.
  - split; [now apply going_refl|]. split; auto.
  - rewrite E. cbn [bind for_each].
    assert (Ee : pcop_child x st2 c0 = (st2, Raise TypeError)).
    { unfold pcop_child. unfold udep. rewrite D1, D0. reflexivity. }
    rewrite Ee. reflexivity.
Qed.
Lemma pcop_unlabelled r lemma lemmas nca st x p g c : consistent (l_heap st) r -> In x (h_desc (l_heap st) r) ->
  h_par (l_heap st) x = Some p -> h_par (l_heap st) p = Some g -> listed lemma lemmas x -> copular nca st x ->
  In c (h_desc (l_heap st) r) -> h_par (l_heap st) c = Some p -> l_dep st c = None ->
  snd (pcop_node lemma lemmas nca st x) = Raise TypeError.
Proof.
  intros C Hx Ep Eg Hl Hc Ic Ec Dc. unfold pcop_node. rewrite (proj2 (listed_b _ _ _) Hl), (proj2 (copular_b _ _ _) Hc).
  unfold the_parent. rewrite Ep, Eg.
  assert (Hxp : x <> p) by (intros ->; apply (up_irrefl _ r C p (or_intror Hx)); now constructor).
  destruct (parent_live _ _ _ _ C (or_intror Hx) Ep) as [Lp _].
  destruct (parent_live _ _ _ _ C Lp Eg) as [Lg Hp].
  assert (Hpg : p <> g) by (intros ->; apply (up_irrefl _ r C g Lp); now constructor).
  assert (Ncx : c <> x).
  { intros ->. destruct Hc as [H|[_ H]]; unfold udep in H; rewrite Dc in H; discriminate H. }
  assert (Ncp : c <> p) by (intros ->; apply (up_irrefl _ r C p Lp); now constructor).
  destruct (assign_up_ok r st x g C Hx) as [h1 [E1 [R1 [P1 O1]]]]; [eapply up_S; eauto; now constructor|].
  rewrite E1. cbn [bind].
  match goal with |- context [assign_parent ?t p (Some x)] => set (st1 := t) end.
  assert (C1 : consistent (l_heap st1) r) by apply R1.
  assert (W1 : h_desc (l_heap st1) r = h_desc (l_heap st) r) by apply R1.
  assert (Ep1 : h_par (l_heap st1) p = Some g) by (cbn; rewrite O1; auto).
  assert (Lp1 : live (l_heap st1) r p) by (now apply (rehung_live _ _ _ _ R1)).
  destruct (assign_ok r st1 p x C1) as [h2 [E2 [R2 [P2 O2]]]].
  { now rewrite W1. }
  { right. now rewrite W1. }
  { intros [->|U]; [congruence|].
    assert (Upg : up (l_heap st1) p g) by (now constructor).
    inversion U as [? ? E|? q ? E U']; subst; cbn in E; rewrite P1 in E; injection E as <-; [congruence|].
    apply (up_irrefl _ r C1 p Lp1). eapply up_trans; eauto. }
  rewrite E2. cbn [bind]. apply (children_error r _ x p c); cbn.
  - apply R2.
  - exact P2.
  - now apply (rehung_live _ _ _ _ R2).
  - rewrite (rh_words _ _ _ R2). now rewrite W1.
  - rewrite O2 by (auto; apply (rehung_live _ _ _ _ R1); now right). cbn. rewrite O1; auto. now right.
  - now rewrite !upd_other.
Qed.
