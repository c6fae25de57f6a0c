(** Proofs about sentence splitting. *)
From Coq Require Import String List NArith ZArith Bool Lia.
From Verif Require Import PyStr PyStrFacts PyList PyListFacts PyExn TreeModel BundleModel BundleSpec BundleProofs SegModel SegSpec.
Import ListNotations.

(** ---- segment_string ---- *)
Lemma seg_loop_nonempty keep bd ts : forall prev cur, seg_loop keep bd prev cur ts <> [].
Proof. induction ts as [|t ts IH]; cbn; intros; [discriminate|]. destruct (bd prev t); [discriminate|auto]. Qed.
Lemma segment_nonempty keep bd x : segment_string keep bd x <> [].
Proof. unfold segment_string. destruct (split 32%N x) eqn:E; [destruct (split_nonempty _ _ E)|apply seg_loop_nonempty]. Qed.

Lemma join_snoc sep l x : l <> [] -> join sep (l ++ [x]) = join sep l ++ sep ++ x.
Proof.
  induction l as [|a l IH]; [congruence|]. intros _. destruct l as [|b l].
  - reflexivity.
  - change ((a :: b :: l) ++ [x]) with (a :: (b :: l) ++ [x]). 
    change (join sep (a :: b :: l)) with (a ++ sep ++ join sep (b :: l)). rewrite <- !app_assoc, <- IH by discriminate. reflexivity.
Qed.
(** [g ++ [prev]] is the group being built; [cur] is its text *)
Lemma seg_loop_groups bd ts : forall g prev,
  (forall g1 a b g2, g ++ [prev] = g1 ++ a :: b :: g2 -> bd a b = false) ->
  exists h G, concat (((g ++ [prev]) ++ h) :: G) = (g ++ [prev]) ++ ts /\ cut_at bd (((g ++ [prev]) ++ h) :: G) /\
    seg_loop false bd prev (join (PyStr.s " ") (g ++ [prev])) ts = map (join (PyStr.s " ")) (((g ++ [prev]) ++ h) :: G).
Proof.
  induction ts as [|t ts IH]; intros g prev Hg.
  - exists [], []. rewrite !app_nil_r. split; [cbn; rewrite !app_nil_r; auto|]. split; [|cbn; rewrite ?app_nil_r; auto].
    split; [intros x [<-|[]]; destruct g; discriminate|]. split.
    + intros g1 a b g2 [E|[]]. eapply Hg; eauto.
    + intros G1 x a b h G2 E. destruct G1 as [|? [|? ?]]; discriminate E.
  - cbn [seg_loop]. destruct (bd prev t) eqn:B.
    + destruct (IH [] t) as (h & G & E1 & (C1 & C2 & C3) & E2).
      { intros g1 a b g2 E. destruct g1 as [|? [|? ?]]; discriminate E. }
      exists [], ((([] ++ [t]) ++ h) :: G). rewrite app_nil_r. split.
      { cbn [concat]. cbn [concat] in E1. rewrite E1. reflexivity. }
      split; [|cbn [map] in *; rewrite <- E2; reflexivity].
      split; [intros x [<-|Hx]; [destruct g; discriminate|auto]|]. split.
      * intros g1 a b g2 [E|Hx]; [eapply Hg; eauto|eapply C2; eauto].
      * intros G1 x a b k G2 E. destruct G1 as [|y G1].
        -- injection E as Ea Eb. apply app_inj_tail in Ea as [_ <-]. congruence.
        -- injection E as _ E. eapply C3; eauto.
    + destruct (IH (g ++ [prev]) t) as (h & G & E1 & C & E2).
      { intros g1 a b g2 E. destruct g2 as [|y g2] using rev_ind.
        - change (g1 ++ [a; b]) with (g1 ++ [a] ++ [b]) in E. rewrite app_assoc in E. apply app_inj_tail in E as [E <-].
          apply app_inj_tail in E as [_ <-]. auto.
        - clear IHg2. change (a :: b :: g2 ++ [y]) with ((a :: b :: g2) ++ [y]) in E. rewrite app_assoc in E. apply app_inj_tail in E as [E _].
          eapply Hg; eauto. }
      exists (t :: h), G. assert (Q : (g ++ [prev]) ++ t :: h = ((g ++ [prev]) ++ [t]) ++ h) by (rewrite <- !app_assoc; reflexivity). rewrite Q.
      split; [rewrite E1, <- app_assoc; reflexivity|]. split; auto. rewrite <- E2. rewrite (join_snoc _ (g ++ [prev])) by (destruct g; discriminate). reflexivity.
Qed.
Lemma segment_groups bd x : exists groups, concat groups = split 32%N x /\ cut_at bd groups /\
  segment_string false bd x = map (join (PyStr.s " ")) groups.
Proof.
  unfold segment_string. destruct (split 32%N x) as [|t ts] eqn:E; [destruct (split_nonempty _ _ E)|].
  destruct (seg_loop_groups bd ts [] t) as (h & G & E1 & C & E2).
  { intros g1 a b g2 Q. destruct g1 as [|? [|? ?]]; discriminate Q. }
  eexists. split; [exact E1|]. split; [exact C|]. exact E2.
Qed.
Lemma seg_loop_keep bd ts : forall prev cur, exists l x, seg_loop false bd prev cur ts = l ++ [x] /\
  seg_loop true bd prev cur ts = map (fun y => y ++ PyStr.s " ") l ++ [x].
Proof.
  induction ts as [|t ts IH]; intros prev cur; cbn [seg_loop]; [exists [], cur; auto|].
  destruct (bd prev t); [|apply IH]. destruct (IH t t) as (l & x & A & B). exists (cur :: l), x. rewrite A, B. auto.
Qed.
Lemma segment_keep bd x : exists l y, segment_string false bd x = l ++ [y] /\
  segment_string true bd x = map (fun z => z ++ PyStr.s " ") l ++ [y].
Proof. unfold segment_string. destruct (split 32%N x) eqn:E; [destruct (split_nonempty _ _ E)|]. apply seg_loop_keep. Qed.
Lemma seg_loop_join bd ts : forall prev cur, join (PyStr.s " ") (seg_loop false bd prev cur ts) = join (PyStr.s " ") (cur :: ts).
Proof.
  assert (J : forall a l, l <> [] -> join (PyStr.s " ") (a :: l) = a ++ PyStr.s " " ++ join (PyStr.s " ") l) by (intros a [|b l]; [congruence|reflexivity]).
  induction ts as [|t ts IH]; intros prev cur; cbn [seg_loop]; auto. destruct (bd prev t).
  - rewrite J by apply seg_loop_nonempty. rewrite IH. rewrite (J cur (t :: ts)) by discriminate. reflexivity.
  - rewrite IH. rewrite (J cur (t :: ts)) by discriminate. destruct ts; [reflexivity|]. rewrite !J by discriminate. rewrite <- !app_assoc. reflexivity.
Qed.
Lemma segment_join bd x : join (PyStr.s " ") (segment_string false bd x) = x.
Proof.
  unfold segment_string. destruct (split 32%N x) as [|t ts] eqn:E; [destruct (split_nonempty _ _ E)|]. rewrite seg_loop_join, <- E.
  apply (join_split 32%N).
Qed.
Lemma segment_concat bd x : concat (segment_string true bd x) = x.
Proof.
  destruct (segment_keep bd x) as (l & y & A & B). rewrite B, concat_app. cbn [concat]. rewrite app_nil_r.
  transitivity (join (PyStr.s " ") (l ++ [y])); [|rewrite <- A; apply segment_join].
  clear. induction l as [|a l IH]; [reflexivity|]. cbn [map concat app]. rewrite <- !app_assoc, IH.
  destruct l; reflexivity.
Qed.
Lemma segment_single keep bd x y : segment_string keep bd x = [y] -> y = x.
Proof.
  intros E. destruct keep.
  - pose proof (segment_concat bd x) as Q. rewrite E in Q. cbn in Q. now rewrite app_nil_r in Q.
  - pose proof (segment_join bd x) as Q. rewrite E in Q. exact Q.
Qed.

Lemma flat_map_ext_in' {A B} (f g : A -> list B) l : (forall x, In x l -> f x = g x) -> flat_map f l = flat_map g l.
Proof. induction l as [|x l IH]; intros H; auto. cbn [flat_map]. rewrite (H x (or_introl eq_refl)), IH; auto. intros; apply H; right; auto. Qed.

(** ---- documents ---- *)
Record frame (g g' : seg) : Prop := {
  fr_nt : nt (g_s g) <= nt (g_s g'); fr_nb : nb (g_s g) <= nb (g_s g');
  fr_zone : forall t, t < nt (g_s g) -> t_zone (g_s g') t = t_zone (g_s g) t;
  fr_trees : forall b, b < nb (g_s g) -> b_trees (g_s g') b = b_trees (g_s g) b;
  fr_id : forall b, b < nb (g_s g) -> b_id (g_s g) b <> None -> b_id (g_s g') b <> None
}.
Lemma frame_refl g : frame g g. Proof. split; auto. Qed.
Lemma frame_trans g1 g2 g3 : frame g1 g2 -> frame g2 g3 -> frame g1 g3.
Proof.
  intros [A B C D E] [A' B' C' D' E']. split; try lia.
  - intros t H. rewrite C', C; auto. lia.
  - intros b H. rewrite D', D; auto. lia.
  - intros b H Q. apply E'; auto. lia.
Qed.
(** the bundles bs were created between g and g' *)
Definition fresh (g g' : seg) (bs : list nat) : Prop :=
  forall b, In b bs -> nb (g_s g) <= b < nb (g_s g') /\ forall t, In t (b_trees (g_s g') b) -> nt (g_s g) <= t < nt (g_s g').
Lemma zone_texts_frame g g' l z : frame g g' ->
  (forall b, In b l -> b < nb (g_s g) /\ forall t, In t (b_trees (g_s g) b) -> t < nt (g_s g) /\ g_text g' t = g_text g t) ->
  zone_texts g' l z = zone_texts g l z.
Proof.
  intros F. unfold zone_texts. induction l as [|b l IH]; intros H; auto. cbn [flat_map]. rewrite IH by (intros; apply H; right; auto). f_equal.
  destruct (H b (or_introl eq_refl)) as [Lb Ht]. rewrite (fr_trees _ _ F b Lb). revert Ht. generalize (b_trees (g_s g) b). intros ts Ht.
  induction ts as [|t ts IHt]; auto. cbn [filter]. destruct (Ht t (or_introl eq_refl)) as [Lt Et].
  assert (E : zone_is (g_s g') z t = zone_is (g_s g) z t) by (unfold zone_is; rewrite (fr_zone _ _ F t Lt); auto).
  assert (IH' : map (g_text g') (filter (zone_is (g_s g') z) ts) = map (g_text g) (filter (zone_is (g_s g) z) ts)) by (apply IHt; intros; apply Ht; right; auto).
  rewrite E. destruct (zone_is (g_s g) z t); cbn [map]; rewrite ?Et, IH'; auto.
Qed.
Lemma fresh_texts g0 g g' bs z : fresh g0 g bs -> frame g g' -> (forall t, t < nt (g_s g) -> nt (g_s g0) <= t -> g_text g' t = g_text g t) ->
  zone_texts g' bs z = zone_texts g bs z.
Proof. intros Fr F T. apply zone_texts_frame; auto. intros b Hb. destruct (Fr b Hb) as [A B]. split; [lia|]. intros t Ht. destruct (B t Ht). auto. Qed.
Lemma fresh_frame g0 g g' bs : fresh g0 g bs -> frame g g' -> fresh g0 g' bs.
Proof.
  intros Fr F b Hb. destruct (Fr b Hb) as [A B]. pose proof (fr_nb _ _ F). pose proof (fr_nt _ _ F). split; [lia|]. intros t. rewrite (fr_trees _ _ F) by lia.
  intros Ht. specialize (B t Ht). lia.
Qed.
Lemma fresh_app g0 g bs bs' : fresh g0 g bs -> fresh g0 g bs' -> fresh g0 g (bs ++ bs').
Proof. intros A B b Hb. apply in_app_iff in Hb as [Hb|Hb]; auto. Qed.
Lemma fresh_later g0 g g' bs : frame g0 g -> fresh g g' bs -> fresh g0 g' bs.
Proof. intros F Fr b Hb. destruct (Fr b Hb) as [A B]. pose proof (fr_nb _ _ F). pose proof (fr_nt _ _ F). split; [lia|]. intros t Ht. specialize (B t Ht). lia. Qed.
Lemma zone_texts_app g l l' z : zone_texts g (l ++ l') z = zone_texts g l z ++ zone_texts g l' z.
Proof. unfold zone_texts. apply flat_map_app. Qed.

Lemma create_in_new s d id z : ok_zone z -> let s1 := fst (new_bundle s d id) in
  exists s', create_tree s1 (nb s) (Some z) = (s', Ok (nt s)) /\ nt s' = S (nt s) /\ nb s' = S (nb s) /\
    t_zone s' = upd (t_zone s) (nt s) (Some z) /\ b_trees s' = upd (b_trees s1) (nb s) [nt s] /\ b_id s' = upd (b_id s) (nb s) (Some id).
Proof.
  intros [Za Zv]. unfold create_tree, new_tree, new_bundle, add_tree. cbn [fst nt t_zone t_sid]. rewrite upd_same.
  unfold zone_str. cbn [t_zone]. rewrite upd_same. unfold check_zone. rewrite Zv. cbn [negb].
  destruct (str_eqb_spec z (PyStr.s "all")); [contradiction|]. cbn [b_trees]. rewrite upd_same. cbn [existsb].
  cbn [b_id]. rewrite upd_same. destruct id as [|a id]; cbn [bind]; eexists; (split; [reflexivity|]); cbn; rewrite ?upd_same; auto.
Qed.

Lemma seg_new_spec d z orig l : ok_zone z -> forall g i, exists g' bs, seg_new g d (Some z) orig i l = (g', Ok bs) /\
  frame g g' /\ (forall t, t < nt (g_s g) -> g_text g' t = g_text g t) /\ fresh g g' bs /\
  forall y, zone_texts g' bs y = if str_eqb z y then map Some l else [].
Proof.
  intros OZ. induction l as [|x l IH]; intros g i; cbn [seg_new].
  - exists g, []. split; auto. split; [apply frame_refl|]. split; auto. split; [intros b []|]. intros y. destruct (str_eqb z y); auto.
  - destruct (create_in_new (g_s g) d (orig ++ PyStr.s "-" ++ str_of_Z i) z OZ) as (s' & E & A1 & A2 & A3 & A4 & A5).
    destruct (new_bundle (g_s g) d (orig ++ PyStr.s "-" ++ str_of_Z i)) as [s1 b] eqn:NB.
    assert (b = nb (g_s g)) as -> by (unfold new_bundle in NB; congruence). cbn [fst] in *. rewrite E. cbn [bind g_s g_text].
    set (g1 := mkSeg s' (upd (g_text g) (nt (g_s g)) (Some x))). destruct (IH g1 (i + 1)%Z) as (g' & bs & E' & F & T & Fr & Z). rewrite E'. cbn [bind].
    assert (F1 : frame g g1).
    { split; cbn [g1 g_s]; try lia.
      - intros t Ht. rewrite A3, upd_other by lia. auto.
      - intros b Hb. rewrite A4, upd_other by lia. unfold new_bundle in NB. injection NB as <-. cbn [b_trees]. rewrite upd_other by lia. auto.
      - intros b Hb. rewrite A5, upd_other by lia. auto. }
    exists g', (nb (g_s g) :: bs). split; auto. split; [eapply frame_trans; eauto|]. split.
    { intros t Ht. rewrite T by (cbn [g1 g_s]; lia). cbn [g1 g_text]. rewrite upd_other by lia. auto. }
    assert (TB : b_trees (g_s g') (nb (g_s g)) = [nt (g_s g)]) by (rewrite (fr_trees _ _ F) by (cbn [g1 g_s]; lia); cbn [g1 g_s]; rewrite A4, upd_same; auto).
    pose proof (fr_nt _ _ F) as N1. pose proof (fr_nb _ _ F) as N2. cbn [g1 g_s] in N1, N2. split.
    { intros b [<-|Hb]; [|apply (fresh_later g g1 g' bs F1 Fr b Hb)]. split; [lia|]. rewrite TB. intros t [<-|[]]. lia. }
    intros y. change (zone_texts g' (nb (g_s g) :: bs) y) with (map (g_text g') (filter (zone_is (g_s g') y) (b_trees (g_s g') (nb (g_s g)))) ++ zone_texts g' bs y).
    rewrite Z, TB. cbn [filter]. unfold zone_is. rewrite (fr_zone _ _ F) by (cbn [g1 g_s]; lia). cbn [g1 g_s]. rewrite A3, upd_same.
    destruct (str_eqb z y); auto. cbn [map]. rewrite T by (cbn [g1 g_s]; lia). cbn [g1 g_text]. rewrite upd_same. auto.
Qed.

Section Doc.
  Variables (keep : bool) (bd : str -> str -> bool) (sel kids : nat -> bool) (d : nat).
  Definition good_tree (g : seg) (t : nat) : Prop :=
    t < nt (g_s g) /\ (exists z, t_zone (g_s g) t = Some z /\ ok_zone z) /\
    (sel t = true -> kids t = false /\ exists x, g_text g t = Some x).
  Lemma pieces_nonempty g t : pieces keep bd sel g t <> [].
  Proof.
    unfold pieces. destruct (g_text g t) as [x|]; [|discriminate]. destruct (sel t); [|discriminate].
    pose proof (segment_nonempty keep bd x). destruct (segment_string keep bd x); [congruence|discriminate].
  Qed.
  Lemma set_bundle_id_frame g b v : frame g (mkSeg (set_bundle_id (g_s g) b v) (g_text g)).
  Proof.
    destruct (set_bundle_id_fields (g_s g) b v) as (A1 & A2 & A3 & A4 & A5 & A6 & A7 & _). split; cbn [g_s]; rewrite ?A1, ?A2, ?A4, ?A6; auto.
    intros c _. rewrite A7. upc c b; auto. discriminate.
  Qed.
  Lemma seg_tree_spec g b t : good_tree g t -> b_id (g_s g) b <> None ->
    exists g' bs, seg_tree keep bd sel kids g d b t = (g', Ok bs) /\ frame g g' /\
      (forall x, x < nt (g_s g) -> x <> t -> g_text g' x = g_text g x) /\ [g_text g' t] = firstn 1 (pieces keep bd sel g t) /\
      fresh g g' bs /\ forall y, zone_texts g' bs y = if zone_is (g_s g) y t then tl (pieces keep bd sel g t) else [].
  Proof.
    intros (Lt & (z & Ez & OZ) & H) Hb. unfold seg_tree, pieces. destruct (sel t); cbn [negb].
    2: { exists g, []. split; auto. split; [apply frame_refl|]. split; auto. split; [destruct (g_text g t); auto|]. split; [intros c []|].
         intros y. destruct (zone_is (g_s g) y t); auto. destruct (g_text g t); auto. }
    destruct (H eq_refl) as [-> [x Ex]]. rewrite Ex. destruct (b_id (g_s g) b) as [i|] eqn:Eb; [|congruence].
    pose proof (segment_nonempty keep bd x) as NE. destruct (segment_string keep bd x) as [|x0 rest] eqn:ES; [congruence|]. clear NE.
    pose proof (set_bundle_id_frame g b (i ++ PyStr.s "-1")) as F0. cbn [g_s g_text].
    destruct rest as [|x1 rest].
    - apply segment_single in ES as ->.
      eexists _, []. split; [reflexivity|]. split; [exact F0|]. split; auto. split; [cbn; rewrite Ex; auto|split; [intros c []|intros y; destruct (zone_is (g_s g) y t); auto]].
    - destruct (set_bundle_id_fields (g_s g) b (i ++ PyStr.s "-1")) as (A1 & A2 & A3 & A4 & _). cbn [tl]. rewrite A4, Ez.
      set (g1 := mkSeg _ (upd (g_text g) t (Some x0))). destruct (seg_new_spec d z i (x1 :: rest) OZ g1 2%Z) as (g' & bs & E' & F & T & Fr & Z).
      assert (F1 : frame g g1) by (destruct F0; split; auto).
      assert (N1 : nt (g_s g1) = nt (g_s g)) by exact A1.
      exists g', bs. split; [exact E'|]. split; [eapply frame_trans; eauto|]. split.
      { intros y Hy N. rewrite T by lia. cbn. now rewrite upd_other. }
      split; [rewrite T by lia; cbn; now rewrite upd_same|]. split; [eapply fresh_later; eauto|].
      intros y. rewrite Z. unfold zone_is. rewrite Ez. destruct (str_eqb z y); auto.
  Qed.
  Lemma good_tree_frame g g' t : frame g g' -> good_tree g t -> g_text g' t = g_text g t -> good_tree g' t.
  Proof. intros F (A & B & C) E. pose proof (fr_nt _ _ F). split; [lia|]. rewrite (fr_zone _ _ F) by auto. rewrite E. auto. Qed.
  Lemma pieces_text g g' t : g_text g' t = g_text g t -> pieces keep bd sel g' t = pieces keep bd sel g t.
  Proof. unfold pieces. now intros ->. Qed.
  Lemma seg_trees_spec b l : NoDup l -> forall g, (forall t, In t l -> good_tree g t) -> b < nb (g_s g) -> b_id (g_s g) b <> None ->
    exists g' bs, seg_trees keep bd sel kids g d b l = (g', Ok bs) /\ frame g g' /\
      (forall x, x < nt (g_s g) -> ~ In x l -> g_text g' x = g_text g x) /\
      (forall t, In t l -> [g_text g' t] = firstn 1 (pieces keep bd sel g t)) /\
      fresh g g' bs /\ forall y, zone_texts g' bs y = flat_map (fun t => if zone_is (g_s g) y t then tl (pieces keep bd sel g t) else []) l.
  Proof.
    induction 1 as [|t l Nt ND IH]; intros g G Lb Hb; cbn [seg_trees].
    - exists g, []. split; auto. split; [apply frame_refl|]. split; auto. split; [intros t []|]. split; [intros c []|auto].
    - destruct (seg_tree_spec g b t (G t (or_introl eq_refl)) Hb) as (g1 & bs & E1 & F1 & T1 & P1 & Fr1 & Z1). rewrite E1. cbn [bind].
      pose proof (fr_nt _ _ F1) as N1. pose proof (fr_nb _ _ F1) as N1'.
      assert (Tl : forall x, In x l -> g_text g1 x = g_text g x) by (intros x Hx; apply T1; [apply (G x); right; auto|intros ->; auto]).
      destruct (IH g1) as (g2 & bs' & E2 & F2 & T2 & P2 & Fr2 & Z2).
      + intros x Hx. apply (good_tree_frame g g1 x F1); [apply G; right; auto|auto].
      + lia.
      + apply (fr_id _ _ F1); auto.
      + rewrite E2. cbn [bind]. exists g2, (bs ++ bs'). split; auto. split; [eapply frame_trans; eauto|].
        destruct (G t (or_introl eq_refl)) as [Lt _]. split.
        { intros x Lx Nx. rewrite T2, T1; auto; [intros ->; apply Nx; left; auto|lia|intros Q; apply Nx; right; auto]. }
        split.
        { intros x [<-|Hx]; [rewrite T2 by (auto; lia); auto|]. rewrite (P2 x Hx), (pieces_text g g1 x) by auto. auto. }
        split; [apply fresh_app; [eapply fresh_frame; eauto|eapply fresh_later; eauto]|].
        intros y. rewrite zone_texts_app, Z2. cbn [flat_map]. f_equal.
        * rewrite <- Z1. apply (fresh_texts g g1 g2 bs); auto. intros x Hx Lx. apply T2; auto. intros Q. assert (x < nt (g_s g)) by (apply (G x); right; auto). lia.
        * apply flat_map_ext_in'. intros x Hx. rewrite (pieces_text g g1 x) by auto.
          assert (E : zone_is (g_s g1) y x = zone_is (g_s g) y x) by (unfold zone_is; rewrite (fr_zone _ _ F1); auto; apply (G x); right; auto).
          rewrite E. auto.
  Qed.

  Definition good_bundle (g : seg) (b : nat) : Prop :=
    b < nb (g_s g) /\ b_id (g_s g) b <> None /\ NoDup (b_trees (g_s g) b) /\ (forall t, In t (b_trees (g_s g) b) -> good_tree g t) /\
    (forall t t', In t (b_trees (g_s g) b) -> In t' (b_trees (g_s g) b) -> t_zone (g_s g) t = t_zone (g_s g) t' -> t = t').
  Lemma one_zone (f : nat -> list (option str)) (q : nat -> bool) l : NoDup l -> (forall t t', In t l -> In t' l -> q t = true -> q t' = true -> t = t') ->
    (forall t, In t l -> f t <> []) ->
    flat_map (fun t => if q t then firstn 1 (f t) else []) l ++ flat_map (fun t => if q t then tl (f t) else []) l = flat_map f (filter q l).
  Proof.
    induction 1 as [|t l N ND IH]; intros U NE; auto. cbn [flat_map filter]. destruct (q t) eqn:Q.
    - assert (NQ : forall x, In x l -> q x = false).
      { intros x Hx. apply not_true_iff_false. intros Qx. apply N. rewrite (U t x); auto; [left; auto|right; auto]. }
      assert (A : forall h : nat -> list (option str), flat_map (fun t => if q t then h t else []) l = []).
      { intros h. clear -NQ. induction l as [|x l IH]; auto. cbn [flat_map]. rewrite (NQ x (or_introl eq_refl)). apply IH. intros; apply NQ; right; auto. }
      rewrite !A, !app_nil_r. assert (filter q l = []) as -> by (apply filter_none; auto). cbn [flat_map]. rewrite app_nil_r.
      destruct (f t); auto.
    - cbn [app]. apply IH; [intros; apply U; auto; right; auto|intros; apply NE; right; auto].
  Qed.
  Lemma zone_texts_one g b z : zone_texts g [b] z = flat_map (fun t => if zone_is (g_s g) z t then [g_text g t] else []) (b_trees (g_s g) b).
  Proof.
    unfold zone_texts. cbn [flat_map]. rewrite app_nil_r. induction (b_trees (g_s g) b) as [|t l IH]; auto. cbn [filter flat_map].
    destruct (zone_is (g_s g) z t); cbn [map app]; now rewrite IH.
  Qed.
  Lemma seg_bundles_spec l : NoDup l -> forall g, (forall b, In b l -> good_bundle g b) ->
    (forall b c t, In b l -> In c l -> In t (b_trees (g_s g) b) -> In t (b_trees (g_s g) c) -> b = c) ->
    exists g' bs, seg_bundles keep bd sel kids g d l = (g', Ok bs) /\ frame g g' /\
      (forall x, x < nt (g_s g) -> (forall b, In b l -> ~ In x (b_trees (g_s g) b)) -> g_text g' x = g_text g x) /\
      (forall c, In c bs -> c < nb (g_s g') /\ forall t, In t (b_trees (g_s g') c) -> t < nt (g_s g')) /\
      (forall b, In b bs -> In b l \/ nb (g_s g) <= b) /\
      filter (fun b => b <? nb (g_s g)) bs = l /\
      forall y, zone_texts g' bs y = zone_pieces keep bd sel g l y.
  Proof.
    induction 1 as [|b l Nb ND IH]; intros g G U; cbn [seg_bundles].
    - exists g, []. split; auto. split; [apply frame_refl|]. split; auto. split; [intros c []|]. split; [intros c []|]. auto.
    - destruct (G b (or_introl eq_refl)) as (Lb & Ib & NDb & Gb & Ub).
      destruct (seg_trees_spec b _ NDb g Gb Lb Ib) as (g1 & bs & E1 & F1 & T1 & P1 & Fr1 & Z1). rewrite E1. cbn [bind].
      pose proof (fr_nt _ _ F1) as N1. pose proof (fr_nb _ _ F1) as N1'.
      assert (TR : forall c, In c l -> b_trees (g_s g1) c = b_trees (g_s g) c) by (intros c Hc; apply (fr_trees _ _ F1); apply (G c); right; auto).
      assert (TT : forall c t, In c l -> In t (b_trees (g_s g) c) -> t < nt (g_s g) /\ g_text g1 t = g_text g t /\ t_zone (g_s g1) t = t_zone (g_s g) t).
      { intros c t Hc Ht. assert (Lt : t < nt (g_s g)) by (apply (G c (or_intror Hc)); auto). split; auto. split; [|apply (fr_zone _ _ F1); auto].
        apply T1; auto. intros Q. apply Nb. rewrite (U b c t); auto; [left; auto|right; auto]. }
      destruct (IH g1) as (g2 & bs' & E2 & F2 & T2 & C2 & O2 & L2 & Z2).
      + intros c Hc. destruct (G c (or_intror Hc)) as (Lc & Ic & NDc & Gc & Uc). split; [lia|]. rewrite (TR c Hc). split; [apply (fr_id _ _ F1); auto|]. split; auto. split.
        * intros t Ht. apply (good_tree_frame g g1); auto. apply (TT c t); auto.
        * intros t t' Ht Ht'. destruct (TT c t Hc Ht) as (_ & _ & ->), (TT c t' Hc Ht') as (_ & _ & ->). apply Uc; auto.
      + intros c c' t Hc Hc'. rewrite (TR c Hc), (TR c' Hc'). apply U; right; auto.
      + rewrite E2. cbn [bind]. exists g2, (b :: bs ++ bs'). split; auto. split; [eapply frame_trans; eauto|].
        pose proof (fr_nt _ _ F2) as N2. pose proof (fr_nb _ _ F2) as N2'.
        assert (X2 : forall x, x < nt (g_s g1) -> (forall c, In c l -> ~ In x (b_trees (g_s g) c)) -> g_text g2 x = g_text g1 x).
        { intros x Lx Nx. apply T2; auto. intros c Hc. rewrite (TR c Hc). auto. }
        split.
        { intros x Lx Nx. rewrite X2, T1; auto; [apply Nx; left; auto|lia|intros c Hc; apply Nx; right; auto]. }
        split.
        { intros c [<-|Hc].
          - split; [lia|]. rewrite (fr_trees _ _ F2), (fr_trees _ _ F1) by lia. intros t Ht. destruct (Gb t Ht) as [Lt _]. lia.
          - apply in_app_iff in Hc as [Hc|Hc]; [|auto]. destruct (fresh_frame g g1 g2 bs Fr1 F2 c Hc) as [A B]. split; [lia|]. intros t Ht. specialize (B t Ht). lia. }
        split.
        { intros c [<-|Hc]; [left; left; auto|]. apply in_app_iff in Hc as [Hc|Hc]; [right; apply (Fr1 c Hc)|]. destruct (O2 c Hc) as [Q|Q]; [left; right; auto|right; lia]. }
        split.
        { cbn [filter]. destruct (Nat.ltb_spec b (nb (g_s g))); [|lia]. f_equal. rewrite filter_app.
          assert (filter (fun b0 => b0 <? nb (g_s g)) bs = []) as ->.
          { apply filter_none. intros c Hc. apply Nat.ltb_ge. apply (Fr1 c Hc). }
          cbn [app]. transitivity (filter (fun b0 => b0 <? nb (g_s g1)) bs'); [|exact L2].
          apply filter_ext_in. intros c Hc. destruct (O2 c Hc) as [Q|Q].
          - destruct (G c (or_intror Q)) as [Lc _]. destruct (Nat.ltb_spec c (nb (g_s g))), (Nat.ltb_spec c (nb (g_s g1))); auto; lia.
          - destruct (Nat.ltb_spec c (nb (g_s g))), (Nat.ltb_spec c (nb (g_s g1))); auto; lia. }
        intros y. change (b :: bs ++ bs') with ([b] ++ bs ++ bs'). rewrite !zone_texts_app, Z2, app_assoc.
        change (zone_pieces keep bd sel g (b :: l) y) with (flat_map (pieces keep bd sel g) (filter (zone_is (g_s g) y) (b_trees (g_s g) b)) ++ zone_pieces keep bd sel g l y).
        f_equal.
        * rewrite <- (one_zone (pieces keep bd sel g) (zone_is (g_s g) y) (b_trees (g_s g) b) NDb).
          -- f_equal.
             ++ rewrite zone_texts_one, (fr_trees _ _ F2), (fr_trees _ _ F1) by lia. apply flat_map_ext_in'. intros t Ht.
                destruct (Gb t Ht) as [Lt _].
                assert (E : zone_is (g_s g2) y t = zone_is (g_s g) y t) by (unfold zone_is; rewrite (fr_zone _ _ F2), (fr_zone _ _ F1) by lia; auto).
                rewrite E. destruct (zone_is (g_s g) y t); auto. rewrite <- (P1 t Ht), X2; auto; [lia|]. intros c Hc Q. apply Nb. rewrite (U b c t); auto; [left; auto|right; auto].
             ++ rewrite <- Z1. apply (fresh_texts g g1 g2 bs); auto. intros t Lt Lt'. apply X2; auto. intros c Hc Q. destruct (TT c t Hc Q). lia.
          -- intros t t' Ht Ht' Q Q'. apply Ub; auto. apply zone_is_spec in Q, Q'. congruence.
          -- intros t _. apply pieces_nonempty.
        * unfold zone_pieces. apply flat_map_ext_in'. intros c Hc. rewrite (TR c Hc).
          rewrite (filter_ext_in (zone_is (g_s g1) y) (zone_is (g_s g) y)).
          -- apply flat_map_ext_in'. intros t Ht. apply filter_In in Ht as [Ht _]. apply pieces_text. apply (TT c t Hc Ht).
          -- intros t Ht. unfold zone_is. destruct (TT c t Hc Ht) as (_ & _ & ->). auto.
  Qed.
End Doc.

Lemma doc_world_ids s : doc_world s -> forall b, b < nb s -> b_id s b <> None.
Proof.
  induction 1 as [|s o W IH A NS]; [cbn; intros; lia|].
  assert (AT : forall s b t, nb (fst (add_tree s b t)) = nb s /\ b_id (fst (add_tree s b t)) = b_id s).
  { intros s' b t. unfold add_tree. destruct (t_zone s' t) eqn:Z; cbv zeta.
    - destruct (check_zone _ _ _); auto. destruct (b_id s' b) as [[|? ?]|]; auto.
    - destruct (check_zone _ _ _); auto. cbn [put_zone b_id]. destruct (b_id s' b) as [[|? ?]|]; auto. }
  assert (SZ : forall s t z, nb (fst (set_zone s t z)) = nb s /\ b_id (fst (set_zone s t z)) = b_id s).
  { intros s' t z. unfold set_zone. destruct (match t_bundle s' t with Some _ => _ | None => _ end); auto. }
  destruct o; cbn [doc_step args_exist] in *.
  - exact IH.
  - rewrite create_bundle_eq. cbn [fst nb b_id]. intros b Hb. upc b (nb s); [discriminate|apply IH; lia].
  - exact IH.
  - unfold create_tree. destruct (new_tree s zone) as [s1 t] eqn:E. destruct (AT s1 b t) as [P Q].
    assert (nb s1 = nb s /\ b_id s1 = b_id s) as [R S] by (unfold new_tree in E; injection E as <- <-; auto).
    destruct (add_tree s1 b t) as [s2 [[]| |]]; cbn [bind fst] in *; rewrite P, Q, R, S; auto.
  - destruct (AT s b t) as [-> ->]. auto.
  - destruct (SZ s t z) as [-> ->]. auto.
  - unfold set_sent_id. destruct (t_bundle s t) as [b|]; auto. destruct (split1 47%N v) as [[i z]|].
    + destruct (set_bundle_id_fields s b i) as (_ & A2 & _ & _ & _ & _ & A7 & _). destruct (SZ (set_bundle_id s b i) t z) as [P Q].
      destruct (set_zone (set_bundle_id s b i) t z) as [s2 [[]| |]]; cbn [bind fst put_sid nb b_id] in *; rewrite P, Q, A2, A7; intros c Hc; upc c b; auto; discriminate.
    + destruct (set_bundle_id_fields s b v) as (_ & A2 & _ & _ & _ & _ & A7 & _). cbn [fst put_sid nb b_id]. rewrite A2, A7. intros c Hc; upc c b; auto; discriminate.
  - unfold sent_id. destruct (t_sid s t); auto. destruct (t_bundle s t); auto.
  - destruct (set_bundle_id_fields s b v) as (_ & A2 & _ & _ & _ & _ & A7 & _). rewrite A2, A7. intros c Hc; upc c b; auto; discriminate.
  - unfold tree_remove. destruct (t_bundle s t); auto.
  - unfold bundle_remove. set (s1 := put_bundles s _ _).
    destruct (number_from_fields (d_bundles s1 (b_doc s b)) s1 0%Z) as (A1 & A2 & A3 & A4 & A5 & A6 & A7 & A8 & A9 & A10 & A11 & _).
    rewrite A2. first [rewrite A7|rewrite A8]. auto.
Qed.

Lemma seg_document_spec keep bd sel kids s txt d : doc_world s ->
  (forall b t, in_document s d b t -> sel t = true -> kids t = false /\ exists x, txt t = Some x) ->
  exists g', seg_document keep bd sel kids (mkSeg s txt) d = (g', Ok tt) /\
    filter (fun b => b <? nb s) (d_bundles (g_s g') d) = d_bundles s d /\
    forall z, zone_texts g' (d_bundles (g_s g') d) z = zone_pieces keep bd sel (mkSeg s txt) (d_bundles s d) z.
Proof.
  intros W H. pose proof (doc_world_inv s W) as I. unfold seg_document. cbn [g_s].
  destruct (seg_bundles_spec keep bd sel kids d (d_bundles s d) (i_bundles s I d) (mkSeg s txt)) as (g' & bs & E & F & T & C & O & L & Z).
  - intros b Hb. destruct (i_docs s I d b Hb) as (_ & Lb & _). split; auto. split; [apply doc_world_ids; auto|]. split; [apply (i_nodup s I)|]. split.
    + intros t Ht. destruct (i_tree s I b t Ht) as (_ & Lt & _). split; auto. split; [apply (i_zone s I b t Ht)|]. cbn [g_text]. apply (H b t). split; auto.
    + intros t t'. apply (i_zones s I b).
  - intros b c t _ _ Hb Hc. destruct (i_tree s I b t Hb) as [P _], (i_tree s I c t Hc) as [Q _]. congruence.
  - rewrite E. cbn [bind]. eexists. split; [reflexivity|]. cbn [g_s put_bundles d_bundles]. rewrite upd_same. split; auto.
Qed.
