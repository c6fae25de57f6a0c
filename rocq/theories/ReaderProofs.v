(** Proofs about the readers (C28): where the trees go. *)
From Coq Require Import String List NArith ZArith Bool Lia.
From Verif Require Import PyStr PyStrFacts PyList PyListFacts PyExn TreeModel BundleModel BundleSpec BundleProofs
  ReaderModel ReaderSpec.
Import ListNotations.

Lemma NoDup_app_disj {A} (l1 l2 : list A) : NoDup (l1 ++ l2) -> forall x, In x l1 -> In x l2 -> False.
Proof.
  induction l1 as [|a l1 IH]; cbn; intros H x H1 H2; [auto|]. inversion H; subst. destruct H1 as [<-|H1]; [|eauto].
  apply H4, in_app_iff. auto.
Qed.
Lemma NoDup_app_r {A} (l1 l2 : list A) : NoDup (l1 ++ l2) -> NoDup l2.
Proof. induction l1 as [|a l1 IH]; cbn; auto. intros H. inversion H; auto. Qed.

Section P.
Context {A : Type}.
Variables (o : opts) (batch fr : bool) (idp : Prop) (old : nat -> list nat) (fs : list (list (item A))).
Implicit Types (r : reader A) (it : item A).
Notation entry := (nat * item A)%type.
Notation bgroup := (nat * list entry)%type.
Notation dgroup := (nat * list bgroup)%type.

Definition id_of it : str :=
  match it_sid it with Some sid => match split1 47%N sid with Some (i, _) => i | None => sid end | None => [] end.
Definition z_of it : str :=
  match it_sid it with Some sid => match split1 47%N sid with Some (_, z) => z | None => [] end | None => [] end.
Definition zone_of it : str := zone_for o (z_of it).
Definition ents (bs : list bgroup) : list entry := concat (map snd bs).
Definition all_ents (ds : list dgroup) : list entry := concat (map (fun x => ents (snd x)) ds).
Definition all_bundles (ds : list dgroup) : list nat := concat (map (fun x => map fst (snd x)) ds).

Definition tree_ok r (b : nat) (e : entry) : Prop :=
  rd_content r (fst e) = Some (it_content (snd e)) /\
  (idp -> b_id (rd_store r) b = Some (id_of (snd e)) /\ t_zone (rd_store r) (fst e) = Some (zone_of (snd e)) /\
          t_sid (rd_store r) (fst e) = Some (id_of (snd e) ++ slash (zone_of (snd e)))).
Definition bundle_ok r (bg : bgroup) : Prop :=
  b_trees (rd_store r) (fst bg) = old (fst bg) ++ map fst (snd bg) /\ Forall (tree_ok r (fst bg)) (snd bg).
Definition nd_ok r (bs : list bgroup) : Prop :=
  o_split o = true -> Forall (fun e => truthy (rd_newdoc r (fst e)) = false) (tl (ents bs)).
Definition doc_st r (x : dgroup) : Prop :=
  d_bundles (rd_store r) (fst x) = map fst (snd x) /\ Forall (bundle_ok r) (snd x) /\ nd_ok r (snd x).
Record G r (ds : list dgroup) : Prop := {
  g_docs : Forall (doc_st r) ds;
  g_d : NoDup (map fst ds);
  g_dl : Forall (fun d => d < nd (rd_store r)) (map fst ds);
  g_b : NoDup (all_bundles ds);
  g_bl : Forall (fun b => b < nb (rd_store r)) (all_bundles ds);
  g_t : NoDup (map fst (all_ents ds));
  g_tl : Forall (fun t => t < nt (rd_store r)) (map fst (all_ents ds));
  g_old : forall b, nb (rd_store r) <= b -> old b = [] }.
Definition placed_in (ds : list dgroup) (t : nat) : Prop := In t (map fst (all_ents ds)).

(** The objects other than those not in P are the same. *)
Record sim (P : nat -> Prop) r r' : Prop := {
  s_nb : nb (rd_store r') = nb (rd_store r);
  s_nd : nd (rd_store r') = nd (rd_store r);
  s_nt : nt (rd_store r) <= nt (rd_store r');
  s_db : d_bundles (rd_store r') = d_bundles (rd_store r);
  s_bt : b_trees (rd_store r') = b_trees (rd_store r);
  s_bi : b_id (rd_store r') = b_id (rd_store r);
  s_bn : b_number (rd_store r') = b_number (rd_store r);
  s_tz : forall t, P t -> t_zone (rd_store r') t = t_zone (rd_store r) t;
  s_ts : forall t, P t -> t_sid (rd_store r') t = t_sid (rd_store r) t;
  s_c : forall t, P t -> rd_content r' t = rd_content r t;
  s_n : forall t, P t -> rd_newdoc r' t = rd_newdoc r t }.
Lemma sim_refl P r : sim P r r.
Proof. constructor; auto. Qed.
Lemma sim_trans P r1 r2 r3 : sim P r1 r2 -> sim P r2 r3 -> sim P r1 r3.
Proof.
  intros H H'. constructor;
    [rewrite (s_nb _ _ _ H'); apply H|rewrite (s_nd _ _ _ H'); apply H
    |pose proof (s_nt _ _ _ H); pose proof (s_nt _ _ _ H'); lia
    |rewrite (s_db _ _ _ H'); apply H|rewrite (s_bt _ _ _ H'); apply H|rewrite (s_bi _ _ _ H'); apply H
    |rewrite (s_bn _ _ _ H'); apply H|..]; intros t Ht.
  - rewrite (s_tz _ _ _ H') by auto. apply H; auto.
  - rewrite (s_ts _ _ _ H') by auto. apply H; auto.
  - rewrite (s_c _ _ _ H') by auto. apply H; auto.
  - rewrite (s_n _ _ _ H') by auto. apply H; auto.
Qed.
Lemma sim_weaken (P Q : nat -> Prop) r r' : (forall t, Q t -> P t) -> sim P r r' -> sim Q r r'.
Proof. intros W []. constructor; auto. Qed.

Lemma In_ents bs bg e : In bg bs -> In e (snd bg) -> In e (ents bs).
Proof. intros H1 H2. unfold ents. apply in_concat. exists (snd bg). split; auto. now apply in_map. Qed.
Lemma In_all (ds : list dgroup) x e : In x ds -> In e (ents (snd x)) -> placed_in ds (fst e).
Proof.
  intros H1 H2. unfold placed_in. apply in_map. unfold all_ents. apply in_concat. exists (ents (snd x)).
  split; auto. apply (in_map (fun x : dgroup => ents (snd x))); auto.
Qed.
Lemma In_tl {B} (x : B) l : In x (tl l) -> In x l.
Proof. destruct l; cbn; auto. Qed.

Lemma G_sim P r r' ds : sim P r r' -> (forall t, placed_in ds t -> P t) -> G r ds -> G r' ds.
Proof.
  intros S W [H1 H2 H3 H4 H5 H6 H7 H8]. constructor; auto.
  - rewrite Forall_forall in *. intros x Hx. destruct (H1 x Hx) as [E [F N]]. split; [|split].
    + rewrite (s_db _ _ _ S). auto.
    + rewrite Forall_forall in *. intros bg Hb. destruct (F bg Hb) as [E2 F2]. split; [rewrite (s_bt _ _ _ S); auto|].
      rewrite Forall_forall in *. intros e He. destruct (F2 e He) as [C I].
      assert (PP : P (fst e)) by (apply W, (In_all ds x); auto; eapply In_ents; eauto). split.
      * rewrite (s_c _ _ _ S) by auto. auto.
      * intros K. rewrite (s_bi _ _ _ S), (s_tz _ _ _ S), (s_ts _ _ _ S) by auto. auto.
    + intros K. specialize (N K). rewrite Forall_forall in *. intros e He. rewrite (s_n _ _ _ S); auto.
      apply W, (In_all ds x); auto. apply In_tl; auto.
  - rewrite (s_nd _ _ _ S). auto.
  - rewrite (s_nb _ _ _ S). auto.
  - rewrite Forall_forall in *. intros t Ht. pose proof (H7 t Ht). pose proof (s_nt _ _ _ S). lia.
  - rewrite (s_nb _ _ _ S). auto.
Qed.

(** A new bundle at the end of document d. *)
Definition make (s : store) (d : nat) (oi : option str) : store * nat :=
  let (s, b) := create_bundle s d in (match oi with Some i => set_bundle_id s b i | None => s end, b).
Lemma make_eq s d oi : make s d oi =
  (mkSt (nt s) (S (nb s)) (nd s) (t_zone s) (t_sid s) (t_bundle s) (upd (b_trees s) (nb s) [])
        (match oi with
         | Some i => upd (upd (b_id s) (nb s) (Some (str_of_Z (d_highest s d + 1)))) (nb s) (Some i)
         | None => upd (b_id s) (nb s) (Some (str_of_Z (d_highest s d + 1)))
         end)
        (upd (upd (b_number s) (nb s) None) (nb s) (Some (Z.of_nat (length (d_bundles s d)) + 1)%Z))
        (upd (b_doc s) (nb s) d) (upd (d_bundles s) d (d_bundles s d ++ [nb s])) (upd (d_highest s) d (d_highest s d + 1)%Z), nb s).
Proof.
  unfold make. rewrite create_bundle_eq. destruct oi; auto.
  unfold set_bundle_id, put_bid. cbn [nt nb nd t_zone t_sid t_bundle b_trees b_id b_number b_doc d_bundles d_highest].
  rewrite upd_same. reflexivity.
Qed.
Lemma fresh_make r d last : fresh_bundle r d last =
  (with_store r (fst (make (rd_store r) d (if nonempty last then Some last else None))), nb (rd_store r)).
Proof.
  unfold fresh_bundle, make. rewrite create_bundle_eq. destruct (nonempty last); auto.
Qed.

Lemma all_ents_app l1 l2 : all_ents (l1 ++ l2) = all_ents l1 ++ all_ents l2.
Proof. unfold all_ents. now rewrite map_app, concat_app. Qed.
Lemma all_bundles_app l1 l2 : all_bundles (l1 ++ l2) = all_bundles l1 ++ all_bundles l2.
Proof. unfold all_bundles. now rewrite map_app, concat_app. Qed.
Lemma all_ents_1 d bs : all_ents [(d, bs)] = ents bs.
Proof. unfold all_ents. cbn. now rewrite app_nil_r. Qed.
Lemma all_bundles_1 d bs : all_bundles [(d, bs)] = map fst bs.
Proof. unfold all_bundles. cbn. now rewrite app_nil_r. Qed.
Lemma ents_app l1 l2 : ents (l1 ++ l2) = ents l1 ++ ents l2.
Proof. unfold ents. now rewrite map_app, concat_app. Qed.
Lemma ents_1 b g : ents [(b, g)] = g.
Proof. unfold ents. cbn. now rewrite app_nil_r. Qed.
Lemma ents_nils (l : list nat) : ents (map (fun b => (b, [])) l) = [].
Proof. unfold ents. induction l; cbn; auto. Qed.

Lemma In_all_bundles (ds : list dgroup) x bg : In x ds -> In bg (snd x) -> In (fst bg) (all_bundles ds).
Proof.
  intros H1 H2. unfold all_bundles. apply in_concat. exists (map fst (snd x)). split; [|now apply in_map].
  apply (in_map (fun x : dgroup => map fst (snd x))); auto.
Qed.

Lemma G_make r prev d bs oi : G r (prev ++ [(d, bs)]) ->
  G (with_store r (fst (make (rd_store r) d oi))) (prev ++ [(d, bs ++ [(nb (rd_store r), [])])]).
Proof.
  intros [H1 H2 H3 H4 H5 H6 H7 H8]. rewrite make_eq. cbn [fst].
  assert (NB : forall x bg, In x (prev ++ [(d, bs)]) -> In bg (snd x) -> fst bg <> nb (rd_store r)).
  { intros x bg Hx Hb E. rewrite Forall_forall in H5. specialize (H5 _ (In_all_bundles _ x bg Hx Hb)). lia. }
  assert (BK : forall x bg, In x (prev ++ [(d, bs)]) -> In bg (snd x) -> bundle_ok r bg ->
     bundle_ok (with_store r (fst (make (rd_store r) d oi))) bg).
  { intros x bg Hx Hb [E F]. specialize (NB x bg Hx Hb). rewrite make_eq. cbn [fst]. split.
    - cbn. rewrite upd_other by auto. auto.
    - rewrite Forall_forall in *. intros e He. destruct (F e He) as [C I]. split; auto. intros K. cbn [rd_store with_store b_id t_zone t_sid].
      destruct oi; rewrite !upd_other by auto; auto. }
  rewrite make_eq in BK. cbn [fst] in BK.
  assert (AE : all_ents (prev ++ [(d, bs ++ [(nb (rd_store r), [])])]) = all_ents (prev ++ [(d, bs)])).
  { rewrite !all_ents_app, !all_ents_1, ents_app, ents_1, app_nil_r. auto. }
  assert (AB : all_bundles (prev ++ [(d, bs ++ [(nb (rd_store r), [])])]) = all_bundles (prev ++ [(d, bs)]) ++ [nb (rd_store r)]).
  { rewrite !all_bundles_app, !all_bundles_1, map_app, app_assoc. auto. }
  constructor.
  - apply Forall_app. rewrite Forall_app in H1. destruct H1 as [H1 H1']. split.
    + rewrite Forall_forall in *. intros x Hx. destruct (H1 x Hx) as [E [F N]].
      assert (DX : fst x <> d).
      { intros E0. rewrite map_app in H2. cbn in H2. apply NoDup_remove_2 in H2. apply H2. rewrite app_nil_r, <- E0. now apply in_map. }
      split; [|split].
      * cbn. rewrite upd_other by auto. auto.
      * rewrite Forall_forall in *. intros bg Hb. apply (BK x); auto. apply in_app_iff; auto.
      * exact N.
    + inversion H1' as [|? ? [E [F N]] ?]; subst. constructor; auto. split; [|split].
      * cbn. rewrite upd_same, map_app. cbn [fst snd] in E. now rewrite E.
      * cbn [snd] in *. apply Forall_app. split.
        { rewrite Forall_forall in *. intros bg Hb. apply (BK (d, bs)); auto. apply in_app_iff; right; left; auto. }
        { constructor; auto. split; [|constructor]. cbn. rewrite upd_same. rewrite H8 by lia. auto. }
      * cbn [snd] in *. unfold nd_ok in *. rewrite ents_app, ents_1, app_nil_r. exact N.
  - rewrite map_app in *. exact H2.
  - rewrite map_app in *. exact H3.
  - rewrite AB. apply NoDup_snoc; auto. intros Q. rewrite Forall_forall in H5. specialize (H5 _ Q). lia.
  - rewrite AB. apply Forall_app. cbn [nb rd_store with_store]. split; [|repeat constructor].
    eapply Forall_impl; [|exact H5]. cbn. intros; lia.
  - rewrite AE. auto.
  - rewrite AE. auto.
  - cbn [nb rd_store with_store]. intros b Hb. apply H8. lia.
Qed.

(** What add_tree does. *)
Lemma add_tree_ok s b t s' : add_tree s b t = (s', Ok tt) ->
  nb s' = nb s /\ nd s' = nd s /\ nt s' = nt s /\ d_bundles s' = d_bundles s /\ b_id s' = b_id s /\ b_number s' = b_number s /\
  b_trees s' = upd (b_trees s) b (b_trees s b ++ [t]) /\
  (forall x, x <> t -> t_zone s' x = t_zone s x /\ t_sid s' x = t_sid s x) /\
  t_zone s' t = Some (zone_str s t) /\
  (forall i, b_id s b = Some i -> i <> [] -> t_sid s' t = Some (i ++ slash (zone_str s t))).
Proof.
  unfold add_tree.
  set (s1 := match t_zone s t with None => put_zone s t (Some []) | Some _ => s end).
  assert (E1 : zone_str s1 t = zone_str s t /\ t_zone s1 t = Some (zone_str s t) /\ (forall x, x <> t -> t_zone s1 x = t_zone s x) /\
     nb s1 = nb s /\ nd s1 = nd s /\ nt s1 = nt s /\ d_bundles s1 = d_bundles s /\ b_id s1 = b_id s /\ b_number s1 = b_number s /\ b_trees s1 = b_trees s /\ t_sid s1 = t_sid s).
  { unfold s1, zone_str. destruct (t_zone s t) eqn:Z; cbn; rewrite ?Z, ?upd_same; repeat split; auto.
    intros x Hx. rewrite upd_other; auto. }
  destruct E1 as [Z1 [Z2 [Z3 [P1 [P2 [P3 [P4 [P5 [P6 [P7 P8]]]]]]]]]].
  destruct (check_zone s1 b (zone_str s1 t)) as [[]| |]; try discriminate.
  intros E. injection E as <-.
  rewrite Z1, P5.
  destruct (b_id s b) as [[|c i]|] eqn:BI; cbn [put_bundle put_trees put_sid nt nb nd t_zone t_sid t_bundle b_trees b_id b_number b_doc d_bundles d_highest];
    rewrite ?P7, ?P8; repeat split; auto; try (intros x Hx; split; [auto|rewrite ?upd_other; auto]); try (intros j Q1 Q2; congruence).
  - rewrite upd_other; auto.
  - intros j Q1 Q2. rewrite upd_same. congruence.
Qed.
Lemma add_to_ok r b t r' : add_to r b t = (r', Ok tt) -> exists s', r' = with_store r s' /\ add_tree (rd_store r) b t = (s', Ok tt).
Proof.
  unfold add_to. destruct (add_tree _ _ _) as [s' x] eqn:E. intros Q. injection Q as <- <-. eauto.
Qed.

(** A tree that has been read and is not in a bundle yet. *)
Record flight r (ds : list dgroup) (t : nat) it : Prop := {
  fl_nt : t < nt (rd_store r);
  fl_out : ~ placed_in ds t;
  fl_c : rd_content r t = Some (it_content it);
  fl_z : idp -> zone_str (rd_store r) t = zone_of it;
  fl_s : idp -> exists sid, t_sid (rd_store r) t = Some sid /\
            match split1 47%N sid with Some (i, _) => i | None => sid end = id_of it;
  fl_i : idp -> id_of it <> [] }.

Lemma G_add r prev d l1 b g l2 t it r' : G r (prev ++ [(d, l1 ++ (b, g) :: l2)]) ->
  flight r (prev ++ [(d, l1 ++ (b, g) :: l2)]) t it ->
  (idp -> b_id (rd_store r) b = Some (id_of it)) -> ents l2 = [] ->
  (o_split o = true -> ents l1 ++ g = [] \/ truthy (rd_newdoc r t) = false) ->
  add_to r b t = (r', Ok tt) ->
  G r' (prev ++ [(d, l1 ++ (b, g ++ [(t, it)]) :: l2)]).
Proof.
  intros [H1 H2 H3 H4 H5 H6 H7 H8] [T1 T2 T3 T4 T5 T6] BI L2 SP E.
  apply add_to_ok in E as [s' [-> E]]. apply add_tree_ok in E as [E1 [E2 [E3 [E4 [E5 [E6 [E7 [E8 [E9 E10]]]]]]]]].
  assert (AE : forall x, placed_in (prev ++ [(d, l1 ++ (b, g ++ [(t, it)]) :: l2)]) x <-> placed_in (prev ++ [(d, l1 ++ (b, g) :: l2)]) x \/ x = t).
  { intros x. unfold placed_in. rewrite !all_ents_app, !all_ents_1. change ((b, g ++ [(t, it)]) :: l2) with ([(b, g ++ [(t, it)])] ++ l2).
    change ((b, g) :: l2) with ([(b, g)] ++ l2). rewrite !ents_app, !ents_1, L2, !app_nil_r, !map_app, !in_app_iff. cbn. intuition. }
  assert (BB : all_bundles (prev ++ [(d, l1 ++ (b, g ++ [(t, it)]) :: l2)]) = all_bundles (prev ++ [(d, l1 ++ (b, g) :: l2)])).
  { rewrite !all_bundles_app, !all_bundles_1, !map_app. auto. }
  assert (KB : forall x bg, In x (prev ++ [(d, l1 ++ (b, g) :: l2)]) -> In bg (snd x) -> fst bg <> b -> bundle_ok r bg -> bundle_ok (with_store r s') bg).
  { intros x bg Hx Hb NE [F1 F2]. split.
    - cbn. rewrite E7, upd_other; auto.
    - rewrite Forall_forall in *. intros e He. destruct (F2 e He) as [C I].
      assert (fst e <> t) by (intros <-; apply T2, (In_all _ x); auto; eapply In_ents; eauto).
      split; auto. cbn. intros K. rewrite E5. destruct (E8 (fst e)) as [-> ->]; auto. }
  constructor; try rewrite BB; auto.
  - rewrite Forall_app in *. destruct H1 as [H1 H1']. split.
    + rewrite Forall_forall in *. intros x Hx. destruct (H1 x Hx) as [F1 [F2 F3]]. split; [cbn; rewrite E4; auto|]. split.
      * rewrite Forall_forall in *. intros bg Hb. apply (KB x); auto; [apply in_app_iff; auto|].
        intros <-. rewrite all_bundles_app in H4. apply (NoDup_app_disj _ _ H4 (fst bg)); [eapply In_all_bundles; eauto|].
        rewrite all_bundles_1, map_app, in_app_iff. right; left; auto.
      * intros K. specialize (F3 K). rewrite Forall_forall in *. auto.
    + inversion H1' as [|? ? [F1 [F2 F3]] ?]; subst. clear H1'. constructor; auto. cbn [fst snd] in *. split; [|split].
      * cbn. rewrite E4, F1, !map_app. auto.
      * cbn [snd] in *. rewrite Forall_app in *. destruct F2 as [F2 F2']. inversion F2' as [|? ? F4 F5]; subst.
        assert (ND : NoDup (map fst l1 ++ b :: map fst l2)).
        { rewrite all_bundles_app, all_bundles_1, map_app in H4. cbn in H4. apply NoDup_app_r in H4. auto. }
        apply NoDup_remove_2 in ND. rewrite in_app_iff in ND.
        split; [|constructor].
        { rewrite Forall_forall in *. intros bg Hb. apply (KB (d, l1 ++ (b, g) :: l2)); auto.
          - apply in_app_iff; right; left; auto.
          - apply in_app_iff; auto.
          - intros <-. apply ND. left. now apply in_map. }
        { destruct F4 as [F4 F6]. split; cbn [fst snd] in *.
          - cbn. rewrite E7, upd_same, F4, map_app, <- app_assoc. auto.
          - apply Forall_app. split.
            + rewrite Forall_forall in *. intros e He. destruct (F6 e He) as [C I].
              assert (fst e <> t).
              { intros <-. apply T2, (In_all _ (d, l1 ++ (b, g) :: l2)); [apply in_app_iff; right; left; auto|].
                apply (In_ents _ (b, g)); [|exact He]. cbn [snd]. apply in_app_iff; right; left; auto. }
              split; auto. cbn. intros K. rewrite E5. destruct (E8 (fst e)) as [-> ->]; auto.
            + constructor; auto. split; cbn [fst snd]; auto. cbn. intros K. specialize (BI K). rewrite E5. split; auto.
              rewrite E9, <- (T4 K), (E10 _ BI (T6 K)). auto. }
        { rewrite Forall_forall in *. intros bg Hb. apply (KB (d, l1 ++ (b, g) :: l2)); auto.
          - apply in_app_iff; right; left; auto.
          - apply in_app_iff; right; right; auto.
          - intros <-. apply ND. right. now apply in_map. }
      * intros K. specialize (F3 K). cbn [snd] in *.
        assert (Q : forall g, ents (l1 ++ (b, g) :: l2) = ents l1 ++ g).
        { intros g'. change ((b, g') :: l2) with ([(b, g')] ++ l2). rewrite !ents_app, ents_1, L2, app_nil_r. auto. }
        rewrite Q in *. rewrite app_assoc. destruct (SP K) as [SP'|SP'].
        { rewrite SP'. constructor. }
        cbn [rd_newdoc with_store]. destruct (ents l1 ++ g) as [|e l]; cbn [app tl] in *; [constructor|].
        apply Forall_app. split; auto.
  - rewrite map_app in *. exact H2.
  - cbn. rewrite E2, map_app in *. exact H3.
  - cbn. rewrite E1. auto.
  - revert H6 T2. unfold placed_in. rewrite !all_ents_app, !all_ents_1. change ((b, g ++ [(t, it)]) :: l2) with ([(b, g ++ [(t, it)])] ++ l2).
    change ((b, g) :: l2) with ([(b, g)] ++ l2). rewrite !ents_app, !ents_1, L2, !app_nil_r, !app_assoc, (map_app fst _ [(t, it)]). intros H6 T2.
    apply NoDup_snoc; auto.
  - rewrite Forall_forall in *. intros x Hx. apply AE in Hx. cbn. rewrite E3. destruct Hx as [Hx| ->]; auto.
  - cbn. rewrite E1. auto.
Qed.

(** ---- Reading a tree ---- *)
Record misc r r' : Prop := {
  m_files : rd_files r' = rd_files r; m_number : rd_number r' = rd_number r; m_given : rd_given r' = rd_given r;
  m_buffer : rd_buffer r' = rd_buffer r; m_fin : rd_finished r' = rd_finished r }.
Lemma misc_refl r : misc r r.
Proof. constructor; auto. Qed.
Lemma misc_trans r1 r2 r3 : misc r1 r2 -> misc r2 r3 -> misc r1 r3.
Proof. intros [] []. constructor; congruence. Qed.

(** A tree that has just been read. *)
Record raw r (t : nat) it : Prop := {
  w_nt : t < nt (rd_store r);
  w_c : rd_content r t = Some (it_content it);
  w_s : t_sid (rd_store r) t = it_sid it;
  w_z : t_zone (rd_store r) t = None;
  w_b : t_bundle (rd_store r) t = None }.

Lemma alloc_ok r it r1 t : alloc r it = (r1, t) ->
  t = nt (rd_store r) /\ nt (rd_store r1) = S t /\ raw r1 t it /\ rd_newdoc r1 t = it_newdoc it /\
  sim (fun x => x < nt (rd_store r)) r r1 /\ misc r r1 /\ rd_handle r1 = rd_handle r /\ rd_docs r1 = rd_docs r.
Proof.
  unfold alloc, new_tree. intros E. injection E as <- <-. cbn. rewrite !upd_same. repeat split; cbn; rewrite ?upd_same; auto.
  all: intros x Hx; rewrite ?upd_other by lia; auto.
Qed.
Lemma alloc_sent_id r it r1 t : alloc r it = (r1, t) ->
  snd (sent_id (rd_store r1) t) = match it_sid it with Some v => v | None => PyStr.s "?" end.
Proof.
  intros E. apply alloc_ok in E as [_ [_ [[_ _ W1 W2 W3] _]]]. unfold sent_id. rewrite W1. destruct (it_sid it); auto.
  rewrite W3. unfold zone_str. rewrite W2. auto.
Qed.

Lemma filtered_ok b l : forall r skipped r1 root, filtered_from (o_filter o) skipped r b (map Some l) = (r1, root) ->
  sim (fun x => x < nt (rd_store r)) r r1 /\ misc r r1 /\
  match root with
  | None => wanted o l = [] /\ rd_handle r1 = Some (mkFile [] b)
  | Some t => exists it l2, wanted o l = it :: wanted o l2 /\ (forall x, In x l2 -> In x l) /\ In it l /\
      rd_handle r1 = Some (mkFile (map Some l2) b) /\ nt (rd_store r) <= t /\ raw r1 t it
  end.
Proof.
  induction l as [|it l IH]; cbn [map filtered_from]; intros r skipped r1 root.
  - intros E. injection E as <- <-. split; [constructor; auto|]. split; [constructor; auto|]. auto.
  - destruct (alloc r it) as [r2 t] eqn:EA. pose proof (alloc_sent_id _ _ _ _ EA) as SI.
    apply alloc_ok in EA as [Et [En [W [ND [S [M [H D]]]]]]].
    assert (GO : forall r3, sim (fun x => x < nt (rd_store r)) r2 r3 -> misc r2 r3 -> raw r3 t it -> accepted o it = true ->
      let r4 := with_handle r3 (rd_number r3) (Some (mkFile (map Some l) b)) in
      sim (fun x => x < nt (rd_store r)) r r4 /\ misc r r4 /\
      (exists it0 l2, wanted o (it :: l) = it0 :: wanted o l2 /\ (forall x, In x l2 -> In x (it :: l)) /\ In it0 (it :: l) /\
      rd_handle r4 = Some (mkFile (map Some l2) b) /\ nt (rd_store r) <= t /\ raw r4 t it0)).
    { intros r3 S3 M3 W3 AC r4. split; [|split].
      - eapply sim_trans; [exact S|]. destruct S3. constructor; auto.
      - eapply misc_trans; [exact M|]. destruct M3. constructor; auto.
      - exists it, l. unfold wanted. cbn [filter]. rewrite AC. split; auto. split; [intros; right; auto|]. split; [left; auto|].
        split; auto. split; [lia|]. destruct W3. constructor; auto. }
    destruct (o_filter o) as [f|] eqn:OF.
    + rewrite SI. destruct (f _) eqn:Ef.
      * intros E. injection E as <- <-. apply GO.
        { destruct (_ && _); [|apply sim_refl]. constructor; auto. intros x Hx. cbn. rewrite upd_other; auto. lia. }
        { destruct (_ && _); [|apply misc_refl]. constructor; auto. }
        { destruct (_ && _); auto. destruct W. constructor; auto. }
        { unfold accepted. rewrite OF. exact Ef. }
      * intros E. apply IH in E as [S2 [M2 R]].
        assert (AC : accepted o it = false) by (unfold accepted; rewrite OF; exact Ef).
        split; [eapply sim_trans; [exact S|]; eapply sim_weaken; [|exact S2]; cbn; intros; lia|]. split; [eapply misc_trans; eauto|].
        destruct root as [t'|].
        { destruct R as [it' [l2 [R1 [R2 [R3 [R4 [R5 R6]]]]]]]. exists it', l2. unfold wanted. cbn [filter]. rewrite AC. split; auto. split; [intros; right; auto|]. split; [right; auto|]. split; auto. split; [lia|auto]. }
        { unfold wanted. cbn [filter]. rewrite AC. auto. }
    + intros E. injection E as <- <-. apply GO; auto using sim_refl, misc_refl. unfold accepted. now rewrite OF.
Qed.

Definition goodid it : Prop := idp -> it_sid it <> None /\ id_of it <> [].
Lemma id_no_slash it : ~ In 47%N (id_of it).
Proof.
  unfold id_of. destruct (it_sid it) as [v|]; [|intros []]. destruct (split1 47%N v) as [[i z]|] eqn:E.
  - now apply split1_Some in E.
  - now apply split1_None in E.
Qed.
Lemma cut_full i z : ~ In 47%N i -> match split1 47%N (i ++ slash z) with Some (a, _) => a | None => i ++ slash z end = i.
Proof.
  intros N. destruct z as [|c z]; unfold slash; cbn [nonempty].
  - rewrite app_nil_r. apply split1_None in N. rewrite N. auto.
  - change (PyStr.s "/" ++ c :: z) with (47%N :: c :: z). now rewrite split1_app.
Qed.
Lemma set_zone_free s t z : t_bundle s t = None -> exists sid,
  fst (set_zone s t z) = put_sid (put_zone s t (Some z)) t (Some sid) /\
  (forall v, t_sid s t = Some v -> v <> [] -> sid = match split1 47%N v with Some (a, _) => a | None => v end ++ slash z).
Proof.
  intros B. unfold set_zone. rewrite B. cbn [t_bundle t_sid put_zone]. rewrite B. cbn [fst]. eexists. split; [reflexivity|].
  intros v E N. rewrite E. destruct v; [congruence|]. reflexivity.
Qed.

Hypothesis Hid : idp -> o_ignore o = false.

Lemma prepare_ok r ds t it last r' last' add : raw r t it -> goodid it -> ~ placed_in ds t ->
  prepare o r t last = (r', (last', add)) ->
  flight r' ds t it /\ sim (fun x => x <> t) r r' /\ misc r r' /\ rd_handle r' = rd_handle r /\ rd_newdoc r' = rd_newdoc r /\
  (idp -> last' = id_of it /\ add = str_eqb (id_of it) last) /\ (o_ignore o = true -> add = false).
Proof.
  intros [W1 W2 W3 W4 W5] GI NP. unfold prepare.
  set (st := if o_ignore o then _ else _). destruct st as [s1 la] eqn:ES. unfold st in ES. clear st.
  intros E. injection E as <- ->.
  assert (K : nt s1 = nt (rd_store r) /\ nb s1 = nb (rd_store r) /\ nd s1 = nd (rd_store r) /\ d_bundles s1 = d_bundles (rd_store r) /\
     b_trees s1 = b_trees (rd_store r) /\ b_id s1 = b_id (rd_store r) /\ b_number s1 = b_number (rd_store r) /\ t_bundle s1 = t_bundle (rd_store r) /\
     (forall x, x <> t -> t_zone s1 x = t_zone (rd_store r) x /\ t_sid s1 x = t_sid (rd_store r) x) /\
     (idp -> zone_str s1 t = z_of it /\ (exists v, t_sid s1 t = Some v /\ v <> [] /\ match split1 47%N v with Some (i, _) => i | None => v end = id_of it) /\
             last' = id_of it /\ add = str_eqb (id_of it) last) /\ (o_ignore o = true -> add = false)).
  { destruct (o_ignore o) eqn:OI.
    - injection ES as <- <- <-. repeat split; auto; try (solve [cbn; rewrite upd_other; auto]); apply Hid in H; discriminate.
    - rewrite W3 in ES. destruct (it_sid it) as [v|] eqn:IS.
      + destruct (split1 47%N v) as [[i z]|] eqn:SP.
        * injection ES as <- <- <-. destruct (set_zone_free (rd_store r) t z W5) as [sid [E1 E2]]. rewrite E1.
          assert (VN : v <> []) by (intros ->; discriminate).
          specialize (E2 v W3 VN). rewrite SP in E2. pose proof (split1_Some _ _ _ _ SP) as [_ NI].
          repeat split; auto; try (solve [cbn; rewrite upd_other; auto]); try discriminate.
          { unfold zone_str, z_of. cbn. rewrite upd_same, IS, SP. auto. }
          { exists sid. cbn. rewrite upd_same. split; auto. destruct (GI H) as [_ G2]. unfold id_of in *. rewrite IS, SP in *. subst sid. split; [|now apply cut_full].
            intros Q. apply app_eq_nil in Q as [-> _]. auto. }
          { unfold id_of. now rewrite IS, SP. }
          { unfold id_of. now rewrite IS, SP. }
        * injection ES as <- <- <-. repeat split; auto; try discriminate.
          { unfold zone_str, z_of. now rewrite W4, IS, SP. }
          { exists v. destruct (GI H) as [_ G2]. unfold id_of in *. rewrite IS, SP in *. auto. }
          { unfold id_of. now rewrite IS, SP. }
          { unfold id_of. now rewrite IS, SP. }
      + injection ES as <- <- <-. repeat split; auto; try discriminate; try (destruct (GI H); congruence). }
  destruct K as [K1 [K2 [K3 [K4 [K5 [K6 [K7 [K8 [K9 [K10 K11]]]]]]]]]].
  assert (B1 : t_bundle s1 t = None) by (rewrite K8; auto).
  assert (FIN : exists s2, match o_zone o with Some z => fst (set_zone s1 t z) | None => s1 end = s2 /\
     nt s2 = nt s1 /\ nb s2 = nb s1 /\ nd s2 = nd s1 /\ d_bundles s2 = d_bundles s1 /\
     b_trees s2 = b_trees s1 /\ b_id s2 = b_id s1 /\ b_number s2 = b_number s1 /\
     (forall x, x <> t -> t_zone s2 x = t_zone s1 x /\ t_sid s2 x = t_sid s1 x) /\
     (idp -> zone_str s2 t = zone_of it /\ exists v, t_sid s2 t = Some v /\ match split1 47%N v with Some (i, _) => i | None => v end = id_of it)).
  { eexists. split; [reflexivity|]. unfold zone_of, zone_for. destruct (o_zone o) as [z|] eqn:OZ.
    - destruct (set_zone_free s1 t z B1) as [sid [E1 E2]]. rewrite E1. cbn. repeat split; auto; try (solve [rewrite upd_other; auto]).
      + unfold zone_str. cbn. now rewrite upd_same.
      + exists sid. rewrite upd_same. split; auto. destruct (K10 H) as [_ [[v [V1 [V2 V3]]] _]]. assert (Q : sid = id_of it ++ slash z) by (rewrite (E2 v V1 V2); f_equal; exact V3). rewrite Q. apply cut_full, id_no_slash.
    - repeat split; auto; destruct (K10 H) as [Q [[v [V1 [V2 V3]]] _]]; auto. exists v; auto. }
  destruct FIN as [s2 [-> [L1 [L2 [L3 [L4 [L5 [L6 [L7 [L8 L9]]]]]]]]]].
  split; [|split; [|split; [|split; [|split; [|split]]]]]; auto.
  - constructor; cbn; auto; try congruence; try lia.
    + intros H. apply L9; auto.
    + intros H. destruct (L9 H) as [_ Q]. auto.
    + intros H. apply GI; auto.
  - constructor; cbn; auto; try congruence; try lia; intros x Hx; destruct (L8 x Hx), (K9 x Hx); congruence.
  - constructor; auto.
  - intros H. destruct (K10 H) as [_ [_ Q]]. auto.
Qed.

(** ---- Placing a tree ---- *)
Hypothesis Hfr : idp -> fr = true.
Definition nobuf : Prop := o_bpd o = 0 /\ o_split o = false.
Definition joins : Prop := o_bpd o = 0 /\ o_split o = false /\ o_merge o = false.
Fixpoint sep (gs : list (list entry)) : Prop :=
  match gs with
  | g :: ((h :: _) as l) => (forall x y, In x g -> In y h -> id_of (snd x) <> id_of (snd y)) /\ sep l
  | _ => True
  end.
Lemma sep_snoc gs e : sep gs -> (forall g x, last_opt gs = Some g -> In x g -> id_of (snd x) <> id_of (snd e)) -> sep (gs ++ [[e]]).
Proof.
  induction gs as [|g gs IH]; [cbn; auto|]. destruct gs as [|h gs].
  - intros _ H. cbn. split; auto. intros x y Hx [<-|[]]. apply (H g); auto.
  - intros [S1 S2] H. change ((g :: h :: gs) ++ [[e]]) with (g :: (h :: gs) ++ [[e]]).
    change (sep (g :: (h :: gs) ++ [[e]])) with ((forall x y, In x g -> In y h -> id_of (snd x) <> id_of (snd y)) /\ sep ((h :: gs) ++ [[e]])).
    split; auto.
Qed.
Lemma sep_ext gs g e x0 : sep (gs ++ [g]) -> In x0 g -> id_of (snd x0) = id_of (snd e) -> sep (gs ++ [g ++ [e]]).
Proof.
  intros H Hx E. induction gs as [|a gs IH]; [cbn; auto|]. destruct gs as [|h gs].
  - destruct H as [H _]. cbn. split; auto. intros x y Hxa Hy. apply in_app_iff in Hy as [Hy|[<-|[]]]; auto. rewrite <- E. auto.
  - destruct H as [H1 H2]. split; auto.
Qed.

Definition nils (l : list nat) : list bgroup := map (fun b => (b, [])) l.
Record cur r (done : list bgroup) (orig : list nat) (bundle : option nat) (last : str) : Prop := {
  c_bundle : bundle = option_map fst (last_opt done) \/ (bundle = None /\ ~ joins /\ o_bpd o = 0 /\ o_split o = false);
  c_fr : fr = true -> orig = [];
  c_ne : Forall (fun bg : bgroup => snd bg <> []) done;
  c_len : fr = true -> o_bpd o <> 0 -> length done <= o_bpd o;
  c_num : fr = true -> forall bg, last_opt done = Some bg -> b_number (rd_store r) (fst bg) = Some (Z.of_nat (length done));
  c_ign : o_ignore o = true -> Forall (fun bg : bgroup => length (snd bg) <= 1) done;
  c_sep : joins -> idp -> sep (map snd done);
  c_last : idp -> forall bg, last_opt done = Some bg -> last <> [] -> b_id (rd_store r) (fst bg) = Some last;
  c_join : joins -> idp -> done <> [] -> last <> [] }.

Lemma cur_sim P r r' done orig bundle last : sim P r r' -> cur r done orig bundle last -> cur r' done orig bundle last.
Proof.
  intros S [H1 H2 H3 H4 H5 H6 H7 H8 H9]. constructor; auto.
  - intros F bg E. rewrite (s_bn _ _ _ S). auto.
  - intros I bg E N. rewrite (s_bi _ _ _ S). auto.
Qed.
Lemma flight_sim (P : nat -> Prop) r r' ds t it : sim P r r' -> P t -> flight r ds t it -> flight r' ds t it.
Proof.
  intros S Pt [F1 F2 F3 F4 F5 F6]. constructor; auto.
  - pose proof (s_nt _ _ _ S). lia.
  - rewrite (s_c _ _ _ S); auto.
  - unfold zone_str in *. rewrite (s_tz _ _ _ S); auto.
  - rewrite (s_ts _ _ _ S); auto.
Qed.
Lemma sim_docs P r n : sim P r (with_docs r n).
Proof. constructor; auto. Qed.
Lemma sim_finished P r n : sim P r (with_finished r n).
Proof. constructor; auto. Qed.
Lemma sim_buffer P r n : sim P r (with_buffer r n).
Proof. constructor; auto. Qed.
Lemma sim_handle P r n h : sim P r (with_handle r n h).
Proof. constructor; auto. Qed.
Lemma last_snoc {B} (l : list B) x : last_opt l = Some x -> exists l', l = l' ++ [x].
Proof.
  intros H. destruct (exists_last (l := l)) as [l' [y E]]; [intros ->; discriminate|]. subst l. rewrite last_opt_app in H. injection H as ->. eauto.
Qed.

Definition same_input r r' : Prop := misc r r' /\ rd_handle r' = rd_handle r.

(** The tree t goes to the last bundle (b, g). *)
Lemma put_ok r prev d l1 b g orig t it last r1 :
  let ds := prev ++ [(d, (l1 ++ [(b, g)]) ++ nils orig)] in
  G r ds -> flight r ds t it ->
  (idp -> b_id (rd_store r) b = Some (id_of it)) -> (idp -> last = id_of it) ->
  (o_split o = true -> ents l1 ++ g = [] \/ truthy (rd_newdoc r t) = false) ->
  (fr = true -> orig = []) -> Forall (fun bg : bgroup => snd bg <> []) l1 ->
  (fr = true -> o_bpd o <> 0 -> length (l1 ++ [(b, g)]) <= o_bpd o) ->
  (fr = true -> b_number (rd_store r) b = Some (Z.of_nat (length (l1 ++ [(b, g)])))) ->
  (o_ignore o = true -> Forall (fun bg : bgroup => length (snd bg) <= 1) l1 /\ g = []) ->
  (joins -> idp -> sep (map snd (l1 ++ [(b, g ++ [(t, it)])]))) ->
  add_to r b t = (r1, Ok tt) ->
  G r1 (prev ++ [(d, (l1 ++ [(b, g ++ [(t, it)])]) ++ nils orig)]) /\
  cur r1 (l1 ++ [(b, g ++ [(t, it)])]) orig (Some b) last /\ same_input r r1.
Proof.
  cbv zeta. rewrite <- !app_assoc. cbn [app]. intros HG HF BI LA SP FR NE LEN NUM IGN SEP E. split; [|split].
  - eapply G_add; eauto. apply ents_nils.
  - apply add_to_ok in E as [s' [-> E]]. apply add_tree_ok in E as [E1 [E2 [E3 [E4 [E5 [E6 [E7 [E8 [E9 E10]]]]]]]]].
    assert (LL : length (l1 ++ [(b, g ++ [(t, it)])]) = length (l1 ++ [(b, g)])) by (rewrite !app_length; auto).
    constructor; auto.
    + left. now rewrite last_opt_app.
    + apply Forall_app. split; auto. constructor; auto. cbn. intros Q. apply app_eq_nil in Q as [_ Q]. discriminate.
    + rewrite LL. auto.
    + intros F bg Q. rewrite last_opt_app in Q. injection Q as <-. cbn. rewrite E6, LL. auto.
    + intros Q. destruct (IGN Q) as [Q1 ->]. apply Forall_app. split; auto.
    + intros I bg Q _. rewrite last_opt_app in Q. injection Q as <-. cbn. rewrite E5, (LA I). auto.
    + intros _ I _. rewrite (LA I). apply (fl_i _ _ _ _ HF); auto.
  - apply add_to_ok in E as [s' [-> E]]. split; [constructor; auto|auto].
Qed.

Lemma place_ok r prev d done orig bundle last last' add t it r' x :
  let ds := prev ++ [(d, done ++ nils orig)] in
  G r ds -> cur r done orig bundle last -> flight r ds t it ->
  (idp -> last' = id_of it /\ add = str_eqb (id_of it) last) -> (o_ignore o = true -> add = false) ->
  place o r d orig bundle last' add t = (r', Ok x) ->
  match x with
  | Stopped => o_max o <> 0 /\ r' = with_finished r true
  | Buffered => ~ nobuf /\ done <> [] /\ rd_buffer r' = Some t /\ sim (fun _ => True) r r' /\ rd_handle r' = rd_handle r /\ rd_files r' = rd_files r /\
      rd_number r' = rd_number r /\ rd_given r' = rd_given r /\ (rd_finished r = false -> rd_finished r' = false)
  | Full b => o_bpd o <> 0 /\ exists done' orig', G r' (prev ++ [(d, done' ++ nils orig')]) /\ cur r' done' orig' (Some b) last' /\
      ents done' = ents done ++ [(t, it)] /\ same_input r r'
  | Placed orig' b => exists done', G r' (prev ++ [(d, done' ++ nils orig')]) /\ cur r' done' orig' (Some b) last' /\
      ents done' = ents done ++ [(t, it)] /\ same_input r r'
  end.
Proof.
  cbv zeta. intros HG HC HF HA HI. unfold place.
  destruct (truthy (rd_newdoc r t) && over_max o r) eqn:EM.
  { intros E. injection E as <- <-. split; auto. apply andb_prop in EM as [_ EM]. unfold over_max in EM. destruct (o_max o); [discriminate|auto]. }
  destruct (truthy (rd_newdoc r t) && match bundle with Some _ => true | None => false end && o_split o) eqn:ES.
  { intros E. injection E as <- <-. apply andb_prop in ES as [ES ES2]. apply andb_prop in ES as [_ ES1].
    split; [intros [_ Q]; congruence|]. split; [intros ->; destruct (c_bundle _ _ _ _ _ HC) as [Q|[Q _]]; cbn in Q; subst; discriminate|].
    split; auto. split; [constructor; auto|]. auto 10. }
  cbv zeta.
  set (r0 := if truthy (rd_newdoc r t) then with_docs r (S (rd_docs r)) else r).
  assert (S0 : sim (fun _ => True) r r0) by (unfold r0; destruct (truthy _); [apply sim_docs|apply sim_refl]).
  assert (ND0 : rd_newdoc r0 = rd_newdoc r) by (unfold r0; destruct (truthy _); auto).
  assert (I0 : same_input r r0) by (unfold r0; destruct (truthy _); split; try constructor; auto).
  assert (HG0 : G r0 (prev ++ [(d, done ++ nils orig)])) by (eapply G_sim; eauto; cbn; auto).
  assert (HC0 : cur r0 done orig bundle last) by (eapply cur_sim; eauto).
  assert (HF0 : flight r0 (prev ++ [(d, done ++ nils orig)]) t it) by (eapply flight_sim; eauto; cbn; auto).
  assert (SP0 : o_split o = true -> ents done = [] \/ truthy (rd_newdoc r0 t) = false).
  { intros Q. rewrite ND0. rewrite Q, andb_true_r in ES. destruct (truthy (rd_newdoc r t)) eqn:ET; auto. left. cbn in ES.
    destruct bundle; [discriminate|]. destruct (c_bundle _ _ _ _ _ HC) as [B|[_ [_ [_ B]]]]; [|congruence]. destruct (last_opt done) eqn:LD; [discriminate|].
    apply last_opt_None in LD. now subst. }
  clearbody r0. clear HG HC HF ES EM.
  assert (TR : forall r1, same_input r0 r1 -> same_input r r1).
  { intros r1 [Q1 Q2]. destruct I0 as [Q3 Q4]. split; [eapply misc_trans; eauto|congruence]. }
  (* putting the tree into b *)
  assert (PUT : forall l1 b g orig1 r1 y, 
     (forall r2, add_to r1 b t = (r2, Ok tt) ->
        G r2 (prev ++ [(d, (l1 ++ [(b, g ++ [(t, it)])]) ++ nils orig1)]) /\
        cur r2 (l1 ++ [(b, g ++ [(t, it)])]) orig1 (Some b) last' /\ same_input r1 r2) ->
     same_input r0 r1 -> ents done = ents l1 ++ g ->
     bind (add_to r1 b t) (fun r _ =>
      match is_full o r b with
      | Ok true => if o_multi o then (r, Ok (Placed orig1 b)) else (r, Ok (Full b))
      | Ok false => (r, Ok (Placed orig1 b))
      | Raise e => (r, Raise e)
      | Diverge => (r, Diverge)
      end) = (r', Ok y) ->
     match y with
     | Full b => o_bpd o <> 0 /\ exists done' orig', G r' (prev ++ [(d, done' ++ nils orig')]) /\ cur r' done' orig' (Some b) last' /\
         ents done' = ents done ++ [(t, it)] /\ same_input r r'
     | Placed orig' b => exists done', G r' (prev ++ [(d, done' ++ nils orig')]) /\ cur r' done' orig' (Some b) last' /\
         ents done' = ents done ++ [(t, it)] /\ same_input r r'
     | _ => False
     end).
  { intros l1 b g orig1 r1 y H I1 EN. destruct (add_to r1 b t) as [r2 [[]| |]] eqn:EA; cbn [bind]; try discriminate.
    destruct (H r2 eq_refl) as [Q1 [Q2 Q3]].
    assert (Q4 : same_input r r2).
    { destruct I1 as [X1 X2], Q3 as [X3 X4], I0 as [X5 X6]. split; [eapply misc_trans; [eapply misc_trans; [exact X5|exact X1]|exact X3]|congruence]. }
    assert (Q5 : ents (l1 ++ [(b, g ++ [(t, it)])]) = ents done ++ [(t, it)]) by (rewrite EN, ents_app, ents_1, app_assoc; auto).
    unfold is_full. destruct (Nat.eqb_spec (o_bpd o) 0) as [Z|NZ].
    - intros E. injection E as <- <-. eauto 10.
    - destruct (b_number _ _) as [n|]; [|discriminate]. destruct (_ =? n)%Z; [destruct (o_multi o)|]; intros E; injection E as <- <-; eauto 10. }
  assert (WEAK : forall y, match y with
     | Full b => o_bpd o <> 0 /\ exists done' orig', G r' (prev ++ [(d, done' ++ nils orig')]) /\ cur r' done' orig' (Some b) last' /\
         ents done' = ents done ++ [(t, it)] /\ same_input r r'
     | Placed orig' b => exists done', G r' (prev ++ [(d, done' ++ nils orig')]) /\ cur r' done' orig' (Some b) last' /\
         ents done' = ents done ++ [(t, it)] /\ same_input r r'
     | _ => False
     end -> match y with
  | Stopped => o_max o <> 0 /\ r' = with_finished r true
  | Buffered => ~ nobuf /\ done <> [] /\ rd_buffer r' = Some t /\ sim (fun _ => True) r r' /\ rd_handle r' = rd_handle r /\ rd_files r' = rd_files r /\
      rd_number r' = rd_number r /\ rd_given r' = rd_given r /\ (rd_finished r = false -> rd_finished r' = false)
  | Full b => o_bpd o <> 0 /\ exists done' orig', G r' (prev ++ [(d, done' ++ nils orig')]) /\ cur r' done' orig' (Some b) last' /\
      ents done' = ents done ++ [(t, it)] /\ same_input r r'
  | Placed orig' b => exists done', G r' (prev ++ [(d, done' ++ nils orig')]) /\ cur r' done' orig' (Some b) last' /\
      ents done' = ents done ++ [(t, it)] /\ same_input r r'
  end) by (intros [| | |] Q; try contradiction; auto).
  (* a new bundle, or the next one *)
  assert (NEXT : (joins -> idp -> forall bg y, last_opt done = Some bg -> In y (snd bg) -> id_of (snd y) <> id_of it) ->
     (fr = true -> o_bpd o <> 0 -> length done < o_bpd o) ->
     match orig with
     | b :: orig => bind (add_to r0 b t) (fun r _ =>
      match is_full o r b with
      | Ok true => if o_multi o then (r, Ok (Placed orig b)) else (r, Ok (Full b))
      | Ok false => (r, Ok (Placed orig b))
      | Raise e => (r, Raise e)
      | Diverge => (r, Diverge)
      end)
     | [] => let (r, b) := fresh_bundle r0 d last' in bind (add_to r b t) (fun r _ =>
      match is_full o r b with
      | Ok true => if o_multi o then (r, Ok (Placed [] b)) else (r, Ok (Full b))
      | Ok false => (r, Ok (Placed [] b))
      | Raise e => (r, Raise e)
      | Diverge => (r, Diverge)
      end)
     end = (r', Ok x) -> match x with
     | Full b => o_bpd o <> 0 /\ exists done' orig', G r' (prev ++ [(d, done' ++ nils orig')]) /\ cur r' done' orig' (Some b) last' /\
         ents done' = ents done ++ [(t, it)] /\ same_input r r'
     | Placed orig' b => exists done', G r' (prev ++ [(d, done' ++ nils orig')]) /\ cur r' done' orig' (Some b) last' /\
         ents done' = ents done ++ [(t, it)] /\ same_input r r'
     | _ => False
     end).
  { intros DIFF LEN. destruct orig as [|b orig].
    - rewrite fresh_make. unfold nils in *. cbn [map] in *. rewrite app_nil_r in *.
      apply (PUT done (nb (rd_store r0)) [] []).
      + intros r2 EA. pose proof (G_make r0 prev d done (if nonempty last' then Some last' else None) HG0) as GM.
        pose proof (c_fr _ _ _ _ _ HC0). pose proof (c_ne _ _ _ _ _ HC0).
        destruct HC0 as [C1 C2 C3 C4 C5 C6 C7 C8 C9].
        assert (DB : d_bundles (rd_store r0) d = map fst done).
        { destruct HG0 as [D _ _ _ _ _ _ _]. rewrite Forall_app in D. destruct D as [_ D]. inversion D as [|? ? [D1 _] _]; subst. exact D1. }
        apply put_ok; cbn [nils map]; rewrite ?app_nil_r; auto.
        * rewrite make_eq in *. cbn [fst] in *. destruct HF0 as [F1 F2 F3 F4 F5 F6]. constructor; auto.
          intros Q. apply F2. revert Q. unfold placed_in. rewrite !all_ents_app, !all_ents_1, ents_app, ents_1, app_nil_r. auto.
        * intros I. destruct (HA I) as [-> _]. rewrite make_eq. cbn. pose proof (fl_i _ _ _ _ HF0 I) as NEI.
          destruct (id_of it); [congruence|]. cbn. now rewrite upd_same.
        * intros I. apply HA; auto.
        * intros F N. rewrite app_length. cbn. specialize (LEN F N). lia.
        * intros F. rewrite make_eq. cbn. rewrite upd_same, DB, map_length, app_length. cbn. f_equal. lia.
        * intros J I. rewrite map_app. cbn [map snd app]. apply sep_snoc; auto.
          intros g y Q Hy. destruct (last_opt done) as [bg|] eqn:LD.
          { apply last_snoc in LD as [l' ->]. rewrite map_app in Q. cbn in Q. rewrite last_opt_app in Q. injection Q as <-.
            apply (DIFF J I bg); auto. }
          { apply last_opt_None in LD. subst. discriminate. }
      + rewrite make_eq. split; [constructor; auto|auto].
      + now rewrite app_nil_r.
    - assert (NI : idp -> False) by (intros I; pose proof (c_fr _ _ _ _ _ HC0 (Hfr I)); discriminate).
      assert (NF : fr = true -> False) by (intros I; pose proof (c_fr _ _ _ _ _ HC0 I); discriminate).
      apply (PUT done b [] orig).
      + intros r2 EA. destruct HC0 as [C1 C2 C3 C4 C5 C6 C7 C8 C9].
        apply put_ok; auto; try (intros; exfalso; auto; fail).
        * rewrite <- app_assoc. exact HG0.
        * rewrite <- app_assoc. exact HF0.
        * intros Q. rewrite app_nil_r. auto.
      + split; [apply misc_refl|auto].
      + now rewrite app_nil_r. }
  destruct bundle as [b|].
  - destruct (c_bundle _ _ _ _ _ HC0) as [CB|[CB _]]; [|discriminate]. destruct (last_opt done) as [bg|] eqn:LD; [|discriminate]. cbn in CB. injection CB as ->.
    pose proof (last_snoc _ _ LD) as [l1 ED]. destruct add.
    + intros E. apply WEAK. revert E. destruct bg as [b g]. cbn [fst]. apply (PUT l1 b g orig).
      * intros r2 EA. assert (NIG : o_ignore o = true -> False) by (intros Q; specialize (HI Q); discriminate).
        pose proof HG0 as HG1. subst done. destruct HC0 as [C1 C2 C3 C4 C5 C6 C7 C8 C9].
        assert (BI : idp -> b_id (rd_store r0) b = Some (id_of it)).
        { intros I. destruct (HA I) as [L1 L2]. symmetry in L2. apply str_eqb_eq in L2. pose proof (fl_i _ _ _ _ HF0 I) as N. rewrite L2 in *. apply (C8 I _ LD); auto. }
        apply put_ok; auto; try (intros; exfalso; auto; fail).
        { intros I. apply HA; auto. }
        { intros Q. rewrite ents_app, ents_1 in SP0. auto. }
        { rewrite Forall_app in C3. apply C3. }
        { intros F. apply (C5 F _ LD). }
        { intros J I. rewrite map_app in *. cbn [map snd] in *.
          rewrite Forall_app in C3. destruct C3 as [_ C3]. inversion C3 as [|? ? C3' _]; subst. cbn in C3'. destruct g as [|x0 g]; [congruence|].
          apply sep_ext with (x0 := x0); auto; [left; auto|]. cbn [snd].
          assert (TK : tree_ok r0 b x0).
          { destruct HG0 as [D _ _ _ _ _ _ _]. rewrite Forall_app in D. destruct D as [_ D]. inversion D as [|? ? [_ [D1 _]] _]; subst.
            cbn [snd] in D1. rewrite !Forall_app in D1. destruct D1 as [[_ D1] _]. inversion D1 as [|? ? [_ D2] _]; subst. cbn in D2. inversion D2; auto. }
          destruct TK as [_ TK]. destruct (TK I) as [TK' _]. rewrite (BI I) in TK'. congruence. }
      * split; [apply misc_refl|auto].
      * rewrite ED, ents_app. now rewrite ents_1.
    + destruct (is_full o r0 (fst bg)) as [[|]| |] eqn:IF; try discriminate.
      * intros E. injection E as <- <-. unfold is_full in IF. destruct (Nat.eqb_spec (o_bpd o) 0) as [Z|NZ]; [discriminate|].
        split; [intros [Q _]; congruence|]. split; [intros Q; rewrite Q in LD; discriminate|]. split; auto.
        destruct I0 as [[] I0']. split; [eapply sim_trans; [exact S0|apply sim_buffer]|]. cbn. repeat split; congruence.
      * intros E. apply WEAK. revert E. apply NEXT.
        { intros J I bg' y Q Hy Q2. rewrite ?LD in Q. injection Q as <-. destruct HC0 as [C1 C2 C3 C4 C5 C6 C7 C8 C9].
          assert (DN : done <> []) by (intros Q; rewrite Q in LD; discriminate).
          pose proof (C8 I _ LD (C9 J I DN)) as B1. destruct (HA I) as [L1 L2]. symmetry in L2.
          assert (TK : tree_ok r0 (fst bg) y).
          { destruct HG0 as [D _ _ _ _ _ _ _]. rewrite Forall_app in D. destruct D as [_ D]. inversion D as [|? ? [_ [D1 _]] _]; subst.
            cbn [snd] in D1. rewrite !Forall_app in D1. destruct D1 as [[_ D1] _]. inversion D1 as [|? ? [_ D2] _]; subst. rewrite Forall_forall in D2. auto. }
          destruct TK as [_ TK]. destruct (TK I) as [TK' _]. rewrite B1 in TK'. injection TK' as TK'.
          rewrite <- Q2, <- TK' in L2. rewrite (proj2 (str_eqb_eq last last) eq_refl) in L2. discriminate. }
        { intros F NZ. destruct HC0 as [C1 C2 C3 C4 C5 C6 C7 C8 C9]. specialize (C4 F NZ). specialize (C5 F _ LD).
          unfold is_full in IF. apply Nat.eqb_neq in NZ. rewrite NZ, C5 in IF. injection IF as IF. apply Z.eqb_neq in IF.
          assert (o_bpd o <> length done) by (intros Q; apply IF; congruence). lia. }
  - intros E. apply WEAK. revert E. apply NEXT.
    + intros J I bg y Q. destruct (c_bundle _ _ _ _ _ HC0) as [CB|[_ [CB _]]]; [|contradiction]. rewrite Q in CB. discriminate.
    + intros F NZ. destruct (c_bundle _ _ _ _ _ HC0) as [CB|[_ [_ [CB _]]]]; [|contradiction]. destruct (last_opt done) eqn:LD; [discriminate|]. apply last_opt_None in LD. subst. cbn. lia.
Qed.

Lemma G_triv r r' ds : sim (fun _ => True) r r' -> G r ds -> G r' ds.
Proof. intros S. apply (G_sim _ _ _ _ S). auto. Qed.

(** ---- The input still to be read ---- *)
Definition fastmode : Prop := batch = true /\ fr = true /\ o_bpd o = 0 /\ o_filter o = None /\ o_split o = false.
Definition rest r : list (list (item A)) := if rd_given r then [] else skipn (rd_number r) fs.
Record F r (l : list (item A)) : Prop := {
  f_files : rd_files r = map (file_of batch) fs;
  f_given : rd_given r = true -> length fs = 1;
  f_handle : exists f, rd_handle r = Some f /\ f_trees f = map Some l /\ (batch = false -> f_batch f = None) /\
               (fastmode -> f_batch f = Some (Ok (map Some l)));
  f_good : Forall goodid l }.
Hypothesis Hgood : Forall (Forall goodid) fs.
Definition pend r l : list (item A) := wanted o l ++ input o (rest r).
Definition ne {B} (l : list B) : bool := match l with [] => false | _ => true end.
Definition chunks r (l : list (item A)) : list (list (item A)) := filter ne (map (wanted o) (l :: rest r)).
Lemma chunks_nil r l : wanted o l = [] -> chunks r l = filter ne (map (wanted o) (rest r)).
Proof. unfold chunks. cbn [map filter]. intros ->. auto. Qed.

Lemma F_ext r r' l : F r l -> rd_files r' = rd_files r -> rd_given r' = rd_given r -> rd_handle r' = rd_handle r -> F r' l.
Proof.
  intros [H1 H2 H3 H4] M1 M3 E. constructor; try congruence; auto; rewrite ?M3, ?E; auto.
Qed.
Lemma F_same r r' l : F r l -> misc r r' -> rd_handle r' = rd_handle r -> F r' l.
Proof.
  intros [H1 H2 H3 H4] [M1 M2 M3 _ _] E. constructor; try congruence; auto; rewrite ?M3, ?E; auto.
Qed.
Lemma rest_misc r r' : misc r r' -> rest r' = rest r.
Proof. intros [M1 M2 M3 _ _]. unfold rest. now rewrite M2, M3. Qed.

(** Going to the next file when the current one has been read. *)
Lemma next_ok r l : F r l -> wanted o l = [] -> has_next r = true ->
  exists l', F (next_handle r) l' /\ pend (next_handle r) l' = pend r l /\ chunks (next_handle r) l' = chunks r l /\
    rd_buffer (next_handle r) = rd_buffer r /\ rd_finished (next_handle r) = rd_finished r.
Proof.
  intros [H1 H2 H3 H4] E HN. unfold has_next in HN. apply Nat.ltb_lt in HN. rewrite H1, map_length in HN.
  unfold next_handle, pend, chunks, rest. destruct (rd_given r) eqn:GV; cbn [andb].
  - pose proof (H2 eq_refl) as L1. assert (N0 : rd_number r = 0) by lia. rewrite N0. cbn [Nat.eqb].
    exists l. split; [constructor; auto|]. cbn [with_handle rd_given]. rewrite GV. auto.
  - destruct (nth_error fs (rd_number r)) as [l'|] eqn:NE; [|apply nth_error_None in NE; lia].
    exists l'. split; [|split; [|split; [|auto]]].
    + constructor; cbn; auto; [congruence|rewrite H1, nth_error_map, NE; cbn|].
      * exists (file_of batch l'). split; auto. split; auto. split; [intros ->; auto|intros [-> _]; auto].
      * rewrite Forall_forall in Hgood. apply Hgood. eapply nth_error_In; eauto.
    + cbn [with_handle rd_given rd_number]. rewrite GV, E. cbn [app].
      assert (SK : skipn (rd_number r) fs = l' :: skipn (S (rd_number r)) fs).
      { clear - NE. revert NE. generalize (rd_number r). induction fs as [|a l0 IH]; intros [|n]; cbn; try discriminate; [intros E; now injection E as ->|apply IH]. }
      rewrite SK. unfold input. cbn [map concat]. auto.
    + cbn [with_handle rd_given rd_number]. rewrite GV.
      assert (SK : skipn (rd_number r) fs = l' :: skipn (S (rd_number r)) fs).
      { clear - NE. revert NE. generalize (rd_number r). induction fs as [|a l0 IH]; intros [|n]; cbn; try discriminate; [intros E; now injection E as ->|apply IH]. }
      rewrite SK. cbn [map filter]. rewrite E. auto.
Qed.
Lemma no_next_rest r l : F r l -> has_next r = false -> rest r = [].
Proof.
  intros [H1 H2 H3 H4] HN. unfold rest. destruct (rd_given r); auto. unfold has_next in HN. apply Nat.ltb_ge in HN.
  rewrite H1, map_length in HN. now apply skipn_all2.
Qed.

(** The tree in the buffer. *)
Definition buffer_ok r (ds : list dgroup) (bf : list (item A)) : Prop :=
  match bf with
  | [] => rd_buffer r = None
  | [it] => exists t, rd_buffer r = Some t /\ flight r ds t it
  | _ => False
  end.
(** What is known about a finished document. *)
Record shape (bs : list bgroup) : Prop := {
  sh_ne : fr = true -> Forall (fun bg : bgroup => snd bg <> []) bs;
  sh_len : fr = true -> o_bpd o <> 0 -> length bs <= o_bpd o;
  sh_ign : o_ignore o = true -> Forall (fun bg : bgroup => length (snd bg) <= 1) bs;
  sh_sep : joins -> idp -> sep (map snd bs);
  sh_dist : exists done orig, bs = done ++ nils orig /\ Forall (fun bg : bgroup => snd bg <> []) done }.
Lemma cur_shape r done orig bundle last : cur r done orig bundle last -> shape (done ++ nils orig).
Proof.
  intros [C1 C2 C3 C4 C5 C6 C7 C8 C9]. constructor.
  - intros Fr. rewrite (C2 Fr). cbn. rewrite app_nil_r. auto.
  - intros Fr. rewrite (C2 Fr). cbn. rewrite app_nil_r. auto.
  - intros I. apply Forall_app. split; auto. unfold nils. rewrite Forall_map. rewrite Forall_forall. cbn. auto.
  - intros J I. rewrite (C2 (Hfr I)). cbn. rewrite app_nil_r. auto.
  - eauto.
Qed.
Definition solo : Prop := joins /\ o_max o = 0.

Lemma slow_ok fl : ~ fastmode -> forall r d prev done orig bundle last loaded l r',
  F r l -> G r (prev ++ [(d, done ++ nils orig)]) -> cur r done orig bundle last -> rd_buffer r = None -> rd_finished r = false ->
  slow_loop fl o r d orig bundle last loaded = (r', Ok tt) ->
  exists l' bs its bf left,
    F r' l' /\ G r' (prev ++ [(d, bs)]) /\ shape bs /\ buffer_ok r' (prev ++ [(d, bs)]) bf /\
    map snd (ents bs) = map snd (ents done) ++ its /\
    its ++ left = pend r l /\
    (o_max o = 0 \/ rd_finished r' = false -> left = bf ++ pend r' l') /\
    (o_max o = 0 -> rd_finished r' = true -> left = []) /\
    (nobuf -> bf = []) /\
    (solo -> loaded = true -> its = wanted o l /\ chunks r' l' = filter ne (map (wanted o) (rest r))) /\
    (solo -> loaded = false -> chunks r l = filter ne [its] ++ chunks r' l').
Proof.
  intros NFM. induction fl as [|fl IH]; intros r d prev done orig bundle last loaded l r' HF HG HC HB HFI; cbn [slow_loop]; [discriminate|].
  destruct (filtered_read_tree o r) as [r1 root] eqn:EFR.
  assert (FR : sim (fun x => x < nt (rd_store r)) r r1 /\ misc r r1 /\
    match root with
    | None => wanted o l = [] /\ F r1 []
    | Some t => exists it l2, wanted o l = it :: wanted o l2 /\ goodid it /\ F r1 l2 /\ nt (rd_store r) <= t /\ raw r1 t it
    end).
  { destruct HF as [H1 H2 [f [H3 [H4 [H5 H6]]]] H7]. unfold filtered_read_tree in EFR. rewrite H3, H4 in EFR. apply filtered_ok in EFR as [S [M R]].
    split; auto. split; auto. pose proof M as [M1 M2 M3 M4 M5]. destruct root as [t|].
    - destruct R as [it [l2 [R1 [R2 [R3 [R4 [R5 R6]]]]]]]. exists it, l2. split; auto. rewrite Forall_forall in H7. split; [apply H7; auto|].
      split; auto. constructor; try congruence; auto.
      + rewrite M3. auto.
      + rewrite R4. eexists. split; [reflexivity|]. cbn. split; auto. split; auto. intros Q. contradiction.
      + rewrite Forall_forall. auto.
    - destruct R as [R1 R2]. split; auto. constructor; try congruence; auto.
      + rewrite M3. auto.
      + rewrite R2. eexists. split; [reflexivity|]. cbn. split; auto. split; auto. intros Q. contradiction. }
  destruct FR as [S [M R]]. clear EFR.
  assert (PL : forall t, placed_in (prev ++ [(d, done ++ nils orig)]) t -> t < nt (rd_store r)).
  { intros t Ht. pose proof (g_tl _ _ HG) as Q. rewrite Forall_forall in Q. auto. }
  assert (HG1 : G r1 (prev ++ [(d, done ++ nils orig)])) by (eapply G_sim; eauto).
  assert (HC1 : cur r1 done orig bundle last) by (eapply cur_sim; eauto).
  destruct root as [t|].
  - destruct R as [it [l2 [R1 [R2 [R3 [R4 R5]]]]]].
    destruct (negb loaded && negb (truthy (rd_newdoc r1 t)) && over_max o r1) eqn:EOM.
    { intros E. injection E as <-.
      assert (MX : o_max o <> 0) by (apply andb_prop in EOM as [_ EOM]; unfold over_max in EOM; destruct (o_max o); [discriminate|auto]).
      exists l2, (done ++ nils orig), [], [], (pend r l).
      split; [eapply F_ext; eauto|]. split; [eapply G_triv; [apply sim_finished|auto]|].
      split; [eapply cur_shape; eauto|]. split; [cbn; destruct M; congruence|]. split; [unfold nils; rewrite ents_app, ents_nils, !app_nil_r; auto|].
      split; auto. split; [intros [Q|Q]; [congruence|discriminate]|]. split; [intros; congruence|]. split; auto.
      split; intros [_ Q]; congruence. }
    set (r2 := if negb loaded && negb (truthy (rd_newdoc r1 t)) then with_docs r1 (Datatypes.S (rd_docs r1)) else r1).
    assert (S2 : sim (fun _ => True) r1 r2) by (unfold r2; destruct (negb loaded && negb (truthy (rd_newdoc r1 t))); [apply sim_docs|apply sim_refl]).
    assert (I2 : same_input r1 r2) by (unfold r2; destruct (negb loaded && negb (truthy (rd_newdoc r1 t))); split; try constructor; auto).
    assert (W2 : raw r2 t it) by (unfold r2; destruct (negb loaded && negb (truthy (rd_newdoc r1 t))); auto; destruct R5; constructor; auto).
    clearbody r2.
    destruct (prepare o r2 t last) as [r3 [last' add]] eqn:EP.
    assert (NP : ~ placed_in (prev ++ [(d, done ++ nils orig)]) t) by (intros Q; apply PL in Q; lia).
    apply (prepare_ok r2 (prev ++ [(d, done ++ nils orig)]) t it last r3 last' add W2 R2 NP) in EP as [HFL [S3 [M3 [H3 [N3 [HA HI]]]]]].
    assert (HG3 : G r3 (prev ++ [(d, done ++ nils orig)])).
    { eapply G_sim; [exact S3|cbn; intros x Hx ->; auto|]. eapply G_sim; [exact S2|cbn; auto|auto]. }
    assert (HC3 : cur r3 done orig bundle last) by (eapply cur_sim; [exact S3|]; eapply cur_sim; [exact S2|auto]).
    assert (M13 : misc r r3) by (destruct I2; eapply misc_trans; [exact M|]; eapply misc_trans; eauto).
    assert (F3 : F r3 l2).
    { eapply F_same; [exact R3| |]; destruct I2; [eapply misc_trans; eauto|congruence]. }
    assert (FI3 : rd_finished r3 = false) by (destruct M13; congruence).
    assert (BU3 : rd_buffer r3 = None) by (destruct M13; congruence).
    assert (P3 : forall r4, misc r3 r4 -> pend r l = it :: pend r4 l2).
    { intros r4 M4. unfold pend. rewrite R1, (rest_misc r r4); auto. eapply misc_trans; eauto. }
    destruct (place o r3 d orig bundle last' add t) as [r4 [x| |]] eqn:EPL; cbn [bind]; try discriminate.
    apply (place_ok r3 prev d done orig bundle last last' add t it r4 x HG3 HC3 HFL HA HI) in EPL.
    destruct x as [|b| |orig' b].
    + (* Buffered *)
      intros E. injection E as <-. destruct EPL as [NJ [DN [B4 [S4 [Hh4 [Hf4 [Hn4 [Hg4 Hfi]]]]]]]].
      exists l2, (done ++ nils orig), [], [it], (pend r l).
      assert (F4 : F r4 l2) by (destruct F3 as [X1 X2 X3 X4]; constructor; try congruence; auto; [rewrite Hg4; auto|rewrite Hh4; auto]).
      split; auto. split; [eapply G_triv; eauto|].
      split; [eapply cur_shape; eauto|]. split; [exists t; split; auto; eapply flight_sim; [exact S4|exact I|auto]|].
      split; [unfold nils; rewrite ents_app, ents_nils, !app_nil_r; auto|]. split; auto.
      assert (PP : pend r l = [it] ++ pend r4 l2).
      { cbn [app]. rewrite (P3 r3 (misc_refl r3)). f_equal. unfold pend, rest. rewrite Hn4, Hg4. auto. }
      split; [intros _; auto|]. split; [intros _ Q; rewrite Hfi in Q; auto; discriminate|].
      split; [intros Q; contradiction|]. split; intros [[Q [Q' _]] _]; exfalso; apply NJ; split; auto.
    + (* Full *)
      intros E. injection E as <-. destruct EPL as [BP [done' [orig' [G4 [C4 [E4 [M4 H4]]]]]]].
      exists l2, (done' ++ nils orig'), [it], [], (pend r4 l2).
      split; [eapply F_same; eauto|]. split; auto. split; [eapply cur_shape; eauto|].
      split; [cbn; destruct M4; congruence|]. split; [unfold nils; rewrite ents_app, ents_nils, app_nil_r, E4, map_app; auto|].
      split; [rewrite (P3 r4 M4); auto|]. split; auto. split; [intros _ Q; destruct M4; congruence|]. split; auto.
      split; intros [[Q _] _]; contradiction.
    + (* Stopped *)
      intros E. injection E as <-. destruct EPL as [MX ->].
      exists l2, (done ++ nils orig), [], [], (pend r l).
      split; [eapply F_ext; eauto|]. split; [eapply G_triv; [apply sim_finished|auto]|].
      split; [eapply cur_shape; eauto|]. split; [cbn; auto|]. split; [unfold nils; rewrite ents_app, ents_nils, !app_nil_r; auto|].
      split; auto. split; [intros [Q|Q]; [congruence|discriminate]|]. split; [intros; congruence|]. split; auto.
      split; intros [_ Q]; congruence.
    + (* Placed *)
      destruct EPL as [done' [G4 [C4 [E4 [M4 H4]]]]]. intros E.
      assert (F4 : F r4 l2) by (eapply F_same; eauto).
      apply (IH r4 d prev done' orig' (Some b) last' true l2 r' F4 G4 C4) in E as [l' [bs [its [bf [left [Q1 [Q2 [Q3 [Q4 [Q5 [Q6 [Q7 [Q8 [Q9 [Q10 Q11]]]]]]]]]]]]]]].
      2,3: destruct M4; congruence.
      exists l', bs, (it :: its), bf, left.
      split; auto. split; auto. split; auto. split; auto. split; [rewrite Q5, E4, map_app, <- app_assoc; auto|].
      split; [cbn [app]; rewrite Q6, (P3 r4 M4); auto|]. split; auto. split; auto. split; auto.
      assert (RR : rest r4 = rest r) by (apply rest_misc; eapply misc_trans; eauto).
      split.
      * intros SO _. destruct (Q10 SO eq_refl) as [X1 X2]. rewrite X1, R1, X2, RR. auto.
      * intros SO _. destruct (Q10 SO eq_refl) as [X1 X2]. rewrite X1, X2, RR. unfold chunks. cbn [map filter]. rewrite R1. auto.
  - destruct R as [R1 R2].
    destruct ((negb loaded || o_merge o) && has_next r1) eqn:EN.
    + apply andb_prop in EN as [EN1 EN2].
      destruct (next_ok r1 [] R2 eq_refl EN2) as [l3 [F3 [P3 [CH3 [B3 FI3]]]]].
      intros E. apply (IH (next_handle r1) d prev done orig bundle last loaded l3 r' F3) in E as
        [l' [bs [its [bf [left [Q1 [Q2 [Q3 [Q4 [Q5 [Q6 [Q7 [Q8 [Q9 [Q10 Q11]]]]]]]]]]]]]]].
      * exists l', bs, its, bf, left.
        assert (PP : pend r l = pend r1 []) by (unfold pend; rewrite R1, (rest_misc r r1); auto).
        split; auto. split; auto. split; auto. split; auto. split; auto. split; [rewrite Q6, P3, PP; auto|]. split; auto. split; auto. split; auto. split.
        { intros [[J1 [J2 J3]] J4] ->. rewrite J3 in EN1. discriminate. }
        { intros SO EL. rewrite <- (Q11 SO EL), CH3, !chunks_nil by auto. now rewrite (rest_misc r r1). }
      * eapply G_triv; [apply sim_handle|auto].
      * eapply cur_sim; [apply (sim_handle (fun _ => True))|auto].
      * rewrite B3. destruct M; congruence.
      * rewrite FI3. destruct M; congruence.
    + intros E. injection E as <-.
      assert (F1 : F (with_finished r1 (negb (has_next r1))) []) by (eapply F_ext; eauto).
      exists [], (done ++ nils orig), [], [], (pend r l).
      assert (PP : pend r l = input o (rest r1)) by (unfold pend; rewrite R1, (rest_misc r r1); auto).
      split; auto. split; [eapply G_triv; [apply sim_finished|auto]|]. split; [eapply cur_shape; eauto|].
      split; [cbn; destruct M; congruence|]. split; [unfold nils; rewrite ents_app, ents_nils, !app_nil_r; auto|].
      split; auto. split; [intros _; rewrite PP; auto|]. split.
      { intros _ Q. cbn in Q. apply negb_true_iff in Q. rewrite PP, (no_next_rest r1 []); auto. }
      split; auto. split.
      { intros SO _. split; auto. rewrite chunks_nil by auto. change (rest (with_finished r1 (negb (has_next r1)))) with (rest r1).
        now rewrite (rest_misc r r1). }
      { intros SO ->. cbn [filter ne app]. rewrite !chunks_nil by auto. change (rest (with_finished r1 (negb (has_next r1)))) with (rest r1).
        now rewrite (rest_misc r r1). }
Qed.

(** ---- The tree in the buffer ---- *)
Lemma cur_nil r done orig bundle last : cur r done orig bundle last -> ~ joins -> cur r done orig bundle [].
Proof.
  intros [C1 C2 C3 C4 C5 C6 C7 C8 C9] NJ. constructor; auto; intros; congruence || contradiction.
Qed.
Lemma cur_0 r orig : (fr = true -> orig = []) -> cur r [] orig None [].
Proof. intros H. constructor; cbn; auto; try discriminate; try lia; try congruence. Qed.
Lemma joins_nobuf : joins -> nobuf.
Proof. intros [Q1 [Q2 _]]. split; auto. Qed.

Lemma buffer_taken r prev d orig bf r' orig' bundle :
  (fr = true -> orig = []) -> G r (prev ++ [(d, nils orig)]) -> buffer_ok r (prev ++ [(d, nils orig)]) bf -> (nobuf -> bf = []) ->
  take_buffer r d orig = (r', Ok (orig', bundle)) ->
  exists done, G r' (prev ++ [(d, done ++ nils orig')]) /\ cur r' done orig' bundle [] /\ rd_buffer r' = None /\
    map snd (ents done) = bf /\ rd_files r' = rd_files r /\ rd_number r' = rd_number r /\ rd_given r' = rd_given r /\
    rd_finished r' = rd_finished r /\ rd_handle r' = rd_handle r.
Proof.
  intros FO HG HB NB. unfold take_buffer. destruct bf as [|it [|? ?]]; [|destruct HB as [t [HB HF]]|destruct HB].
  - cbn in HB. rewrite HB. intros E. injection E as <- <- <-. exists []. cbn [app]. split; auto. split; [apply cur_0; auto|]. auto 10.
  - rewrite HB. assert (NJ : ~ joins) by (intros Q; apply joins_nobuf in Q; specialize (NB Q); discriminate).
    assert (HG1 : G (with_buffer r None) (prev ++ [(d, nils orig)])) by (eapply G_triv; [apply sim_buffer|auto]).
    assert (HF1 : flight (with_buffer r None) (prev ++ [(d, nils orig)]) t it) by (eapply flight_sim; [apply (sim_buffer (fun _ => True))|exact I|auto]).
    assert (LAST : forall r1 b o1 r2, same_input (with_buffer r None) r1 -> G r1 (prev ++ [(d, ([] ++ [(b, [])]) ++ nils o1)]) ->
       flight r1 (prev ++ [(d, ([] ++ [(b, [])]) ++ nils o1)]) t it -> (idp -> b_id (rd_store r1) b = Some (id_of it)) ->
       (fr = true -> o1 = []) -> (fr = true -> b_number (rd_store r1) b = Some 1%Z) ->
       bind (add_to r1 b t) (fun r _ =>
       ((if truthy (rd_newdoc r t) then with_docs r (S (rd_docs r)) else r), Ok (o1, Some b))) = (r2, Ok (orig', bundle)) ->
       exists done, G r2 (prev ++ [(d, done ++ nils orig')]) /\ cur r2 done orig' bundle [] /\ rd_buffer r2 = None /\
         map snd (ents done) = [it] /\ rd_files r2 = rd_files r /\ rd_number r2 = rd_number r /\ rd_given r2 = rd_given r /\
         rd_finished r2 = rd_finished r /\ rd_handle r2 = rd_handle r).
    { intros r1 b o1 r2 SI G1 F1 B1 FR1 N1. destruct (add_to r1 b t) as [r3 [[]| |]] eqn:EA; cbn [bind]; try discriminate.
      apply (put_ok r1 prev d [] b [] o1 t it (id_of it) r3 G1 F1) in EA as [G3 [C3 [M3 H3]]]; auto.
      - intros E. injection E as <- <- <-. exists [(b, [(t, it)])]. cbn [app] in *.
        set (r4 := if truthy (rd_newdoc r3 t) then with_docs r3 (S (rd_docs r3)) else r3).
        assert (S4 : sim (fun _ => True) r3 r4) by (unfold r4; destruct (truthy _); [apply sim_docs|apply sim_refl]).
        assert (I4 : same_input r3 r4) by (unfold r4; destruct (truthy _); split; try constructor; auto).
        clearbody r4. destruct I4 as [[X1 X2 X3 X4 X5] X6], M3 as [Y1 Y2 Y3 Y4 Y5], SI as [[Z1 Z2 Z3 Z4 Z5] Z6]. cbn in Z1, Z2, Z3, Z4, Z5, Z6.
        split; [eapply G_triv; eauto|]. split; [eapply cur_sim; [exact S4|]; eapply cur_nil; eauto|].
        repeat split; congruence.
      - cbn. lia.
      - intros J. contradiction. }
    destruct orig as [|b orig].
    + pose proof (make_eq (rd_store r) d) as ME. unfold make in ME. cbn [rd_store with_buffer].
      destruct (create_bundle (rd_store r) d) as [s b] eqn:EC. cbv zeta.
      set (oi := match t_sid s t with
                 | Some sid => Some (match split1 47%N sid with Some (i, _) => i | None => sid end)
                 | None => None end).
      assert (MK : match t_sid s t with
                   | Some sid => set_bundle_id s b (match split1 47%N sid with Some (i, _) => i | None => sid end)
                   | None => s
                   end = fst (make (rd_store r) d oi) /\ b = nb (rd_store r)).
      { specialize (ME oi). unfold make. rewrite EC. injection ME as _ ->. split; auto. unfold oi. destruct (t_sid s t); auto. }
      destruct MK as [MK ->]. rewrite MK.
      assert (TS : t_sid s t = t_sid (rd_store r) t).
      { specialize (ME None). cbn [fst] in ME. injection ME as ->. auto. }
      intros E. eapply LAST; [| | | | | |exact E].
      * split; [constructor; auto|auto].
      * apply (G_make (with_buffer r None) prev d [] oi) in HG1. exact HG1.
      * rewrite make_eq. destruct HF1 as [Q1 Q2 Q3 Q4 Q5 Q6]. constructor; auto.
        intros Q. apply Q2. revert Q. unfold placed_in. rewrite !all_ents_app, !all_ents_1. auto.
      * intros I. destruct (fl_s _ _ _ _ HF1 I) as [sid [V1 V2]]. cbn in V1. rewrite make_eq. unfold oi. rewrite TS, V1. cbn. rewrite upd_same. f_equal. exact V2.
      * auto.
      * intros F1. rewrite make_eq. cbn. rewrite upd_same. f_equal.
        assert (DB : d_bundles (rd_store r) d = []).
        { destruct HG as [D _ _ _ _ _ _ _]. rewrite Forall_app in D. destruct D as [_ D]. inversion D as [|? ? [D1 _] _]; subst. exact D1. }
        rewrite DB. auto.
    + assert (NI : idp -> False) by (intros I; specialize (FO (Hfr I)); discriminate).
      assert (NF : fr = true -> False) by (intros I; specialize (FO I); discriminate).
      intros E. eapply LAST; [| | | | | |exact E]; try (intros; exfalso; auto; fail).
      * split; [constructor; auto|auto].
      * exact HG1.
      * exact HF1.
Qed.

(** ---- The fast path ---- *)
Lemma fast_trees_ok l : o_bpd o = 0 -> o_split o = false -> forall r prev d done bundle last r' x,
  Forall goodid l -> G r (prev ++ [(d, done ++ nils [])]) -> cur r done [] bundle last -> rd_finished r = false ->
  fast_trees o r d bundle last (map Some l) = (r', Ok x) ->
  exists done' bundle' last' its left, G r' (prev ++ [(d, done' ++ nils [])]) /\ cur r' done' [] bundle' last' /\
    map snd (ents done') = map snd (ents done) ++ its /\ its ++ left = l /\ rd_handle r' = rd_handle r /\
    rd_files r' = rd_files r /\ rd_number r' = rd_number r /\ rd_given r' = rd_given r /\ rd_buffer r' = rd_buffer r /\
    match x with FastAll => left = [] /\ rd_finished r' = false | FastFinished => o_max o <> 0 /\ rd_finished r' = true end.
Proof.
  intros B0 S0. induction l as [|it l IH]; intros r prev d done bundle last r' x GD HG HC HFI; cbn [map fast_trees].
  - intros E. injection E as <- <-. exists done, bundle, last, [], []. rewrite (app_nil_r (map snd _)). split; auto. split; auto. repeat split; auto.
  - inversion GD as [|? ? GI GD']; subst. destruct (alloc r it) as [r1 t] eqn:EA.
    apply alloc_ok in EA as [Et [En [W [ND [S [M [H D]]]]]]].
    assert (PL : forall t, placed_in (prev ++ [(d, done ++ nils [])]) t -> t < nt (rd_store r)).
    { intros t' Ht. pose proof (g_tl _ _ HG) as Q. rewrite Forall_forall in Q. auto. }
    assert (HG1 : G r1 (prev ++ [(d, done ++ nils [])])) by (eapply G_sim; eauto).
    assert (HC1 : cur r1 done [] bundle last) by (eapply cur_sim; eauto).
    destruct (truthy (rd_newdoc r1 t) && over_max o r1) eqn:EOM.
    { intros E. injection E as <- <-. exists done, bundle, last, [], (it :: l).
      split; [eapply G_triv; [apply sim_finished|auto]|]. split; [eapply cur_sim; [apply (sim_finished (fun _ => True))|auto]|].
      destruct M. repeat split; auto; [rewrite app_nil_r; auto|]. apply andb_prop in EOM as [_ EOM]. unfold over_max in EOM. destruct (o_max o); [discriminate|auto]. }
    set (r2 := if truthy (rd_newdoc r1 t) then with_docs r1 (Datatypes.S (rd_docs r1)) else r1).
    assert (S2 : sim (fun _ => True) r1 r2) by (unfold r2; destruct (truthy _); [apply sim_docs|apply sim_refl]).
    assert (I2 : same_input r1 r2) by (unfold r2; destruct (truthy _); split; try constructor; auto).
    assert (W2 : raw r2 t it) by (unfold r2; destruct (truthy _); auto; destruct W; constructor; auto).
    clearbody r2.
    destruct (prepare o r2 t last) as [r3 [last' add]] eqn:EP.
    assert (NP : ~ placed_in (prev ++ [(d, done ++ nils [])]) t) by (intros Q; apply PL in Q; lia).
    apply (prepare_ok r2 (prev ++ [(d, done ++ nils [])]) t it last r3 last' add W2 GI NP) in EP as [HFL [S3 [M3 [H3 [N3 [HA HI]]]]]].
    assert (HG3 : G r3 (prev ++ [(d, done ++ nils [])])).
    { eapply G_sim; [exact S3|cbn; intros x' Hx ->; auto|]. eapply G_triv; eauto. }
    assert (HC3 : cur r3 done [] bundle last) by (eapply cur_sim; [exact S3|]; eapply cur_sim; [exact S2|auto]).
    assert (M13 : misc r r3) by (destruct I2; eapply misc_trans; [exact M|]; eapply misc_trans; eauto).
    (* this is what place does, as if the tree had no newdoc *)
    set (r3' := with_newdoc r3 t NotDoc).
    assert (S3' : sim (fun x => x <> t) r3 r3') by (constructor; auto; intros y Hy; cbn; rewrite upd_other; auto).
    assert (PE : forall r4 y, 
      (let '(r, b) := match bundle with
                     | Some b => if add then (r3, b) else fresh_bundle r3 d last'
                     | None => fresh_bundle r3 d last'
                     end in bind (add_to r b t) (fun r _ => (r, Ok b))) = (r4, Ok y) ->
      place o r3' d [] bundle last' add t = (with_newdoc r4 t NotDoc, Ok (Placed [] y)) /\ misc r3 r4 /\ rd_handle r4 = rd_handle r3).
    { intros r4 y. assert (IFL : forall r b, is_full o r b = Ok false) by (intros; unfold is_full; rewrite B0; auto).
      unfold place. assert (TF : truthy (rd_newdoc r3' t) = false) by (unfold r3'; cbn; rewrite upd_same; auto). rewrite TF. cbn [andb]. cbv zeta.
      assert (ADD : forall s b, bind (add_to (with_store r3 s) b t) (fun r _ => (r, Ok b)) = (r4, Ok y) ->
         bind (add_to (with_store r3' s) b t) (fun r _ => match is_full o r b with
            | Ok true => if o_multi o then (r, Ok (Placed [] b)) else (r, Ok (Full b))
            | Ok false => (r, Ok (Placed [] b)) | Raise e => (r, Raise e) | Diverge => (r, Diverge) end) =
         (with_newdoc r4 t NotDoc, Ok (Placed [] y)) /\ misc r3 r4 /\ rd_handle r4 = rd_handle r3).
      { intros s b. unfold add_to. cbn [rd_store with_store]. destruct (add_tree s b t) as [s' [[]| |]]; cbn [bind]; try discriminate.
        intros E. injection E as <- <-. rewrite IFL. split; [reflexivity|]. split; [constructor; auto|auto]. }
      assert (SELF : forall rr : reader A, with_store rr (rd_store rr) = rr) by (intros []; reflexivity).
      destruct bundle as [b|]; [destruct add|].
      - intros E. rewrite <- (SELF r3) in E. apply ADD in E. rewrite <- (SELF r3'). exact E.
      - rewrite !IFL, !fresh_make. intros E. apply ADD in E. exact E.
      - rewrite !fresh_make. intros E. apply ADD in E. exact E. }
    intros E.
    assert (EX : exists r4 y, (let '(r, b) := match bundle with
                     | Some b => if add then (r3, b) else fresh_bundle r3 d last'
                     | None => fresh_bundle r3 d last'
                     end in bind (add_to r b t) (fun r _ => (r, Ok b))) = (r4, Ok y) /\
                 fast_trees o r4 d (Some y) last' (map Some l) = (r', Ok x)).
    { revert E. destruct (match bundle with Some b => _ | None => _ end) as [r5 b]. destruct (add_to r5 b t) as [r6 [[]| |]]; cbn [bind]; try discriminate. eauto. }
    destruct EX as [r4 [y [E4 E5]]]. destruct (PE r4 y E4) as [EPL [M4 H4]].
    assert (HG3' : G r3' (prev ++ [(d, done ++ nils [])])) by (eapply G_sim; [exact S3'|cbn; intros x' Hx ->; auto|auto]).
    assert (HC3' : cur r3' done [] bundle last) by (eapply cur_sim; eauto).
    assert (HFL' : flight r3' (prev ++ [(d, done ++ nils [])]) t it) by (destruct HFL; constructor; auto).
    pose proof (place_ok r3' prev d done [] bundle last last' add t it _ _ HG3' HC3' HFL' HA HI EPL) as PK. cbn iota beta in PK.
    destruct PK as [done' [G4 [C4 [E6 _]]]].
    assert (S4 : sim (fun x => x <> t) (with_newdoc r4 t NotDoc) r4) by (constructor; auto; intros z Hz; cbn; rewrite upd_other; auto).
    assert (G4' : G r4 (prev ++ [(d, done' ++ nils [])])).
    { destruct G4 as [D1 D2 D3 D4 D5 D6 D7 D8]. constructor; auto. eapply Forall_impl; [|exact D1].
      intros dg [K1 [K2 K3]]. split; auto. split; auto. intros Q. congruence. }
    assert (C4' : cur r4 done' [] (Some y) last') by (eapply cur_sim; [exact S4|auto]).
    assert (FI4 : rd_finished r4 = false) by (destruct M4, M13; congruence).
    apply (IH r4 prev d done' (Some y) last' r' x GD' G4' C4' FI4) in E5 as [done2 [bun2 [la2 [its [left [Q1 [Q2 [Q3 [Q4 [Q5 [Q6 [Q7 [Q8 [Q9 Q10]]]]]]]]]]]]]].
    exists done2, bun2, la2, (it :: its), left. split; auto. split; auto. split; [rewrite Q3, E6, map_app, <- app_assoc; auto|].
    split; [cbn; congruence|]. destruct M4, M13, I2. repeat split; auto; try congruence.
Qed.

Lemma first_newdoc_ok (l : list (item A)) : first_newdoc (map Some l) = Ok tt.
Proof. destruct l; auto. Qed.
Lemma wanted_all (l : list (item A)) : o_filter o = None -> wanted o l = l.
Proof.
  intros H. unfold wanted. rewrite (filter_ext _ (fun _ => true)).
  - induction l; cbn; congruence.
  - intros it. unfold accepted. now rewrite H.
Qed.
Lemma pend_chunks r l : pend r l = [] -> chunks r l = [].
Proof.
  unfold pend, chunks, input. cbn [map filter]. intros E. apply app_eq_nil in E as [-> E]. cbn [ne].
  induction (map (wanted o) (rest r)) as [|a l0 IH]; auto. cbn in *. apply app_eq_nil in E as [-> E]. cbn. auto.
Qed.

Lemma fast_files_ok fl : fastmode -> forall r prev d done last l r' x,
  F r l -> G r (prev ++ [(d, done ++ nils [])]) -> cur r done [] None last -> last = [] -> rd_buffer r = None -> rd_finished r = false ->
  (done = [] \/ o_merge o = true) ->
  fast_files fl o r d = (r', Ok x) ->
  x = true /\ exists bs its left,
    G r' (prev ++ [(d, bs)]) /\ shape bs /\ rd_buffer r' = None /\
    map snd (ents bs) = map snd (ents done) ++ its /\ its ++ left = pend r l /\
    (rd_finished r' = false -> exists l', F r' l' /\ left = pend r' l' /\ (solo -> chunks r l = filter ne [its] ++ chunks r' l')) /\
    (o_max o = 0 -> rd_finished r' = true -> left = [] /\ (solo -> chunks r l = filter ne [its])).
Proof.
  intros FM. pose proof FM as [FM1 [FM2 [FM3 [FM4 FM5]]]].
  induction fl as [|fl IH]; intros r prev d done last l r' x HF HG HC EL HB HFI HM; cbn [fast_files]; [discriminate|].
  pose proof HF as [H1 H2 [f [H3 [H4 [H5 H6]]]] H7]. rewrite H3, (H6 FM), first_newdoc_ok.
  set (r1 := with_handle r (rd_number r) (Some (mkFile [] (Some (Ok []))))).
  assert (G1 : G r1 (prev ++ [(d, done ++ nils [])])) by (eapply G_triv; [apply sim_handle|auto]).
  assert (C1 : cur r1 done [] None last) by (eapply cur_sim; [apply (sim_handle (fun _ => True))|auto]).
  destruct (fast_trees o r1 d None [] (map Some l)) as [r2 [y| |]] eqn:EF; cbn [bind]; try discriminate.
  subst last. apply (fast_trees_ok l FM3 FM5 r1 prev d done None [] r2 y H7 G1 C1 HFI) in EF as
    [done2 [bun2 [la2 [its [left [Q1 [Q2 [Q3 [Q4 [Q5 [Q6 [Q7 [Q8 [Q9 Q10]]]]]]]]]]]]]].
  pose proof (cur_shape _ _ _ _ _ Q2) as SH.
  destruct y.
  - destruct Q10 as [-> Q10]. rewrite app_nil_r in Q4. subst its.
    assert (F2 : F r2 []).
    { change (rd_files r1) with (rd_files r) in Q6. change (rd_given r1) with (rd_given r) in Q8.
      constructor; [congruence|rewrite Q8; auto|rewrite Q5|auto]. exists (mkFile [] (Some (Ok []))). cbn. split; auto. split; auto.
      split; [intros; congruence|auto]. }
    assert (R2 : rest r2 = rest r) by (unfold rest; rewrite Q7, Q8; auto).
    assert (PE : pend r l = l ++ pend r2 []) by (unfold pend; rewrite R2, wanted_all; auto).
    assert (CE : chunks r l = filter ne [l] ++ chunks r2 []).
    { unfold chunks. cbn [map filter]. rewrite R2, wanted_all by auto. destruct l; auto. }
    destruct (has_next r2) eqn:HN.
    + destruct (next_ok r2 [] F2 eq_refl HN) as [l3 [F3 [P3 [CH3 [B3 FI3]]]]].
      destruct (f_handle _ _ F3) as [f3 [E3 _]]. rewrite E3.
      assert (G3 : G (next_handle r2) (prev ++ [(d, done2 ++ nils [])])) by (eapply G_triv; [apply sim_handle|auto]).
      destruct (o_merge o) eqn:OM.
      * intros E. apply (IH (next_handle r2) prev d done2 [] l3 r' x F3 G3) in E as [-> [bs [its [left [V1 [V2 [V3 [V4 [V5 [V6 V7]]]]]]]]]]; auto.
        { split; auto. exists bs, (l ++ its), left. split; auto. split; auto. split; auto. split; [rewrite V4, Q3, app_assoc; auto|].
          split; [rewrite <- app_assoc, V5, P3, PE; auto|]. split.
          - intros FF. destruct (V6 FF) as [l' [U1 [U2 U3]]]. exists l'. split; auto. split; auto. intros [[_ [_ J]] _]. congruence.
          - intros MX FF. destruct (V7 MX FF) as [U1 _]. split; auto. intros [[_ [_ J]] _]. congruence. }
        { eapply cur_sim; [apply (sim_handle (fun _ => True))|]. eapply cur_nil with (last := la2); [|intros [_ [_ J]]; congruence].
          destruct Q2 as [D1 D2 D3 D4 D5 D6 D7 D8 D9]. constructor; auto. right. split; auto. split; auto. intros [_ [_ J]]. congruence. }
        { rewrite B3, Q9. auto. }
      * intros E. injection E as <- <-. split; auto. exists (done2 ++ nils []), l, (pend r2 []). split; auto. split; auto.
        split; [rewrite B3, Q9; auto|]. split; [unfold nils; rewrite ents_app, ents_nils, app_nil_r; auto|]. split; auto. split.
        { intros _. exists l3. split; auto. split; auto. intros _. rewrite CH3. auto. }
        { intros _ Q. rewrite FI3 in Q. congruence. }
    + assert (NH : rd_handle (next_handle r2) = None).
      { unfold has_next in HN. apply Nat.ltb_ge in HN. unfold next_handle. cbn [with_handle rd_handle].
        destruct (rd_given r2) eqn:GV; cbn [andb].
        - assert (L1 : length fs = 1) by (apply H2; symmetry; exact Q8). destruct (rd_number r2) as [|n]; [|now apply nth_error_None].
          rewrite Q6 in HN. cbn in HN. rewrite H1, map_length in HN. lia.
        - now apply nth_error_None. }
      rewrite NH. intros E. injection E as <- <-. split; auto.
      pose proof (no_next_rest r2 [] F2 HN) as RN.
      exists (done2 ++ nils []), l, []. split; [eapply G_triv; [apply sim_finished|]; eapply G_triv; [apply sim_handle|auto]|]. split; auto.
      split; [cbn; rewrite Q9; auto|]. split; [unfold nils; rewrite ents_app, ents_nils, app_nil_r; auto|].
      split; [rewrite PE; unfold pend; rewrite RN, app_nil_r; cbn; rewrite app_nil_r; auto|]. split; [discriminate|].
      intros _ _. split; auto. intros _. rewrite CE, chunks_nil by auto. rewrite RN. cbn [map filter]. rewrite app_nil_r. auto.
  - destruct Q10 as [MX Q10]. intros E. injection E as <- <-. split; auto.
    exists (done2 ++ nils []), its, (left ++ input o (rest r)). split; auto. split; auto. split; [rewrite Q9; auto|].
    split; [unfold nils; rewrite ents_app, ents_nils, app_nil_r; auto|].
    split; [unfold pend; rewrite app_assoc, Q4, wanted_all; auto|]. split; [intros; congruence|]. intros; congruence.
Qed.

(** ---- One document ---- *)
Definition St r (pl : list (item A)) (cl : list (list (item A))) : Prop :=
  (exists l, F r l /\ pl = pend r l /\ cl = chunks r l) \/
  (rd_handle r = None /\ rd_files r = map (file_of batch) fs /\ rd_number r = 0 /\ rd_given r = false /\
   pl = input o fs /\ cl = filter ne (map (wanted o) fs)).
(** The first file is opened. *)
Lemma opened r pl cl : St r pl cl ->
  let r' := match rd_handle r with None => next_handle r | Some _ => r end in
  (exists l, F r' l /\ pl = pend r' l /\ cl = chunks r' l) \/ (rd_handle r' = None /\ pl = [] /\ cl = []).
Proof.
  intros [[l [HF [E1 E2]]]|[H1 [H2 [H3 [H4 [H5 H6]]]]]]; cbv zeta.
  - left. destruct (f_handle _ _ HF) as [f [E _]]. rewrite E. eauto.
  - rewrite H1. unfold next_handle. rewrite H3, H4. cbn [andb]. destruct fs as [|l0 fs'] eqn:EFS.
    + right. cbn. rewrite H2. cbn. subst. auto.
    + left. exists l0. cbn [with_handle]. split.
      * constructor; cbn; try congruence; auto.
        { rewrite H2. cbn. exists (file_of batch l0). split; auto. split; auto. split; [intros ->; auto|intros [-> _]; auto]. }
        { inversion Hgood; auto. }
      * rewrite H5, H6. unfold pend, chunks, rest, input. cbn [with_handle rd_given rd_number]. rewrite H4, EFS. cbn [skipn map concat]. auto.
Qed.

Lemma process_ok r prev d orig pl cl bf r' :
  (fr = true /\ orig = []) \/ (fr = false /\ orig <> []) ->
  St r pl cl -> G r (prev ++ [(d, nils orig)]) -> buffer_ok r (prev ++ [(d, nils orig)]) bf -> (nobuf -> bf = []) -> rd_finished r = false ->
  process_document o r d = (r', Ok tt) ->
  exists bs bf' left,
    G r' (prev ++ [(d, bs)]) /\ shape bs /\ buffer_ok r' (prev ++ [(d, bs)]) bf' /\ (nobuf -> bf' = []) /\
    map snd (ents bs) ++ left = bf ++ pl /\
    (rd_finished r' = false -> exists pl' cl', St r' pl' cl' /\ left = bf' ++ pl' /\ (solo -> cl = filter ne [map snd (ents bs)] ++ cl')) /\
    (o_max o = 0 -> rd_finished r' = true -> left = [] /\ (solo -> cl = filter ne [map snd (ents bs)])).
Proof.
  intros FO HS HG HB NB HFI. unfold process_document.
  assert (DB : d_bundles (rd_store r) d = orig).
  { destruct HG as [D _ _ _ _ _ _ _]. rewrite Forall_app in D. destruct D as [_ D]. inversion D as [|? ? [D1 _] _]; subst. cbn in D1. rewrite D1.
    unfold nils. rewrite map_map. cbn. now rewrite map_id. }
  assert (FO1 : fr = true -> orig = []) by (destruct FO as [[_ Q]|[Q _]]; auto; congruence).
  (* the slow path, from a state r1 with an open file *)
  assert (SLOW : ~ fastmode -> forall r1, (r1 = r \/ exists l, r1 = next_handle r /\ rd_handle r = None /\ F r1 l /\ pl = pend r1 l /\ cl = chunks r1 l) ->
    bind (take_buffer r1 d (d_bundles (rd_store r1) d)) (fun r ob =>
    let (orig, bundle) := ob in
    let r' := match rd_handle r with None => next_handle r | Some _ => r end in
    match rd_handle r' with
    | None => (with_finished r' true, Ok tt)
    | Some _ => slow_loop (fuel r') o r' d orig bundle [] false
    end) = (r', Ok tt) ->
    exists bs bf' left,
    G r' (prev ++ [(d, bs)]) /\ shape bs /\ buffer_ok r' (prev ++ [(d, bs)]) bf' /\ (nobuf -> bf' = []) /\
    map snd (ents bs) ++ left = bf ++ pl /\
    (rd_finished r' = false -> exists pl' cl', St r' pl' cl' /\ left = bf' ++ pl' /\ (solo -> cl = filter ne [map snd (ents bs)] ++ cl')) /\
    (o_max o = 0 -> rd_finished r' = true -> left = [] /\ (solo -> cl = filter ne [map snd (ents bs)]))).
  { intros NFM r1 HR1.
    assert (G1 : G r1 (prev ++ [(d, nils orig)])) by (destruct HR1 as [->|[l [-> _]]]; auto; eapply G_triv; [apply sim_handle|auto]).
    assert (B1 : buffer_ok r1 (prev ++ [(d, nils orig)]) bf).
    { destruct HR1 as [->|[l [-> _]]]; auto. destruct bf as [|it [|? ?]]; auto. destruct HB as [t [X1 X2]]. exists t. split; auto.
      eapply flight_sim; [apply (sim_handle (fun _ => True))|exact I|auto]. }
    assert (D1 : d_bundles (rd_store r1) d = orig) by (destruct HR1 as [->|[l [-> _]]]; auto).
    assert (FI1 : rd_finished r1 = false) by (destruct HR1 as [->|[l [-> _]]]; auto).
    assert (S1 : St r1 pl cl) by (destruct HR1 as [->|[l [-> [_ [X1 [X2 X3]]]]]]; [auto|left; eauto]).
    rewrite D1. destruct (take_buffer r1 d orig) as [r2 [[orig2 bundle]| |]] eqn:ET; cbn [bind]; try discriminate.
    apply (buffer_taken r1 prev d orig bf r2 orig2 bundle FO1 G1 B1 NB) in ET as [done [G2 [C2 [B2 [E2 [X1 [X2 [X3 [X4 X5]]]]]]]]].
    assert (S2 : St r2 pl cl).
    { destruct S1 as [[l [Y1 [Y2 Y3]]]|[Y1 [Y2 [Y3 [Y4 [Y5 Y6]]]]]].
      - left. exists l. split; [eapply F_ext; eauto|]. unfold pend, chunks, rest in *. rewrite X2, X3. auto.
      - right. repeat split; congruence. }
    pose proof (opened r2 pl cl S2) as OP. cbv zeta in *. set (r3 := match rd_handle r2 with None => next_handle r2 | Some _ => r2 end) in *.
    assert (S3 : sim (fun _ => True) r2 r3) by (unfold r3; destruct (rd_handle r2); [apply sim_refl|apply sim_handle]).
    assert (B3 : rd_buffer r3 = None /\ rd_finished r3 = false) by (unfold r3; destruct (rd_handle r2); cbn; split; congruence).
    destruct B3 as [B3 FI3].
    assert (G3 : G r3 (prev ++ [(d, done ++ nils orig2)])) by (eapply G_triv; eauto).
    assert (C3 : cur r3 done orig2 bundle []) by (eapply cur_sim; eauto).
    clearbody r3. destruct OP as [[l [F3 [P3 CH3]]]|[H3 [P3 CH3]]].
    - destruct (f_handle _ _ F3) as [f [E3 _]]. rewrite E3. intros E.
      apply (slow_ok (fuel r3) NFM r3 d prev done orig2 bundle [] false l r' F3 G3 C3 B3 FI3) in E as
        [l' [bs [its [bf' [left [Q1 [Q2 [Q3 [Q4 [Q5 [Q6 [Q7 [Q8 [Q9 [Q10 Q11]]]]]]]]]]]]]]].
      assert (SOL : solo -> map snd (ents bs) = its).
      { intros [J _]. apply joins_nobuf in J. rewrite Q5, E2, (NB J). auto. }
      exists bs, bf', left. split; auto. split; auto. split; auto. split; auto. split; [rewrite Q5, E2, <- app_assoc, Q6, P3; auto|]. split.
      + intros FF. exists (pend r' l'), (chunks r' l'). split; [left; eauto|]. split; [auto|]. intros SO. rewrite (SOL SO), CH3. auto.
      + intros MX FF. split; auto. intros SO. rewrite (SOL SO), CH3, (Q11 SO eq_refl).
        rewrite (pend_chunks r' l'), app_nil_r; auto. specialize (Q7 (or_introl MX)). rewrite (Q8 MX FF) in Q7. symmetry in Q7. now apply app_eq_nil in Q7.
    - rewrite H3. intros E. injection E as <-. exists (done ++ nils orig2), [], [].
      split; [eapply G_triv; [apply sim_finished|auto]|]. split; [eapply cur_shape; eauto|]. split; [auto|]. split; auto.
      split; [unfold nils; rewrite ents_app, ents_nils, !app_nil_r, E2, P3, app_nil_r; auto|]. split; [discriminate|].
      intros _ _. split; auto. intros [J _]. apply joins_nobuf in J. unfold nils. rewrite ents_app, ents_nils, app_nil_r, E2, (NB J), CH3. auto. }
  unfold try_fast_load. rewrite DB.
  destruct (negb (match orig with [] => true | _ => false end) || negb (o_bpd o =? 0) || match o_filter o with Some _ => true | None => false end || o_split o) eqn:EC.
  - cbn [bind]. intros E. apply (SLOW) with (r1 := r); auto.
    intros [K1 [K2 [K3 [K4 K5]]]]. rewrite K3, K4, K5, (FO1 K2) in EC. discriminate.
  - apply orb_false_elim in EC as [EC EC4]. apply orb_false_elim in EC as [EC EC3]. apply orb_false_elim in EC as [EC1 EC2].
    apply negb_false_iff in EC1, EC2. apply Nat.eqb_eq in EC2. destruct orig; [|discriminate]. destruct (o_filter o) eqn:OF; [discriminate|].
    assert (NBF : nobuf) by (split; auto). rewrite (NB NBF) in *. cbn in HB.
    assert (FR : fr = true) by (destruct FO as [[Q _]|[_ Q]]; auto; congruence).
    pose proof (opened r pl cl HS) as OP. cbv zeta in *. set (r3 := match rd_handle r with None => next_handle r | Some _ => r end) in *.
    assert (S3 : sim (fun _ => True) r r3) by (unfold r3; destruct (rd_handle r); [apply sim_refl|apply sim_handle]).
    assert (B3 : rd_buffer r3 = None /\ rd_finished r3 = false) by (unfold r3; destruct (rd_handle r); cbn; split; congruence).
    destruct B3 as [B3 FI3].
    assert (G3 : G r3 (prev ++ [(d, [] ++ nils [])])) by (eapply G_triv; eauto).
    destruct OP as [[l [F3 [P3 CH3]]]|[H3 [P3 CH3]]].
    + destruct (f_handle _ _ F3) as [f [E3 [E4 [E5 E6]]]]. rewrite E3. destruct (bool_dec batch true) as [BT|BT].
      * assert (FM : fastmode) by (repeat split; auto).
        destruct (fast_files _ o r3 d) as [r4 [x| |]] eqn:EF; cbn [bind]; try discriminate.
        apply (fast_files_ok _ FM r3 prev d [] [] l r4 x F3 G3) in EF as [-> [bs [its [left [V1 [V2 [V3 [V4 [V5 [V6 V7]]]]]]]]]]; auto.
        { intros E. injection E as <-. cbn in V4. exists bs, [], left. split; auto. split; auto. split; auto. split; auto.
          split; [rewrite V4, V5, P3; auto|]. rewrite V4, CH3. split.
          - intros FF. destruct (V6 FF) as [l' [U1 [U2 U3]]]. exists (pend r4 l'), (chunks r4 l'). split; [left; eauto|]. auto.
          - intros MX FF. destruct (V7 MX FF). auto. }
        { apply cur_0. auto. }
      * apply not_true_is_false in BT. specialize (E5 BT). cbn [fast_files]. rewrite E3, E5. cbn [bind]. intros E.
        apply (SLOW) with (r1 := r3); auto.
        { intros [K1 _]. congruence. }
        { unfold r3 in *. destruct (rd_handle r) eqn:RH; [left; auto|right]. exists l. auto 10. }
    + rewrite H3. cbn [bind]. intros E. injection E as <-. exists [], [], [].
      split; [eapply G_triv; [apply sim_finished|]; exact G3|]. split; [apply (cur_shape r [] [] None []), cur_0; auto|]. split; [auto|]. split; auto.
      split; [rewrite P3; auto|]. split; [discriminate|]. intros _ _. split; auto.
Qed.

(** ---- All documents ---- *)
Lemma G_document r ds : G r ds ->
  G (with_store r (fst (new_document (rd_store r)))) (ds ++ [(nd (rd_store r), nils [])]).
Proof.
  intros [H1 H2 H3 H4 H5 H6 H7 H8]. constructor.
  - apply Forall_app. split.
    + rewrite Forall_forall in *. intros x Hx. destruct (H1 x Hx) as [E [K N]]. split; [|split; auto].
      cbn. rewrite upd_other; auto. intros Q. assert (fst x < nd (rd_store r)) by (apply H3, in_map; auto). lia.
    + apply Forall_cons; [|apply Forall_nil]. split; [cbn; rewrite upd_same; auto|]. split; [constructor|intros _; constructor].
  - rewrite map_app. apply NoDup_snoc; auto. intros K. rewrite Forall_forall in H3. apply H3 in K. cbn in K. lia.
  - rewrite map_app. apply Forall_app. split; [|repeat constructor].
    eapply Forall_impl; [|exact H3]. cbn. lia.
  - rewrite all_bundles_app, all_bundles_1. cbn. rewrite app_nil_r. auto.
  - rewrite all_bundles_app, all_bundles_1. cbn. rewrite app_nil_r. auto.
  - rewrite all_ents_app, all_ents_1. cbn. rewrite app_nil_r. auto.
  - rewrite all_ents_app, all_ents_1. cbn. rewrite app_nil_r. auto.
  - auto.
Qed.
Lemma St_ext r r' pl cl : St r pl cl -> rd_files r' = rd_files r -> rd_given r' = rd_given r -> rd_handle r' = rd_handle r ->
  rd_number r' = rd_number r -> St r' pl cl.
Proof.
  intros [[l [H1 [H2 H3]]]|[H1 [H2 [H3 [H4 [H5 H6]]]]]] E1 E2 E3 E4.
  - left. exists l. split; [eapply F_ext; eauto|]. unfold pend, chunks, rest in *. rewrite E2, E4. auto.
  - right. repeat split; congruence.
Qed.
(** A method after_process_document that only sets newdoc of the first tree *)
Definition mild (after : reader A -> nat -> reader A * res unit) : Prop :=
  forall r d r', after r d = (r', Ok tt) -> r' = r \/
    exists b bs t ts v, d_bundles (rd_store r) d = b :: bs /\ b_trees (rd_store r) b = t :: ts /\ r' = with_newdoc r t v.
Lemma mild_no : mild no_after.
Proof. intros r d r' E. injection E as <-. auto. Qed.
Lemma tl_not_head {B} (l1 l2 : list (nat * B)) (e : nat * B) l : NoDup (map fst (l1 ++ (e :: l) ++ l2)) ->
  (forall x, In x l1 -> fst x <> fst e) /\ (forall x, In x l -> fst x <> fst e) /\ (forall x, In x l2 -> fst x <> fst e).
Proof.
  intros H. assert (K : forall x, In x (l1 ++ l ++ l2) -> fst x <> fst e).
  { rewrite map_app in H. cbn [app map] in H. apply NoDup_remove_2 in H. intros x Hx E. apply H. rewrite <- E, <- map_app.
    now apply in_map. }
  repeat split; intros x Hx; apply K; rewrite !in_app_iff; auto.
Qed.
Lemma G_mild r prev d bs v b bs0 t ts : (forall b, old b = []) -> G r (prev ++ [(d, bs)]) -> Forall (fun bg : bgroup => snd bg <> []) bs ->
  d_bundles (rd_store r) d = b :: bs0 -> b_trees (rd_store r) b = t :: ts -> G (with_newdoc r t v) (prev ++ [(d, bs)]) /\ placed_in (prev ++ [(d, bs)]) t.
Proof.
  intros HO HG HN E1 E2. pose proof HG as [H1 H2 H3 H4 H5 H6 H7 H8].
  assert (X : exists e l, ents bs = e :: l /\ t = fst e).
  { apply Forall_app in H1 as [_ H1]. inversion H1 as [|? ? [D1 [D2 _]] _]; subst. cbn [fst snd] in *. rewrite E1 in D1.
    destruct bs as [|[b' g] bs]; [discriminate|]. injection D1 as -> _. inversion HN; subst. inversion D2 as [|? ? [K _] _]; subst. cbn [fst snd] in *.
    rewrite HO in K. rewrite E2 in K. destruct g as [|e g]; [congruence|]. injection K as -> _. exists e, (g ++ ents bs). auto. }
  destruct X as [e [l [XE ->]]].
  assert (ND : NoDup (map fst (all_ents prev ++ (e :: l) ++ []))) by (rewrite app_nil_r, <- XE, <- (all_ents_1 d bs), <- all_ents_app; exact H6).
  destruct (tl_not_head _ _ _ _ ND) as [N1 [N2 _]]. split.
  - constructor; auto. apply Forall_app in H1 as [P1 P2]. apply Forall_app. split.
    + rewrite Forall_forall in *. intros x Hx. destruct (P1 x Hx) as [D1 [D2 D3]]. split; auto. split; [exact D2|].
      intros SP. specialize (D3 SP). rewrite Forall_forall in *. intros y Hy. cbn. rewrite upd_other; auto.
      intros Q. apply (N1 y); auto. apply in_concat. exists (ents (snd x)). split; [apply in_map_iff; eauto|]. destruct (ents (snd x)); [destruct Hy|now right].
    + inversion P2 as [|? ? [D1 [D2 D3]] _]; subst. constructor; [|constructor]. split; auto. split; [exact D2|]. cbn [snd] in *.
      intros SP. specialize (D3 SP). rewrite XE in *. cbn [tl] in *. rewrite Forall_forall in *. intros y Hy. cbn. rewrite upd_other; auto.
  - unfold placed_in. rewrite all_ents_app, all_ents_1, map_app, in_app_iff. right. rewrite XE. now left.
Qed.
Lemma buffer_mild r ds bf t v : placed_in ds t -> buffer_ok r ds bf -> buffer_ok (with_newdoc r t v) ds bf.
Proof. intros HP HB. destruct bf as [|it [|? ?]]; auto. destruct HB as [u [X1 [K1 K2 K3 K4 K5 K6]]]. exists u. split; auto. constructor; auto. Qed.
Lemma read_ok after fl : mild after -> (forall b, old b = []) -> fr = true -> forall r ds bf pl cl r' docs,
  St r pl cl -> G r ds -> buffer_ok r ds bf -> (nobuf -> bf = []) -> rd_finished r = false ->
  read_documents fl o after r (map fst ds) = (r', Ok docs) ->
  exists new left, docs = map fst (ds ++ new) /\ G r' (ds ++ new) /\ Forall (fun x : dgroup => shape (snd x)) new /\
    map snd (all_ents new) ++ left = bf ++ pl /\ (o_max o = 0 -> left = []) /\
    (solo -> filter ne (map (fun x : dgroup => map snd (ents (snd x))) new) = cl).
Proof.
  intros HM HO FR. induction fl as [|fl IH]; intros r ds bf pl cl r' docs HS HG HB NB FI; cbn [read_documents]; rewrite FI; [discriminate|].
  destruct (new_document (rd_store r)) as [s1 d] eqn:ED.
  pose proof (G_document r ds HG) as G1. rewrite ED in G1. cbn [fst] in G1.
  assert (EDD : d = nd (rd_store r)) by (unfold new_document in ED; congruence). rewrite <- EDD in G1.
  set (r1 := with_store r s1) in *.
  assert (S1 : St r1 pl cl) by (eapply St_ext; eauto).
  assert (B1 : buffer_ok r1 (ds ++ [(d, nils [])]) bf).
  { destruct bf as [|it [|? ?]]; auto. destruct HB as [t [X1 X2]]. exists t. split; auto.
    unfold new_document in ED. injection ED as <- _. destruct X2 as [K1 K2 K3 K4 K5 K6]. constructor; auto.
    unfold placed_in in *. rewrite all_ents_app, all_ents_1. cbn. rewrite app_nil_r. auto. }
  destruct (process_document o r1 d) as [r2 [[]| |]] eqn:EP; cbn [bind]; try discriminate.
  apply (process_ok r1 ds d [] pl cl bf r2) in EP as [bs [bf' [left [Q1 [Q2 [Q3 [Q4 [Q5 [Q6 Q7]]]]]]]]]; auto.
  destruct (after r2 d) as [r3 [[]| |]] eqn:EA; cbn [bind]; try discriminate.
  assert (AF : G r3 (ds ++ [(d, bs)]) /\ buffer_ok r3 (ds ++ [(d, bs)]) bf' /\ rd_finished r3 = rd_finished r2 /\
               forall pl cl, St r2 pl cl -> St r3 pl cl).
  { destruct (HM _ _ _ EA) as [->|[b [bs0 [t [ts [v [Y1 [Y2 ->]]]]]]]]; [auto|].
    destruct (G_mild r2 ds d bs v b bs0 t ts HO Q1 (sh_ne _ Q2 FR) Y1 Y2) as [Z1 Z2]. split; auto. split; [now apply buffer_mild|]. split; auto.
    intros pl0 cl0 HST. eapply St_ext; eauto. }
  destruct AF as [G3 [B3 [F3 S3]]].
  replace (map fst ds ++ [d]) with (map fst (ds ++ [(d, bs)])) by (rewrite map_app; auto).
  destruct (rd_finished r2) eqn:F2.
  - destruct fl; cbn [read_documents]; rewrite F3; intros E; injection E as <- <-;
    (exists [(d, bs)], left; split; [auto|]; split; [auto|]; split; [auto|]; rewrite all_ents_1; split; [auto|]; split;
      [intros MX; apply (Q7 MX eq_refl)|intros SO; pose proof SO as [_ MX]; cbn [map snd]; symmetry; apply (Q7 MX eq_refl); auto]).
  - destruct (Q6 eq_refl) as [pl' [cl' [U1 [U2 U3]]]]. intros E.
    apply (IH r3 (ds ++ [(d, bs)]) bf' pl' cl' r' docs) in E as [new [left' [V1 [V2 [V3 [V4 [V5 V6]]]]]]]; auto.
    exists ((d, bs) :: new), left'. rewrite <- app_assoc in *. cbn [app] in *. split; auto. split; auto. split; auto.
    split; [change ((d, bs) :: new) with ([(d, bs)] ++ new); rewrite all_ents_app, all_ents_1, map_app, <- app_assoc, V4, <- U2; auto|].
    split; auto. intros SO. rewrite (U3 SO), <- (V6 SO). cbn [map filter snd]. destruct (ne _); auto.
Qed.
End P.
