(** Reading trees without sent_id never raises an exception (C28, C49). *)
From Coq Require Import String List NArith ZArith Bool Lia.
From Verif Require Import PyStr PyStrFacts PyList PyListFacts PyExn TreeModel BundleModel BundleSpec BundleProofs
  ReaderModel ReaderSpec ReaderProofs ReaderTerm.
Import ListNotations.

Section T.
Context {A : Type}.
Variables (o : opts) (batch : bool).
Implicit Types (r : reader A).
Definition okzone (z : str) : Prop := valid_zone z = true /\ z <> PyStr.s "all".
Hypothesis Hz : forall z, o_zone o = Some z -> okzone z.
Definition anon (it : item A) : Prop := o_ignore o = true \/ it_sid it = None.
Definition anons (l : list (option (item A))) : Prop := forall it, In (Some it) l -> anon it.
Definition okbatch (b : option (res (list (option (item A))))) : Prop :=
  if batch then exists l, b = Some (Ok l) /\ anons l /\ first_newdoc l = Ok tt else b = None.
Definition okfile (f : file A) : Prop :=
  anons (f_trees f) /\ okbatch (f_batch f).
Definition zfine (v : option str) : Prop := v = None \/ v = o_zone o.
Record T r : Prop := {
  t_new : forall b, nb (rd_store r) <= b -> b_trees (rd_store r) b = [];
  t_num : forall b, b < nb (rd_store r) -> b_number (rd_store r) b <> None;
  t_buf : forall t, rd_buffer r = Some t -> zfine (t_zone (rd_store r) t) /\ t < nt (rd_store r);
  t_files : Forall okfile (rd_files r);
  t_hand : forall f, rd_handle r = Some f -> okfile f }.
Definition fine_t r t : Prop := zfine (t_zone (rd_store r) t) /\ t < nt (rd_store r).

Lemma T_next r : T r -> T (next_handle r).
Proof.
  intros [H1 H2 H3 H4 H5]. constructor; auto. unfold next_handle. cbn. destruct (_ && _); auto.
  intros f E. rewrite Forall_forall in H4. apply H4. eapply nth_error_In; eauto.
Qed.
Lemma T_alloc r it : T r -> T (fst (alloc r it)) /\ t_zone (rd_store (fst (alloc r it))) (snd (alloc r it)) = None /\
  t_sid (rd_store (fst (alloc r it))) (snd (alloc r it)) = it_sid it /\ t_bundle (rd_store (fst (alloc r it))) (snd (alloc r it)) = None /\
  snd (alloc r it) < nt (rd_store (fst (alloc r it))) /\ rd_buffer (fst (alloc r it)) = rd_buffer r.
Proof.
  intros [H1 H2 H3 H4 H5]. split; [|cbn; rewrite !upd_same; repeat split; auto]. constructor; cbn; auto. intros t E. destruct (H3 t E) as [K1 K2].
  rewrite upd_other by lia. split; auto.
Qed.
Lemma filtered_T b l : anons l -> okbatch b ->
  forall sk r, T r -> T (fst (filtered_from (o_filter o) sk r b l)) /\
  rd_buffer (fst (filtered_from (o_filter o) sk r b l)) = rd_buffer r /\
  forall t, snd (filtered_from (o_filter o) sk r b l) = Some t ->
    t_zone (rd_store (fst (filtered_from (o_filter o) sk r b l))) t = None /\
    (o_ignore o = true \/ t_sid (rd_store (fst (filtered_from (o_filter o) sk r b l))) t = None) /\
    t_bundle (rd_store (fst (filtered_from (o_filter o) sk r b l))) t = None /\
    t < nt (rd_store (fst (filtered_from (o_filter o) sk r b l))).
Proof.
  intros AN HB. assert (HH : forall l r, (forall x, In x l -> forall it, x = Some it -> anon it) -> T r -> T (with_handle r (rd_number r) (Some (mkFile l b)))).
  { intros l0 r Hl [H1 H2 H3 H4 H5]. constructor; auto. cbn. intros f E. injection E as <-. split; auto. intros it Hi. apply (Hl _ Hi _ eq_refl). }
  induction l as [|[it|] l IH]; intros sk r HT; cbn [filtered_from].
  - split; [apply HH; auto; intros ? []|]. split; auto. discriminate.
  - destruct (T_alloc r it HT) as [T1 [Z1 [S1 [B1 [N1 BU]]]]]. destruct (alloc r it) as [r1 t]. cbn [fst snd] in *.
    assert (AL : forall x, In x l -> forall it0, x = Some it0 -> anon it0) by (intros x Hx it0 ->; apply AN; now right).
    assert (AI : o_ignore o = true \/ t_sid (rd_store r1) t = None).
    { destruct (AN it (or_introl eq_refl)) as [Q|Q]; [left; auto|right; congruence]. }
    destruct (o_filter o) as [f|] eqn:EF.
    + destruct (f _).
      * set (r2 := if truthy sk && _ then _ else _).
        assert (E2 : rd_store r2 = rd_store r1 /\ rd_buffer r2 = rd_buffer r1 /\ T r2).
        { unfold r2. destruct (_ && _); auto. split; auto. split; auto. destruct T1 as [H1 H2 H3 H4 H5]. constructor; auto. }
        destruct E2 as [E2 [E3 T2]]. cbn [fst snd]. split; [apply HH; auto|]. split; [cbn; congruence|]. intros t' Q. injection Q as <-. cbn. rewrite E2. auto.
      * destruct (IH (fun it Hi => AN it (or_intror Hi)) (if truthy (rd_newdoc r1 t) then rd_newdoc r1 t else sk) r1 T1) as [I1 [I2 I3]]. split; auto. split; [congruence|auto].
    + cbn [fst snd]. split; [apply HH; auto|]. split; [auto|]. intros t' Q. injection Q as <-. auto.
  - cbn [fst snd]. split; [apply HH; auto; intros x Hx it ->; apply AN; now right|]. split; auto. discriminate.
Qed.
Lemma read_T r : T r -> T (fst (filtered_read_tree o r)) /\ rd_buffer (fst (filtered_read_tree o r)) = rd_buffer r /\
  forall t, snd (filtered_read_tree o r) = Some t ->
    t_zone (rd_store (fst (filtered_read_tree o r))) t = None /\
    (o_ignore o = true \/ t_sid (rd_store (fst (filtered_read_tree o r))) t = None) /\
    t_bundle (rd_store (fst (filtered_read_tree o r))) t = None /\
    t < nt (rd_store (fst (filtered_read_tree o r))).
Proof.
  intros HT. unfold filtered_read_tree. destruct (rd_handle r) as [f|] eqn:EH; [|split; auto; split; auto; discriminate].
  destruct (t_hand _ HT f EH) as [K1 K2]. apply filtered_T; auto.
Qed.
Lemma prepare_T r t la : T r -> t_zone (rd_store r) t = None -> (o_ignore o = true \/ t_sid (rd_store r) t = None) ->
  t_bundle (rd_store r) t = None -> t < nt (rd_store r) -> rd_buffer r <> Some t ->
  T (fst (prepare o r t la)) /\ snd (snd (prepare o r t la)) = false /\ fine_t (fst (prepare o r t la)) t /\
  rd_buffer (fst (prepare o r t la)) = rd_buffer r /\ rd_finished (fst (prepare o r t la)) = rd_finished r.
Proof.
  intros [H1 H2 H3 H4 H5] Z SI B N NB. unfold prepare.
  set (st := if o_ignore o then _ else _).
  assert (E : exists s1 la1, st = (s1, (la1, false)) /\ (s1 = put_sid (rd_store r) t None \/ s1 = rd_store r)).
  { unfold st. destruct (o_ignore o) eqn:EO; [eauto|]. destruct SI as [?|SI]; [discriminate|]. rewrite SI. eauto. }
  destruct E as [s1 [la1 [-> E]]].
  assert (P : nb s1 = nb (rd_store r) /\ nt s1 = nt (rd_store r) /\ b_trees s1 = b_trees (rd_store r) /\ b_number s1 = b_number (rd_store r) /\
              t_zone s1 = t_zone (rd_store r) /\ t_bundle s1 = t_bundle (rd_store r)) by (destruct E as [->| ->]; cbn; repeat split; auto).
  destruct P as [P1 [P2 [P3 [P4 [P5 P6]]]]].
  assert (Q : exists s2, match o_zone o with Some z => fst (set_zone s1 t z) | None => s1 end = s2 /\
     nb s2 = nb s1 /\ nt s2 = nt s1 /\ b_trees s2 = b_trees s1 /\ b_number s2 = b_number s1 /\ (forall x, x <> t -> t_zone s2 x = t_zone s1 x) /\ zfine (t_zone s2 t)).
  { eexists. split; [reflexivity|]. unfold zfine. destruct (o_zone o) as [z|].
    - destruct (set_zone_free s1 t z) as [sid [-> _]]; [congruence|]. cbn. rewrite upd_same. repeat split; auto. intros x Hx. now rewrite upd_other.
    - repeat split; auto. left. congruence. }
  destruct Q as [s2 [-> [Q1 [Q2 [Q3 [Q4 [Q5 Q6]]]]]]]. cbn [fst snd]. split; [|split; auto; split; [split; cbn; [auto|lia]|auto]].
  constructor; cbn; auto.
  - intros b. rewrite Q1, P1, Q3, P3. auto.
  - intros b. rewrite Q1, P1, Q4, P4. auto.
  - intros x E2. destruct (H3 x E2) as [K1 K2]. rewrite Q5 by (intros ->; congruence). rewrite P5, Q2, P2. auto.
Qed.
Lemma set_zone_nb s t z : nb (fst (set_zone s t z)) = nb s.
Proof. unfold set_zone. destruct (match t_bundle s t with Some b => _ | None => _ end); reflexivity. Qed.
Lemma prepare_nb r t la : nb (rd_store (fst (prepare o r t la))) = nb (rd_store r).
Proof.
  unfold prepare. set (st := if o_ignore o then _ else _).
  assert (E : nb (fst st) = nb (rd_store r)).
  { unfold st. destruct (o_ignore o); auto. destruct (t_sid (rd_store r) t) as [v|]; auto. destruct (split1 47%N v) as [[i z]|]; auto. apply set_zone_nb. }
  destruct st as [s1 la1]. cbn [fst with_store rd_store] in *. destruct (o_zone o); auto. now rewrite set_zone_nb.
Qed.
Lemma add_T r b t : T r -> rd_buffer r = None -> fine_t r t -> b < nb (rd_store r) -> b_trees (rd_store r) b = [] ->
  exists r', add_to r b t = (r', Ok tt) /\ T r' /\ b_number (rd_store r') = b_number (rd_store r) /\ nb (rd_store r') = nb (rd_store r) /\
    rd_buffer r' = None.
Proof.
  intros [H1 H2 H3 H4 H5] BN [Z N] B E. unfold add_to. destruct (add_tree (rd_store r) b t) as [s' x] eqn:EA.
  assert (X : x = Ok tt).
  { unfold add_tree in EA. set (s1 := match t_zone (rd_store r) t with None => put_zone (rd_store r) t (Some []) | Some _ => rd_store r end) in EA.
    assert (C : check_zone s1 b (zone_str s1 t) = Ok tt).
    { unfold check_zone. replace (b_trees s1 b) with (@nil nat) by (unfold s1; destruct (t_zone (rd_store r) t); cbn; auto). cbn [existsb].
      assert (OZ : okzone (zone_str s1 t)).
      { unfold s1, zone_str. destruct Z as [Z|Z]; rewrite Z.
        - cbn. rewrite upd_same. split; [reflexivity|discriminate].
        - destruct (o_zone o) as [z|] eqn:EO; [rewrite Z; apply Hz; auto|]. cbn. rewrite upd_same. split; [reflexivity|discriminate]. }
      destruct OZ as [O1 O2]. rewrite O1. cbn [negb]. destruct (str_eqb _ (PyStr.s "all")) eqn:SE; auto. apply str_eqb_eq in SE. congruence. }
    rewrite C in EA. now injection EA as _ <-. }
  subst x. exists (with_store r s'). split; auto. apply add_tree_ok in EA as [K1 [K2 [K3 [K4 [K5 [K6 [K7 _]]]]]]].
  split; [|cbn; auto]. constructor; cbn; auto.
  - intros c. rewrite K1. intros L. rewrite K7, upd_other by lia. auto.
  - intros c. rewrite K1, K6. auto.
  - intros u E2. congruence.
Qed.
Lemma make_T r d oi : T r -> rd_buffer r = None -> T (with_store r (fst (make (rd_store r) d oi))) /\
  b_trees (fst (make (rd_store r) d oi)) (nb (rd_store r)) = [] /\ nb (fst (make (rd_store r) d oi)) = S (nb (rd_store r)) /\
  t_zone (fst (make (rd_store r) d oi)) = t_zone (rd_store r) /\ nt (fst (make (rd_store r) d oi)) = nt (rd_store r).
Proof.
  intros [H1 H2 H3 H4 H5] BN. rewrite make_eq. cbn. rewrite upd_same. split; auto. constructor; cbn; auto.
  - intros b L. rewrite upd_other by lia. apply H1. lia.
  - intros b L. destruct (Nat.eq_dec b (nb (rd_store r))) as [->|NE]; [rewrite upd_same; discriminate|]. rewrite !upd_other by auto. apply H2. lia.
Qed.
(** A new bundle for the tree *)
Lemma put_T r d oi t : T r -> rd_buffer r = None -> fine_t r t ->
  exists r', add_to (with_store r (fst (make (rd_store r) d oi))) (nb (rd_store r)) t = (r', Ok tt) /\ T r' /\
    rd_buffer r' = None /\ nb (rd_store r) < nb (rd_store r').
Proof.
  intros HT BN [F1 F2]. destruct (make_T r d oi HT BN) as [M1 [M2 [M3 [M4 M5]]]].
  destruct (add_T (with_store r (fst (make (rd_store r) d oi))) (nb (rd_store r)) t M1 BN) as [r' [E [T' [B1 [B2 B3]]]]]; auto.
  - split; cbn [with_store rd_store]; [rewrite M4|rewrite M5]; auto.
  - cbn [with_store rd_store]. lia.
  - exists r'. split; auto. split; auto. split; auto. rewrite B2. cbn [with_store rd_store]. lia.
Qed.
Lemma full_T r b : T r -> b < nb (rd_store r) -> exists x, is_full o r b = Ok x.
Proof.
  intros HT L. unfold is_full. destruct (o_bpd o =? 0); [eauto|]. pose proof (t_num _ HT b L). destruct (b_number (rd_store r) b); [eauto|congruence].
Qed.
Definition good {B} (Q : reader A -> B -> Prop) (x : reader A * res B) : Prop :=
  match snd x with Ok v => T (fst x) /\ Q (fst x) v | Raise _ => False | Diverge => True end.
Lemma T_finished r v : T r -> T (with_finished r v).
Proof. intros [H1 H2 H3 H4 H5]. constructor; auto. Qed.
Lemma T_docs r v : T r -> T (with_docs r v).
Proof. intros [H1 H2 H3 H4 H5]. constructor; auto. Qed.
Lemma T_buffer r t : T r -> fine_t r t -> T (with_buffer r (Some t)).
Proof. intros [H1 H2 H3 H4 H5] F. constructor; auto. cbn. intros u E. injection E as <-. auto. Qed.
Definition inloop r (orig : list nat) (bundle : option nat) : Prop :=
  T r /\ rd_buffer r = None /\ orig = [] /\ forall b, bundle = Some b -> b < nb (rd_store r).
Definition nobufp r : Prop := o_bpd o = 0 -> o_split o = false -> rd_buffer r = None.
Definition after_place r' (x : placed) : Prop := nobufp r' /\ match x with Placed orig b => inloop r' orig (Some b) | _ => True end.
Lemma place_T r d bundle la t : inloop r [] bundle -> fine_t r t -> good after_place (place o r d [] bundle la false t).
Proof.
  intros [HT [BN [_ BL]]] F. unfold place. cbv zeta. set (nd := truthy (rd_newdoc r t)).
  destruct (nd && over_max o r); [split; [apply T_finished; auto|split; auto; intros _ _; auto]|].
  destruct (nd && _ && o_split o) eqn:ESP; [split; [apply T_finished, T_buffer; auto|split; auto; intros _ Q; rewrite Q, andb_false_r in ESP; discriminate]|].
  set (r1 := if nd then with_docs r (S (rd_docs r)) else r).
  assert (R1 : T r1 /\ rd_buffer r1 = None /\ rd_store r1 = rd_store r) by (unfold r1; destruct nd; auto using T_docs).
  destruct R1 as [T1 [BN1 ES]].
  assert (NEXT : good after_place (let (r, b) := fresh_bundle r1 d la in bind (add_to r b t) (fun r _ =>
      match is_full o r b with
      | Ok true => if o_multi o then (r, Ok (Placed [] b)) else (r, Ok (Full b))
      | Ok false => (r, Ok (Placed [] b))
      | Raise e => (r, Raise e)
      | Diverge => (r, Diverge)
      end))).
  { rewrite fresh_make. assert (F1 : fine_t r1 t) by (unfold fine_t; rewrite ES; exact F).
    destruct (put_T r1 d (if nonempty la then Some la else None) t T1 BN1 F1) as [r2 [-> [T2 [BN2 L2]]]]. cbn [bind].
    destruct (full_T r2 _ T2 L2) as [x ->]. assert (IL : inloop r2 [] (Some (nb (rd_store r1)))).
    { split; auto. split; auto. split; auto. intros b E. injection E as <-. auto. }
    assert (NB : nobufp r2) by (intros _ _; auto). destruct x; [destruct (o_multi o)|]; (split; [auto|split; auto]). }
  destruct bundle as [b|]; [|exact NEXT]. assert (L : b < nb (rd_store r1)) by (rewrite ES; auto).
  destruct (full_T r1 b T1 L) as [x EF]. rewrite EF. destruct x; [|exact NEXT]. split; [|split; auto].
  - apply T_buffer; auto. unfold fine_t. rewrite ES. auto.
  - intros Q _. unfold is_full in EF. rewrite Q in EF. discriminate.
Qed.
Lemma slow_T fl : forall r d bundle la loaded, inloop r [] bundle -> good (fun r' _ => nobufp r') (slow_loop fl o r d [] bundle la loaded).
Proof.
  induction fl as [|fl IH]; intros r d bundle la loaded IL; cbn [slow_loop]; [exact I|]. pose proof IL as [HT [BN [_ BL]]].
  destruct (read_T r HT) as [R1 [R2 R3]].
  assert (NB : nb (rd_store r) <= nb (rd_store (fst (filtered_read_tree o r)))).
  { unfold filtered_read_tree. destruct (rd_handle r) as [f|]; [|cbn; lia]. generalize NotDoc. generalize (f_batch f). clear. intros b n. revert r n.
    induction (f_trees f) as [|[it|] l IH]; intros r n; cbn [filtered_from]; [cbn; lia| |cbn; lia].
    assert (E : nb (rd_store r) <= nb (rd_store (fst (alloc r it)))) by (cbn; lia). destruct (alloc r it) as [r1 t]. cbn [fst] in E.
    destruct (o_filter o) as [g|]; [|cbn; auto]. destruct (g _); [destruct (_ && _); cbn; auto|]. etransitivity; [exact E|apply IH]. }
  assert (NBP : nobufp (fst (filtered_read_tree o r))) by (intros _ _; congruence).
  destruct (filtered_read_tree o r) as [r1 [t|]]; cbn [fst snd] in *.
  - destruct (R3 t eq_refl) as [Z [SI [B N]]]. destruct (_ && over_max o r1); [split; [apply T_finished; auto|auto]|].
    set (r2 := if _ && _ then with_docs r1 (S (rd_docs r1)) else r1).
    assert (R4 : T r2 /\ rd_buffer r2 = None /\ rd_store r2 = rd_store r1) by (unfold r2; destruct (_ && _); (split; [auto using T_docs|split; cbn; congruence])).
    destruct R4 as [T2 [BN2 ES]].
    destruct (prepare_T r2 t la T2) as [P1 [P2 [P3 [P4 P5]]]]; try (rewrite ES; auto); [congruence|].
    assert (PN : nb (rd_store (fst (prepare o r2 t la))) = nb (rd_store r2)) by apply prepare_nb.
    destruct (prepare o r2 t la) as [r3 [la' add]]. cbn [fst snd] in *. subst add.
    assert (IL3 : inloop r3 [] bundle).
    { split; auto. split; [congruence|]. split; auto. intros b E. specialize (BL b E). rewrite PN, ES. lia. }
    pose proof (place_T r3 d bundle la' t IL3 P3) as G. unfold good in G. destruct (place o r3 d [] bundle la' false t) as [r4 [x| |]]; cbn [fst snd bind] in *; [|contradiction|exact I].
    destruct G as [T4 [G0 G]]. destruct x as [| | |orig b]; try (split; auto). destruct G as [G1 [G2 [-> G4]]]. apply IH. split; auto.
  - destruct (_ && has_next r1); [|split; [apply T_finished; auto|auto]]. apply IH. split; [apply T_next; auto|]. split; [cbn; congruence|]. split; auto.
    intros b E. specialize (BL b E). cbn. lia.
Qed.
Lemma take_T r d : T r -> good (fun r' x => inloop r' (fst x) (snd x)) (take_buffer r d []).
Proof.
  intros HT. unfold take_buffer. destruct (rd_buffer r) as [t|] eqn:EB.
  - pose proof (t_buf _ HT t EB) as F.
    assert (T1 : T (with_buffer r None)) by (destruct HT as [H1 H2 H3 H4 H5]; constructor; auto; discriminate).
    set (r1 := with_buffer r None) in *.
    assert (E : exists oi, (let (s, b) := create_bundle (rd_store r1) d in
        (with_store r1 (match t_sid s t with
                       | Some sid => set_bundle_id s b (match split1 47%N sid with Some (i, _) => i | None => sid end)
                       | None => s
                       end), @nil nat, b)) = (with_store r1 (fst (make (rd_store r1) d oi)), [], nb (rd_store r1))).
    { exists (option_map (fun sid => match split1 47%N sid with Some (i, _) => i | None => sid end) (t_sid (rd_store r1) t)).
      unfold make. rewrite create_bundle_eq. cbn. destruct (t_sid (rd_store r) t); reflexivity. }
    destruct E as [oi E]. cbv zeta. rewrite E.
    destruct (put_T r1 d oi t T1 eq_refl F) as [r2 [-> [T2 [BN2 L2]]]]. cbn [bind].
    split; [destruct (truthy _); cbn; auto using T_docs|]. cbn [fst snd]. split; [destruct (truthy _); cbn; auto using T_docs|].
    split; [destruct (truthy _); cbn; auto|]. split; auto. intros b Q. injection Q as <-. destruct (truthy _); cbn; auto.
  - split; auto. split; auto. split; auto. split; auto. discriminate.
Qed.
Lemma fast_trees_T l : anons l -> forall r d bundle la, inloop r [] bundle -> good (fun r' _ => rd_buffer r' = None) (fast_trees o r d bundle la l).
Proof.
  intros AN. induction l as [|[it|] l IH]; intros r d bundle la IL; cbn [fast_trees]; pose proof IL as [HT [BN [_ BL]]].
  - split; auto.
  - destruct (T_alloc r it HT) as [T1 [Z1 [S1 [B1 [N1 BU]]]]].
    assert (NB : nb (rd_store (fst (alloc r it))) = nb (rd_store r)) by reflexivity. destruct (alloc r it) as [r1 t]. cbn [fst snd] in *.
    assert (AI : o_ignore o = true \/ t_sid (rd_store r1) t = None).
    { destruct (AN it (or_introl eq_refl)) as [Q|Q]; [left; auto|right; congruence]. }
    destruct (_ && over_max o r1); [split; [apply T_finished; auto|cbn; congruence]|].
    set (r2 := if truthy _ then with_docs r1 (S (rd_docs r1)) else r1).
    assert (R4 : T r2 /\ rd_buffer r2 = None /\ rd_store r2 = rd_store r1) by (unfold r2; destruct (truthy _); (split; [auto using T_docs|split; cbn; congruence])).
    destruct R4 as [T2 [BN2 ES]].
    destruct (prepare_T r2 t la T2) as [P1 [P2 [P3 [P4 P5]]]]; try (rewrite ES; auto); [congruence|].
    destruct (prepare o r2 t la) as [r3 [la' add]]. cbn [fst snd] in *. subst add.
    assert (E : match bundle with Some b => fresh_bundle r3 d la' | None => fresh_bundle r3 d la' end = fresh_bundle r3 d la') by (destruct bundle; auto).
    rewrite E. rewrite fresh_make. assert (BN3 : rd_buffer r3 = None) by congruence.
    destruct (put_T r3 d (if nonempty la' then Some la' else None) t P1 BN3 P3) as [r5 [-> [T5 [BN5 L5]]]]. cbn [bind].
    apply IH; [intros i Hi; apply AN; now right|]. split; auto. split; auto. split; auto. intros b Q. injection Q as <-. auto.
  - apply IH; auto. intros i Hi; apply AN; now right.
Qed.
Lemma fast_T fl : forall r d, T r -> rd_buffer r = None -> rd_handle r <> None ->
  good (fun r' x => rd_buffer r' = None /\ (x = false -> batch = false /\ r' = r)) (fast_files fl o r d).
Proof.
  induction fl as [|fl IH]; intros r d HT BN HH; cbn [fast_files]; [exact I|]. destruct (rd_handle r) as [f|] eqn:EH; [|congruence].
  destruct (t_hand _ HT f EH) as [K1 K2]. unfold okbatch in K2. destruct batch eqn:EBT; [|rewrite K2; split; auto]. destruct K2 as [l [K2 [K3 K4]]]. rewrite K2, K4.
  set (r1 := with_handle r (rd_number r) (Some (mkFile [] (Some (Ok []))))).
  assert (T1 : T r1).
  { destruct HT as [H1 H2 H3 H4 H5]. constructor; auto. cbn. intros g E. injection E as <-. split; [intros ? []|]. unfold okbatch. rewrite EBT. exists []. repeat split. intros ? []. }
  assert (IL : inloop r1 [] None) by (split; auto; split; auto; split; auto; discriminate).
  pose proof (fast_trees_T l K3 r1 d None [] IL) as G. unfold good in G. destruct (fast_trees o r1 d None [] l) as [r2 [x| |]]; cbn [fst snd bind] in *; [|contradiction|exact I].
  destruct G as [T2 BN2]. destruct x; [|split; auto; split; auto; discriminate]. pose proof (T_next _ T2) as T3.
  destruct (rd_handle (next_handle r2)) eqn:EN; [|split; [apply T_finished; auto|split; auto; discriminate]].
  destruct (o_merge o); [|split; auto; split; auto; discriminate].
  assert (HN : rd_handle (next_handle r2) <> None) by congruence.
  specialize (IH (next_handle r2) d T3 BN2 HN). unfold good in *. destruct (fast_files fl o (next_handle r2) d) as [r3 [[|]| |]]; cbn [fst snd] in *; auto.
  - destruct IH as [I1 [I2 I3]]. split; auto. split; auto. discriminate.
  - destruct IH as [I1 [I2 I3]]. destruct (I3 eq_refl). discriminate.
Qed.
Lemma process_T r d : T r -> d_bundles (rd_store r) d = [] -> nobufp r ->
  good (fun r' _ => nobufp r') (process_document o r d).
Proof.
  intros HT ED NB. unfold process_document.
  assert (OPEN : forall r, T r -> T (match rd_handle r with None => next_handle r | Some _ => r end)) by (intros r0 T0; destruct (rd_handle r0); auto using T_next).
  assert (SLOW : forall r1, T r1 -> good (fun r' _ => nobufp r') (bind (take_buffer r1 d []) (fun r ob =>
    let (orig, bundle) := ob in
    let r' := match rd_handle r with None => next_handle r | Some _ => r end in
    match rd_handle r' with
    | None => (with_finished r' true, Ok tt)
    | Some _ => slow_loop (fuel r') o r' d orig bundle [] false
    end))).
  { intros r1 T1. pose proof (take_T r1 d T1) as G. unfold good in G. destruct (take_buffer r1 d []) as [r2 [[orig bundle]| |]]; cbn [fst snd bind] in *; [|contradiction|exact I].
    destruct G as [T2 [_ [BN2 [-> BL]]]]. cbv zeta. pose proof (OPEN r2 T2) as T3. set (r3 := match rd_handle r2 with None => next_handle r2 | Some _ => r2 end) in *.
    assert (E3 : rd_buffer r3 = None /\ rd_store r3 = rd_store r2) by (unfold r3; destruct (rd_handle r2); auto). destruct E3 as [E3 E4].
    destruct (rd_handle r3); [|split; [apply T_finished; auto|intros _ _; auto]]. apply slow_T. split; auto. split; auto. split; auto. intros b Q. rewrite E4. auto. }
  unfold try_fast_load. rewrite ED. cbn [negb orb].
  destruct (o_bpd o =? 0) eqn:EB; cbn [negb orb]; [|cbn [bind]; rewrite ED; apply SLOW; auto].
  destruct (o_filter o) eqn:EF; [cbn [bind orb]; rewrite ED; apply SLOW; auto|]. destruct (o_split o) eqn:ESP; [cbn [bind orb]; rewrite ED; apply SLOW; auto|].
  cbn [orb]. apply Nat.eqb_eq in EB. specialize (NB EB ESP). pose proof (OPEN r HT) as T1.
  set (r1 := match rd_handle r with None => next_handle r | Some _ => r end) in *.
  assert (E1 : rd_buffer r1 = None /\ rd_store r1 = rd_store r) by (unfold r1; destruct (rd_handle r); auto). destruct E1 as [BN1 E1].
  destruct (rd_handle r1) eqn:EH; [|cbn [bind]; split; [apply T_finished; auto|intros _ _; auto]].
  assert (HN : rd_handle r1 <> None) by congruence. pose proof (fast_T (S (S (length (rd_files r1)))) r1 d T1 BN1 HN) as G.
  destruct (fast_files (S (S (length (rd_files r1)))) o r1 d) as [r2 [[|]| |]]; cbn [good fst snd bind] in *; [split; [apply G|intros _ _; apply G]| |contradiction|exact I].
  destruct G as [T2 [_ G]]. destruct (G eq_refl) as [_ ->]. rewrite E1, ED. apply SLOW. auto.
Qed.
Theorem never_raises fl : forall r docs, T r -> nobufp r -> forall e, snd (read_documents fl o no_after r docs) <> Raise e.
Proof.
  induction fl as [|fl IH]; intros r docs HT NB e; cbn [read_documents]; destruct (rd_finished r); try discriminate.
  destruct (new_document (rd_store r)) as [s d] eqn:ED.
  assert (T1 : T (with_store r s)) by (unfold new_document in ED; injection ED as <- <-; destruct HT as [H1 H2 H3 H4 H5]; constructor; auto).
  assert (DB : d_bundles (rd_store (with_store r s)) d = []) by (unfold new_document in ED; injection ED as <- <-; cbn; now rewrite upd_same).
  pose proof (process_T (with_store r s) d T1 DB NB) as G. unfold good in G.
  destruct (process_document o (with_store r s) d) as [r2 [x| |]]; cbn [fst snd bind] in *; [|contradiction|discriminate].
  unfold no_after at 1. cbn [bind]. destruct G. apply IH; auto.
Qed.
End T.

Theorem reading_total {A} (o : opts) batch (fs : list (list (item A))) fl :
  (forall z, o_zone o = Some z -> valid_zone z = true /\ z <> PyStr.s "all") ->
  o_ignore o = true \/ Forall (Forall (fun it => it_sid it = None)) fs ->
  list_sum (map (fun l => S (length l)) fs) < fl ->
  exists r docs, read_documents fl o no_after (new_reader (map (file_of batch) fs)) [] = (r, Ok docs).
Proof.
  intros HZ HA HL.
  assert (ANS : forall l, In l fs -> anons o (map Some l)).
  { intros l Hl it Hi. destruct HA as [HA|HA]; [left; auto|right]. rewrite Forall_forall in HA. specialize (HA l Hl). rewrite Forall_forall in HA.
    apply HA. apply in_map_iff in Hi as [x [E Hx]]. congruence. }
  assert (HT : T o batch (new_reader (map (file_of batch) fs))).
  { constructor; cbn; auto; try discriminate; try lia. rewrite Forall_map. apply Forall_forall. intros l Hl. specialize (ANS l Hl). split; auto.
    unfold okbatch. destruct batch; cbn; auto. exists (map Some l). split; auto. split; auto. apply first_newdoc_ok. }
  pose proof (never_raises o batch HZ fl (new_reader (map (file_of batch) fs)) [] HT (fun _ _ => eq_refl)) as NR.
  pose proof (reading_files_ends o (map (file_of batch) fs) fl) as TE.
  destruct (read_documents fl o no_after (new_reader (map (file_of batch) fs)) []) as [r [docs|e|]]; cbn [snd] in *; eauto.
  - exfalso. now apply (NR e).
  - exfalso. apply TE; auto.
    + intros f Hf. apply in_map_iff in Hf as [l [<- _]]. cbn. destruct batch; discriminate.
    + rewrite map_map. replace (map (fun x => S (length (f_trees (file_of batch x)))) fs) with (map (fun l : list (item A) => S (length l)) fs); auto.
      apply map_ext. intros l. cbn. now rewrite map_length.
Qed.
