(** The theorems about the readers (C28), from the invariant of ReaderProofs. *)
From Coq Require Import String List NArith ZArith Bool Lia.
From Verif Require Import PyStr PyStrFacts PyList PyListFacts PyExn TreeModel BundleModel BundleSpec BundleProofs
  ReaderModel ReaderSpec ReaderProofs ReaderTerm.
Import ListNotations.

Section Q.
Context {A : Type}.
Implicit Types (r : reader A) (o : opts) (fs : list (list (item A))).
Notation old0 := (fun _ : nat => @nil nat).

Lemma identified_id (it : item A) : identified it -> it_sid it <> None /\ id_of it <> [].
Proof.
  intros [i [z [H1 [H2 [[H3 _]|H3]]]]]; unfold id_of; rewrite H3; split; try discriminate.
  - destruct (split1 47%N i) as [[a b]|] eqn:E; auto. apply split1_Some in E as [-> _]. exfalso. apply H2, in_app_iff. right. now left.
  - rewrite split1_app by auto. auto.
Qed.
Lemma has_id_of (it : item A) : it_sid it <> None -> id_of it <> [] -> has_id it (id_of it) (z_of it).
Proof.
  intros H1 H2. split; auto. split; [apply id_no_slash|]. unfold id_of, z_of. destruct (it_sid it) as [v|]; [|congruence].
  destruct (split1 47%N v) as [[i z]|] eqn:E; [right|left; auto]. apply split1_Some in E as [-> _]. auto.
Qed.
Lemma has_id_fun (it : item A) i z : has_id it i z -> i = id_of it.
Proof.
  intros [H1 [H2 [[H3 _]|H3]]]; unfold id_of; rewrite H3.
  - destruct (split1 47%N i) as [[a b]|] eqn:E; auto. apply split1_Some in E as [-> _]. exfalso. apply H2, in_app_iff. right. now left.
  - rewrite split1_app by auto. auto.
Qed.

Lemma full_slash i z : full_id i z = i ++ slash z.
Proof. unfold full_id, slash. destruct z; auto. cbn. now rewrite app_nil_r. Qed.
Lemma G_new o idp l : G o idp old0 (new_reader (A := A) l) [].
Proof. constructor; cbn; auto; constructor. Qed.
Lemma G_handle o idp f : G o idp old0 (new_reader_handle (A := A) f) [].
Proof. constructor; cbn; auto; constructor. Qed.

Section Run.
Variables (o : opts) (batch : bool) (fs : list (list (item A))) (fl : nat) (r0 r : reader A) (docs : list nat).
Variable after : reader A -> nat -> reader A * res unit.
Hypothesis HM : mild after.
Hypothesis H0 : reads batch fs r0.
Hypothesis HR : read_documents fl o after r0 [] = (r, Ok docs).
Definition idp : Prop := o_ignore o = false /\ Forall (Forall identified) fs.

Lemma run : exists (new : list (nat * list (nat * list (nat * item A)))) left,
  docs = map fst new /\ G o idp old0 r new /\ Forall (fun x => shape o true idp (snd x)) new /\
  map snd (all_ents new) ++ left = input o fs /\ (o_max o = 0 -> left = []) /\
  (solo o -> filter ne (map (fun x : nat * list (nat * list (nat * item A)) => map snd (ents (snd x))) new) = filter ne (map (wanted o) fs)).
Proof.
  assert (GO : Forall (Forall (goodid (A := A) idp)) fs).
  { rewrite Forall_forall. intros l Hl. rewrite Forall_forall. intros it Hi [_ HI]. apply identified_id.
    rewrite Forall_forall in HI. specialize (HI l Hl). rewrite Forall_forall in HI. auto. }
  destruct H0 as [E0|[l [E0 E1]]].
  - destruct (read_ok o batch true idp old0 fs (fun i => proj1 i) (fun _ => eq_refl) GO after fl HM (fun _ => eq_refl) eq_refl r0 [] [] (input o fs)
      (filter ne (map (wanted o) fs)) r docs) as [new [left [Q1 [Q2 [Q3 [Q4 [Q5 Q6]]]]]]]; auto; try (subst r0; reflexivity).
    + right. subst r0. repeat split.
    + subst r0. apply G_new.
    + exists new, left. auto 10.
  - destruct (read_ok o batch true idp old0 fs (fun i => proj1 i) (fun _ => eq_refl) GO after fl HM (fun _ => eq_refl) eq_refl r0 [] [] (input o fs)
      (filter ne (map (wanted o) fs)) r docs) as [new [left [Q1 [Q2 [Q3 [Q4 [Q5 Q6]]]]]]]; auto; try (subst r0; reflexivity).
    + left. exists l. rewrite E0, E1. split; [|split; reflexivity].
      constructor; cbn; auto.
      * exists (file_of batch l). repeat split; auto; [intros ->; auto|intros [-> _]; auto].
      * rewrite E0 in GO. now inversion GO.
    + subst r0. apply G_handle.
    + exists new, left. auto 10.
Qed.

Lemma trees_of_new new : G o idp old0 r new -> forall x, In x new ->
  trees_of (rd_store r) (fst x) = map fst (ents (snd x)).
Proof.
  intros HG x Hx. pose proof (g_docs _ _ _ _ _ HG) as D. rewrite Forall_forall in D. destruct (D x Hx) as [E [K _]].
  unfold trees_of, ents. rewrite E. clear E. induction (snd x) as [|bg bs IH]; auto. inversion K as [|? ? [K1 _] K2]; subst. cbn. rewrite map_app, IH; auto.
  now rewrite K1.
Qed.
Lemma all_trees_new new : G o idp old0 r new -> all_trees (rd_store r) (map fst new) = map fst (all_ents new).
Proof.
  intros HG. unfold all_trees, all_ents. rewrite map_map, concat_map, map_map. f_equal. apply map_ext_in. intros x Hx. now apply trees_of_new with (new := new).
Qed.
Lemma contents_new new : G o idp old0 r new -> forall x, In x new -> contents r (map fst (ents (snd x))) = items (map snd (ents (snd x))).
Proof.
  intros HG x Hx. pose proof (g_docs _ _ _ _ _ HG) as D. rewrite Forall_forall in D. destruct (D x Hx) as [E [K _]].
  unfold contents, items. rewrite !map_map. apply map_ext_in. intros e He. unfold ents in He. apply in_concat in He as [g [Hg He]].
  apply in_map_iff in Hg as [bg [<- Hb]]. rewrite Forall_forall in K. destruct (K bg Hb) as [_ K2]. rewrite Forall_forall in K2. now destruct (K2 e He).
Qed.
Lemma all_contents new : G o idp old0 r new -> contents r (map fst (all_ents new)) = items (map snd (all_ents new)).
Proof.
  intros HG. unfold all_ents. pose proof (contents_new new HG) as C. clear HG. induction new as [|x new IH]; auto. cbn [map concat]. unfold contents, items in *.
  rewrite !map_app. rewrite C by (now left). f_equal. apply IH. intros y Hy. apply C. now right.
Qed.

Theorem placed_once :
  NoDup docs /\ NoDup (bundles_of (rd_store r) docs) /\ NoDup (all_trees (rd_store r) docs) /\
  exists left, contents r (all_trees (rd_store r) docs) ++ items left = items (input o fs) /\ (o_max o = 0 -> left = []).
Proof.
  destruct run as [new [left [E [HG [HS [Q1 [Q2 Q3]]]]]]]. subst docs. split; [apply HG|]. split.
  - replace (bundles_of (rd_store r) (map fst new)) with (all_bundles new); [apply HG|]. unfold bundles_of, all_bundles. rewrite map_map. f_equal.
    apply map_ext_in. intros x Hx. pose proof (g_docs _ _ _ _ _ HG) as D. rewrite Forall_forall in D. now destruct (D x Hx) as [-> _].
  - rewrite all_trees_new by auto. split; [apply HG|]. exists left. split; auto. rewrite all_contents by auto. unfold items.
    rewrite <- Q1, map_app. auto.
Qed.

Lemma trees_below : Forall (fun t => t < nt (rd_store r)) (all_trees (rd_store r) docs).
Proof. destruct run as [new [left [E [HG _]]]]. subst docs. rewrite all_trees_new by auto. apply HG. Qed.

Lemma sep_at gs : sep (A := A) gs -> forall l1 g h l2, gs = l1 ++ g :: h :: l2 ->
  forall x y, In x g -> In y h -> id_of (snd x) <> id_of (snd y).
Proof.
  induction gs as [|a gs IH]; intros HS l1 g h l2 E; [destruct l1; discriminate|]. destruct l1 as [|b l1]; cbn in E.
  - injection E as -> ->. cbn in HS. apply HS.
  - injection E as -> ->. eapply IH; [|reflexivity]. cbn [sep] in HS. destruct (l1 ++ g :: h :: l2) eqn:EL; [destruct l1; discriminate|]. apply HS.
Qed.
Theorem bundles_read : o_ignore o = false -> Forall (Forall identified) fs ->
  exists gss left,
    Forall2 (fun d gs => Forall2 (bundle_reads o r) (d_bundles (rd_store r) d) gs /\
                         (o_bpd o = 0 -> o_split o = false -> o_merge o = false -> separated gs)) docs gss /\
    concat (concat gss) ++ left = input o fs /\ (o_max o = 0 -> left = []).
Proof.
  intros I1 I2. assert (ID : idp) by (split; auto).
  destruct run as [new [left [E [HG [HS [Q1 [Q2 Q3]]]]]]]. subst docs.
  exists (map (fun x : nat * list (nat * list (nat * item A)) => map (fun bg => map snd (snd bg)) (snd x)) new), left. split; [|split; auto].
  - assert (IE : Forall (fun e => identified (A := A) (snd e)) (all_ents new)).
    { rewrite Forall_forall. intros e He. assert (HI : In (snd e) (input o fs)) by (rewrite <- Q1; apply in_app_iff; left; now apply in_map).
      unfold input in HI. apply in_concat in HI as [l [Hl HI]]. apply in_map_iff in Hl as [l' [<- Hl]]. unfold wanted in HI. apply filter_In in HI as [HI _].
      rewrite Forall_forall in I2. specialize (I2 _ Hl). rewrite Forall_forall in I2. auto. }
    pose proof (g_docs _ _ _ _ _ HG) as D. clear HG Q1 Q3 HR. induction new as [|[d bs] new IH]; [constructor|].
    inversion D as [|? ? D1 D2]; subst. inversion HS as [|? ? S1 S2]; subst. cbn [map fst snd]. unfold all_ents in IE. cbn [map concat snd] in IE. apply Forall_app in IE as [IE1 IE2]. constructor; auto.
    destruct D1 as [E1 [K _]]. cbn [fst snd] in *. rewrite E1. destruct S1 as [S1 _ _ S4 _]. cbn [snd] in *. specialize (S1 eq_refl). split.
    + clear E1 D2 HS IH S2 S4 D IE2. induction bs as [|[b g] bs IH]; [constructor|]. inversion K as [|? ? [K1 K2] K3]; subst. inversion S1; subst.
      cbn [map fst snd] in *. unfold ents in IE1. cbn [map concat snd] in IE1. apply Forall_app in IE1 as [IE3 IE4]. constructor; [|auto]. split; [destruct g; cbn; congruence|]. rewrite K1. cbn [app]. clear IH K K1 K3 S1 H3.
      induction g as [|e g IH]; [constructor|]. cbn [map]. inversion K2 as [|? ? [T1 T2] K4]; subst. destruct (T2 ID) as [T3 [T4 T5]]. constructor.
      * split; auto. exists (id_of (snd e)), (z_of (snd e)). split; [|repeat split; auto; rewrite T5; unfold zone_of; now rewrite full_slash].
        inversion IE3 as [|? ? I3 I4]; subst. apply identified_id in I3 as [I5 I6]. now apply has_id_of.
      * inversion IE3; subst. destruct g; [constructor|]. apply IH; auto. discriminate.
    + intros B1 B2 B3 l1 g h l2 x y Hgs Hx Hy [i [z [w [X Y]]]].
      assert (J : joins o) by (repeat split; auto). specialize (S4 J ID).
      assert (EX : exists l1' g' h' l2', map snd bs = l1' ++ g' :: h' :: l2' /\ g = map snd g' /\ h = map snd h').
      { clear - Hgs. revert l1 Hgs. induction bs as [|[b k] bs IH]; intros l1 Hgs; [destruct l1; discriminate|]. destruct l1 as [|a l1]; cbn in Hgs.
        - injection Hgs as <- Hgs. destruct bs as [|[b2 k2] bs]; [discriminate|]. cbn in Hgs. injection Hgs as <- _. exists [], k, k2, (map snd bs). auto.
        - injection Hgs as _ Hgs. destruct (IH _ Hgs) as [l1' [g' [h' [l2' [E1 [E2 E3]]]]]]. exists (k :: l1'), g', h', l2'. cbn. rewrite E1. auto. }
      destruct EX as [l1' [g' [h' [l2' [E2 [-> ->]]]]]]. apply in_map_iff in Hx as [x' [<- Hx]]. apply in_map_iff in Hy as [y' [<- Hy]].
      apply (sep_at _ S4 _ _ _ _ E2 x' y' Hx Hy). apply has_id_fun in X, Y. congruence.
  - rewrite <- Q1. f_equal. unfold all_ents, ents. clear. induction new as [|x new IH]; auto. cbn. rewrite concat_app, map_app, IH. f_equal.
    induction (snd x) as [|bg bs IHb]; auto. cbn. rewrite map_app, IHb. auto.
Qed.

Theorem one_per_bundle : o_ignore o = true -> Forall (fun b => length (b_trees (rd_store r) b) = 1) (bundles_of (rd_store r) docs).
Proof.
  intros I. destruct run as [new [left [E [HG [HS [Q1 [Q2 Q3]]]]]]]. subst docs. unfold bundles_of. rewrite Forall_forall. intros b Hb.
  apply in_concat in Hb as [l [Hl Hb]]. rewrite map_map in Hl. apply in_map_iff in Hl as [x [<- Hx]].
  pose proof (g_docs _ _ _ _ _ HG) as D. rewrite Forall_forall in D, HS. destruct (D x Hx) as [E [K _]]. rewrite E in Hb.
  apply in_map_iff in Hb as [bg [<- Hb]]. destruct (HS x Hx) as [S1 _ S3 _ _]. specialize (S1 eq_refl). specialize (S3 I).
  rewrite Forall_forall in K, S1, S3. destruct (K bg Hb) as [K1 _]. specialize (S1 bg Hb). specialize (S3 bg Hb). rewrite K1. cbn. rewrite map_length.
  destruct (snd bg) as [|? [|? ?]]; cbn in *; auto; [congruence|lia].
Qed.
Theorem no_empty_bundle : Forall (fun b => b_trees (rd_store r) b <> []) (bundles_of (rd_store r) docs).
Proof.
  destruct run as [new [left [E [HG [HS [Q1 [Q2 Q3]]]]]]]. subst docs. unfold bundles_of. rewrite Forall_forall. intros b Hb.
  apply in_concat in Hb as [l [Hl Hb]]. rewrite map_map in Hl. apply in_map_iff in Hl as [x [<- Hx]].
  pose proof (g_docs _ _ _ _ _ HG) as D. rewrite Forall_forall in D, HS. destruct (D x Hx) as [E [K _]]. rewrite E in Hb.
  apply in_map_iff in Hb as [bg [<- Hb]]. destruct (HS x Hx) as [S1 _ _ _ _]. specialize (S1 eq_refl).
  rewrite Forall_forall in K, S1. destruct (K bg Hb) as [K1 _]. specialize (S1 bg Hb). rewrite K1. cbn. destruct (snd bg); cbn; congruence.
Qed.
Theorem bundles_per_doc : o_bpd o <> 0 -> Forall (fun d => length (d_bundles (rd_store r) d) <= o_bpd o) docs.
Proof.
  intros B. destruct run as [new [left [E [HG [HS [Q1 [Q2 Q3]]]]]]]. subst docs. rewrite Forall_forall. intros d Hd.
  apply in_map_iff in Hd as [x [<- Hx]]. pose proof (g_docs _ _ _ _ _ HG) as D. rewrite Forall_forall in D, HS. destruct (D x Hx) as [E _].
  rewrite E, map_length. destruct (HS x Hx) as [_ S2 _ _ _]. auto.
Qed.
Theorem split_docs : o_split o = true -> Forall (fun d => Forall (fun t => truthy (rd_newdoc r t) = false) (tl (trees_of (rd_store r) d))) docs.
Proof.
  intros B. destruct run as [new [left [E [HG [HS [Q1 [Q2 Q3]]]]]]]. subst docs. rewrite Forall_forall. intros d Hd.
  apply in_map_iff in Hd as [x [<- Hx]]. rewrite (trees_of_new new HG x Hx).
  pose proof (g_docs _ _ _ _ _ HG) as D. rewrite Forall_forall in D. destruct (D x Hx) as [_ [_ N]]. specialize (N B).
  destruct (ents (snd x)); cbn in *; [constructor|]. now apply Forall_map.
Qed.
Theorem one_file_per_doc : o_bpd o = 0 -> o_split o = false -> o_merge o = false -> o_max o = 0 ->
  filter nonempty_list (map (fun d => contents r (trees_of (rd_store r) d)) docs) = map items (filter nonempty_list (map (wanted o) fs)).
Proof.
  intros B1 B2 B3 B4. destruct run as [new [left [E [HG [HS [Q1 [Q2 Q3]]]]]]]. subst docs.
  assert (SO : solo o) by (repeat split; auto). specialize (Q3 SO). change (@ne (item A)) with (@nonempty_list (item A)) in Q3. rewrite <- Q3.
  rewrite map_map. clear Q1 Q3 HR. assert (C : forall x, In x new -> contents r (trees_of (rd_store r) (fst x)) = items (map snd (ents (snd x)))).
  { intros x Hx. rewrite (trees_of_new new HG x Hx). now apply contents_new with (new := new). }
  clear HG HS. induction new as [|x new IH]; auto. cbn [map filter]. rewrite C by (now left). rewrite IH by (intros y Hy; apply C; now right).
  destruct (map snd (ents (snd x))); auto.
Qed.
End Run.

(** ---- The bundles of a document stay in place ---- *)
Definition grows r r' : Prop := forall d, exists e, d_bundles (rd_store r') d = d_bundles (rd_store r) d ++ e.
Lemma grows_same r r' : d_bundles (rd_store r') = d_bundles (rd_store r) -> grows r r'.
Proof. intros E d. exists []. now rewrite E, app_nil_r. Qed.
Lemma grows_trans r1 r2 r3 : grows r1 r2 -> grows r2 r3 -> grows r1 r3.
Proof. intros H1 H2 d. destruct (H1 d) as [e1 E1], (H2 d) as [e2 E2]. exists (e1 ++ e2). now rewrite E2, E1, app_assoc. Qed.
Lemma grows_alloc r it : grows r (fst (alloc r it)).
Proof. now apply grows_same. Qed.
Lemma set_zone_bundles s t z : d_bundles (fst (set_zone s t z)) = d_bundles s.
Proof. unfold set_zone. repeat match goal with |- context [match ?x with _ => _ end] => destruct x end; auto. Qed.
Lemma grows_prepare o r t la : grows r (fst (prepare o r t la)).
Proof.
  apply grows_same. unfold prepare.
  assert (E : d_bundles (fst (if o_ignore o then (put_sid (rd_store r) t None, (la, false))
    else match t_sid (rd_store r) t with
         | None => (rd_store r, (la, false))
         | Some sid =>
           match split1 47%N sid with
           | None => (rd_store r, (sid, str_eqb sid la))
           | Some (b, z) => (fst (set_zone (rd_store r) t z), (b, str_eqb b la))
           end
         end)) = d_bundles (rd_store r)).
  { destruct (o_ignore o); auto. destruct (t_sid _ _); auto. destruct (split1 _ _) as [[]|]; auto. apply set_zone_bundles. }
  destruct (if o_ignore o then _ else _) as [s1 la1]. cbn [fst] in *. cbn. destruct (o_zone o); auto. now rewrite set_zone_bundles.
Qed.
Lemma grows_create r d s b : create_bundle (rd_store r) d = (s, b) -> forall s', d_bundles s' = d_bundles s -> grows r (with_store r s').
Proof.
  rewrite create_bundle_eq. intros E s' Es d'. injection E as <- _. cbn [with_store rd_store]. rewrite Es. cbn [d_bundles].
  destruct (Nat.eq_dec d' d) as [->|N]; [rewrite upd_same; eauto|rewrite upd_other by auto; exists []; now rewrite app_nil_r].
Qed.
Lemma set_sids_bundles i l : forall s, d_bundles (set_sids s i l) = d_bundles s.
Proof. induction l as [|t l IH]; intros s; auto. cbn [set_sids]. rewrite IH. auto. Qed.
Lemma set_bundle_id_bundles s b i : d_bundles (set_bundle_id s b i) = d_bundles s.
Proof.
  unfold set_bundle_id. cbv zeta. destruct (b_trees _ b) as [|t [|t2 l]]; [auto| |rewrite set_sids_bundles; auto].
  destruct (zone_is _ _ _); [auto|rewrite set_sids_bundles; auto].
Qed.
Lemma grows_fresh r d la : grows r (fst (fresh_bundle r d la)).
Proof.
  unfold fresh_bundle. destruct (create_bundle (rd_store r) d) as [s b] eqn:E. cbn [fst]. eapply grows_create; [exact E|].
  destruct (nonempty la); auto. apply set_bundle_id_bundles.
Qed.
Lemma grows_add r b t r' x : add_to r b t = (r', x) -> grows r r'.
Proof.
  unfold add_to, add_tree. destruct (check_zone _ _ _); intros E; injection E as <- _; apply grows_same; cbn; destruct (t_zone _ _); auto;
  match goal with |- context [b_id ?s ?b] => destruct (b_id s b) as [[|? ?]|] end; auto.
Qed.
Lemma grows_filtered_from flt b : forall l sk r, grows r (fst (filtered_from flt sk r b l)).
Proof.
  induction l as [|[it|] l IH]; intros sk r; cbn [filtered_from]; try (now apply grows_same).
  pose proof (grows_alloc r it) as K. destruct (alloc r it) as [r1 t]. cbn [fst] in K. destruct flt as [f|].
  - destruct (f _).
    + destruct (truthy sk && _); (eapply grows_trans; [exact K|now apply grows_same]).
    + eapply grows_trans; [exact K|apply IH].
  - eapply grows_trans; [exact K|now apply grows_same].
Qed.
Lemma grows_filtered o r : grows r (fst (filtered_read_tree o r)).
Proof. unfold filtered_read_tree. destruct (rd_handle r); [apply grows_filtered_from|now apply grows_same]. Qed.
Lemma grows_place o r d orig bundle la add t : grows r (fst (place o r d orig bundle la add t)).
Proof.
  unfold place. cbv zeta. set (nd := truthy (rd_newdoc r t)).
  destruct (nd && over_max o r); [now apply grows_same|]. destruct (nd && _ && _); [now apply grows_same|].
  set (r0 := if nd then with_docs r (S (rd_docs r)) else r). assert (K0 : grows r r0) by (unfold r0; destruct nd; now apply grows_same).
  assert (PUT : forall r1 orig b, grows r r1 -> grows r (fst (bind (add_to r1 b t) (fun r _ =>
      match is_full o r b with
      | Ok true => if o_multi o then (r, Ok (Placed orig b)) else (r, Ok (Full b))
      | Ok false => (r, Ok (Placed orig b))
      | Raise e => (r, Raise e)
      | Diverge => (r, Diverge)
      end)))).
  { intros r1 orig1 b K1. destruct (add_to r1 b t) as [r2 y] eqn:EA. apply grows_add in EA. pose proof (grows_trans _ _ _ K1 EA) as K.
    destruct y; cbn [bind]; auto. destruct (is_full o r2 b) as [[|]| |]; [destruct (o_multi o)|..]; auto. }
  assert (NEXT : grows r (fst (match orig with
                  | b :: orig => bind (add_to r0 b t) (fun r _ =>
      match is_full o r b with
      | Ok true => if o_multi o then (r, Ok (Placed orig b)) else (r, Ok (Full b))
      | Ok false => (r, Ok (Placed orig b))
      | Raise e => (r, Raise e)
      | Diverge => (r, Diverge)
      end)
                  | [] => let (r, b) := fresh_bundle r0 d la in bind (add_to r b t) (fun r _ =>
      match is_full o r b with
      | Ok true => if o_multi o then (r, Ok (Placed [] b)) else (r, Ok (Full b))
      | Ok false => (r, Ok (Placed [] b))
      | Raise e => (r, Raise e)
      | Diverge => (r, Diverge)
      end)
                  end))).
  { destruct orig as [|b orig]; [|apply PUT; auto]. pose proof (grows_fresh r0 d la) as KF. destruct (fresh_bundle r0 d la) as [r1 b].
    apply PUT. eapply grows_trans; eauto. }
  destruct bundle as [b|]; auto. destruct add; [apply PUT; auto|]. destruct (is_full o r0 b) as [[|]| |] eqn:EF; auto;
  (eapply grows_trans; [exact K0|now apply grows_same]).
Qed.
Lemma grows_slow fl : forall o r d orig bundle la loaded, grows r (fst (slow_loop fl o r d orig bundle la loaded)).
Proof.
  induction fl as [|fl IH]; intros o r d orig bundle la loaded; cbn [slow_loop]; [now apply grows_same|].
  pose proof (grows_filtered o r) as K1. destruct (filtered_read_tree o r) as [r1 [t|]]; cbn [fst] in K1.
  - destruct (_ && over_max o r1); [eapply grows_trans; [exact K1|now apply grows_same]|].
    set (r2 := if negb loaded && negb (truthy (rd_newdoc r1 t)) then with_docs r1 (S (rd_docs r1)) else r1).
    assert (K2 : grows r r2) by (unfold r2; destruct (_ && _); (eapply grows_trans; [exact K1|now apply grows_same])).
    pose proof (grows_prepare o r2 t la) as K3. destruct (prepare o r2 t la) as [r3 [la' add]]. cbn [fst] in K3.
    pose proof (grows_place o r3 d orig bundle la' add t) as K4. destruct (place o r3 d orig bundle la' add t) as [r4 y]. cbn [fst] in K4.
    pose proof (grows_trans _ _ _ (grows_trans _ _ _ K2 K3) K4) as K. destruct y as [[]| |]; cbn [bind]; auto.
    eapply grows_trans; [exact K|apply IH].
  - destruct (_ && has_next r1); [eapply grows_trans; [exact K1|]; eapply grows_trans; [|apply IH]; now apply grows_same|].
    eapply grows_trans; [exact K1|now apply grows_same].
Qed.
Lemma grows_process o r d : d_bundles (rd_store r) d <> [] -> rd_buffer r = None -> grows r (fst (process_document o r d)).
Proof.
  intros NE NB. unfold process_document, try_fast_load, take_buffer. destruct (d_bundles (rd_store r) d) eqn:ED; [congruence|]. cbn [negb orb bind].
  rewrite NB. cbn [bind]. set (r' := match rd_handle r with None => next_handle r | Some _ => r end).
  assert (K : grows r r') by (unfold r'; destruct (rd_handle r); now apply grows_same).
  destruct (rd_handle r'); [eapply grows_trans; [exact K|apply grows_slow]|]. eapply grows_trans; [exact K|now apply grows_same].
Qed.

(** ---- Reading into a document that already has bundles ---- *)
Theorem into_document o batch fs r0 r d : reads batch fs r0 -> forall s0,
  d < nd s0 -> d_bundles s0 d <> [] -> NoDup (d_bundles s0 d) -> Forall (fun b => b < nb s0) (d_bundles s0 d) ->
  (forall b, nb s0 <= b -> b_trees s0 b = []) ->
  process_document o (with_store r0 s0) d = (r, Ok tt) ->
  exists more new left, d_bundles (rd_store r) d = d_bundles s0 d ++ more /\
    Forall2 (fun b ts => b_trees (rd_store r) b = b_trees s0 b ++ ts) (d_bundles (rd_store r) d) new /\
    NoDup (concat new) /\ contents r (concat new) ++ items left = items (input o fs) /\
    (exists l n, new = l ++ repeat [] n /\ Forall (fun ts => ts <> []) l) /\
    (o_ignore o = true -> Forall (fun ts => length ts <= 1) new) /\
    (o_max o = 0 -> rd_finished r = true -> left = []).
Proof.
  intros H0 s0 Hd Hne Hnd Hlt Hold HP. set (ir := False).
  assert (GO : Forall (Forall (goodid (A := A) ir)) fs) by (rewrite Forall_forall; intros l _; rewrite Forall_forall; intros it _ []).
  assert (HI : ir -> o_ignore o = false) by (intros []). assert (HF : ir -> false = true) by (intros []).
  assert (G0 : G o ir (b_trees s0) (with_store r0 s0) ([] ++ [(d, nils (A := A) (d_bundles s0 d))])).
  { constructor; cbn [app].
    - constructor; [|constructor]. split; [cbn; unfold nils; rewrite map_map; cbn; now rewrite map_id|]. split.
      + unfold nils. cbn [snd]. rewrite Forall_map. rewrite Forall_forall. intros b _. split; cbn; [now rewrite app_nil_r|constructor].
      + intros _. cbn [snd]. replace (ents (nils (A := A) (d_bundles s0 d))) with (@nil (nat * item A)); [constructor|].
        symmetry. apply ents_nils.
    - repeat constructor. intros [].
    - repeat constructor. auto.
    - rewrite all_bundles_1. unfold nils. rewrite map_map. cbn. now rewrite map_id.
    - rewrite all_bundles_1. unfold nils. rewrite map_map. cbn. now rewrite map_id.
    - rewrite all_ents_1. unfold nils. rewrite ents_nils. constructor.
    - rewrite all_ents_1. unfold nils. rewrite ents_nils. constructor.
    - auto. }
  assert (S0 : St o batch false ir fs (with_store r0 s0) (input o fs) (filter ne (map (wanted o) fs))).
  { destruct H0 as [E0|[l [E0 E1]]].
    - right. subst r0. repeat split.
    - left. exists l. rewrite E0, E1. split; [|split; reflexivity]. constructor; cbn; auto.
      + exists (file_of batch l). repeat split; auto; [intros ->; auto|intros [-> _]; auto].
      + rewrite E0 in GO. now inversion GO. }
  destruct (process_ok o batch false ir (b_trees s0) fs HI HF GO (with_store r0 s0) [] d (d_bundles s0 d) (input o fs) (filter ne (map (wanted o) fs)) [] r) as
    [bs [bf' [left [Q1 [Q2 [Q3 [Q4 [Q5 [Q6 Q7]]]]]]]]]; auto.
  { destruct H0 as [->|[l [_ ->]]]; reflexivity. }
  { destruct H0 as [->|[l [_ ->]]]; reflexivity. }
  cbn [app] in *. pose proof (g_docs _ _ _ _ _ Q1) as D. inversion D as [|? ? [D1 [D2 _]] _]; subst. cbn [fst snd] in *.
  assert (NB : rd_buffer (with_store r0 s0) = None) by (destruct H0 as [->|[l [_ ->]]]; reflexivity).
  destruct (grows_process o (with_store r0 s0) d Hne NB d) as [more GR]. rewrite HP in GR. cbn [fst] in GR.
  exists more, (map (fun bg => map fst (snd bg)) bs), left. split; [exact GR|].
  assert (CE : concat (map (fun bg : nat * list (nat * item A) => map fst (snd bg)) bs) = map fst (ents bs)).
  { unfold ents. rewrite concat_map, map_map. auto. }
  split; [|split; [|split; [|split; [|split]]]].
  - rewrite D1. clear - D2. induction bs as [|bg bs IH]; [constructor|]. inversion D2 as [|? ? [K1 _] K2]; subst. constructor; auto.
  - rewrite CE. pose proof (g_t _ _ _ _ _ Q1) as T. rewrite all_ents_1 in T. auto.
  - rewrite CE. replace (contents r (map fst (ents bs))) with (items (map snd (ents bs))); [unfold items; rewrite <- map_app, Q5; auto|].
    unfold contents, items. rewrite !map_map. apply map_ext_in. intros e He. unfold ents in He. apply in_concat in He as [g [Hg He]].
    apply in_map_iff in Hg as [bg [<- Hb]]. rewrite Forall_forall in D2. destruct (D2 bg Hb) as [_ K2]. rewrite Forall_forall in K2. now destruct (K2 e He) as [-> _].
  - destruct (sh_dist _ _ _ _ Q2) as [done [orig [-> F]]]. exists (map (fun bg => map fst (snd bg)) done), (length orig). rewrite map_app. split.
    + f_equal. unfold nils. rewrite map_map. cbn. clear. induction orig as [|b l IH]; cbn; [auto|]. now rewrite IH.
    + rewrite Forall_map. eapply Forall_impl; [|exact F]. cbn. intros bg N E. apply map_eq_nil in E. auto.
  - intros I. rewrite Forall_map. eapply Forall_impl; [|exact (sh_ign _ _ _ _ Q2 I)]. cbn. intros bg. now rewrite map_length.
  - intros MX FI. apply Q7; auto.
Qed.
End Q.
