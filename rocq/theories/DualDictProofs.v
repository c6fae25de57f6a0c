From Coq Require Import String List NArith ZArith Bool Lia Permutation Sorted.
From Verif Require Import PyStr PyStrFacts PyList PyListFacts DualDictModel DualDictSpec.
Import ListNotations.

Lemma dict_get_In d k v : NoDup (map fst d) -> (dict_get d k = Some v <-> In (k, v) d).
Proof.
  induction d as [|[k' v'] d IH]; simpl; intros ND.
  - split; [discriminate|tauto].
  - inversion ND as [|? ? N1 N2]; subst. destruct (str_eqb_spec k k') as [->|Hn].
    + split.
      * intros [= ->]; auto.
      * intros [[= ->]|H]; auto. exfalso. apply N1. change k' with (fst (k', v)). now apply in_map.
    + rewrite IH by auto. split; auto. intros [[= -> ->]|H]; congruence || auto.
Qed.
Lemma dict_get_None d k : dict_get d k = None <-> ~ In k (map fst d).
Proof.
  induction d as [|[k' v'] d IH]; simpl; [tauto|].
  destruct (str_eqb_spec k k') as [->|Hn].
  - split; [discriminate|tauto].
  - rewrite IH. firstorder congruence.
Qed.
Lemma dict_get_Some_key d k v : dict_get d k = Some v -> In k (map fst d).
Proof.
  intros H. destruct (in_dec (list_eq_dec N.eq_dec) k (map fst d)) as [|n]; auto.
  apply dict_get_None in n; congruence.
Qed.
Lemma dict_get_key d k : In k (map fst d) -> exists v, dict_get d k = Some v.
Proof.
  intros H. destruct (dict_get d k) eqn:E; eauto. apply dict_get_None in E; tauto.
Qed.
Lemma dict_set_get d k v k' : dict_get (dict_set d k v) k' = if str_eqb k' k then Some v else dict_get d k'.
Proof.
  induction d as [|[k0 v0] d IH]; simpl.
  - destruct (str_eqb_spec k' k); auto.
  - destruct (str_eqb_spec k k0) as [->|Hn]; simpl.
    + destruct (str_eqb_spec k' k0); auto.
    + destruct (str_eqb_spec k' k0) as [->|]; auto.
      destruct (str_eqb_spec k0 k); congruence.
Qed.
Lemma dict_set_names d k v :
  map fst (dict_set d k v) = match dict_get d k with Some _ => map fst d | None => map fst d ++ [k] end.
Proof.
  induction d as [|[k0 v0] d IH]; simpl; auto.
  destruct (str_eqb_spec k k0) as [->|Hn]; simpl; auto.
  rewrite IH. destruct (dict_get d k); auto.
Qed.
Lemma dict_del_None d k : dict_del d k = None <-> dict_get d k = None.
Proof.
  induction d as [|[k0 v0] d IH]; simpl; [tauto|].
  destruct (str_eqb k k0); [split; discriminate|]. destruct (dict_del d k).
  - split; try discriminate. intros H; apply IH in H; discriminate.
  - rewrite <- IH. tauto.
Qed.
Lemma dict_del_spec d k m : NoDup (map fst d) -> dict_del d k = Some m ->
  map fst m = filter (fun k' => negb (str_eqb k' k)) (map fst d) /\
  (forall k', dict_get m k' = if str_eqb k' k then None else dict_get d k').
Proof.
  revert m; induction d as [|[k0 v0] d IH]; simpl; intros m ND; [discriminate|].
  inversion ND as [|? ? N1 N2]; subst. rewrite (str_eqb_sym k0 k).
  destruct (str_eqb_spec k k0) as [->|Hn]; simpl.
  - intros [= <-]. split.
    + symmetry. apply filter_all. intros x Hx. destruct (str_eqb_spec x k0); subst; tauto.
    + intros k'. destruct (str_eqb_spec k' k0) as [->|]; auto. now apply dict_get_None.
  - destruct (dict_del d k) as [r|] eqn:E; try discriminate. intros [= <-].
    destruct (IH r N2 eq_refl) as [E1 E2]. simpl. split; [congruence|].
    intros k'. rewrite E2. destruct (str_eqb_spec k' k0) as [->|]; auto.
    destruct (str_eqb_spec k0 k); congruence.
Qed.

Lemma NoDup_filter_str f (l : list str) : NoDup l -> NoDup (filter f l).
Proof. apply NoDup_filter. Qed.

Lemma NoDup_snoc {A} (l : list A) x : NoDup l -> ~ In x l -> NoDup (l ++ [x]).
Proof.
  intros. apply (Permutation_NoDup (l := x :: l)); [|constructor; auto].
  apply Permutation_cons_append.
Qed.

(** A dict is determined by its names and lookups. *)
Lemma dict_rebuild d : NoDup (map fst d) ->
  d = map (fun k => (k, match dict_get d k with Some v => v | None => VTrue end)) (map fst d).
Proof.
  intros ND. rewrite map_map. rewrite <- (map_id d) at 1. apply map_ext_in.
  intros [k v] H. simpl. apply (dict_get_In d k v ND) in H. now rewrite H.
Qed.

Lemma insert_map {A B} (f : A -> B) leb x l :
  insert leb (f x) (map f l) = map f (insert (fun a b => leb (f a) (f b)) x l).
Proof. induction l as [|y l IH]; simpl; auto. destruct (leb (f x) (f y)); simpl; congruence. Qed.
Lemma isort_map {A B} (f : A -> B) leb l :
  isort leb (map f l) = map f (isort (fun a b => leb (f a) (f b)) l).
Proof. induction l as [|x l IH]; simpl; auto. rewrite IH. apply insert_map. Qed.

Lemma serialize_canonical lower d names vals :
  NoDup names -> map fst d = names -> (forall k, dict_get d k = vals k) ->
  serialize lower d = canonical lower (mkMap names vals None).
Proof.
  intros ND En Ev. subst names. unfold serialize, canonical. cbn [m_names].
  rewrite (dict_rebuild d ND) at 1. rewrite isort_map, map_map. cbn [fst].
  assert (E : map (fun k => item_str (k, match dict_get d k with Some v => v | None => VTrue end))
              (isort (fun a b => str_leb (lower a) (lower b)) (map fst d)) =
          map (item_of (mkMap (map fst d) vals None))
              (isort (fun a b => str_leb (lower a) (lower b)) (map fst d))).
  { apply map_ext_in. intros k Hk. unfold item_of. cbn [m_val]. rewrite <- Ev.
    apply (Permutation_in _ (isort_perm _ _)) in Hk.
    destruct (dict_get_key d k Hk) as [v ->]; auto. }
  cbn beta in *. now rewrite E.
Qed.

(** Parsing. *)
Definition add_entry (d : dict) (kv : str * val) : dict := dict_set d (fst kv) (snd kv).
Lemma parse_item_entry d raw : parse_item d raw = add_entry d (entry raw).
Proof. unfold parse_item, add_entry, entry. destruct (split1 EQ raw) as [[n v]|]; auto. Qed.
Lemma fold_parse l d : fold_left parse_item l d = fold_left add_entry (map entry l) d.
Proof.
  revert d; induction l as [|r l IH]; simpl; intros; auto.
  now rewrite parse_item_entry, IH.
Qed.

Lemma existsb_str_In k l : existsb (str_eqb k) l = true <-> In k l.
Proof.
  rewrite existsb_exists. split.
  - intros [x [H1 H2]]. apply str_eqb_eq in H2; subst; auto.
  - intros H; exists k; split; auto. apply str_eqb_refl.
Qed.

Lemma firsts_seen_ext l : forall s1 s2, (forall x, In x s1 <-> In x s2) -> firsts s1 l = firsts s2 l.
Proof.
  induction l as [|k l IH]; simpl; intros s1 s2 H; auto.
  assert (existsb (str_eqb k) s1 = existsb (str_eqb k) s2) as ->.
  { apply eq_true_iff_eq. rewrite !existsb_str_In. auto. }
  destruct (existsb (str_eqb k) s2); auto.
  f_equal. apply IH. intros x; simpl; rewrite H; tauto.
Qed.

Lemma fold_add_names l d :
  map fst (fold_left add_entry l d) = map fst d ++ firsts (map fst d) (map fst l).
Proof.
  revert d; induction l as [|[k v] l IH]; simpl; intros d.
  - now rewrite app_nil_r.
  - rewrite IH. unfold add_entry at 1 2. cbn [fst snd]. rewrite dict_set_names.
    destruct (dict_get d k) eqn:E.
    + apply dict_get_Some_key in E. apply existsb_str_In in E. rewrite E. auto.
    + apply dict_get_None in E. destruct (existsb (str_eqb k) (map fst d)) eqn:E2.
      * apply existsb_str_In in E2; tauto.
      * rewrite <- app_assoc. simpl. f_equal. f_equal. apply firsts_seen_ext.
        intros x; rewrite in_app_iff; simpl; tauto.
Qed.
Lemma find_app {A} (f : A -> bool) l1 l2 :
  find f (l1 ++ l2) = match find f l1 with Some x => Some x | None => find f l2 end.
Proof. induction l1 as [|x l IH]; simpl; auto. destruct (f x); auto. Qed.
Lemma fold_add_get l d k :
  dict_get (fold_left add_entry l d) k =
  match last_value l k with Some v => Some v | None => dict_get d k end.
Proof.
  revert d; induction l as [|[k0 v0] l IH]; simpl; intros d; auto.
  rewrite IH. unfold last_value. simpl rev. rewrite find_app.
  destruct (find _ (rev l)); auto. simpl.
  unfold add_entry; cbn [fst snd]. rewrite dict_set_get. destruct (str_eqb k k0); auto.
Qed.
Lemma firsts_NoDup l : forall seen, NoDup (firsts seen l) /\ forall x, In x (firsts seen l) -> ~ In x seen.
Proof.
  induction l as [|k l IH]; simpl; intros seen.
  - split; [constructor|simpl; tauto].
  - destruct (existsb (str_eqb k) seen) eqn:E; auto.
    destruct (IH (k :: seen)) as [I1 I2]. split.
    + constructor; auto. intros H; apply I2 in H; simpl in H; tauto.
    + intros x [<-|H].
      * intros H. apply existsb_str_In in H; congruence.
      * apply I2 in H; simpl in H; tauto.
Qed.

(** Simulation relation between the two-field object and the mapping. *)
Definition R (lower : str -> str) (d : dualdict) (m : mapping) : Prop :=
  let d' := deserialize_if_empty d in
  NoDup (m_names m) /\
  map fst (dd_dict d') = m_names m /\
  (forall k, dict_get (dd_dict d') k = m_val m k) /\
  match m_text m with
  | Some x => dd_string d = Some x
  | None => dd_string d = None \/ (dd_string d = Some (serialize lower (dd_dict d)) /\ d = d')
  end.

Lemma deser_idem d : deserialize_if_empty (deserialize_if_empty d) = deserialize_if_empty d.
Proof.
  destruct d as [[x|] [|kv l]]; auto.
  unfold deserialize_if_empty at 2 3. cbn [dd_dict dd_string].
  destruct (str_eqb x US) eqn:E.
  - unfold deserialize_if_empty; cbn [dd_dict dd_string]. now rewrite E.
  - unfold deserialize_if_empty; cbn [dd_dict dd_string]. rewrite E.
    destruct (fold_left parse_item (split BAR x) []); auto.
Qed.
Lemma deser_string d : dd_string (deserialize_if_empty d) = dd_string d.
Proof.
  unfold deserialize_if_empty. destruct d as [[x|] [|kv l]]; cbn [dd_dict dd_string]; auto. destruct (str_eqb x US); auto.
Qed.
Lemma deser_None m : deserialize_if_empty (mkDD None m) = mkDD None m.
Proof. unfold deserialize_if_empty; cbn. destruct m; auto. Qed.
Lemma R_deser lower d m : R lower d m -> R lower (deserialize_if_empty d) m.
Proof.
  unfold R. rewrite deser_idem, deser_string. intros (H1 & H2 & H3 & H4). repeat split; auto.
  destruct (m_text m); auto. destruct H4 as [H4|[H4 H5]]; auto. right. rewrite <- H5. auto.
Qed.

Lemma present_get lower d m k : R lower d m ->
  present m k = match dict_get (dd_dict (deserialize_if_empty d)) k with Some _ => true | None => false end.
Proof. intros (_ & _ & H & _). unfold present. now rewrite H. Qed.

Lemma R_del lower d m k : R lower d m ->
  R lower (dd_del d k) (if present m k then without m k else m).
Proof.
  intros HR. pose proof (present_get _ _ _ k HR) as HP. pose proof (R_deser _ _ _ HR) as HR'.
  destruct HR as (H1 & H2 & H3 & H4). unfold dd_del.
  destruct (dict_del (dd_dict (deserialize_if_empty d)) k) as [r|] eqn:E.
  - assert (dict_get (dd_dict (deserialize_if_empty d)) k <> None) as G.
    { intros G; apply dict_del_None in G; congruence. }
    destruct (dict_get (dd_dict (deserialize_if_empty d)) k); [|congruence]. rewrite HP.
    apply dict_del_spec in E as [E1 E2]; [|now rewrite H2].
    unfold R, without; cbn. rewrite deser_None; cbn. repeat split; auto.
    + now apply NoDup_filter.
    + now rewrite E1, H2.
    + intros k'; rewrite E2, H3; auto.
  - apply dict_del_None in E. rewrite E in HP. rewrite HP. auto.
Qed.

Lemma R_set lower d m k v : R lower d m -> R lower (dd_set d k v) (update_mapping m k v).
Proof.
  intros HR. pose proof (present_get _ _ _ k HR) as HP. destruct HR as (H1 & H2 & H3 & H4).
  set (d' := deserialize_if_empty d) in *.
  assert (HN : R lower (mkDD None (dd_dict d')) (mkMap (m_names m) (m_val m) None)).
  { unfold R; cbn. rewrite deser_None; cbn. auto. }
  assert (Hw : forall m0, m0 = mkMap (m_names m) (m_val m) None ->
             R lower (dd_del (mkDD None (dd_dict d')) k) (without m k)).
  { intros m0 ->. pose proof (R_del _ _ _ k HN) as HD. unfold present in HD; cbn in HD.
    destruct (m_val m k) eqn:E.
    - exact HD.
    - destruct HD as (D1 & D2 & D3 & D4). unfold R, without. cbn in *.
      assert (F : filter (fun k' => negb (str_eqb k' k)) (m_names m) = m_names m).
      { apply filter_all. intros x Hx. destruct (str_eqb_spec x k) as [->|]; auto.
        rewrite <- H2 in Hx. apply dict_get_key in Hx as [v' Hv]. rewrite H3 in Hv. congruence. }
      rewrite F. repeat split; auto. intros k'. rewrite D3.
      destruct (str_eqb_spec k' k); subst; auto. }
  assert (Hp : R lower (mkDD None (dict_set (dd_dict d') k v)) (put m k v)).
  { unfold R, put; cbn. rewrite deser_None; cbn. rewrite HP.
    split; [|split; [|split; auto]].
    - destruct (dict_get (dd_dict d') k) eqn:E; auto.
      apply NoDup_snoc; auto. rewrite <- H2. now apply dict_get_None.
    - rewrite dict_set_names, H2. destruct (dict_get (dd_dict d') k); auto.
    - intros k'. rewrite dict_set_get, H3. auto. }
  unfold dd_set. fold d'. cbn [dd_dict]. unfold update_mapping.
  destruct v as [| |[|a x]]; eauto.
Qed.

Lemma R_text lower x : R lower (mkDD (Some (match x with [] => US | _ => x end)) []) (of_text x).
Proof.
  unfold of_text.
  destruct x as [|a x]; [cbn; unfold R; cbn; repeat split; auto; constructor|].
  change (str_eqb (a :: x) []) with false. cbn [orb].
  destruct (str_eqb (a :: x) US) eqn:E.
  - apply str_eqb_eq in E. injection E as -> ->. unfold R; cbn; repeat split; auto; constructor.
  - unfold R. unfold deserialize_if_empty. cbn [dd_dict dd_string]. rewrite E.
    rewrite fold_parse. cbn [dd_dict dd_string m_text m_names m_val].
    split; [|split; [|split]]; auto.
    + apply firsts_NoDup.
    + rewrite fold_add_names. reflexivity.
    + intros k. rewrite fold_add_get. unfold entries. simpl. now destruct (last_value _ k).
Qed.

Lemma R_clear lower : R lower (mkDD (Some US) []) (mkMap [] no_val (Some US)).
Proof. unfold R; cbn; repeat split; auto; constructor. Qed.

Lemma R_text_of lower d m : R lower d m ->
  snd (dd_str lower d) = text_of lower m /\ R lower (fst (dd_str lower d)) m.
Proof.
  intros (H1 & H2 & H3 & H4). unfold dd_str, text_of.
  destruct (m_text m) as [x|] eqn:E.
  - rewrite H4; simpl; split; auto. unfold R. rewrite E. auto.
  - assert (Hc : serialize lower (dd_dict (deserialize_if_empty d)) = canonical lower m).
    { rewrite (serialize_canonical lower _ (m_names m) (m_val m)); auto. }
    destruct H4 as [H4|[H4 H5]].
    + rewrite H4; simpl.
      assert (deserialize_if_empty d = d) as Hd.
      { destruct d as [ds dd]; simpl in H4; subst. apply deser_None. }
      rewrite Hd in *. split; auto.
      unfold R. rewrite E. cbn [dd_string dd_dict].
      assert (deserialize_if_empty (mkDD (Some (serialize lower (dd_dict d))) (dd_dict d))
              = mkDD (Some (serialize lower (dd_dict d))) (dd_dict d)) as Hd2.
      { unfold deserialize_if_empty; cbn. destruct (dd_dict d); auto. }
      rewrite Hd2. cbn. repeat split; auto.
    + rewrite H4; simpl. split.
      * rewrite <- H5 in Hc. exact Hc.
      * unfold R. rewrite E. repeat split; auto.
Qed.

Lemma sim_step lower d m o : R lower d m -> op_ok o ->
  R lower (fst (dd_step lower d o)) (fst (map_step lower m o)) /\
  snd (dd_step lower d o) = snd (map_step lower m o).
Proof.
  intros HR Hok. pose proof HR as (H1 & H2 & H3 & H4).
  destruct o as [k|k v|k| | |k| | |[|x|d0|]|k v|d0]; simpl.
  - unfold dd_get. simpl. split; [now apply R_deser|]. now rewrite H3.
  - split; auto. now apply R_set.
  - split; auto. now apply R_del.
  - split; [now apply R_deser|]. now rewrite H2.
  - split; [now apply R_deser|]. rewrite <- H2. now rewrite map_length.
  - split; [now apply R_deser|]. now rewrite (present_get _ _ _ k HR).
  - destruct (R_text_of lower d m HR) as [T1 T2].
    destruct (dd_str lower d); simpl in *. subst; auto.
  - split; auto. apply R_clear.
  - split; auto. apply R_clear.
  - split; auto. apply R_text.
  - split; auto. unfold R, of_dict; cbn. rewrite deser_None; cbn. repeat split; auto.
  - auto.
  - split.
    + apply R_del. now apply R_deser.
    + now rewrite H3.
  - split; auto. clear - HR. revert d m HR. unfold dd_update.
    induction d0 as [|[k v] d0 IH]; simpl; intros d m HR; auto.
    apply IH. now apply R_set.
Qed.

Lemma sim_run lower os : forall d m, R lower d m -> Forall op_ok os ->
  R lower (fst (dd_run lower d os)) (fst (map_run lower m os)) /\
  snd (dd_run lower d os) = snd (map_run lower m os).
Proof.
  induction os as [|o os IH]; simpl; intros d m HR Hok; auto.
  inversion Hok as [|? ? O1 O2]; subst.
  destruct (sim_step lower d m o HR O1) as [S1 S2].
  destruct (dd_step lower d o) as [d1 a1], (map_step lower m o) as [m1 b1]; simpl in *.
  destruct (IH d1 m1 S1 O2) as [I1 I2].
  destruct (dd_run lower d1 os), (map_run lower m1 os); simpl in *. split; congruence.
Qed.

Lemma R_initial lower v d0 : value_ok v -> dd_new v = Some d0 ->
  exists m, initial v = Some m /\ R lower d0 m.
Proof.
  destruct v as [[|x|d|]|]; simpl; intros Hv; intros [= <-]; eexists; split; try reflexivity.
  - apply R_clear.
  - apply R_text.
  - unfold R, of_dict; cbn. rewrite deser_None; cbn. repeat split; auto.
  - unfold R; cbn. repeat split; auto. constructor.
Qed.

Lemma reachable_R lower d : reachable lower d -> exists m, R lower d m.
Proof.
  intros [v d0 os Hv H0 Hos]. destruct (R_initial lower v d0 Hv H0) as [m [_ Hm]].
  exists (fst (map_run lower m os)). now apply sim_run.
Qed.

Lemma behaves_as_mapping lower v d0 os : value_ok v -> dd_new v = Some d0 -> Forall op_ok os ->
  exists m, initial v = Some m /\ answers lower d0 os = snd (map_run lower m os).
Proof.
  intros Hv H0 Hos. destruct (R_initial lower v d0 Hv H0) as [m [Hi Hm]].
  exists m; split; auto. now apply sim_run.
Qed.

(** C03 *)
Lemma of_text_text x : m_text (of_text x) = Some (match x with [] => US | _ => x end).
Proof.
  unfold of_text. destruct x as [|a x]; auto.
  change (str_eqb (a :: x) []) with false. cbn [orb].
  destruct (str_eqb (a :: x) US) eqn:E; auto. apply str_eqb_eq in E. now rewrite E.
Qed.
Lemma absent_name lower d m k : R lower d m -> ~ In k (m_names m) -> present m k = false.
Proof.
  intros (H1 & H2 & H3 & _) H. unfold present. rewrite <- H3. rewrite <- H2 in H.
  apply dict_get_None in H. now rewrite H.
Qed.
Lemma present_In lower d m k : R lower d m -> present m k = true <-> In k (m_names m).
Proof.
  intros (H1 & H2 & H3 & _). unfold present. rewrite <- H3, <- H2.
  destruct (dict_get (dd_dict (deserialize_if_empty d)) k) eqn:E.
  - apply dict_get_Some_key in E. tauto.
  - apply dict_get_None in E. split; [discriminate|tauto].
Qed.
Lemma reads_keep lower x os : Forall (reads x) os -> fst (map_run lower (of_text x) os) = of_text x.
Proof.
  induction 1 as [|o os Ho Hos IH]; simpl; auto.
  assert (fst (map_step lower (of_text x) o) = of_text x) as E.
  { destruct o; simpl in *; try tauto; auto.
    rewrite (absent_name lower _ _ k (R_text lower x) Ho). auto. }
  destruct (map_step lower (of_text x) o) as [m1 a1]; simpl in E; subst m1.
  destruct (map_run lower (of_text x) os); auto.
Qed.
Lemma reads_ok x o : reads x o -> op_ok o.
Proof. destruct o as [| | | | | | | |[]| |]; simpl; tauto. Qed.
Lemma map_run_app lower os1 os2 m :
  map_run lower m (os1 ++ os2) =
  (fst (map_run lower (fst (map_run lower m os1)) os2),
   snd (map_run lower m os1) ++ snd (map_run lower (fst (map_run lower m os1)) os2)).
Proof.
  revert m; induction os1 as [|o os1 IH]; simpl; intros m.
  - destruct (map_run lower m os2); auto.
  - destruct (map_step lower m o) as [m1 a1]. rewrite IH. destruct (map_run lower m1 os1); auto.
Qed.
Lemma verbatim_run lower d0 x os : Forall (reads x) os ->
  exists l, answers lower d0 (OSetMapping (MStr x) :: os ++ [OStr]) =
            AUnit :: l ++ [AString (match x with [] => US | _ => x end)].
Proof.
  intros H. unfold answers. simpl.
  pose proof (sim_run lower (os ++ [OStr]) _ _ (R_text lower x)) as [_ S].
  { apply Forall_app; split; [|repeat constructor].
    eapply Forall_impl; [|exact H]. apply reads_ok. }
  destruct (dd_run lower _ (os ++ [OStr])) as [d1 l1]; simpl in *. subst l1.
  rewrite map_run_app. simpl. rewrite reads_keep by auto.
  exists (snd (map_run lower (of_text x) os)).
  unfold text_of. rewrite of_text_text. auto.
Qed.

(** C02 *)
Lemma entry_item k v : ~ In EQ k -> wf_val v -> entry (item_str (k, v)) = (k, v).
Proof.
  intros Hk Hv. unfold item_str, entry. destruct v as [| |x]; cbn [fst snd wf_val] in *; try tauto.
  - assert (split1 EQ k = None) as -> by now apply split1_None. auto.
  - change (k ++ [EQ] ++ x) with (k ++ EQ :: x). rewrite split1_app; auto.
Qed.
Lemma item_no_bar k v : wf_name k -> wf_val v -> ~ In BAR (item_str (k, v)).
Proof.
  intros (H1 & H2 & H3) Hv. unfold item_str. destruct v as [| |x]; cbn [fst snd wf_val] in *; try tauto.
  rewrite !in_app_iff. simpl. intros [H|[[H|[]]|H]]; try tauto. discriminate.
Qed.
Lemma item_nonempty k v : wf_name k -> item_str (k, v) <> [].
Proof.
  intros (H1 & _). unfold item_str. destruct k; [congruence|]. destruct v; cbn; discriminate.
Qed.
Lemma firsts_id l : forall seen, NoDup l -> (forall x, In x l -> ~ In x seen) -> firsts seen l = l.
Proof.
  induction l as [|k l IH]; simpl; intros seen ND H; auto.
  inversion ND as [|? ? N1 N2]; subst.
  destruct (existsb (str_eqb k) seen) eqn:E.
  - apply existsb_str_In in E. exfalso. apply (H k); auto.
  - f_equal. apply IH; auto. intros x Hx [<-|Hs]; auto. apply (H x); auto.
Qed.
Lemma last_value_In l k v : NoDup (map fst l) -> In (k, v) l -> last_value l k = Some v.
Proof.
  intros ND H. unfold last_value.
  assert (NoDup (map fst (rev l))) as ND2 by (rewrite map_rev; now apply NoDup_rev).
  apply in_rev in H. revert ND2 H. generalize (rev l). clear.
  induction l as [|[k' v'] l IH]; simpl; intros ND H; [tauto|].
  inversion ND as [|? ? N1 N2]; subst. destruct (str_eqb_spec k k') as [->|Hn]; simpl.
  - destruct H as [[= ->]|H]; auto. exfalso; apply N1. change k' with (fst (k', v)). now apply in_map.
  - destruct H as [[= -> ->]|H]; [congruence|]. auto.
Qed.
Lemma last_value_None l k : ~ In k (map fst l) -> last_value l k = None.
Proof.
  intros H. unfold last_value. destruct (find _ (rev l)) as [[k' v]|] eqn:E; auto.
  apply find_some in E as [E1 E2]. apply str_eqb_eq in E2; simpl in E2; subst.
  exfalso; apply H. apply in_rev in E1. change k' with (fst (k', v)). now apply in_map.
Qed.

Definition dsort (lower : str -> str) (d : dict) : dict :=
  isort (fun a b => str_leb (lower (fst a)) (lower (fst b))) d.

Lemma entries_serialize lower d : wf_dict d -> d <> [] -> entries (serialize lower d) = dsort lower d.
Proof.
  intros Hwf Hne. unfold serialize. fold (dsort lower d).
  assert (P : Permutation (dsort lower d) d) by apply isort_perm.
  assert (W : forall k v, In (k, v) (dsort lower d) -> wf_name k /\ wf_val v).
  { intros k v H. apply Hwf. eapply Permutation_in; eauto. }
  assert (N : dsort lower d <> []).
  { intros E. rewrite E in P. apply Permutation_nil in P. congruence. }
  set (l := dsort lower d) in *. unfold entries.
  assert (E : map item_str l <> []) by (destruct l; simpl; congruence).
  assert (match map item_str l with [] => US | items => join [BAR] items end
          = join [BAR] (map item_str l)) as ->.
  { destruct (map item_str l); congruence. }
  rewrite split_join; auto.
  - rewrite map_map. rewrite <- (map_id l) at 2. apply map_ext_in.
    intros [k v] H. destruct (W k v H) as [(W1 & W2 & W3) W4]. now apply entry_item.
  - intros x Hx. apply in_map_iff in Hx as [[k v] [<- Hx]].
    destruct (W k v Hx). now apply item_no_bar.
Qed.
Lemma join_nonempty sep x l : x <> [] -> join sep (x :: l) <> [].
Proof. intros H. simpl. destruct l; auto. destruct x; simpl; congruence. Qed.
Lemma join_bar_in x y l : In BAR (join [BAR] (x :: y :: l)).
Proof. simpl. rewrite in_app_iff. right. left. auto. Qed.

Lemma serialize_US lower d : is_dict d -> wf_dict d -> serialize lower d = US ->
  d = [] \/ d = [(US, VTrue)].
Proof.
  intros ND Hwf E. destruct d as [|kv d]; auto. right.
  assert (kv :: d <> []) as Hne by congruence.
  pose proof (entries_serialize lower _ Hwf Hne) as H. rewrite E in H.
  assert (EU : entries US = [(US, VTrue)]) by reflexivity. rewrite EU in H.
  assert (P : Permutation (dsort lower (kv :: d)) (kv :: d)) by apply isort_perm.
  rewrite <- H in P. apply Permutation_length_1_inv in P. exact P.
Qed.
Lemma serialize_nonempty lower d : wf_dict d -> serialize lower d <> [].
Proof.
  intros Hwf. unfold serialize. fold (dsort lower d).
  assert (P : Permutation (dsort lower d) d) by apply isort_perm.
  destruct (dsort lower d) as [|[k v] l] eqn:E; simpl map; [discriminate|].
  apply join_nonempty. apply item_nonempty.
  apply (Hwf k v). eapply Permutation_in; eauto. now left.
Qed.

Lemma of_text_serialize lower d : is_dict d -> wf_dict d -> d <> [(US, VTrue)] ->
  let m := of_text (serialize lower d) in
  m_names m = map fst (dsort lower d) /\ (forall k, m_val m k = dict_get d k).
Proof.
  intros ND Hwf Hne. unfold of_text.
  assert (P : Permutation (dsort lower d) d) by apply isort_perm.
  destruct (str_eqb_spec (serialize lower d) []) as [E|_].
  - now apply serialize_nonempty in E.
  - cbn [orb]. destruct (str_eqb_spec (serialize lower d) US) as [E|E].
    + apply serialize_US in E as [->| ->]; auto; tauto.
    + destruct d as [|kv d]; [now contradict E|].
      rewrite entries_serialize by (auto; congruence).
      assert (ND' : NoDup (map fst (dsort lower (kv :: d)))).
      { eapply Permutation_NoDup; [|exact ND]. apply Permutation_map. now symmetry. }
      set (l := kv :: d) in *. cbn [m_names m_val]. split.
      * apply firsts_id; auto. 
      * intros k. destruct (dict_get l k) as [v|] eqn:G.
        -- apply last_value_In; auto. eapply Permutation_in; [symmetry; exact P|].
           now apply dict_get_In.
        -- apply last_value_None. apply dict_get_None in G. intros H; apply G.
           eapply Permutation_in; [|exact H]. now apply Permutation_map.
Qed.

Lemma dsort_sorted lower d :
  StronglySorted (fun a b => str_leb (lower a) (lower b) = true) (map fst (dsort lower d)).
Proof.
  assert (S : StronglySorted (fun a b => str_leb (lower (fst a)) (lower (fst b)) = true) (dsort lower d)).
  { apply isort_sorted.
    - intros a b. apply str_leb_total.
    - intros a b c. apply str_leb_trans. }
  induction S as [|[k v] l S IH F]; simpl; constructor; auto.
  rewrite Forall_forall in *. intros x Hx. apply in_map_iff in Hx as [kv [<- Hx]]. now apply (F kv).
Qed.

Lemma round_trip lower d0 d : is_dict d -> wf_dict d -> d <> [(US, VTrue)] ->
  exists t names,
    answers lower d0 [OSetMapping (MMap d); OStr] = [AUnit; AString t] /\
    (forall k, answers lower d0 [OSetMapping (MStr t); OGet k; OContains k] =
       [AUnit; AVal (match dict_get d k with Some v => v | None => VStr [] end);
        ABool (match dict_get d k with Some _ => true | None => false end)]) /\
    answers lower d0 [OSetMapping (MStr t); OIter] = [AUnit; AKeys names] /\
    Permutation names (map fst d) /\
    StronglySorted (fun a b => str_leb (lower a) (lower b) = true) names /\
    (t = US <-> d = []).
Proof.
  intros ND Hwf Hne. exists (serialize lower d), (map fst (dsort lower d)).
  destruct (of_text_serialize lower d ND Hwf Hne) as [E1 E2].
  pose proof (R_text lower (serialize lower d)) as HR.
  assert (P : Permutation (dsort lower d) d) by apply isort_perm.
  repeat split.
  - intros k. unfold answers.
    destruct (sim_run lower [OGet k; OContains k] _ _ HR) as [_ S]; [repeat constructor|].
    cbn [dd_run dd_step dd_set_mapping]. cbn [dd_run dd_step] in S.
    simpl in S |- *. rewrite S. unfold present. now rewrite E2.
  - unfold answers.
    destruct (sim_run lower [OIter] _ _ HR) as [_ S]; [repeat constructor|].
    simpl in S |- *. rewrite S. now rewrite E1.
  - now apply Permutation_map.
  - apply dsort_sorted.
  - intros E. apply serialize_US in E as [|]; tauto.
  - intros ->. auto.
Qed.

(** The text does not depend on the insertion order. *)
Lemma order_independent lower d1 d2 : Permutation d1 d2 -> NoDup (map (fun kv => lower (fst kv)) d1) ->
  serialize lower d1 = serialize lower d2.
Proof.
  intros P ND. unfold serialize. fold (dsort lower d1) (dsort lower d2).
  assert (dsort lower d1 = dsort lower d2) as ->; auto.
  pose (lt := fun a b : str * val => str_leb (lower (fst a)) (lower (fst b)) = true /\
                                     lower (fst a) <> lower (fst b)).
  assert (SS : forall d, NoDup (map (fun kv => lower (fst kv)) d) -> StronglySorted lt (dsort lower d)).
  { intros d NDd.
    assert (S : StronglySorted (fun a b => str_leb (lower (fst a)) (lower (fst b)) = true) (dsort lower d)).
    { apply isort_sorted; intros; [apply str_leb_total|eapply str_leb_trans; eauto]. }
    assert (NDs : NoDup (map (fun kv => lower (fst kv)) (dsort lower d))).
    { eapply Permutation_NoDup; [|exact NDd]. apply Permutation_map. symmetry. apply isort_perm. }
    revert S NDs. generalize (dsort lower d). induction 1 as [|a l S IH F]; intros NDs; constructor.
    - inversion NDs; auto.
    - inversion NDs as [|? ? N1 N2]; subst. rewrite Forall_forall in *. intros b Hb. split; auto.
      intros E. apply N1. rewrite E. apply (in_map (fun kv => lower (fst kv))) in Hb. auto. }
  apply (sorted_unique lt).
  - intros a _ [_ H]; congruence.
  - intros a b _ _ [H1 H2] [H3 _]. apply H2. now apply str_leb_antisym.
  - now apply SS.
  - apply SS. eapply Permutation_NoDup; [|exact ND]. now apply Permutation_map.
  - rewrite (isort_perm _ d1 : Permutation (dsort lower d1) d1), P. symmetry. apply isort_perm.
Qed.
Lemma order_independent_run lower d0 d1 d2 : Permutation d1 d2 ->
  NoDup (map (fun kv => lower (fst kv)) d1) ->
  answers lower d0 [OSetMapping (MMap d1); OStr] = answers lower d0 [OSetMapping (MMap d2); OStr].
Proof. intros P ND. unfold answers; simpl. now rewrite (order_independent lower d1 d2). Qed.

(** C04 *)
Lemma delete_step lower m k o : deletes k o ->
  m_val (fst (map_step lower m o)) = (fun k' => if str_eqb k' k then None else m_val m k') \/
  (m_val m k = None /\ m_val (fst (map_step lower m o)) = m_val m).
Proof.
  intros [->|[->| ->]]; simpl; auto. unfold present. destruct (m_val m k); auto.
Qed.
Lemma delete_names lower d m k o : R lower d m -> deletes k o ->
  m_names (fst (map_step lower m o)) = filter (fun k' => negb (str_eqb k' k)) (m_names m).
Proof.
  intros HR [->|[->| ->]]; simpl; auto. destruct (present m k) eqn:E; auto.
  symmetry. apply filter_all. intros x Hx. destruct (str_eqb_spec x k) as [->|]; auto.
  apply (present_In lower d m k HR) in Hx. congruence.
Qed.
Lemma deletes_ok k o : deletes k o -> op_ok o.
Proof. intros [->|[->| ->]]; simpl; auto. Qed.
Lemma delete_answer lower d k o : deletes k o -> snd (dd_step lower d o) = AUnit.
Proof. intros [->|[->| ->]]; auto. Qed.

Lemma deletion lower d k o : reachable lower d -> deletes k o ->
  exists names,
  answers lower d [OIter] = [AKeys names] /\
  answers lower d [o; OIter] = [AUnit; AKeys (filter (fun k' => negb (str_eqb k' k)) names)] /\
  answers lower d [o; OGet k; OContains k] = [AUnit; AVal (VStr []); ABool false] /\
  (forall k', k' <> k -> exists v b,
     answers lower d [OGet k'; OContains k'] = [AVal v; ABool b] /\
     answers lower d [o; OGet k'; OContains k'] = [AUnit; AVal v; ABool b]) /\
  (forall o' os, deletes k o' -> In k names -> Forall op_ok os ->
     answers lower d (o :: os) = answers lower d (o' :: os)).
Proof.
  intros Hr Hd. destruct (reachable_R lower d Hr) as [m HR].
  assert (Hrun : forall o os, deletes k o -> Forall op_ok os ->
     answers lower d (o :: os) = AUnit :: snd (map_run lower (fst (map_step lower m o)) os)).
  { intros o1 os Hd1 Hos. pose proof (deletes_ok k o1 Hd1) as Hok.
    destruct (sim_step lower d m o1 HR Hok) as [HR1 HA].
    pose proof (delete_answer lower d k o1 Hd1) as HU.
    destruct (sim_run lower os _ _ HR1 Hos) as [_ S].
    unfold answers; simpl. destruct (dd_step lower d o1) as [d1 a1]; simpl in *.
    subst a1. destruct (dd_run lower d1 os); simpl in *. congruence. }
  pose proof (delete_step lower m k o Hd) as HV.
  pose proof (delete_names lower d m k o HR Hd) as HN.
  assert (Hrun0 : forall os, Forall op_ok os -> answers lower d os = snd (map_run lower m os)).
  { intros os Hos. apply (sim_run lower os _ _ HR Hos). }
  exists (m_names m). repeat split.
  - rewrite Hrun0 by (repeat constructor). auto.
  - rewrite Hrun by (auto; repeat constructor). cbn [map_run map_step snd]. now rewrite HN.
  - rewrite Hrun by (auto; repeat constructor). cbn [map_run map_step snd]. unfold present.
    destruct HV as [->|[HV1 ->]]; [rewrite str_eqb_refl|rewrite HV1]; auto.
  - intros k' Hk'.
    exists (match m_val m k' with Some v => v | None => VStr [] end), (present m k').
    split; [rewrite Hrun0 by (repeat constructor); auto|].
    rewrite Hrun by (auto; repeat constructor). cbn [map_run map_step snd]. unfold present.
    destruct HV as [->|[HV1 ->]]; auto.
    destruct (str_eqb_spec k' k); [congruence|auto].
  - intros o' os Hd' Hin Hos. rewrite !Hrun by auto.
    assert (Hp : present m k = true) by (eapply present_In; eauto).
    assert (forall o1, deletes k o1 -> fst (map_step lower m o1) = without m k) as Em.
    { intros o1 [->|[->| ->]]; simpl; auto. now rewrite Hp. }
    now rewrite !Em.
Qed.

Lemma delete_twice lower d k o o' : reachable lower d -> deletes k o -> deletes k o' ->
  exists names, answers lower d [o; OIter] = [AUnit; AKeys names] /\
    answers lower d [o; o'; OIter] = [AUnit; AUnit; AKeys names] /\
    (forall k', exists v, answers lower d [o; OGet k'] = [AUnit; AVal v] /\
                          answers lower d [o; o'; OGet k'] = [AUnit; AUnit; AVal v]).
Proof.
  intros Hr Hd Hd'.
  destruct (reachable_R lower d Hr) as [m HR].
  destruct (sim_step lower d m o HR (deletes_ok k o Hd)) as [HR1 HA].
  destruct (sim_step lower _ _ o' HR1 (deletes_ok k o' Hd')) as [HR2 HA2].
  pose proof (delete_names lower d m k o HR Hd) as HN.
  pose proof (delete_names lower _ _ k o' HR1 Hd') as HN2.
  pose proof (delete_step lower m k o Hd) as HV.
  pose proof (delete_step lower (fst (map_step lower m o)) k o' Hd') as HV2.
  pose proof (delete_answer lower d k o Hd) as HU.
  pose proof (delete_answer lower (fst (dd_step lower d o)) k o' Hd') as HU2.
  destruct (dd_step lower d o) as [d1 a1] eqn:E1.
  destruct (map_step lower m o) as [m1 b1]. simpl in *.
  destruct (dd_step lower d1 o') as [d2 a2] eqn:E2.
  destruct (map_step lower m1 o') as [m2 b2]. simpl in *.
  try subst a1; try subst a2; try subst b1; try subst b2.
  exists (m_names m1). unfold answers. cbn [dd_run]. rewrite E1. cbn [dd_run]. rewrite E2. cbn [dd_run].
  assert (N12 : m_names m2 = m_names m1).
  { rewrite HN2, HN, filter_filter. apply filter_ext. intros x. now destruct (str_eqb x k). }
  assert (V12 : forall k', m_val m2 k' = m_val m1 k').
  { intros k'. destruct HV2 as [->|[_ ->]]; auto.
    destruct (str_eqb_spec k' k) as [->|]; auto.
    destruct HV as [->|[HV ->]]; [now rewrite str_eqb_refl|auto]. }
  destruct HR1 as (_ & Q1 & Q2 & _), HR2 as (_ & P1 & P2 & _).
  cbn. rewrite Q1, P1, N12. split; [auto|split; [auto|]].
  intros k'. exists (match m_val m1 k' with Some v => v | None => VStr [] end).
  rewrite Q2, P2, V12. auto.
Qed.
