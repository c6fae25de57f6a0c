(** Proofs about BridgeModel: storing and loading. *)
From Coq Require Import String List NArith ZArith Bool Permutation Sorted Lia.
From Verif Require Import PyStr PyStrFacts PyList PyListFacts PyExn TreeModel TreeOps BridgeModel BridgeSpec.
Import ListNotations.
Local Open Scope list_scope.

Lemma mentioned_spec d e : mentioned d e = true <-> is_entity d e.
Proof.
  unfold mentioned, is_entity, mentions_of. split.
  - intros H. destruct (filter _ _) as [|m l] eqn:E; [discriminate|].
    assert (I : In m (filter (fun m => str_eqb (bd_eid d m) e) (bd_ms d))) by (rewrite E; left; reflexivity).
    apply filter_In in I as [I J]. apply str_eqb_eq in J. eauto.
  - intros (m & I & J). assert (K : In m (filter (fun m => str_eqb (bd_eid d m) e) (bd_ms d))).
    { apply filter_In. split; [exact I|]. apply str_eqb_eq; exact J. }
    destruct (filter _ _); [destruct K|reflexivity].
Qed.

Lemma prune_alive d f i (l : list link) : (forall x : link, In x l -> mentioned d (fst x) = true) -> prune_links f d i l = l.
Proof.
  revert i. induction f; intros i H; cbn [prune_links]; [reflexivity|].
  destruct (nth_error l i) as [x|] eqn:E; [|reflexivity].
  rewrite (H x (nth_error_In _ _ E)). auto.
Qed.
Lemma prune_apart d f : forall p l : list link, (forall l1 a b l2, l = l1 ++ a :: b :: l2 -> is_entity d (fst a) \/ is_entity d (fst b)) ->
  length l <= f -> prune_links f d (length p) (p ++ l) = p ++ live_links d l.
Proof.
  induction f as [|f IH]; intros p l H L.
  - destruct l; [reflexivity|cbn in L; lia].
  - destruct l as [|x l].
    + cbn [prune_links]. rewrite app_nil_r. rewrite (proj2 (nth_error_None p (length p))) by lia. cbn. rewrite app_nil_r. reflexivity.
    + assert (T : forall a l', x :: l = a :: l' -> forall l1 b c l2, l' = l1 ++ b :: c :: l2 -> is_entity d (fst b) \/ is_entity d (fst c)).
      { intros a l' E l1 b c l2 ->. apply (H (a :: l1) b c l2). exact E. }
      assert (AP : forall y (k : list link), p ++ y :: k = (p ++ [y]) ++ k) by (intros; rewrite <- app_assoc; reflexivity).
      assert (LP : forall y : link, S (length p) = length (p ++ [y])) by (intros; rewrite app_length; cbn; lia).
      assert (NE : forall y (k : list link), nth_error (p ++ y :: k) (length p) = Some y).
      { intros. rewrite nth_error_app2, Nat.sub_diag by lia. reflexivity. }
      assert (RA : remove_at (length p) (p ++ x :: l) = p ++ l) by (clear; induction p; cbn; [reflexivity|rewrite IHp; reflexivity]).
      cbn [prune_links]. rewrite NE. destruct (mentioned d (fst x)) eqn:A.
      * rewrite AP, (LP x), IH; [|exact (T x l eq_refl)|cbn in L; lia]. rewrite <- app_assoc. unfold live_links. cbn [filter]. rewrite A. reflexivity.
      * rewrite RA. unfold live_links. cbn [filter]. rewrite A. fold (live_links d l).
        destruct l as [|y l].
        -- rewrite app_nil_r. destruct f; cbn [prune_links]; [cbn; rewrite app_nil_r; reflexivity|].
           rewrite (proj2 (nth_error_None p (S (length p)))) by lia. cbn. rewrite app_nil_r. reflexivity.
        -- assert (B : mentioned d (fst y) = true).
           { apply mentioned_spec. destruct (H [] x y l eq_refl) as [C|C]; [|exact C]. apply mentioned_spec in C. congruence. }
           rewrite AP, (LP y), IH; [| |cbn in L; lia].
           ++ rewrite <- app_assoc. unfold live_links. cbn [filter]. rewrite B. reflexivity.
           ++ intros l1 b c l2 E. apply (H (x :: y :: l1) b c l2). rewrite E. reflexivity.
Qed.
Lemma live_links_In d l x : In x (live_links d l) <-> In x l /\ is_entity d (fst x).
Proof. unfold live_links. rewrite filter_In, mentioned_spec. reflexivity. Qed.
Lemma prune_split_alive d f i l : (forall x, In x l -> mentioned d x = true) -> prune_split f d i l = l.
Proof.
  revert i. induction f; intros i H; cbn [prune_split]; [reflexivity|].
  destruct (nth_error l i) as [x|] eqn:E; [|reflexivity].
  rewrite (H x (nth_error_In _ _ E)). auto.
Qed.

Lemma join_nil_inv l : Forall (fun x : str => x <> []) l -> join [COMMA] l = [] -> l = [].
Proof.
  intros H E. destruct l as [|x l]; [reflexivity|]. apply Forall_inv in H.
  destruct x; [congruence|]. destruct l; cbn in E; discriminate.
Qed.
Lemma join_app l1 l2 : l1 <> [] -> l2 <> [] -> join [COMMA] (l1 ++ l2) = join [COMMA] l1 ++ [COMMA] ++ join [COMMA] l2.
Proof.
  intros H1 H2. induction l1 as [|x l1 IH]; [congruence|]. destruct l1 as [|y l1].
  - cbn [app join]. destruct l2; [congruence|]. reflexivity.
  - change ((x :: y :: l1) ++ l2) with (x :: (y :: l1) ++ l2).
    assert (E : join [COMMA] (x :: (y :: l1) ++ l2) = x ++ [COMMA] ++ join [COMMA] ((y :: l1) ++ l2)) by reflexivity.
    rewrite E, IH by discriminate. change (join [COMMA] (x :: y :: l1)) with (x ++ [COMMA] ++ join [COMMA] (y :: l1)).
    rewrite <- !app_assoc. reflexivity.
Qed.
Lemma add_text_join misc n l1 l2 : Forall (fun x : str => x <> []) l1 -> l2 <> [] -> misc n = join [COMMA] l1 ->
  add_text misc n (join [COMMA] l2) n = join [COMMA] (l1 ++ l2).
Proof.
  intros H1 H2 E. unfold add_text. rewrite upd_same, E.
  destruct l1 as [|x l1]; [reflexivity|].
  destruct (join [COMMA] (x :: l1)) eqn:J; [apply join_nil_inv in J; [discriminate|exact H1]|].
  rewrite <- J. rewrite join_app by (auto; discriminate). reflexivity.
Qed.
Lemma add_text_other misc n t x : x <> n -> add_text misc n t x = misc x.
Proof. intros H. unfold add_text. rewrite upd_other by auto. reflexivity. Qed.

Lemma link_text_nonempty src l : link_text src l <> [].
Proof. unfold link_text. destruct (fst l); discriminate. Qed.
Lemma sort_links_perm d l : Permutation (sort_links d l) l.
Proof. apply isort_perm. Qed.
Lemma sort_links_nil d l : sort_links d l = [] -> l = [].
Proof. intros E. pose proof (sort_links_perm d l) as P. rewrite E in P. apply Permutation_nil in P. exact P. Qed.

(** entries of a table *)
Lemma ents_get_put l k v k' : ents_get (ents_put l k v) k' = if str_eqb k' k then Some v else ents_get l k'.
Proof.
  induction l as [|[a w] l IH]; cbn.
  - destruct (str_eqb k' k); reflexivity.
  - destruct (str_eqb_spec k a) as [->|N]; cbn.
    + destruct (str_eqb k' a); reflexivity.
    + rewrite IH. destruct (str_eqb_spec k' a) as [->|N2]; [|reflexivity].
      destruct (str_eqb_spec a k); [congruence|reflexivity].
Qed.
Lemma ents_put_In l k v k' w : In (k', w) (ents_put l k v) -> (k' = k /\ w = v) \/ In (k', w) l.
Proof.
  induction l as [|[a u] l IH]; cbn.
  - intros [H|[]]. inversion H; auto.
  - destruct (str_eqb_spec k a) as [->|N]; cbn.
    + intros [H|H]; [inversion H; auto|auto].
    + intros [H|H]; [auto|]. destruct (IH H); auto.
Qed.
Lemma ents_put_keys l k v : NoDup (map fst l) -> NoDup (map fst (ents_put l k v)).
Proof.
  induction l as [|[a u] l IH]; cbn; intros N.
  - constructor; [intros []|constructor].
  - inversion N; subst. destruct (str_eqb_spec k a) as [->|Ne]; cbn; [constructor; assumption|].
    constructor; [|auto]. intros I. apply in_map_iff in I as ([x w] & <- & I). apply ents_put_In in I as [[E _]|I].
    + cbn in *. congruence.
    + apply H1. apply in_map_iff. exists (x, w). auto.
Qed.
Lemma ents_get_In l k v : NoDup (map fst l) -> In (k, v) l -> ents_get l k = Some v.
Proof.
  induction l as [|[a u] l IH]; cbn; intros N I; [destruct I|]. inversion N; subst.
  destruct I as [I|I].
  - inversion I; subst. rewrite str_eqb_refl. reflexivity.
  - destruct (str_eqb_spec k a) as [->|]; [|auto]. exfalso. apply H1. apply in_map_iff. exists (a, v). auto.
Qed.

(** one item of Bridge or SplitAnte *)
Lemma split_two (a b : str) : ~ In LESS a -> ~ In LESS b -> split LESS (a ++ LESS :: b) = [a; b].
Proof. intros A B. rewrite split_app by exact A. rewrite split_nochar by exact B. reflexivity. Qed.
Lemma link_text_read (src trg rel : str) : ~ In LESS trg -> ~ In LESS src -> ~ In LESS rel -> ~ In COLON src -> rel <> s "_" ->
  exists src0 : str, split LESS (link_text src (trg, rel)) = [trg; src0] /\
    (match split1 COLON src0 with Some p => p | None => (src0, []) end) = (src, rel).
Proof.
  intros A B R C U. unfold link_text. cbn [fst snd].
  destruct (str_eqb_spec rel (s "_")) as [E|_]; [congruence|]. cbn [orb].
  destruct (str_eqb_spec rel []) as [->|N].
  - rewrite app_nil_r. exists src. split; [apply split_two; auto|].
    rewrite (proj2 (split1_None COLON src) C). reflexivity.
  - exists (src ++ COLON :: rel). split.
    + apply split_two; [exact A|]. intros I. apply in_app_or in I as [I|[I|I]]; [auto|discriminate|auto].
    + rewrite split1_app by exact C. reflexivity.
Qed.

Lemma existsb_mem m l : existsb (fun x => Nat.eqb x m) l = mem m l.
Proof. unfold mem. induction l as [|x l IH]; [reflexivity|]. cbn. rewrite Nat.eqb_sym, IH. reflexivity. Qed.

Section Round.
Variables (d : bdoc) (raw : nat -> list link) (split : str -> list str) (es : list str).
Let links (m : nat) : list link := live_links d (raw m).
Hypothesis G : good_doc d.
Hypothesis DS : (exists m, In m (bd_ms d) /\ raw m <> []) -> distinct_starts d.
Hypothesis DA : forall m, In m (bd_ms d) -> dead_apart d (raw m).
Hypothesis GL0 : forall m, In m (bd_ms d) -> good_links d m (raw m).
Hypothesis ES : NoDup es.
Hypothesis GS : forall e, In e es -> is_entity d e /\ good_antes d e (split e).

Lemma links_raw m : raw m = [] -> links m = [].
Proof. unfold links. intros ->. reflexivity. Qed.
Lemma GL m : In m (bd_ms d) -> (links m <> [] -> ~ In COLON (bd_eid d m)) /\
  forall trg rel, In (trg, rel) (links m) ->
    is_entity d trg /\ trg <> bd_eid d m /\ ~ In COMMA rel /\ ~ In LESS rel /\ rel <> s "_".
Proof.
  intros I. destruct (GL0 m I) as [A B]. split.
  - intros N. apply A. intros E. apply N, links_raw, E.
  - intros trg rel J. apply live_links_In in J as [J K]. split; [exact K|]. exact (B trg rel J K).
Qed.
Definition at_node (n : nat) (ms : list nat) : list nat := filter (fun m => Nat.eqb (bd_first d m) n) ms.
Definition texts_of (ms : list nat) : list str :=
  flat_map (fun m => map (link_text (bd_eid d m)) (sort_links d (links m))) ms.
Lemma texts_nonempty ms : Forall (fun x : str => x <> []) (texts_of ms).
Proof.
  apply Forall_forall. intros x I. apply in_flat_map in I as (m & _ & I). apply in_map_iff in I as (l & <- & _).
  apply link_text_nonempty.
Qed.

Lemma at_node_app n a b : at_node n (a ++ b) = at_node n a ++ at_node n b.
Proof. apply filter_app. Qed.

Lemma store_one st done m : In m (bd_ms d) -> bs_links st m = raw m ->
  (forall n, bs_misc st n = join [COMMA] (texts_of (at_node n done))) ->
  exists st', store_bridge d st m = Ok st' /\ bs_links st' m = links m /\ (forall x, x <> m -> bs_links st' x = bs_links st x) /\
    (forall n, bs_misc st' n = join [COMMA] (texts_of (at_node n (done ++ [m])))).
Proof.
  intros I L M. unfold store_bridge. rewrite L.
  assert (TX : forall n, texts_of (at_node n (done ++ [m])) = texts_of (at_node n done) ++
    (if Nat.eqb (bd_first d m) n then map (link_text (bd_eid d m)) (sort_links d (links m)) else [])).
  { intros n. rewrite at_node_app. unfold texts_of. rewrite flat_map_app. f_equal. cbn.
    destruct (Nat.eqb (bd_first d m) n); cbn; [apply app_nil_r|reflexivity]. }
  destruct (raw m) as [|l0 ls] eqn:LM.
  - exists st. split; [reflexivity|]. rewrite (links_raw m LM). split; [exact L|]. split; [reflexivity|]. intros n. rewrite M, TX. cbn.
    rewrite (links_raw m LM). destruct (Nat.eqb _ _); cbn; rewrite app_nil_r; reflexivity.
  - rewrite <- LM. cbv zeta. destruct (DA m I) as [D1 D2].
    pose proof (prune_apart d (length (raw m)) [] (raw m) D1 (le_n _)) as PR. cbn [app length] in PR. rewrite PR. fold (links m).
    assert (AL : forall x, In x (links m) -> mentioned d (fst x) = true).
    { intros x J. apply live_links_In in J as [_ J]. apply mentioned_spec, J. }
    assert (NN : links m <> []).
    { destruct D2 as (x & J & K); [rewrite LM; discriminate|]. intros E.
      assert (IN : In x (links m)) by (apply live_links_In; auto). rewrite E in IN. destruct IN. }
    unfold bridge_str. rewrite (proj2 (forallb_forall _ _)) by exact AL. cbn [rbind].
    eexists. split; [reflexivity|]. cbn [bs_links bs_misc]. split; [apply upd_same|]. split.
    + intros x N. rewrite upd_other by auto. reflexivity.
    + intros n. rewrite TX. destruct (Nat.eqb_spec (bd_first d m) n) as [<-|N].
      * apply add_text_join; [apply texts_nonempty| |apply M].
        intros E. apply map_eq_nil in E. apply sort_links_nil in E. contradiction.
      * rewrite add_text_other by auto. rewrite app_nil_r. apply M.
Qed.
Lemma store_rest rest : forall st done, incl rest (bd_ms d) -> NoDup rest -> (forall x, In x rest -> bs_links st x = raw x) ->
  (forall n, bs_misc st n = join [COMMA] (texts_of (at_node n done))) ->
  exists st', store_bridges d st rest = Ok st' /\ (forall x, In x rest -> bs_links st' x = links x) /\
    (forall x, ~ In x rest -> bs_links st' x = bs_links st x) /\
    (forall n, bs_misc st' n = join [COMMA] (texts_of (at_node n (done ++ rest)))).
Proof.
  induction rest as [|m rest IH]; intros st done I ND L M; cbn [store_bridges].
  - exists st. rewrite app_nil_r. split; [reflexivity|]. split; [intros x []|]. auto.
  - inversion ND; subst.
    destruct (store_one st done m (I m (or_introl eq_refl)) (L m (or_introl eq_refl)) M) as (st' & -> & L' & O' & M'). cbn [rbind].
    destruct (IH st' (done ++ [m]) (fun x J => I x (or_intror J)) H2) as (st'' & E & L'' & O'' & M'').
    { intros x J. rewrite O'; [apply L; right; exact J|]. intros ->. contradiction. }
    { exact M'. }
    exists st''. rewrite <- app_assoc in M''. split; [exact E|]. split.
    + intros x [<-|J]; [rewrite O'' by assumption; exact L'|auto].
    + split; [|exact M'']. intros x N. rewrite O'', O'; auto; [intros ->; apply N; left; reflexivity|intros J; apply N; right; exact J].
Qed.
Lemma store_bridges_ok : exists bs, store_all_bridges d raw = Ok bs /\ (forall m, In m (bd_ms d) -> bs_links bs m = links m) /\
  (forall m, ~ In m (bd_ms d) -> bs_links bs m = raw m) /\
  (forall n, bs_misc bs n = join [COMMA] (texts_of (at_node n (bd_ms d)))).
Proof.
  unfold store_all_bridges. apply (store_rest (bd_ms d) (mkBs (fun _ => []) raw) []); [apply incl_refl|apply (gd_ms d G)|reflexivity|reflexivity].
Qed.

(** split antecedents *)
Definition starts_at (n : nat) (e : str) : bool :=
  match mentions_of d e with m :: _ => Nat.eqb (bd_first d m) n | [] => false end.
Definition antes_of (l : list str) : list str := flat_map (fun e => map (fun a => a ++ [LESS] ++ e) (split e)) l.
Lemma antes_nonempty l : Forall (fun x : str => x <> []) (antes_of l).
Proof.
  apply Forall_forall. intros x I. apply in_flat_map in I as (m & _ & I). apply in_map_iff in I as (a & <- & _).
  destruct a; discriminate.
Qed.
Lemma store_split_one st done e : In e es -> (forall x, ss_split st x = split x) ->
  (forall n, ss_misc st n = join [COMMA] (antes_of (filter (starts_at n) done))) ->
  exists st', store_split d st e = Ok st' /\ (forall x, ss_split st' x = split x) /\
    (forall n, ss_misc st' n = join [COMMA] (antes_of (filter (starts_at n) (done ++ [e])))).
Proof.
  intros I L M. unfold store_split. rewrite (L e). destruct (GS e I) as [EN [LEN AN]].
  assert (TX : forall n, antes_of (filter (starts_at n) (done ++ [e])) = antes_of (filter (starts_at n) done) ++
    (if starts_at n e then map (fun a => a ++ [LESS] ++ e) (split e) else [])).
  { intros n. rewrite filter_app. unfold antes_of. rewrite flat_map_app. f_equal. cbn [filter].
    destruct (starts_at n e); cbn [flat_map]; [apply app_nil_r|reflexivity]. }
  destruct (split e) as [|a0 ls] eqn:LM.
  - exists st. split; [reflexivity|]. split; [exact L|]. intros n. rewrite M, TX.
    destruct (starts_at n e); cbn [map]; rewrite app_nil_r; reflexivity.
  - rewrite <- LM in *. cbv zeta.
    assert (AL : forall x, In x (split e) -> mentioned d x = true) by (intros x J; apply mentioned_spec, AN, J).
    rewrite LM. rewrite <- LM. rewrite prune_split_alive by exact AL.
    destruct LEN as [Z|LEN]; [rewrite Z in LM; discriminate|].
    replace (Nat.ltb (length (split e)) 2) with false by (symmetry; apply Nat.ltb_ge; exact LEN).
    apply mentioned_spec in EN. unfold mentioned in EN. destruct (mentions_of d e) as [|m ml] eqn:MO; [discriminate|].
    eexists. split; [reflexivity|]. cbn [ss_split ss_misc]. split.
    + intros x. unfold supd. destruct (str_eqb_spec x e) as [->|N]; [reflexivity|apply L].
    + intros n. rewrite TX. unfold starts_at at 2. rewrite MO. destruct (Nat.eqb_spec (bd_first d m) n) as [<-|N].
      * apply add_text_join; [apply antes_nonempty| |apply M].
        intros E. apply map_eq_nil in E. rewrite E in LM. discriminate.
      * rewrite add_text_other by auto. rewrite app_nil_r. apply M.
Qed.
Lemma store_split_rest rest : forall st done, incl rest es -> (forall x, ss_split st x = split x) ->
  (forall n, ss_misc st n = join [COMMA] (antes_of (filter (starts_at n) done))) ->
  exists st', store_splits d st rest = Ok st' /\ (forall x, ss_split st' x = split x) /\
    (forall n, ss_misc st' n = join [COMMA] (antes_of (filter (starts_at n) (done ++ rest)))).
Proof.
  induction rest as [|m rest IH]; intros st done I L M; cbn [store_splits].
  - exists st. rewrite app_nil_r. auto.
  - destruct (store_split_one st done m (I m (or_introl eq_refl)) L M) as (st' & -> & L' & M'). cbn [rbind].
    destruct (IH st' (done ++ [m]) (fun x J => I x (or_intror J)) L' M') as (st'' & E & L'' & M'').
    exists st''. rewrite <- app_assoc in M''. auto.
Qed.
Lemma store_splits_ok : exists ss, store_all_splits d split es = Ok ss /\ (forall e, ss_split ss e = split e) /\
  (forall n, ss_misc ss n = join [COMMA] (antes_of (filter (starts_at n) es))).
Proof.
  unfold store_all_splits. apply (store_split_rest es (mkSs (fun _ => []) split) []); [apply incl_refl|reflexivity|reflexivity].
Qed.

(** loading *)
Record loaded (P : list nat) (st : bload) : Prop := {
  lo_keys : NoDup (map fst (bl_ents st));
  lo_ents : forall e l, In (e, l) (bl_ents st) -> is_entity d e;
  lo_seen : forall m, In m (bd_ms d) -> In (bd_first d m) P -> exists l, ents_get (bl_ents st) (bd_eid d m) = Some l /\ In m l
}.

Lemma refer_ok P st e : loaded P st -> is_entity d e ->
  exists st', refer st e = Ok st' /\ loaded P st' /\ bl_links st' = bl_links st /\ bl_split st' = bl_split st /\
    (forall k l, ents_get (bl_ents st) k = Some l -> ents_get (bl_ents st') k = Some l).
Proof.
  intros LO EN. unfold refer. destruct (ents_get (bl_ents st) e) as [l|] eqn:E.
  - exists st. auto.
  - destruct EN as (m & I & <-). destruct (gd_ids d G m I) as (-> & _).
    assert (K : forall k l, ents_get (bl_ents st) k = Some l -> ents_get (ents_put (bl_ents st) (bd_eid d m) []) k = Some l).
    { intros k l H. rewrite ents_get_put. destruct (str_eqb_spec k (bd_eid d m)) as [->|]; [congruence|exact H]. }
    eexists. split; [reflexivity|]. cbn. split; [|split; [reflexivity|split; [reflexivity|exact K]]].
    destruct LO as [k1 k2 k3]. split; cbn.
    + apply ents_put_keys; exact k1.
    + intros e l H. apply ents_put_In in H as [[-> ->]|H]; [exists m; auto|eauto].
    + intros m' I' F. destruct (k3 m' I' F) as (l & A & B). exists l. auto.
Qed.

Lemma add_mentions ms : forall P st, loaded P st -> incl ms (bd_ms d) ->
  (forall m m', In m ms -> In m' ms -> bd_eid d m = bd_eid d m' -> m = m') -> NoDup ms ->
  let st' := fold_left (add_mention d) ms st in
  loaded P st' /\ bl_links st' = bl_links st /\ bl_split st' = bl_split st /\
  (forall m, In m ms -> exists l, ents_get (bl_ents st') (bd_eid d m) = Some (l ++ [m])) /\
  (forall k l, ~ In k (map (bd_eid d) ms) -> ents_get (bl_ents st) k = Some l -> ents_get (bl_ents st') k = Some l).
Proof.
  induction ms as [|m ms IH]; intros P st LO INC U ND; cbn.
  - repeat split; auto; try apply LO. intros m [].
  - inversion ND; subst.
    assert (L1 : loaded P (add_mention d st m)).
    { destruct LO as [k1 k2 k3]. split; cbn.
      - apply ents_put_keys; exact k1.
      - intros e l H. apply ents_put_In in H as [[-> ->]|H]; [exists m; split; [apply INC; left; reflexivity|reflexivity]|eauto].
      - intros m' I' F. destruct (k3 m' I' F) as (l & A & B). rewrite ents_get_put.
        destruct (str_eqb_spec (bd_eid d m') (bd_eid d m)) as [E|N]; [|eauto].
        rewrite <- E, A. eexists; split; [reflexivity|]. apply in_or_app; auto. }
    destruct (IH P (add_mention d st m) L1) as (A & B & C & D & F).
    + intros x I; apply INC; right; exact I.
    + intros; apply U; auto; right; assumption.
    + assumption.
    + split; [exact A|]. split; [rewrite B; reflexivity|]. split; [rewrite C; reflexivity|]. split.
      * intros x [<-|I]; [|exact (D x I)].
        eexists. apply F.
        -- intros I. apply in_map_iff in I as (y & E & I). assert (m = y) by (apply U; [left; reflexivity|right; exact I|congruence]). subst y. contradiction.
        -- unfold add_mention. cbn [bl_ents]. rewrite ents_get_put, str_eqb_refl. reflexivity.
      * intros k l N H. apply F; [intros I; apply N; right; exact I|].
        unfold add_mention. cbn [bl_ents]. rewrite ents_get_put. destruct (str_eqb_spec k (bd_eid d m)) as [->|]; [|exact H].
        exfalso; apply N; left; reflexivity.
Qed.

(** without distinct starts the mentions are only added *)
Lemma add_mentions_seen ms : forall P st, loaded P st -> incl ms (bd_ms d) ->
  let st' := fold_left (add_mention d) ms st in
  loaded P st' /\ bl_links st' = bl_links st /\ bl_split st' = bl_split st /\
  (forall m, In m ms -> exists l, ents_get (bl_ents st') (bd_eid d m) = Some l /\ In m l) /\
  (forall k l m, ents_get (bl_ents st) k = Some l -> In m l -> exists l', ents_get (bl_ents st') k = Some l' /\ In m l').
Proof.
  induction ms as [|m ms IH]; intros P st LO INC; cbn.
  - repeat split; auto; try apply LO. { intros m []. } eauto.
  - assert (STEP : forall k l x, ents_get (bl_ents st) k = Some l -> In x l ->
      exists l', ents_get (bl_ents (add_mention d st m)) k = Some l' /\ In x l').
    { intros k l x A B. unfold add_mention. cbn [bl_ents]. rewrite ents_get_put.
      destruct (str_eqb_spec k (bd_eid d m)) as [->|N]; [|eauto]. rewrite A. eexists; split; [reflexivity|]. apply in_or_app; auto. }
    assert (L1 : loaded P (add_mention d st m)).
    { destruct LO as [k1 k2 k3]. split; cbn.
      - apply ents_put_keys; exact k1.
      - intros e l H. apply ents_put_In in H as [[-> ->]|H]; [exists m; split; [apply INC; left; reflexivity|reflexivity]|eauto].
      - intros m' I' F. destruct (k3 m' I' F) as (l & A & B). destruct (STEP _ _ _ A B) as (l' & A' & B'). exists l'. auto. }
    destruct (IH P (add_mention d st m) L1 (fun x I => INC x (or_intror I))) as (A & B & C & D & F).
    split; [exact A|]. split; [rewrite B; reflexivity|]. split; [rewrite C; reflexivity|]. split.
    + intros x [<-|I]; [|exact (D x I)]. eapply F.
      * unfold add_mention. cbn [bl_ents]. rewrite ents_get_put, str_eqb_refl. reflexivity.
      * apply in_or_app; right; left; reflexivity.
    + intros k l x E I. destruct (STEP k l x E I) as (l' & A' & B'). exact (F k l' x A' B').
Qed.

Lemma id_ok e : is_entity d e -> bad_eid e = false /\ ~ In COMMA e /\ ~ In LESS e.
Proof. intros (m & I & <-). exact (gd_ids d G m I). Qed.

Lemma read_links P items : forall st, loaded P st ->
  (forall m l, In (m, l) items -> In m (bd_ms d) /\ In l (links m) /\ exists k, ents_get (bl_ents st) (bd_eid d m) = Some (k ++ [m])) ->
  exists st', read_items read_link st (map (fun p => link_text (bd_eid d (fst p)) (snd p)) items) = Ok st' /\ loaded P st' /\
    bl_split st' = bl_split st /\
    (forall m, bl_links st' m = bl_links st m ++ map snd (filter (fun p => Nat.eqb (fst p) m) items)).
Proof.
  induction items as [|[m [trg rel]] items IH]; intros st LO H; cbn [map read_items].
  - exists st. split; [reflexivity|]. split; [exact LO|]. split; [reflexivity|]. intros m. cbn. rewrite app_nil_r. reflexivity.
  - destruct (H m (trg, rel) (or_introl eq_refl)) as (I & L & (k & K)).
    destruct (GL m I) as [GC GX]. destruct (GX trg rel L) as (EN & NE & NC & NL & NU).
    destruct (gd_ids d G m I) as (_ & SC & SL). destruct (id_ok trg EN) as (_ & TC & TL).
    destruct (link_text_read (bd_eid d m) trg rel) as (src0 & S1 & S2); auto.
    { apply GC. intros Z. rewrite Z in L. destruct L. }
    cbn [fst snd]. unfold read_link at 1. rewrite S1, S2. cbv beta iota zeta.
    destruct (str_eqb_spec trg (bd_eid d m)) as [E|_]; [congruence|].
    rewrite K, last_opt_app.
    destruct (refer_ok P st trg LO EN) as (st1 & -> & LO1 & B1 & B2 & B3). cbn [rbind].
    destruct (IH (mkBl (bl_ents st1) (upd (bl_links st1) m (bl_links st1 m ++ [(trg, rel)])) (bl_split st1))) as (st2 & E & LO2 & X1 & X2).
    { destruct LO1; split; assumption. }
    { intros m' l' J. destruct (H m' l' (or_intror J)) as (I' & L' & (k' & K')). split; [exact I'|]. split; [exact L'|].
      exists k'. cbn. apply B3. exact K'. }
    exists st2. split; [exact E|]. split; [exact LO2|]. split; [rewrite X1; cbn; exact B2|].
    intros m'. rewrite X2. cbn [bl_links]. cbn [filter fst]. destruct (Nat.eqb_spec m m') as [<-|N].
    + rewrite upd_same, B1. cbn [map snd]. rewrite <- app_assoc. reflexivity.
    + rewrite upd_other by auto. rewrite B1. reflexivity.
Qed.

Lemma read_antes P items : forall st, loaded P st ->
  (forall e a, In (e, a) items -> In e es /\ In a (split e) /\ exists k, ents_get (bl_ents st) e = Some k) ->
  exists st', read_items read_ante st (map (fun p => snd p ++ [LESS] ++ fst p) items) = Ok st' /\ loaded P st' /\
    bl_links st' = bl_links st /\
    (forall e, bl_split st' e = bl_split st e ++ map snd (filter (fun p => str_eqb (fst p) e) items)).
Proof.
  induction items as [|[e a] items IH]; intros st LO H; cbn [map read_items].
  - exists st. split; [reflexivity|]. split; [exact LO|]. split; [reflexivity|]. intros m. cbn. rewrite app_nil_r. reflexivity.
  - destruct (H e a (or_introl eq_refl)) as (I & L & (k & K)).
    destruct (GS e I) as [EE [_ GX]]. destruct (GX a L) as (EN & NE).
    destruct (id_ok e EE) as (_ & SC & SL). destruct (id_ok a EN) as (_ & TC & TL).
    cbn [fst snd]. unfold read_ante at 1. change (a ++ [LESS] ++ e) with (a ++ LESS :: e); rewrite split_two by assumption.
    destruct (str_eqb_spec a e) as [E|_]; [congruence|].
    destruct (refer_ok P st a LO EN) as (st1 & -> & LO1 & B1 & B2 & B3). cbn [rbind]. rewrite (B3 e k K).
    destruct (IH (mkBl (bl_ents st1) (bl_links st1) (supd (bl_split st1) e (bl_split st1 e ++ [a])))) as (st2 & E & LO2 & X1 & X2).
    { destruct LO1; split; assumption. }
    { intros e' l' J. destruct (H e' l' (or_intror J)) as (I' & L' & (k' & K')). split; [exact I'|]. split; [exact L'|].
      exists k'. cbn. apply B3. exact K'. }
    exists st2. cbn [rbind]. split; [exact E|]. split; [exact LO2|]. split; [rewrite X1; cbn; exact B1|].
    intros e'. rewrite X2. cbn [bl_split]. cbn [filter fst]. unfold supd. rewrite (str_eqb_sym e' e).
    destruct (str_eqb_spec e e') as [<-|N].
    + rewrite B2. cbn [map snd]. rewrite <- app_assoc. reflexivity.
    + rewrite B2. reflexivity.
Qed.

Definition link_items (ms : list nat) : list (nat * link) := flat_map (fun m => map (pair m) (sort_links d (links m))) ms.
Lemma texts_items ms : texts_of ms = map (fun p => link_text (bd_eid d (fst p)) (snd p)) (link_items ms).
Proof.
  induction ms as [|m ms IH]; [reflexivity|]. unfold texts_of, link_items in *. cbn [flat_map]. rewrite map_app, IH. f_equal.
  rewrite map_map. reflexivity.
Qed.
Definition ante_items (l : list str) : list (str * str) := flat_map (fun e => map (pair e) (split e)) l.
Lemma antes_items l : antes_of l = map (fun p => snd p ++ [LESS] ++ fst p) (ante_items l).
Proof.
  induction l as [|m ms IH]; [reflexivity|]. unfold antes_of, ante_items in *. cbn [flat_map]. rewrite map_app, IH. f_equal.
  rewrite map_map. reflexivity.
Qed.
Lemma filter_pairs {A B} (eqb : A -> A -> bool) (REF : forall a b, reflect (a = b) (eqb a b)) (f : A -> list B) (l : list A) a : NoDup l ->
  map snd (filter (fun p => eqb (fst p) a) (flat_map (fun x => map (pair x) (f x)) l)) = if existsb (fun x => eqb x a) l then f a else [].
Proof.
  induction l as [|x l IH]; intros ND; [reflexivity|]. inversion ND; subst. cbn [flat_map existsb].
  rewrite filter_app, map_app, (IH H2). clear IH.
  destruct (REF x a) as [->|N]; cbn [orb].
  - replace (existsb (fun x => eqb x a) l) with false.
    2:{ symmetry. apply not_true_is_false. intros E. apply existsb_exists in E as (y & I & E). destruct (REF y a); [congruence|discriminate]. }
    rewrite app_nil_r. rewrite filter_all.
    + rewrite map_map. cbn. apply map_id.
    + intros p I. apply in_map_iff in I as (y & <- & _). cbn. destruct (REF a a); congruence.
  - rewrite filter_none; [reflexivity|]. intros p I. apply in_map_iff in I as (y & <- & _). cbn. destruct (REF x a); congruence.
Qed.

Lemma text_no_comma m l : In m (bd_ms d) -> In l (links m) -> ~ In COMMA (link_text (bd_eid d m) l).
Proof.
  destruct l as [trg rel]. intros I L. destruct (GL m I) as [_ GX]. destruct (GX trg rel L) as (EN & _ & NC & _).
  destruct (gd_ids d G m I) as (_ & SC & _). destruct (id_ok trg EN) as (_ & TC & _).
  unfold link_text. cbn [fst snd]. intros X. apply in_app_or in X as [X|X]; [auto|].
  apply in_app_or in X as [[X|[]]|X]; [discriminate|]. apply in_app_or in X as [X|X]; [auto|].
  destruct (_ || _); [destruct X|]. destruct X as [X|X]; [discriminate|auto].
Qed.

Variables (bridge sante : nat -> str).
Hypothesis B_eq : forall n, bridge n = join [COMMA] (texts_of (at_node n (bd_ms d))).
Hypothesis S_eq : forall n, sante n = join [COMMA] (antes_of (filter (starts_at n) es)).

Definition shown_links (P : list nat) (m : nat) : list link :=
  if existsb (fun x => Nat.eqb x m) (filter (fun x => mem (bd_first d x) P) (bd_ms d)) then sort_links d (links m) else [].
Definition shown_split (P : list nat) (e : str) : list str :=
  if existsb (fun x => str_eqb x e) (filter (fun x => existsb (fun n => starts_at n x) P) es) then split e else [].

Lemma bridge_items n st (K : str -> res bload) :
  (match bridge n with [] => Ok st | t => read_items read_link st (PyStr.split COMMA t) end) =
  read_items read_link st (texts_of (at_node n (bd_ms d))).
Proof.
  rewrite B_eq. destruct (texts_of (at_node n (bd_ms d))) as [|x l] eqn:E; [reflexivity|].
  pose proof (texts_nonempty (at_node n (bd_ms d))) as NE. rewrite E in NE.
  destruct (join [COMMA] (x :: l)) eqn:J; [apply join_nil_inv in J; [discriminate|exact NE]|]. rewrite <- J.
  rewrite split_join; [reflexivity|discriminate|].
  intros y I. rewrite <- E in I. apply in_flat_map in I as (m & I & X). apply in_map_iff in X as (lk & <- & X).
  apply filter_In in I as [I _]. apply text_no_comma; [exact I|]. eapply Permutation_in; [apply sort_links_perm|exact X].
Qed.
Lemma split_items n st :
  (match sante n with [] => Ok st | t => read_items read_ante st (PyStr.split COMMA t) end) =
  read_items read_ante st (antes_of (filter (starts_at n) es)).
Proof.
  rewrite S_eq. destruct (antes_of (filter (starts_at n) es)) as [|x l] eqn:E; [reflexivity|].
  pose proof (antes_nonempty (filter (starts_at n) es)) as NE. rewrite E in NE.
  destruct (join [COMMA] (x :: l)) eqn:J; [apply join_nil_inv in J; [discriminate|exact NE]|]. rewrite <- J.
  rewrite split_join; [reflexivity|discriminate|].
  intros y I. rewrite <- E in I. apply in_flat_map in I as (e & I & X). apply in_map_iff in X as (a & <- & X).
  apply filter_In in I as [I _]. destruct (GS e I) as [EE [_ GX]]. destruct (GX a X) as (EN & _).
  destruct (id_ok e EE) as (_ & SC & _). destruct (id_ok a EN) as (_ & TC & _).
  intros Z. apply in_app_or in Z as [Z|Z]; [auto|]. apply in_app_or in Z as [[Z|[]]|Z]; [discriminate|auto].
Qed.

Lemma load_node_ok P st n : loaded P st -> ~ In n P -> 
  (forall m, bl_links st m = shown_links P m) -> (forall e, bl_split st e = shown_split P e) ->
  exists st', load_node d bridge sante st n = Ok st' /\ loaded (P ++ [n]) st' /\
    (forall m, bl_links st' m = shown_links (P ++ [n]) m) /\ (forall e, bl_split st' e = shown_split (P ++ [n]) e).
Proof.
  intros LO NP HL HS. unfold load_node. fold (at_node n (bd_ms d)).
  assert (INC : incl (at_node n (bd_ms d)) (bd_ms d)) by (intros x I; apply filter_In in I; apply I).
  assert (NDA : NoDup (at_node n (bd_ms d))) by (apply NoDup_filter, (gd_ms d G)).
  destruct (add_mentions_seen (at_node n (bd_ms d)) P st LO INC) as (LA & A1 & A2 & A3 & A4).
  set (st1 := fold_left (add_mention d) (at_node n (bd_ms d)) st) in *.
  assert (L1 : loaded (P ++ [n]) st1).
  { destruct LA as [k1 k2 k3]. split; auto. intros m I F. apply in_app_or in F as [F|[F|[]]]; [auto|].
    apply A3. apply filter_In. split; [exact I|]. apply Nat.eqb_eq. auto. }
  cbv zeta. rewrite (bridge_items n st1 (fun _ => Ok st1)). rewrite texts_items.
  destruct (read_links (P ++ [n]) (link_items (at_node n (bd_ms d))) st1 L1) as (st2 & E2 & L2 & C1 & C2).
  { intros m l I. apply in_flat_map in I as (m' & I & X). apply in_map_iff in X as (y & E & X). inversion E; subst.
    assert (Y : In l (links m)) by (eapply Permutation_in; [apply sort_links_perm|exact X]).
    split; [apply INC; exact I|]. split; [exact Y|].
    assert (D : distinct_starts d).
    { apply DS. exists m. split; [apply INC; exact I|]. intros Z. rewrite (links_raw m Z) in Y. destruct Y. }
    destruct (add_mentions (at_node n (bd_ms d)) P st LO INC) as (_ & _ & _ & A & _).
    - intros m1 m2 I1 I2 Q. apply D; [apply INC; exact I1|apply INC; exact I2|exact Q|].
      apply filter_In in I1 as [_ I1]. apply filter_In in I2 as [_ I2]. apply Nat.eqb_eq in I1, I2. congruence.
    - exact NDA.
    - exact (A m I). }
  rewrite E2. cbn [rbind]. rewrite (split_items n st2), antes_items.
  destruct (read_antes (P ++ [n]) (ante_items (filter (starts_at n) es)) st2 L2) as (st3 & E3 & L3 & D1 & D2).
  { intros e a I. apply in_flat_map in I as (e' & I & X). apply in_map_iff in X as (y & E & X). inversion E; subst.
    apply filter_In in I as [I Z]. split; [exact I|]. split; [exact X|].
    unfold starts_at in Z. destruct (mentions_of d e) as [|m ml] eqn:MO; [discriminate|]. apply Nat.eqb_eq in Z.
    assert (IM : In m (mentions_of d e)) by (rewrite MO; left; reflexivity). apply filter_In in IM as [IM EM]. apply str_eqb_eq in EM.
    destruct (lo_seen _ _ L2 m IM) as (l & Q & _); [rewrite Z; apply in_or_app; right; left; reflexivity|].
    exists l. rewrite <- EM. exact Q. }
  exists st3. split; [exact E3|]. split; [exact L3|]. split.
  - intros m. rewrite D1, C2, A1, HL. unfold link_items.
    rewrite (filter_pairs Nat.eqb Nat.eqb_spec (fun m => sort_links d (links m))) by exact NDA.
    unfold shown_links, at_node.
    destruct (existsb (fun x => Nat.eqb x m) (filter (fun x => mem (bd_first d x) P) (bd_ms d))) eqn:XA;
    destruct (existsb (fun x => Nat.eqb x m) (filter (fun x => Nat.eqb (bd_first d x) n) (bd_ms d))) eqn:XB;
    destruct (existsb (fun x => Nat.eqb x m) (filter (fun x => mem (bd_first d x) (P ++ [n])) (bd_ms d))) eqn:XC;
      cbn; rewrite ?app_nil_r; try reflexivity; exfalso.
    1,2: apply existsb_exists in XA as (y & IA & YA); apply existsb_exists in XB as (z & IB & ZB);
      apply Nat.eqb_eq in YA, ZB; subst; apply filter_In in IA as [_ IA]; apply filter_In in IB as [_ IB];
      apply mem_In in IA; apply Nat.eqb_eq in IB; subst; contradiction.
    + apply existsb_exists in XA as (y & IA & YA). apply filter_In in IA as [IA F]. apply mem_In in F.
      assert (T : existsb (fun x => Nat.eqb x m) (filter (fun x => mem (bd_first d x) (P ++ [n])) (bd_ms d)) = true).
      { apply existsb_exists. exists y. split; [|exact YA]. apply filter_In. split; [exact IA|]. apply mem_In, in_or_app; auto. }
      congruence.
    + apply existsb_exists in XB as (y & IA & YA). apply filter_In in IA as [IA F]. apply Nat.eqb_eq in F.
      assert (T : existsb (fun x => Nat.eqb x m) (filter (fun x => mem (bd_first d x) (P ++ [n])) (bd_ms d)) = true).
      { apply existsb_exists. exists y. split; [|exact YA]. apply filter_In. split; [exact IA|]. apply mem_In, in_or_app; right; left; auto. }
      congruence.
    + apply existsb_exists in XC as (y & IA & YA). apply filter_In in IA as [IA F]. apply mem_In in F.
      apply in_app_or in F as [F|[F|[]]].
      * assert (T : existsb (fun x => Nat.eqb x m) (filter (fun x => mem (bd_first d x) P) (bd_ms d)) = true).
        { apply existsb_exists. exists y. split; [|exact YA]. apply filter_In. split; [exact IA|]. apply mem_In; auto. }
        congruence.
      * assert (T : existsb (fun x => Nat.eqb x m) (filter (fun x => Nat.eqb (bd_first d x) n) (bd_ms d)) = true).
        { apply existsb_exists. exists y. split; [|exact YA]. apply filter_In. split; [exact IA|]. apply Nat.eqb_eq; auto. }
        congruence.
  - intros e. rewrite D2, C1, A2, HS. unfold ante_items.
    rewrite (filter_pairs str_eqb str_eqb_spec split) by (apply NoDup_filter; exact ES).
    unfold shown_split.
    destruct (existsb (fun x => str_eqb x e) (filter (fun x => existsb (fun n => starts_at n x) P) es)) eqn:XA;
    destruct (existsb (fun x => str_eqb x e) (filter (starts_at n) es)) eqn:XB;
    destruct (existsb (fun x => str_eqb x e) (filter (fun x => existsb (fun n => starts_at n x) (P ++ [n])) es)) eqn:XC;
      cbn; rewrite ?app_nil_r; try reflexivity; exfalso.
    1,2: apply existsb_exists in XA as (y & IA & YA); apply existsb_exists in XB as (z & IB & ZB);
      apply str_eqb_eq in YA, ZB; subst; apply filter_In in IA as [_ IA]; apply filter_In in IB as [_ IB];
      apply existsb_exists in IA as (n' & IN & SN); unfold starts_at in SN, IB; destruct (mentions_of d e) as [|m ml]; [discriminate|];
      apply Nat.eqb_eq in SN, IB; subst; contradiction.
    + apply existsb_exists in XA as (y & IA & YA). apply filter_In in IA as [IA F]. apply existsb_exists in F as (n' & IN & SN).
      assert (T : existsb (fun x => str_eqb x e) (filter (fun x => existsb (fun n => starts_at n x) (P ++ [n])) es) = true).
      { apply existsb_exists. exists y. split; [|exact YA]. apply filter_In. split; [exact IA|]. apply existsb_exists. exists n'.
        split; [apply in_or_app; auto|exact SN]. }
      congruence.
    + apply existsb_exists in XB as (y & IA & YA). apply filter_In in IA as [IA F].
      assert (T : existsb (fun x => str_eqb x e) (filter (fun x => existsb (fun n => starts_at n x) (P ++ [n])) es) = true).
      { apply existsb_exists. exists y. split; [|exact YA]. apply filter_In. split; [exact IA|]. apply existsb_exists. exists n.
        split; [apply in_or_app; right; left; auto|exact F]. }
      congruence.
    + apply existsb_exists in XC as (y & IA & YA). apply filter_In in IA as [IA F]. apply existsb_exists in F as (n' & IN & SN).
      apply in_app_or in IN as [F|[F|[]]].
      * assert (T : existsb (fun x => str_eqb x e) (filter (fun x => existsb (fun n => starts_at n x) P) es) = true).
        { apply existsb_exists. exists y. split; [|exact YA]. apply filter_In. split; [exact IA|]. apply existsb_exists. exists n'. auto. }
        congruence.
      * subst n'. assert (T : existsb (fun x => str_eqb x e) (filter (starts_at n) es) = true).
        { apply existsb_exists. exists y. split; [|exact YA]. apply filter_In. auto. }
        congruence.
Qed.

Lemma load_nodes_ok ns : forall P st, loaded P st -> NoDup (P ++ ns) ->
  (forall m, bl_links st m = shown_links P m) -> (forall e, bl_split st e = shown_split P e) ->
  exists st', load_nodes d bridge sante st ns = Ok st' /\ loaded (P ++ ns) st' /\
    (forall m, bl_links st' m = shown_links (P ++ ns) m) /\ (forall e, bl_split st' e = shown_split (P ++ ns) e).
Proof.
  induction ns as [|n ns IH]; intros P st LO ND HL HS; cbn [load_nodes].
  - exists st. rewrite app_nil_r. auto.
  - destruct (load_node_ok P st n LO) as (st1 & -> & L1 & H1 & H2); auto.
    { intros I. apply NoDup_remove_2 in ND. apply ND, in_or_app; auto. }
    cbn [rbind]. destruct (IH (P ++ [n]) st1 L1) as (st2 & E & L2 & X & Y); auto.
    { rewrite <- app_assoc. exact ND. }
    exists st2. rewrite <- app_assoc in L2, X, Y. auto.
Qed.

Lemma load_ok : exists st, load_refs d bridge sante = Ok st /\
  (forall m, bl_links st m = if mem m (bd_ms d) then sort_links d (links m) else []) /\
  (forall e, bl_split st e = if existsb (fun x => str_eqb x e) es then split e else []).
Proof.
  unfold load_refs.
  destruct (load_nodes_ok (bd_nodes d) [] (mkBl [] (fun _ => []) (fun _ => []))) as (st & E & LO & HL & HS).
  - split; cbn; [constructor|intros e l []|intros m _ []].
  - exact (gd_nodes d G).
  - intros m. unfold shown_links. rewrite filter_none; [reflexivity|]. intros; reflexivity.
  - intros e. unfold shown_split. rewrite filter_none; [reflexivity|]. intros; reflexivity.
  - rewrite E. cbn [rbind].
    assert (F : forallb (fun kv => nonempty (snd kv)) (bl_ents st) = true).
    { apply forallb_forall. intros [e l] I. cbn. destruct (lo_ents _ _ LO e l I) as (m & IM & <-).
      destruct (lo_seen _ _ LO m IM) as (l' & Q & J); [cbn; apply (gd_first d G); exact IM|].
      rewrite (ents_get_In _ _ _ (lo_keys _ _ LO) I) in Q. inversion Q; subst. destruct l'; [destruct J|reflexivity]. }
    rewrite F. exists st. split; [reflexivity|]. split.
    + intros m. rewrite HL. unfold shown_links. cbn [app]. rewrite filter_all.
      * rewrite existsb_mem. reflexivity.
      * intros x I. apply mem_In, (gd_first d G), I.
    + intros e. rewrite HS. unfold shown_split. cbn [app]. rewrite filter_all; [reflexivity|].
      intros x I. destruct (GS x I) as [EN _]. apply mentioned_spec in EN. unfold mentioned in EN.
      apply existsb_exists. unfold starts_at. destruct (mentions_of d x) as [|m ml] eqn:MO; [discriminate|].
      exists (bd_first d m). split; [|apply Nat.eqb_refl]. apply (gd_first d G).
      assert (IM : In m (mentions_of d x)) by (rewrite MO; left; reflexivity). apply filter_In in IM. apply IM.
Qed.
End Round.
