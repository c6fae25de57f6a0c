(** The theorems about bridging links and split antecedents. *)
From Coq Require Import String List NArith ZArith Bool Permutation Sorted Lia.
From Verif Require Import PyStr PyStrFacts PyList PyListFacts PyExn TreeModel TreeOps BridgeModel BridgeSpec BridgeProofs.
Import ListNotations.
Local Open Scope list_scope.

(** the order of entities is a strict total order *)
Section Order.
Variable d : bdoc.
Lemma rank_lt_before l a b : (exists m, In m l /\ bd_eid d m = a) -> rank_in d l a < rank_in d l b ->
  exists l1 m l2, l = l1 ++ m :: l2 /\ bd_eid d m = a /\ forall m', In m' (l1 ++ [m]) -> bd_eid d m' <> b.
Proof.
  induction l as [|x l IH]; intros (m & I & E) R; [destruct I|]. cbn in R.
  destruct (str_eqb_spec (bd_eid d x) a) as [Ea|Na].
  - destruct (str_eqb_spec (bd_eid d x) b) as [Eb|Nb]; [lia|].
    exists [], x, l. split; [reflexivity|]. split; [exact Ea|]. intros m' [<-|[]]; exact Nb.
  - destruct (str_eqb_spec (bd_eid d x) b) as [Eb|Nb]; [lia|].
    destruct IH as (l1 & y & l2 & -> & Ey & H).
    + exists m. split; [|exact E]. destruct I as [<-|I]; [contradiction|exact I].
    + lia.
    + exists (x :: l1), y, l2. split; [reflexivity|]. split; [exact Ey|]. intros m' [<-|I']; [exact Nb|auto].
Qed.
Lemma rank_inj l a b : (exists m, In m l /\ bd_eid d m = a) -> (exists m, In m l /\ bd_eid d m = b) ->
  rank_in d l a = rank_in d l b -> a = b.
Proof.
  induction l as [|x l IH]; intros (m & I & E) (m' & I' & E') R; [destruct I|]. cbn in R.
  destruct (str_eqb_spec (bd_eid d x) a) as [Ea|Na]; destruct (str_eqb_spec (bd_eid d x) b) as [Eb|Nb]; try lia; [congruence|].
  apply IH; [exists m|exists m'|lia]; split; auto.
  - destruct I as [<-|I]; [contradiction|exact I].
  - destruct I' as [<-|I']; [contradiction|exact I'].
Qed.
Lemma entity_lt_irrefl a : entity_lt d a a = false.
Proof.
  unfold entity_lt. destruct (mentioned d a); cbn [negb orb andb]; [apply Nat.ltb_irrefl|]. rewrite str_leb_refl. reflexivity.
Qed.
Lemma str_lt_trans a b c : str_leb b a = false -> str_leb c b = false -> str_leb c a = false.
Proof.
  intros H1 H2. apply not_true_is_false. intros H. 
  destruct (str_leb_total a b) as [T|T]; [|congruence]. rewrite (str_leb_trans _ _ _ H T) in H2. discriminate.
Qed.
Lemma entity_lt_trans a b c : entity_lt d a b = true -> entity_lt d b c = true -> entity_lt d a c = true.
Proof.
  unfold entity_lt. destruct (mentioned d a), (mentioned d b), (mentioned d c); cbn [negb orb andb]; try discriminate; auto.
  - rewrite !Nat.ltb_lt. lia.
  - rewrite !negb_true_iff. apply str_lt_trans.
Qed.
Lemma entity_lt_total a b : a <> b -> entity_lt d a b = true \/ entity_lt d b a = true.
Proof.
  intros N. unfold entity_lt. destruct (mentioned d a) eqn:A, (mentioned d b) eqn:B; cbn [negb orb andb]; auto.
  - rewrite !Nat.ltb_lt. apply mentioned_spec in A, B.
    destruct (Nat.lt_trichotomy (rank_in d (bd_ms d) a) (rank_in d (bd_ms d) b)) as [L|[E|L]]; auto.
    exfalso. apply N. exact (rank_inj _ _ _ A B E).
  - rewrite !negb_true_iff. destruct (str_leb b a) eqn:E1; [|auto]. destruct (str_leb a b) eqn:E2; [|auto].
    exfalso. apply N. apply str_leb_antisym; assumption.
Qed.
Lemma entity_lt_asym a b : entity_lt d a b = true -> entity_lt d b a = false.
Proof.
  intros H. apply not_true_is_false. intros H2. pose proof (entity_lt_trans _ _ _ H H2) as X. rewrite entity_lt_irrefl in X. discriminate.
Qed.
Definition lle (a b : link) : bool := negb (link_lt d b a).
Lemma lle_cases a b : lle a b = true <-> entity_lt d (fst a) (fst b) = true \/ (fst a = fst b /\ str_leb (snd a) (snd b) = true).
Proof.
  unfold lle, link_lt. destruct (str_eqb_spec (fst b) (fst a)) as [E|N].
  - rewrite negb_involutive, E, entity_lt_irrefl. split; [auto|]. intros [H|H]; [discriminate|apply H].
  - rewrite negb_true_iff. split.
    + intros H. destruct (entity_lt_total (fst b) (fst a) N) as [X|X]; [congruence|auto].
    + intros [H|[H _]]; [apply entity_lt_asym; exact H|congruence].
Qed.
Lemma lle_total a b : lle a b = true \/ lle b a = true.
Proof.
  rewrite !lle_cases. destruct (str_eqb_spec (fst a) (fst b)) as [E|N].
  - destruct (str_leb_total (snd a) (snd b)); auto.
  - destruct (entity_lt_total _ _ N); auto.
Qed.
Lemma lle_trans a b c : lle a b = true -> lle b c = true -> lle a c = true.
Proof.
  rewrite !lle_cases. intros [H|[H H']] [K|[K K']].
  - left. eapply entity_lt_trans; eauto.
  - left. rewrite <- K. exact H.
  - left. rewrite H. exact K.
  - right. split; [congruence|]. eapply str_leb_trans; eauto.
Qed.
End Order.

Lemma sort_links_sorted d l : (forall x, In x l -> is_entity d (fst x)) -> StronglySorted (link_le d) (sort_links d l).
Proof.
  intros H.
  assert (S1 : StronglySorted (fun a b => lle d a b = true) (sort_links d l)).
  { apply (isort_sorted (lle d)); [intros; apply lle_total|intros a b c; apply lle_trans]. }
  assert (H2 : forall x, In x (sort_links d l) -> is_entity d (fst x)).
  { intros x I. apply H. eapply Permutation_in; [apply sort_links_perm|exact I]. }
  clear H. induction S1 as [|x m S1 IH F]; constructor.
  - apply IH. intros; apply H2; right; assumption.
  - apply Forall_forall. intros y I. rewrite Forall_forall in F. specialize (F y I). apply lle_cases in F as [F|F]; [|right; exact F].
    left. unfold entity_lt in F. pose proof (H2 x (or_introl eq_refl)) as Hx. pose proof (H2 y (or_intror I)) as Hy.
    pose proof (proj2 (mentioned_spec _ _) Hx) as Mx. pose proof (proj2 (mentioned_spec _ _) Hy) as My.
    rewrite Mx, My in F. cbn [negb orb andb] in F. apply Nat.ltb_lt in F. apply rank_lt_before; auto.
Qed.

(** C72, C73: storing and loading *)
Theorem refs_round : forall d links split es, good_doc d ->
  ((exists m, In m (bd_ms d) /\ links m <> []) -> distinct_starts d) ->
  (forall m, In m (bd_ms d) -> dead_apart d (links m) /\ good_links d m (links m)) ->
  NoDup es -> (forall e, In e es -> is_entity d e /\ good_antes d e (split e)) ->
  exists bs ss st, store_all_bridges d links = Ok bs /\ store_all_splits d split es = Ok ss /\
    (forall m, In m (bd_ms d) -> bs_links bs m = live_links d (links m)) /\ (forall e, ss_split ss e = split e) /\
    load_refs d (bs_misc bs) (ss_misc ss) = Ok st /\
    (forall m, In m (bd_ms d) -> Permutation (bl_links st m) (live_links d (links m)) /\ StronglySorted (link_le d) (bl_links st m)) /\
    (forall m, ~ In m (bd_ms d) -> bl_links st m = []) /\
    (forall e, In e es -> bl_split st e = split e) /\ (forall e, ~ In e es -> bl_split st e = []).
Proof.
  intros d links split es G DS GL ES GS.
  pose proof (fun m I => proj1 (GL m I)) as DA. pose proof (fun m I => proj2 (GL m I)) as GL0.
  destruct (store_bridges_ok d links G DA) as (bs & B1 & B2 & _ & B3).
  destruct (store_splits_ok d split es GS) as (ss & S1 & S2 & S3).
  destruct (load_ok d links split es G DS GL0 ES GS (bs_misc bs) (ss_misc ss) B3 S3) as (st & L1 & L2 & L3).
  exists bs, ss, st. repeat (split; [assumption|]). split; [|split; [|split]].
  - intros m I. rewrite L2, (proj2 (mem_In m (bd_ms d)) I). split; [apply sort_links_perm|].
    apply sort_links_sorted. intros x J. apply live_links_In in J. apply J.
  - intros m N. rewrite L2, (proj2 (mem_false m (bd_ms d)) N). reflexivity.
  - intros e I. rewrite L3. replace (existsb (fun x => str_eqb x e) es) with true; [reflexivity|].
    symmetry. apply existsb_exists. exists e. split; [exact I|apply str_eqb_refl].
  - intros e N. rewrite L3. replace (existsb (fun x => str_eqb x e) es) with false; [reflexivity|].
    symmetry. apply not_true_is_false. intros X. apply existsb_exists in X as (y & I & Y). apply str_eqb_eq in Y. subst. contradiction.
Qed.

(** C74: mention.bridging is a list *)
Lemma own_lists_empty : own_lists no_lists.
Proof. intros m o H. discriminate. Qed.
Lemma br_put_links b m o l x : own_lists b -> br_of b m = Some o -> br_links (br_put b o l) x = upd (br_links b) m l x.
Proof.
  intros W H. unfold br_links, br_put. cbn. destruct (Nat.eq_dec x m) as [->|N].
  - rewrite H, !upd_same. reflexivity.
  - rewrite (upd_other _ m) by auto. destruct (br_of b x) as [o'|] eqn:E; [|reflexivity].
    rewrite upd_other; [reflexivity|]. intros ->. destruct (W _ _ E), (W _ _ H). congruence.
Qed.
Lemma br_put_own b o l : own_lists b -> own_lists (br_put b o l).
Proof. intros W. exact W. Qed.
Lemma br_new_spec ent b m v b' r : own_lists b -> br_new ent b m v = (b', r) ->
  (existsb (fun l => str_eqb (fst l) (ent m)) v = true /\ b' = b /\ r = Raise ValueError) \/
  (existsb (fun l => str_eqb (fst l) (ent m)) v = false /\ exists o, r = Ok o /\ own_lists b' /\ br_of b' m = Some o /\ br_src b' o = m /\
    br_data b' o = v /\ o = br_next b /\ (forall x, x < br_next b -> br_data b' x = br_data b x /\ br_src b' x = br_src b x) /\
    forall x, br_links b' x = upd (br_links b) m v x).
Proof.
  intros W H. unfold br_new in H. destruct (existsb (fun l : str * str => str_eqb (fst l) (ent m)) v) eqn:X; inversion H; subst; [left; auto|right]. split; [reflexivity|].
  exists (br_next b). cbn. rewrite !upd_same. split; [reflexivity|]. split; [|split; [reflexivity|split; [reflexivity|split; [reflexivity|split; [reflexivity|split]]]]].
  - intros x o E. cbn in E |- *. destruct (Nat.eq_dec x m) as [->|N].
    + rewrite upd_same in E. inversion E; subst. rewrite upd_same. split; [lia|reflexivity].
    + rewrite upd_other in E by auto. destruct (W x o E) as [A B]. rewrite upd_other by lia. split; [lia|exact B].
  - intros x L. rewrite !upd_other by lia. auto.
  - intros x. unfold br_links. cbn. destruct (Nat.eq_dec x m) as [->|N].
    + rewrite !upd_same. reflexivity.
    + rewrite (upd_other _ m) by auto. rewrite (upd_other _ m) by auto. destruct (br_of b x) as [o|] eqn:E; [|reflexivity].
      destruct (W x o E). rewrite upd_other by lia. reflexivity.
Qed.
Lemma br_get_spec ent b m : own_lists b -> exists b' o, br_get ent b m = (b', Ok o) /\ own_lists b' /\ br_of b' m = Some o /\
  br_data b' o = br_links b m /\ forall x, br_links b' x = br_links b x.
Proof.
  intros W. unfold br_get.
  assert (NEW : br_links b m = [] -> exists b' o, br_new ent b m [] = (b', Ok o) /\ own_lists b' /\ br_of b' m = Some o /\
    br_data b' o = br_links b m /\ forall x, br_links b' x = br_links b x).
  { intros Z. destruct (br_new ent b m []) as [b' r] eqn:E. destruct (br_new_spec _ _ _ _ _ _ W E) as [(H & _)|(_ & o & -> & W' & A & _ & B & _ & _ & C)]; [discriminate|].
    exists b', o. split; [reflexivity|]. split; [exact W'|]. split; [exact A|]. split; [rewrite B, Z; reflexivity|].
    intros x. rewrite C. destruct (Nat.eq_dec x m) as [->|N]; [rewrite upd_same; congruence|rewrite upd_other by auto; reflexivity]. }
  unfold br_links in NEW at 1. destruct (br_of b m) as [o|] eqn:E; [|apply NEW; reflexivity].
  destruct (br_data b o) eqn:D; cbn [nonempty]; [apply NEW; reflexivity|].
  exists b, o. repeat (split; [assumption || reflexivity|]). split; [|reflexivity]. unfold br_links. rewrite E. reflexivity.
Qed.
Lemma remove_at_firstn {A} i (l : list A) : i < length l -> remove_at i l = firstn i l ++ skipn (S i) l.
Proof.
  revert l. induction i; intros [|x l] H; cbn in *; try lia; auto. rewrite IHi by lia. destruct l; [cbn in *; lia|reflexivity].
Qed.
Lemma py_index_lt {A} (l : list A) k i : py_index l k = Some i -> i < length l.
Proof.
  unfold py_index. destruct (0 <=? k)%Z eqn:E1.
  - destruct (k <? _)%Z eqn:E2; [|discriminate]. intros H; inversion H; subst. lia.
  - destruct (- Z.of_nat (length l) <=? k)%Z eqn:E2; [|discriminate]. intros H; inversion H; subst. lia.
Qed.
Theorem exec_list : forall ent b o, own_lists b ->
  own_lists (fst (exec ent b o)) /\
  match list_op ent (br_links b (op_of o)) o with
  | Some l => snd (exec ent b o) = Ok tt /\ forall x, br_links (fst (exec ent b o)) x = upd (br_links b) (op_of o) l x
  | None => (exists e, snd (exec ent b o) = Raise e) /\ forall x, br_links (fst (exec ent b o)) x = br_links b x
  end.
Proof.
  intros ent b o W. destruct (br_get_spec ent b (op_of o) W) as (b' & x & E & W' & A & D & L).
  assert (SRC : br_src b' x = op_of o) by (apply W'; exact A).
  assert (PUT : forall l, own_lists (br_put b' x l) /\ forall y, br_links (br_put b' x l) y = upd (br_links b) (op_of o) l y).
  { intros l. split; [exact W'|]. intros y. rewrite (br_put_links b' (op_of o) x l y W' A).
    destruct (Nat.eq_dec y (op_of o)) as [->|N]; [rewrite !upd_same; reflexivity|rewrite !upd_other by auto; apply L]. }
  destruct o; cbn [op_of] in *; cbn [exec list_op]; rewrite E; cbn [bind]; unfold br_append, br_insert, br_set, br_del; rewrite ?SRC, ?D.
  - cbn. split; [exact W'|]. split; [reflexivity|]. intros y. rewrite L.
    destruct (Nat.eq_dec y m) as [->|N]; [rewrite upd_same; reflexivity|rewrite upd_other by auto; reflexivity].
  - destruct (str_eqb (fst v) (ent m)); cbn [fst snd]; [split; [exact W'|]; split; [eauto|exact L]|].
    assert (PB : py_bound (br_links b m) (Z.of_nat (length (br_links b m))) = length (br_links b m)).
    { rewrite py_bound_nonneg by lia. lia. }
    rewrite PB, firstn_all, skipn_all. destruct (PUT (br_links b m ++ [v])) as [P1 P2]. split; [exact P1|]. split; [reflexivity|exact P2].
  - destruct (str_eqb (fst v) (ent m)); cbn [fst snd]; [split; [exact W'|]; split; [eauto|exact L]|].
    destruct (PUT (firstn (py_bound (br_links b m) key) (br_links b m) ++ v :: skipn (py_bound (br_links b m) key) (br_links b m))) as [P1 P2].
    split; [exact P1|]. split; [reflexivity|exact P2].
  - destruct (str_eqb (fst v) (ent m)); cbn [fst snd]; [split; [exact W'|]; split; [eauto|exact L]|].
    destruct (py_set (br_links b m) key v) as [l|]; cbn [fst snd]; [|split; [exact W'|]; split; [eauto|exact L]].
    destruct (PUT l) as [P1 P2]. split; [exact P1|]. split; [reflexivity|exact P2].
  - destruct (py_index (br_links b m) key) as [i|] eqn:PI; cbn [option_map fst snd]; [|split; [exact W'|]; split; [eauto|exact L]].
    rewrite (remove_at_firstn i) by (eapply py_index_lt; exact PI).
    destruct (PUT (firstn i (br_links b m) ++ skipn (S i) (br_links b m))) as [P1 P2]. split; [exact P1|]. split; [reflexivity|exact P2].
Qed.
Lemma list_run_ext ent ops : forall L L', (forall x, L x = L' x) -> forall x, list_run ent L ops x = list_run ent L' ops x.
Proof.
  induction ops as [|o ops IH]; intros L L' H x; cbn; [apply H|]. apply IH. intros y. rewrite (H (op_of o)).
  destruct (list_op _ _ _); [|apply H]. destruct (Nat.eq_dec y (op_of o)) as [->|N]; [rewrite !upd_same; reflexivity|rewrite !upd_other by auto; apply H].
Qed.
Theorem run_list : forall ent ops b, own_lists b ->
  own_lists (run ent b ops) /\ forall m, br_links (run ent b ops) m = list_run ent (br_links b) ops m.
Proof.
  induction ops as [|o ops IH]; intros b W; cbn [run list_run]; [auto|].
  destruct (exec_list ent b o W) as [W' H]. destruct (IH _ W') as [W'' E]. split; [exact W''|]. intros m. rewrite E.
  apply list_run_ext. intros x. destruct (list_op ent (br_links b (op_of o)) o); apply H.
Qed.
(** a query: the result is right and the object that is asked keeps its links, but the mention gets the result *)
Theorem call_result : forall ent matches b o, own_lists b -> o < br_next b ->
  (forall l, In l (br_data b o) -> fst l <> ent (br_src b o)) ->
  exists b' r, br_call ent matches b o = (b', Ok r) /\ br_data b' r = filter (fun l => matches (snd l)) (br_data b o) /\
    br_data b' o = br_data b o /\ br_links b' (br_src b o) = filter (fun l => matches (snd l)) (br_data b o) /\
    forall m, m <> br_src b o -> br_links b' m = br_links b m.
Proof.
  intros ent matches b o W LT NS. unfold br_call. destruct (br_new _ _ _ _) as [b' r] eqn:E.
  destruct (br_new_spec _ _ _ _ _ _ W E) as [(H & _)|(_ & x & -> & W' & A & S & D & N & K & L)].
  - exfalso. apply existsb_exists in H as (l & I & H). apply filter_In in I as [I _]. apply str_eqb_eq in H. exact (NS l I H).
  - exists b', x. split; [reflexivity|]. split; [exact D|]. split; [apply K; exact LT|]. split; [rewrite L, upd_same; reflexivity|].
    intros m Ne. rewrite L, upd_other by auto. reflexivity.
Qed.
