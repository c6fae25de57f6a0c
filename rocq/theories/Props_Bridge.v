(** Bridging links and split antecedents: C72, C73, C74. *)
From Coq Require Import String List NArith ZArith Bool Lia Sorting.Sorted Sorting.Permutation.
From Verif Require Import PyStr PyStrFacts PyList PyListFacts PyExn TreeModel TreeOps BridgeModel BridgeSpec BridgeProofs BridgeThms BridgeLoaded.
Import ListNotations.
Local Open Scope list_scope.

(** C72. After storing and loading, every mention has its bridging links again, except those to entities without mentions;
    they are in the order of the targets. Split antecedents, stored at the same time, do not disturb this.
    Missing: documents with two mentions of one entity starting at one word, two neighbouring links to entities without mentions,
    a mention with only such links, relations '_' or with a separator: see below. *)
Theorem C72_round_trip_partial : forall d links split es, good_doc d -> distinct_starts d ->
  (forall m, In m (bd_ms d) -> dead_apart d (links m) /\ good_links d m (links m)) ->
  NoDup es -> (forall e, In e es -> is_entity d e /\ good_antes d e (split e)) ->
  exists bs ss st, store_all_bridges d links = Ok bs /\ store_all_splits d split es = Ok ss /\
    load_refs d (bs_misc bs) (ss_misc ss) = Ok st /\
    (forall m, In m (bd_ms d) -> Permutation (bl_links st m) (live_links d (links m)) /\ StronglySorted (link_le d) (bl_links st m)) /\
    (forall m, ~ In m (bd_ms d) -> bl_links st m = []).
Proof.
  intros d links split es G DS GL ES GS.
  destruct (refs_round d links split es G (fun _ => DS) GL ES GS) as (bs & ss & st & A & B & _ & _ & C & D & E & _).
  exists bs, ss, st. auto.
Qed.
Print Assumptions C72_round_trip_partial.
(** C72. Storing keeps the links in memory, apart from the links to entities without mentions. *)
Theorem C72_memory_partial : forall d links, good_doc d -> distinct_starts d ->
  (forall m, In m (bd_ms d) -> dead_apart d (links m) /\ good_links d m (links m)) ->
  exists bs, store_all_bridges d links = Ok bs /\ forall m, In m (bd_ms d) -> bs_links bs m = live_links d (links m).
Proof.
  intros d links G DS GL.
  destruct (refs_round d links (fun _ => []) [] G (fun _ => DS) GL (NoDup_nil _)) as (bs & ss & st & A & B & C & _); [intros e []|].
  exists bs. auto.
Qed.
Print Assumptions C72_memory_partial.

Definition e1 : str := PyStr.s "e1". Definition e2 : str := PyStr.s "e2". Definition e3 : str := PyStr.s "e3".
(** mention 0 of e1 at node 10, mentions 1 of e2 and 2 of e3 at node 11, mention 3 of e2 at node 12 *)
Definition bdoc1 : bdoc := mkBd [10; 11; 12] [0; 1; 2; 3] (fun m => nth m [10; 11; 11; 12] 0) (fun m => nth m [e1; e2; e3; e2] []).
Definition links1 (m : nat) : list link :=
  match m with
  | 0 => [(PyStr.s "gone", []); (e3, PyStr.s "part:of"); (e2, [])]
  | 1 => [(e3, PyStr.s "b"); (e1, PyStr.s "x"); (e3, PyStr.s "a")]
  | 2 => [(e1, PyStr.s "subset")]
  | _ => []
  end.
Definition split1' (e : str) : list str := if str_eqb e e3 then [e2; e1] else [].
Lemma bdoc1_good : good_doc bdoc1 /\ distinct_starts bdoc1.
Proof.
  split; [split|].
  - cbn. repeat constructor; cbn; intuition discriminate.
  - cbn. repeat constructor; cbn; intuition discriminate.
  - intros m H. cbn in H. destruct H as [<-|[<-|[<-|[<-|[]]]]]; cbn; auto.
  - intros m H. cbn in H. destruct H as [<-|[<-|[<-|[<-|[]]]]]; (split; [vm_compute; reflexivity|]); cbn; split; intuition discriminate.
  - intros m m' H H'. cbn in H, H'.
    destruct H as [<-|[<-|[<-|[<-|[]]]]]; destruct H' as [<-|[<-|[<-|[<-|[]]]]]; cbn; intros E F; try reflexivity; try discriminate.
Qed.
Lemma ent1 m : In m (bd_ms bdoc1) -> is_entity bdoc1 (bd_eid bdoc1 m).
Proof. intros H. exists m. auto. Qed.
Lemma links1_good : forall m, In m (bd_ms bdoc1) -> dead_apart bdoc1 (links1 m) /\ good_links bdoc1 m (links1 m).
Proof.
  assert (N : forall e, mentioned bdoc1 e = true -> is_entity bdoc1 e) by (intros e; apply mentioned_spec).
  assert (A : is_entity bdoc1 e1) by (apply N; reflexivity).
  assert (B : is_entity bdoc1 e2) by (apply N; reflexivity).
  assert (C : is_entity bdoc1 e3) by (apply N; reflexivity).
  intros m H. cbn in H. destruct H as [<-|[<-|[<-|[<-|[]]]]]; (split; split).
  - intros l1 a b l2 E. cbn in E. destruct l1 as [|x [|y l1]]; inversion E; subst; cbn; auto.
    destruct l1 as [|? [|? ?]]; discriminate.
  - intros _. exists (e3, PyStr.s "part:of"). cbn. auto.
  - intros _. cbn. intuition discriminate.
  - intros trg rel I _. cbn in I. destruct I as [I|[I|[I|[]]]]; inversion I; subst; cbn; repeat split; try discriminate; intuition discriminate.
  - intros l1 a b l2 E. cbn in E. destruct l1 as [|x [|y l1]]; inversion E; subst; cbn; auto.
    destruct l1 as [|? [|? ?]]; discriminate.
  - intros _. exists (e3, PyStr.s "b"). cbn. auto.
  - intros _. cbn. intuition discriminate.
  - intros trg rel I _. cbn in I. destruct I as [I|[I|[I|[]]]]; inversion I; subst; cbn; repeat split; try discriminate; intuition discriminate.
  - intros l1 a b l2 E. cbn in E. destruct l1 as [|x [|y l1]]; discriminate.
  - intros _. exists (e1, PyStr.s "subset"). cbn. auto.
  - intros _. cbn. intuition discriminate.
  - intros trg rel I _. cbn in I. destruct I as [I|[]]; inversion I; subst; cbn; repeat split; try discriminate; intuition discriminate.
  - intros l1 a b l2 E. cbn in E. destruct l1; discriminate.
  - intros X. exfalso; apply X; reflexivity.
  - intros X. exfalso; apply X; reflexivity.
  - intros trg rel [].
Qed.
Lemma split1_good : NoDup [e1; e3] /\ forall e, In e [e1; e3] -> is_entity bdoc1 e /\ good_antes bdoc1 e (split1' e).
Proof.
  assert (N : forall e, mentioned bdoc1 e = true -> is_entity bdoc1 e) by (intros e; apply mentioned_spec).
  split; [repeat constructor; cbn; intuition discriminate|].
  intros e [<-|[<-|[]]]; (split; [apply N; reflexivity|]); split.
  - left. reflexivity.
  - intros a [].
  - right. cbn. lia.
  - intros a I. cbn in I. destruct I as [<-|[<-|[]]]; (split; [apply N; reflexivity|discriminate]).
Qed.
Definition stored1 : res bstore := store_all_bridges bdoc1 links1.
Definition stored1_split : res sstore := store_all_splits bdoc1 split1' [e1; e3].
Example C72_case : good_doc bdoc1 /\ distinct_starts bdoc1 /\
  (forall m, In m (bd_ms bdoc1) -> dead_apart bdoc1 (links1 m) /\ good_links bdoc1 m (links1 m)) /\
  match stored1, stored1_split with
  | Ok bs, Ok ss =>
    bs_misc bs 10 = PyStr.s "e2<e1,e3<e1:part:of" /\ bs_misc bs 11 = PyStr.s "e1<e2:x,e3<e2:a,e3<e2:b,e1<e3:subset" /\
    ss_misc ss 11 = PyStr.s "e2<e3,e1<e3" /\
    match load_refs bdoc1 (bs_misc bs) (ss_misc ss) with
    | Ok st => bl_links st 0 = [(e2, []); (e3, PyStr.s "part:of")] /\ bl_links st 1 = [(e1, PyStr.s "x"); (e3, PyStr.s "a"); (e3, PyStr.s "b")] /\
               bl_links st 3 = [] /\ bl_split st e3 = [e2; e1]
    | _ => False
    end
  | _, _ => False
  end.
Proof.
  split; [apply bdoc1_good|]. split; [apply bdoc1_good|]. split; [exact links1_good|]. vm_compute. repeat split.
Qed.

(** What a user expects: storing succeeds, loading succeeds, and the links to entities with mentions are there again. *)
Definition links_survive (d : bdoc) (links : nat -> list link) : Prop :=
  exists bs st, store_all_bridges d links = Ok bs /\ load_refs d (bs_misc bs) (fun _ => []) = Ok st /\
    forall m, In m (bd_ms d) -> Permutation (bl_links st m) (live_links d (links m)).
Lemma links_lost d links :
  match store_all_bridges d links with
  | Ok bs => match load_refs d (bs_misc bs) (fun _ => []) with
             | Ok st => exists m, In m (bd_ms d) /\ length (bl_links st m) <> length (live_links d (links m))
             | _ => True end
  | _ => True end -> ~ links_survive d links.
Proof.
  intros H (bs & st & A & B & C). rewrite A, B in H. destruct H as (m & I & N). apply N, Permutation_length, C, I.
Qed.
(** C72. Two neighbouring links to entities without mentions: store_coref_to_misc raises IndexError, because
    _delete_targets_without_mentions deletes from the list it iterates over. *)
Theorem C72_dead_links_refuted : ~ (forall d links, good_doc d -> distinct_starts d ->
  (forall m, In m (bd_ms d) -> good_links d m (links m)) -> links_survive d links).
Proof.
  intros H. set (links := fun m => match m with 0 => [(PyStr.s "x", []); (PyStr.s "y", []); (e2, PyStr.s "part")] | _ => [] end : list link).
  apply (links_lost bdoc1 links); [vm_compute; exact I|]. apply H; try apply bdoc1_good.
  intros m _. destruct m; [|split; [intros X; exfalso; apply X; reflexivity|intros trg rel []]].
  split; [intros _; cbn; intuition discriminate|]. intros trg rel J N. cbn in J.
  destruct J as [J|[J|[J|[]]]]; inversion J; subst; cbn; repeat split; try discriminate; intuition discriminate.
Qed.
Print Assumptions C72_dead_links_refuted.
(** C72. A mention with only such links at a word with another Bridge: the text ends with a comma and cannot be loaded. *)
Theorem C72_only_dead_refuted : ~ (forall d links, good_doc d -> distinct_starts d ->
  (forall m l1 a b l2, links m = l1 ++ a :: b :: l2 -> is_entity d (fst a) \/ is_entity d (fst b)) ->
  (forall m, In m (bd_ms d) -> good_links d m (links m)) -> links_survive d links).
Proof.
  intros H. set (links := fun m => match m with 1 => [(e1, PyStr.s "part")] | 2 => [(PyStr.s "x", [])] | _ => [] end : list link).
  apply (links_lost bdoc1 links); [vm_compute; exact I|]. apply H; try apply bdoc1_good.
  { intros m l1 a b l2 E. destruct m as [|[|[|m]]]; cbn in E; destruct l1 as [|? [|? ?]]; discriminate. }
  intros m _. destruct m as [|[|[|m]]]; try (split; [intros X; exfalso; apply X; reflexivity|intros trg rel []]);
    (split; [intros _; cbn; intuition discriminate|]; intros trg rel J N; cbn in J;
     destruct J as [J|[]]; inversion J; subst; cbn; repeat split; try discriminate; intuition discriminate).
Qed.
Print Assumptions C72_only_dead_refuted.
(** C72. Two mentions of one entity starting at one word: the links of the first move to the second. *)
Definition bdoc2 : bdoc := mkBd [10; 11] [0; 1; 2] (fun m => nth m [10; 11; 11] 0) (fun m => nth m [e1; e2; e2] []).
Lemma bdoc2_good : good_doc bdoc2.
Proof.
  split.
  - cbn. repeat constructor; cbn; intuition discriminate.
  - cbn. repeat constructor; cbn; intuition discriminate.
  - intros m H. cbn in H. destruct H as [<-|[<-|[<-|[]]]]; cbn; auto.
  - intros m H. cbn in H. destruct H as [<-|[<-|[<-|[]]]]; (split; [vm_compute; reflexivity|]); cbn; split; intuition discriminate.
Qed.
Theorem C72_same_start_refuted : ~ (forall d links, good_doc d ->
  (forall m, In m (bd_ms d) -> dead_apart d (links m) /\ good_links d m (links m)) -> links_survive d links).
Proof.
  intros H. set (links := fun m => match m with 1 => [(e1, PyStr.s "part")] | _ => [] end : list link).
  apply (links_lost bdoc2 links).
  { cbv beta iota. vm_compute. exists 1. split; [auto|discriminate]. }
  apply H; try apply bdoc2_good.
  intros m _. destruct m as [|[|m]]; split; split; try (intros X; exfalso; apply X; reflexivity); try solve [intros trg rel []].
  - intros l1 a b l2 E. destruct l1; discriminate.
  - intros l1 a b l2 E. cbn in E. destruct l1 as [|? [|? ?]]; discriminate.
  - intros _. exists (e1, PyStr.s "part"). split; [left; reflexivity|apply mentioned_spec; reflexivity].
  - intros _; cbn; intuition discriminate.
  - intros trg rel [J|[]] N. inversion J; subst; cbn; repeat split; try discriminate; intuition discriminate.
  - intros l1 a b l2 E. destruct l1; discriminate.
Qed.
Print Assumptions C72_same_start_refuted.
(** C72. A relation with a comma makes the stored document unreadable; the relation '_' is lost. *)
Theorem C72_relation_refuted :
  (let links := fun m => match m with 1 => [(e1, PyStr.s "a,b")] | _ => [] end : list link in ~ links_survive bdoc1 links) /\
  (let links := fun m => match m with 1 => [(e1, PyStr.s "_")] | _ => [] end : list link in ~ links_survive bdoc1 links).
Proof.
  split; cbv zeta.
  - apply links_lost. vm_compute. exact I.
  - intros (bs & st & A & B & C). specialize (C 1 (or_intror (or_introl eq_refl))).
    assert (X : match store_all_bridges bdoc1 (fun m => match m with 1 => [(e1, PyStr.s "_")] | _ => [] end : list link) with
      | Ok bs => match load_refs bdoc1 (bs_misc bs) (fun _ => []) with Ok st => bl_links st 1 = [(e1, [])] | _ => False end | _ => False end)
      by (vm_compute; reflexivity).
    rewrite A, B in X. rewrite X in C. apply Permutation_length_1_inv in C. discriminate.
Qed.
Print Assumptions C72_relation_refuted.

(** C72. Whatever the attributes of the file say, if they can be loaded, a link belongs to a mention of the document and never
    points to the entity of its own mention. *)
Theorem C72_loaded : forall d bridge split_ante st, load_refs d bridge split_ante = Ok st ->
  forall m trg rel, In (trg, rel) (bl_links st m) -> In m (bd_ms d) /\ trg <> bd_eid d m.
Proof. intros d bridge split_ante st L m trg rel J. exact (proj1 (proj2 (load_sound d bridge split_ante st L)) m (trg, rel) J). Qed.
Print Assumptions C72_loaded.
Example C72_loaded_case :
  match load_refs bdoc1 (fun n => if Nat.eqb n 10 then PyStr.s "e3<e1:part" else []) (fun _ => []) with Ok st => bl_links st 0 = [(e3, PyStr.s "part")] | _ => False end /\
  load_refs bdoc1 (fun n => if Nat.eqb n 10 then PyStr.s "e1<e1:part" else []) (fun _ => []) = Raise ValueError.
Proof. split; vm_compute; reflexivity. Qed.
(** C73. Nor is an entity ever its own antecedent. *)
Theorem C73_loaded : forall d bridge split_ante st, load_refs d bridge split_ante = Ok st ->
  forall e a, In a (bl_split st e) -> a <> e.
Proof. intros d bridge split_ante st L. exact (proj2 (proj2 (load_sound d bridge split_ante st L))). Qed.
Print Assumptions C73_loaded.
Example C73_loaded_case :
  match load_refs bdoc1 (fun _ => []) (fun n => if Nat.eqb n 11 then PyStr.s "e1<e3,e2<e3" else []) with Ok st => bl_split st e3 = [e1; e2] | _ => False end /\
  load_refs bdoc1 (fun _ => []) (fun n => if Nat.eqb n 11 then PyStr.s "e3<e3" else []) = Raise ValueError.
Proof. split; vm_compute; reflexivity. Qed.

(** C73. After storing and loading, every entity has its split antecedents in the same order.
    Missing: entities with a single antecedent or with antecedents that have no mentions: see below. *)
Theorem C73_round_trip_partial : forall d split es, good_doc d -> NoDup es ->
  (forall e, In e es -> is_entity d e /\ good_antes d e (split e)) ->
  exists ss st, store_all_splits d split es = Ok ss /\ (forall e, ss_split ss e = split e) /\
    load_refs d (fun _ => []) (ss_misc ss) = Ok st /\
    (forall e, In e es -> bl_split st e = split e) /\ (forall e, ~ In e es -> bl_split st e = []).
Proof.
  intros d split es G ES GS.
  destruct (refs_round d (fun _ => []) split es G) as (bs & ss & st & A & B & _ & C & D & _ & _ & E & F); auto.
  - intros (m & _ & X). exfalso; apply X; reflexivity.
  - intros m _. split; split; try (intros X; exfalso; apply X; reflexivity); [intros l1 a b l2 X; destruct l1; discriminate|intros trg rel []].
  - exists ss, st. split; [exact B|]. split; [exact C|]. split; [|auto].
    assert (Z : forall l, store_bridges d (mkBs (fun _ => []) (fun _ => [])) l = Ok (mkBs (fun _ => []) (fun _ => []))).
    { induction l as [|x l IH]; [reflexivity|]. cbn. exact IH. }
    unfold store_all_bridges in A. rewrite Z in A. inversion A; subst. exact D.
Qed.
Print Assumptions C73_round_trip_partial.
Example C73_case : NoDup [e1; e3] /\ forall e, In e [e1; e3] -> is_entity bdoc1 e /\ good_antes bdoc1 e (split1' e).
Proof. exact split1_good. Qed.
(** C73. A single antecedent is not stored. *)
Theorem C73_single_refuted : ~ (forall d split es, good_doc d -> NoDup es ->
  (forall e, In e es -> is_entity d e /\ forall a, In a (split e) -> is_entity d a /\ a <> e) ->
  exists ss st, store_all_splits d split es = Ok ss /\ load_refs d (fun _ => []) (ss_misc ss) = Ok st /\
    forall e, In e es -> bl_split st e = split e).
Proof.
  intros H. set (split := fun e => if str_eqb e e3 then [e1] else [] : list str).
  destruct (H bdoc1 split [e3] (proj1 bdoc1_good)) as (ss & st & A & B & C).
  - repeat constructor; intros [].
  - intros e [<-|[]]. split; [apply mentioned_spec; reflexivity|]. intros a [<-|[]]. split; [apply mentioned_spec; reflexivity|discriminate].
  - specialize (C e3 (or_introl eq_refl)).
    assert (X : match store_all_splits bdoc1 split [e3] with
      | Ok ss => match load_refs bdoc1 (fun _ => []) (ss_misc ss) with Ok st => bl_split st e3 = [] | _ => False end | _ => False end) by (vm_compute; reflexivity).
    rewrite A, B in X. rewrite X in C. discriminate.
Qed.
Print Assumptions C73_single_refuted.
(** C73. Antecedents without mentions are meant to be left out, but of two neighbours the second stays in the text, and the
    document cannot be loaded. *)
Theorem C73_dead_refuted : ~ (forall d split es, good_doc d -> NoDup es ->
  (forall e, In e es -> is_entity d e /\ 2 <= length (filter (mentioned d) (split e)) /\ ~ In e (split e)) ->
  exists ss st, store_all_splits d split es = Ok ss /\ load_refs d (fun _ => []) (ss_misc ss) = Ok st /\
    forall e, In e es -> bl_split st e = filter (mentioned d) (split e)).
Proof.
  intros H. set (split := fun e => if str_eqb e e3 then [PyStr.s "x"; PyStr.s "y"; e1; e2] else [] : list str).
  destruct (H bdoc1 split [e3] (proj1 bdoc1_good)) as (ss & st & A & B & C).
  - repeat constructor; intros [].
  - intros e [<-|[]]. split; [apply mentioned_spec; reflexivity|]. split; [vm_compute; lia|]. cbn. intuition discriminate.
  - assert (X : match store_all_splits bdoc1 split [e3] with
      | Ok ss => match load_refs bdoc1 (fun _ => []) (ss_misc ss) with Ok _ => False | _ => True end | _ => False end) by (vm_compute; exact I).
    rewrite A, B in X. exact X.
Qed.
Print Assumptions C73_dead_refuted.

(** C74. Programs that always use mention.bridging directly see a plain list for each mention: reading changes nothing,
    append, insert, assignment and deletion do what they do to a list, a link to the mention's own entity is refused, errors
    change nothing, and other mentions are not touched. *)
Theorem C74_list_partial : forall ent ops b, own_lists b ->
  own_lists (run ent b ops) /\ forall m, br_links (run ent b ops) m = list_run ent (br_links b) ops m.
Proof. exact run_list. Qed.
Print Assumptions C74_list_partial.
(** C74. Each single statement either succeeds or raises as the list would. *)
Theorem C74_step_partial : forall ent b o, own_lists b ->
  own_lists (fst (exec ent b o)) /\
  match list_op ent (br_links b (op_of o)) o with
  | Some l => snd (exec ent b o) = Ok tt /\ forall x, br_links (fst (exec ent b o)) x = upd (br_links b) (op_of o) l x
  | None => (exists e, snd (exec ent b o) = Raise e) /\ forall x, br_links (fst (exec ent b o)) x = br_links b x
  end.
Proof. exact exec_list. Qed.
Print Assumptions C74_step_partial.
(** C74. A query bl(regex) returns the matching links in their order and does not change the list it is asked about... *)
Theorem C74_query_partial : forall ent matches b o, own_lists b -> o < br_next b ->
  (forall l, In l (br_data b o) -> fst l <> ent (br_src b o)) ->
  exists b' r, br_call ent matches b o = (b', Ok r) /\ br_data b' r = filter (fun l => matches (snd l)) (br_data b o) /\
    br_data b' o = br_data b o /\ br_links b' (br_src b o) = filter (fun l => matches (snd l)) (br_data b o) /\
    forall m, m <> br_src b o -> br_links b' m = br_links b m.
Proof. exact call_result. Qed.
Print Assumptions C74_query_partial.
(** C74. mention.bridging.targets: the targets of the links, in their order. *)
Theorem C74_targets : forall b o, length (br_targets b o) = length (br_data b o) /\
  forall i trg rel, nth_error (br_data b o) i = Some (trg, rel) -> nth_error (br_targets b o) i = Some trg.
Proof.
  intros b o. unfold br_targets. split; [apply map_length|]. intros i trg rel E. now rewrite (map_nth_error fst i _ E).
Qed.
Print Assumptions C74_targets.
Definition ent1' (m : nat) : str := match m with 0 => e1 | _ => e2 end.
Definition ops1 : list bop := [Read 0; Append 0 (e2, PyStr.s "part"); Append 0 (e3, PyStr.s "subset"); Append 1 (e1, []);
  Append 0 (e1, []); Insert 0 0 (e3, PyStr.s "part"); SetItem 0 (-1) (e2, PyStr.s "x"); DelItem 1 0; DelItem 1 0].
Definition br1 : bridging := run ent1' no_lists ops1.
Example C74_case : own_lists br1 /\ br_links br1 0 = [(e3, PyStr.s "part"); (e2, PyStr.s "part"); (e2, PyStr.s "x")] /\ br_links br1 1 = [] /\
  br_targets br1 (match br_of br1 0 with Some o => o | None => 0 end) = [e3; e2; e2].
Proof. split; [apply run_list, own_lists_empty|]. vm_compute. auto. Qed.
(** C74. ... but the mention loses the links that do not match: a query changes the document. *)
Theorem C74_query_refuted : ~ (forall ent matches b m o b1 b2 r, own_lists b -> br_get ent b m = (b1, Ok o) ->
  br_call ent matches b1 o = (b2, Ok r) -> br_links b2 m = br_links b m).
Proof.
  intros H. destruct (br_call ent1' (fun r => str_eqb r (PyStr.s "part")) br1 (match br_of br1 0 with Some o => o | None => 0 end)) as [b2 r] eqn:E.
  assert (R : exists x, r = Ok x) by (apply (f_equal snd) in E; cbn in E; subst r; vm_compute; eauto).
  destruct R as (x & ->).
  assert (Z : length (br_links b2 0) = length (br_links br1 0)).
  { f_equal. eapply (H ent1' _ br1 0 _ br1 b2 x); [apply run_list, own_lists_empty| |exact E]. vm_compute. reflexivity. }
  apply (f_equal fst) in E. cbn [fst] in E. subst b2. vm_compute in Z. discriminate.
Qed.
Print Assumptions C74_query_refuted.
(** C74. A list fetched while it was empty is detached by the next access to mention.bridging: what is appended to it is lost. *)
Theorem C74_held_refuted : ~ (forall ent b m o b1 o' b2 v b3, own_lists b -> br_get ent b m = (b1, Ok o) ->
  br_get ent b1 m = (b2, Ok o') -> br_append ent b2 o v = (b3, Ok tt) -> br_links b3 m = br_links b m ++ [v]).
Proof.
  intros H.
  assert (X : br_links (fst (br_append ent1' (fst (br_get ent1' (fst (br_get ent1' no_lists 0)) 0)) 0 (e2, []))) 0 = br_links no_lists 0 ++ [(e2, [])]).
  { eapply H; [apply own_lists_empty| | |].
    - rewrite (surjective_pairing (br_get ent1' no_lists 0)) at 1. f_equal. vm_compute. reflexivity.
    - rewrite (surjective_pairing (br_get ent1' (fst (br_get ent1' no_lists 0)) 0)) at 1. f_equal. vm_compute. reflexivity.
    - rewrite (surjective_pairing (br_append _ _ _ _)) at 1. f_equal. }
  vm_compute in X. discriminate.
Qed.
Print Assumptions C74_held_refuted.
