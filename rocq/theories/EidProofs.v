(** Proofs about corefud.IndexClusters and corefud.RemoveNoCorefEntities. *)
From Coq Require Import String List NArith ZArith Bool Lia.
From Verif Require Import PyStr PyStrFacts PyList PyListFacts PyExn TreeModel TreeSpec BundleModel CorefModel CorefIOModel CorefSpec CorefLinks CorefIOSpec CorefIOThms BundleProofs NormSpec NormProofs EidModel EidSpec.
Import ListNotations.
Local Open Scope Z_scope.

Lemma put_key_new l k e : ~ In k (map fst l) -> put_key l k e = l ++ [(k, e)].
Proof.
  induction l as [|[k' e'] l IH]; intros N; auto. cbn [put_key]. destruct (str_eqb k' k) eqn:Q.
  - apply str_eqb_eq in Q. elim N. simpl; auto.
  - rewrite IH; auto. intros I. apply N. simpl; auto.
Qed.
Lemma forb_iff x : forbidden_in_id x = true <-> has_forbidden x.
Proof.
  unfold forbidden_in_id, has_forbidden. rewrite existsb_exists. split.
  - intros (a & I & H). exists a. split; auto. apply has_char_In; auto.
  - intros (a & I & H). exists a. split; auto. apply has_char_In; auto.
Qed.
Lemma clean_id p n : ~ has_forbidden p -> 0 <= n -> forbidden_in_id (p ++ str_of_Z n) = false.
Proof.
  intros P N. destruct (forbidden_in_id _) eqn:E; auto. apply forb_iff in E as (a & I & F). apply in_app_or in I as [I|I].
  - elim P. exists a. auto.
  - exfalso. destruct (str_of_Z_nonneg n N) as [D _]. rewrite forallb_forall in D. specialize (D a I).
    cbn in F. decompose [or] F; subst; try discriminate D; contradiction.
Qed.

Section One.
Variable p : str.
Lemma loop_ok : forall l c new n, ~ has_forbidden p -> 0 <= n -> NoDup l -> (forall k, In k (map fst new) -> ~ In k (numbered_ids p n (length l))) ->
  exists c', index_loop p n c new l = (c', Ok (new ++ combine (numbered_ids p n (length l)) l)) /\ same_but_ids c c' /\ eids c' = eids c /\
    (forall x e, In (x, e) (combine (numbered_ids p n (length l)) l) -> e_eid c' e = x) /\ (forall e, ~ In e l -> e_eid c' e = e_eid c e).
Proof.
  induction l as [|e l IH]; intros c new n P N ND Fr; cbn [index_loop].
  - exists c. cbn. rewrite app_nil_r. split; [reflexivity|]. split; [repeat split|]. split; [auto|]. split; [contradiction|auto].
  - unfold set_eid. rewrite clean_id by auto. cbn [bind]. inversion ND as [|? ? Ne NDl]; subst. cbn [length numbered_ids] in Fr.
    rewrite put_key_new by (intros I; apply (Fr _ I); simpl; auto).
    destruct (IH (put_eid c e (p ++ str_of_Z n)) (new ++ [(p ++ str_of_Z n, e)]) (n + 1)) as (c' & E & S & Q & A & B); auto; [lia| |].
    { intros k I J. rewrite map_app in I. apply in_app_or in I as [I|[<-|[]]]; [apply (Fr _ I); simpl; auto|].
      pose proof (ids_distinct p (S (length l)) n N) as D. cbn [numbered_ids] in D. inversion D; contradiction. }
    exists c'. cbn [length numbered_ids combine]. split; [etransitivity; [exact E|]; rewrite <- app_assoc; reflexivity|]. split; [exact S|]. split; [exact Q|]. split.
    + intros x e0 [I|I]; [|apply A; auto]. injection I as <- <-. rewrite B by auto. cbn. unfold upd. rewrite Nat.eqb_refl. auto.
    + intros e0 I. rewrite B by (intros J; apply I; simpl; auto). cbn. unfold upd. destruct (Nat.eqb_spec e0 e); auto. elim I. simpl; auto.
Qed.
Lemma comb_fst {A B} : forall (a : list A) (b : list B), length a = length b -> map fst (combine a b) = a /\ map snd (combine a b) = b.
Proof. induction a as [|x a IH]; intros [|y b] L; try discriminate; auto. injection L as L. destruct (IH b L). simpl. split; congruence. Qed.
Lemma ids_length : forall k n, length (numbered_ids p n k) = k.
Proof. induction k; intros; simpl; auto. Qed.

Lemma index_ok start c : ~ has_forbidden p -> 0 <= start -> entities_ok c ->
  exists c', index_clusters p start c = (c', Ok (start + Z.of_nat (length (entities c)))) /\ entities c' = entities c /\
    map fst (eids c') = numbered_ids p start (length (entities c)) /\ ids_unique c' /\ same_but_ids c c' /\
    (forall e, ~ In e (entities c) -> e_eid c' e = e_eid c e).
Proof.
  intros P N [ND Lt]. unfold index_clusters. fold (entities c). destruct (entities c) as [|e l] eqn:E.
  - exists c. cbn. rewrite Z.add_0_r. assert (Q : eids c = []) by (unfold entities in E; destruct (eids c); [auto|discriminate]). split; [auto|]. split; [auto|]. split; [rewrite Q; auto|].
    split; [split; [rewrite Q; constructor|rewrite Q; contradiction]|]. split; [repeat split|auto].
  - rewrite <- E in *. destruct (loop_ok (entities c) c [] start P N ND) as (c' & H & S & Q & A & B); [simpl; tauto|].
    rewrite H. cbn [bind app]. eexists. split; [reflexivity|].
    destruct (comb_fst (numbered_ids p start (length (entities c))) (entities c)) as [F1 F2]; [apply ids_length|].
    split; [exact F2|]. split; [exact F1|]. split; [|split; [exact S|exact B]]. split; [cbn [eids put_eids]; rewrite F1; apply ids_distinct; auto|].
    intros x e0 I. cbn [eids put_eids] in I. split; [apply A; auto|]. destruct S as (_&_&_&_&Sn&_). cbn [e_next put_eids]. rewrite Sn. apply Lt. apply in_combine_r in I. auto.
Qed.
Lemma index_error start c : has_forbidden p \/ start < 0 -> entities c <> [] -> index_clusters p start c = (c, Raise ValueError).
Proof.
  intros H NE. unfold index_clusters. fold (entities c). destruct (entities c) as [|e l]; [congruence|]. cbn [index_loop]. unfold set_eid.
  assert (F : forbidden_in_id (p ++ str_of_Z start) = true).
  { apply forb_iff. destruct H as [(a & I & J)|H].
    - exists a. split; auto. apply in_or_app; auto.
    - exists 45%N. split; [|cbn; auto]. apply in_or_app. right. unfold str_of_Z. destruct start; try lia. simpl; auto. }
  rewrite F. reflexivity.
Qed.
Lemma index_run : forall docs start, ~ has_forbidden p -> 0 <= start -> (forall c, In c docs -> entities_ok c) ->
  exists docs', index_docs p start docs = (docs', Ok tt) /\ map entities docs' = map entities docs /\
    flat_map (fun c => map fst (eids c)) docs' = numbered_ids p start (total_entities docs) /\
    NoDup (flat_map (fun c => map fst (eids c)) docs') /\ (forall c', In c' docs' -> ids_unique c').
Proof.
  assert (H : forall docs start, ~ has_forbidden p -> 0 <= start -> (forall c, In c docs -> entities_ok c) ->
    exists docs', index_docs p start docs = (docs', Ok tt) /\ map entities docs' = map entities docs /\
      flat_map (fun c => map fst (eids c)) docs' = numbered_ids p start (total_entities docs) /\ (forall c', In c' docs' -> ids_unique c')).
  { induction docs as [|c docs IH]; intros start P N O; cbn [index_docs].
    - exists []. cbn. split; [auto|]. split; [auto|]. split; [auto|]. contradiction.
    - destruct (index_ok start c P N) as (c' & E & A & B & U & _); [apply O; simpl; auto|]. rewrite E.
      destruct (IH (start + Z.of_nat (length (entities c)))) as (docs' & E2 & A2 & B2 & U2); auto; [lia|intros; apply O; simpl; auto|].
      rewrite E2. exists (c' :: docs'). split; [reflexivity|]. split; [cbn [map]; congruence|]. split.
      + cbn [flat_map total_entities fold_right]. rewrite B, B2. symmetry. apply ids_app.
      + intros c0 [<-|I]; auto. }
  intros docs start P N O. destruct (H docs start P N O) as (docs' & E & A & B & U). exists docs'. split; [auto|]. split; [auto|]. split; [auto|]. split; [|auto].
  rewrite B. apply ids_distinct; auto.
Qed.
End One.

Lemma linked_ids c c' : same_but_ids c c' -> linked c -> linked c'.
Proof.
  intros (D&H&T&M&E&W&Hd&En&Ty&Em&Nm) [L1 L2 L3 L4 L5 L6]. constructor; unfold listed in *; rewrite ?H, ?M, ?E, ?W, ?Hd, ?En, ?Em, ?Nm; auto.
Qed.

Lemma nocoref_iff x : is_nocoref x = true <-> nocoref x.
Proof. unfold is_nocoref, nocoref. apply starts_with_spec. Qed.
Lemma rm_loop (ec : nat -> str) : forall l new, NoDup (map fst (new ++ l)) -> (forall x e, In (x, e) l -> ec e = x) ->
  fold_left (fun new e => if is_nocoref (ec e) then new else put_key new (ec e) e) (map snd l) new = new ++ filter (fun xe => negb (is_nocoref (fst xe))) l.
Proof.
  induction l as [|[x e] l IH]; intros new ND A; cbn [map fold_left filter fst snd]; [rewrite app_nil_r; auto|].
  rewrite (A x e) by (simpl; auto). rewrite map_app in ND. cbn [map fst] in ND. destruct (is_nocoref x) eqn:Q; cbn [negb].
  - apply IH; [|intros; apply A; simpl; auto]. rewrite map_app. apply NoDup_remove_1 in ND. auto.
  - rewrite put_key_new by (apply NoDup_remove_2 in ND; intros I; apply ND, in_or_app; auto).
    rewrite IH; [rewrite <- app_assoc; reflexivity| |intros; apply A; simpl; auto]. rewrite !map_app. cbn [map fst]. rewrite <- app_assoc. exact ND.
Qed.
Lemma filter_fst_nodup {A B} (f : A * B -> bool) l : NoDup (map fst l) -> NoDup (map fst (filter f l)).
Proof.
  induction l as [|x l IH]; intros ND; auto. inversion ND as [|? ? N ND']; subst. cbn [filter]. destruct (f x); auto. cbn [map]. constructor; auto.
  intros I. apply N. apply in_map_iff in I as (y & <- & I). apply filter_In in I as [I _]. apply in_map; auto.
Qed.
Lemma remove_ok c : ids_unique c -> let c' := remove_nocoref c in
  (forall x e, In (x, e) (eids c') <-> In (x, e) (eids c) /\ ~ nocoref x) /\ (exists f, eids c' = filter f (eids c)) /\
  ids_unique c' /\ same_but_ids c c' /\ e_eid c' = e_eid c.
Proof.
  intros [ND A]. cbv zeta. assert (E : eids (remove_nocoref c) = filter (fun xe => negb (is_nocoref (fst xe))) (eids c)).
  { unfold remove_nocoref. destruct (map snd (eids c)) as [|e l] eqn:Q.
    - destruct (eids c); [reflexivity|discriminate].
    - rewrite <- Q. cbn [eids put_eids]. rewrite rm_loop; auto. intros x e0 I. apply A; auto. }
  assert (S : same_but_ids c (remove_nocoref c) /\ e_eid (remove_nocoref c) = e_eid c).
  { unfold remove_nocoref. destruct (map snd (eids c)); split; repeat split. }
  destruct S as [S1 S2]. split; [|split; [eexists; exact E|split; [|auto]]].
  - intros x e. rewrite E, filter_In. cbn [fst]. rewrite <- nocoref_iff. destruct (is_nocoref x); simpl; intuition congruence.
  - split; [rewrite E; apply filter_fst_nodup; auto|]. intros x e I. rewrite E in I. apply filter_In in I as [I _]. rewrite S2. destruct S1 as (_&_&_&_&->&_). auto.
Qed.

(** ---- the entities of a document after any calls ---- *)
Definition fr (c c' : coref) : Prop := eids c' = eids c /\ e_next c' = e_next c.
Lemma fr_refl c : fr c c. Proof. split; auto. Qed.
Lemma fr_trans a b c : fr a b -> fr b c -> fr a c.
Proof. intros [A B] [D E]. split; congruence. Qed.
Lemma fr_bind {A B} c (m : coref * res A) (k : coref -> A -> coref * res B) :
  fr c (fst m) -> (forall c1 a, fr c1 (fst (k c1 a))) -> fr c (fst (bind m k)).
Proof. intros H K. destruct m as [c1 [a|e|]]; cbn [bind fst] in *; auto. eapply fr_trans; eauto. Qed.
Lemma fr_touch_all : forall l c, fr c (touch_all c l).
Proof. induction l as [|m l IH]; intros c; cbn [touch_all]; [apply fr_refl|]. eapply fr_trans; [|apply IH]. split; reflexivity. Qed.
Lemma fr_sort c l : fr c (fst (sort_mentions c l)).
Proof. unfold sort_mentions. cbn [fst]. destruct l as [|a [|b l]]; [apply fr_refl..|apply fr_touch_all]. Qed.
Lemma fr_add1 c m w : fr c (fst (add_backlink c m w)).
Proof.
  unfold add_backlink. destruct (last_opt _); [|split; reflexivity]. cbv zeta. destruct (mention_gt _ _ _) as [[]|?|]; [split; reflexivity| |split; reflexivity..].
  apply fr_bind; [|intros; split; reflexivity]. eapply fr_trans; [|apply fr_sort]. split; reflexivity.
Qed.
Lemma fr_add : forall l c m, fr c (fst (add_backlinks c m l)).
Proof. induction l as [|w l IH]; intros c m; cbn [add_backlinks]; [apply fr_refl|]. apply fr_bind; [apply fr_add1|intros; apply IH]. Qed.
Lemma fr_drop : forall l c m, fr c (fst (drop_backlinks c m l)).
Proof.
  induction l as [|w l IH]; intros c m; cbn [drop_backlinks]; [apply fr_refl|]. destruct (list_remove _ _); [|apply fr_refl].
  eapply fr_trans; [|apply IH]. split; reflexivity.
Qed.
Lemma fr_new c e h : fr c (fst (new_mention c e h)).
Proof. unfold new_mention. cbv zeta. apply fr_bind; [|intros; apply fr_refl]. eapply fr_trans; [|apply fr_add]. split; reflexivity. Qed.
Lemma fr_words c m ws : fr c (fst (set_words c m ws)).
Proof.
  unfold set_words. destruct (_ && _)%bool; [apply fr_refl|]. cbv zeta. apply fr_bind; [apply fr_drop|]. intros. eapply fr_trans; [|apply fr_add]. split; reflexivity.
Qed.
Lemma fr_span c m x : fr c (fst (set_span c m x)).
Proof. unfold set_span. apply fr_bind; [apply fr_refl|intros; apply fr_words]. Qed.
Lemma fr_put c e : fr c (fst (bind (sort_mentions c (e_ments c e)) (fun c l => (put_ements c e l, Ok tt)))).
Proof. apply fr_bind; [apply fr_sort|intros; split; reflexivity]. Qed.
Lemma fr_create c e hd ws sp : fr c (fst (create_mention c e hd ws sp)).
Proof.
  unfold create_mention. destruct sp as [sp|], ws as [|w ws], hd as [h|]; try apply fr_refl; try (destruct (mem h (w :: ws)); [|apply fr_refl]);
    (apply fr_bind; [apply fr_new|intros c1 m]);
    (apply fr_bind; [first [apply fr_words|apply fr_span|apply fr_refl]|intros]); (apply fr_bind; [apply fr_sort|intros; split; reflexivity]).
Qed.
Lemma fr_unit {A} c (m : coref * res A) : fr c (fst m) -> fr c (fst (unit_of m)).
Proof. destruct m as [? []]; auto. Qed.
Lemma fr_step c o : (forall x t, o <> CoCreateEntity x t) -> fr c (fst (coref_step c o)).
Proof.
  intros N. destruct o; cbn [coref_step].
  - elim (N eid etype); auto.
  - unfold set_eid. destruct (forbidden_in_id x); split; reflexivity.
  - apply fr_unit, fr_create.
  - apply fr_words.
  - apply fr_span.
  - split; reflexivity.
  - unfold set_head. destruct (_ && _)%bool; split; reflexivity.
  - unfold set_entity. destruct (list_remove _ _); [|apply fr_refl]. cbv zeta. apply fr_bind; [split; reflexivity|intros; split; reflexivity].
  - unfold mention_remove. apply fr_bind; [apply fr_drop|]. intros. destruct (list_remove _ _); split; reflexivity.
  - apply fr_put.
  - destruct (tree_step (co_h c) o). split; reflexivity.
Qed.
Lemma step_entities c o : entities_ok c -> entities_ok (fst (coref_step c o)).
Proof.
  intros [ND Lt]. assert (D : (forall x t, o <> CoCreateEntity x t) \/ exists x t, o = CoCreateEntity x t) by (destruct o; try (left; intros; discriminate); eauto).
  destruct D as [N|(x & t & ->)].
  - destruct (fr_step c o N) as [A B]. unfold entities_ok, entities. rewrite A, B. split; auto.
  - cbn [coref_step]. unfold create_entity.
    match goal with |- context [bind (c, ?r) _] => destruct r as [y|?|] end; cbn [bind unit_of fst]; [|split; auto..].
    destruct (forbidden_in_id y); cbn [unit_of fst]; [split; auto|]. unfold entities_ok, entities. cbn [eids e_next]. rewrite map_app. cbn [map snd]. split.
    + apply BundleProofs.NoDup_snoc; auto. intros I. specialize (Lt _ I). lia.
    + intros e I. apply in_app_or in I as [I|[<-|[]]]; [|lia]. specialize (Lt e I). lia.
Qed.
Lemma entities_reached c ops : no_coref c -> entities_ok (fold_left (fun c o => fst (coref_step c o)) ops c).
Proof.
  intros (_ & _ & E). assert (H : entities_ok c) by (split; unfold entities; rewrite E; [constructor|contradiction]). clear E.
  revert c H. induction ops as [|o ops IH]; intros c H; auto. cbn [fold_left]. apply IH, step_entities, H.
Qed.

(** ---- saving ---- *)
Lemma sub_storable x d z roots l : storable x d z roots -> l <> [] -> NoDup (map fst l) -> (forall p, In p l -> In p (eids (cs_c x))) ->
  storable (with_c x (put_eids (cs_c x) l)) d z roots.
Proof.
  intros [T R L U I Ty O So Us P W D C Di] NE ND Sub.
  assert (M : forall m, doc_mention (put_eids (cs_c x) l) m -> doc_mention (cs_c x) m) by (intros m (k & e & H & J); exists k, e; split; auto; apply Sub, H).
  apply Build_storable; cbn [cs_c cs_other with_c].
  - exact T.
  - exact R.
  - destruct L as [L1 L2 L3 L4 L5 L6]. constructor; auto.
  - destruct U as [_ U]. split; [exact ND|]. intros k e H. apply (U k e), Sub, H.
  - intros k e H. apply (I k e), Sub, H.
  - intros k e H. apply (Ty k e), Sub, H.
  - intros m H. apply O, M, H.
  - exact NE.
  - intros k e H. apply (Us k e), Sub, H.
  - intros m w H. apply (P m w), M, H.
  - intros m H. apply (W m), M, H.
  - intros m n H J. apply (D m n); [apply M, H|apply M, J].
  - intros m n p q rs rs' H J. apply (C m n p q rs rs'); [apply M, H|apply M, J].
  - intros m n H J. apply (Di m n); [apply M, H|apply M, J].
Qed.
Lemma remove_put c : remove_nocoref c = put_eids c (eids (remove_nocoref c)).
Proof. unfold remove_nocoref. destruct (map snd (eids c)); [destruct c; reflexivity|reflexivity]. Qed.
Lemma remove_saved lower x d z roots : storable x d z roots -> some_coref (cs_c x) ->
  let x' := with_c x (remove_nocoref (cs_c x)) in
  exists x1 y, store_coref lower x' roots = (x1, Ok tt) /\ load_coref (reread x1) roots = (y, Ok tt) /\ same_coref x' y d /\
    (forall k, In k (map fst (eids (cs_c y))) <-> In k (map fst (eids (cs_c x))) /\ ~ nocoref k).
Proof.
  intros St (k0 & e0 & I0 & N0) x'. pose proof (st_unique _ _ _ _ St) as U.
  destruct (remove_ok (cs_c x) U) as (A & (f & F) & U' & _).
  assert (St' : storable x' d z roots).
  { unfold x'. rewrite remove_put. apply sub_storable; auto.
    - intros E. assert (In (k0, e0) (eids (remove_nocoref (cs_c x)))) as H by (apply A; auto). rewrite E in H. contradiction.
    - apply U'.
    - intros p H. rewrite F in H. apply filter_In in H. tauto. }
  destruct (round_trip lower x' d z roots St') as (x1 & y & S1 & S2 & S3). exists x1, y. split; [auto|]. split; [auto|]. split; [auto|].
  intros k. pose proof (sc_ids _ _ _ S3) as P. assert (Q : In k (map fst (eids (cs_c y))) <-> In k (map fst (eids (cs_c x')))).
  { split; apply Permutation.Permutation_in; [|apply Permutation.Permutation_sym]; exact P. }
  rewrite Q. cbn [x' cs_c with_c]. rewrite !in_map_iff. split.
  - intros ([k' e] & <- & H). apply A in H as [H1 H2]. cbn [fst]. split; auto. exists (k', e). auto.
  - intros [([k' e] & <- & H1) H2]. exists (k', e). split; auto. apply A. auto.
Qed.
