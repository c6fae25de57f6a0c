(** Proofs about bridging links and split antecedents: whatever the file says, nothing that is loaded refers to itself. *)
From Coq Require Import String List NArith ZArith Bool Lia.
From Verif Require Import PyStr PyStrFacts PyList PyListFacts PyExn TreeModel BridgeModel BridgeSpec.
Import ListNotations.
Local Open Scope list_scope.

Section Load.
Variable (d : bdoc).
Definition sound (st : bload) : Prop :=
  (forall e ms m, ents_get (bl_ents st) e = Some ms -> In m ms -> In m (bd_ms d) /\ bd_eid d m = e) /\
  (forall m l, In l (bl_links st m) -> In m (bd_ms d) /\ fst l <> bd_eid d m) /\
  (forall e a, In a (bl_split st e) -> a <> e).

Lemma ents_get_put l : forall k v k', ents_get (ents_put l k v) k' = if str_eqb k' k then Some v else ents_get l k'.
Proof.
  induction l as [|[a b] l IH]; intros k v k'; cbn [ents_put ents_get]; [reflexivity|].
  destruct (str_eqb k a) eqn:E1; cbn [ents_get].
  - apply str_eqb_eq in E1 as <-. now destruct (str_eqb k' k).
  - rewrite IH. destruct (str_eqb k' a) eqn:E2; [|reflexivity]. apply str_eqb_eq in E2 as ->. destruct (str_eqb a k) eqn:E3; auto.
    apply str_eqb_eq in E3 as ->. rewrite str_eqb_refl in E1. discriminate.
Qed.
Lemma add_mention_sound st m : In m (bd_ms d) -> sound st -> sound (add_mention d st m).
Proof.
  intros Hm (A & B & C). split; [|split; auto]. intros e ms x. cbn [add_mention bl_ents]. rewrite ents_get_put.
  destruct (str_eqb e (bd_eid d m)) eqn:E; [|apply A]. apply str_eqb_eq in E as ->. intros X J. injection X as <-.
  apply in_app_iff in J as [J|[<-|[]]]; auto. destruct (ents_get (bl_ents st) (bd_eid d m)) as [l|] eqn:G; [now apply (A _ l)|destruct J].
Qed.
Lemma refer_sound st e st' : sound st -> refer st e = Ok st' -> sound st'.
Proof.
  intros (A & B & C). unfold refer. destruct (ents_get (bl_ents st) e) eqn:G; [intros X; injection X as <-; exact (conj A (conj B C))|].
  destruct (bad_eid e); [discriminate|]. intros X. injection X as <-. split; [|split; auto]. intros e' ms x. cbn [bl_ents]. rewrite ents_get_put.
  destruct (str_eqb e' e); [|apply A]. intros Y J. injection Y as <-. destruct J.
Qed.
Lemma refer_links st e st' : refer st e = Ok st' -> bl_links st' = bl_links st /\ bl_split st' = bl_split st.
Proof.
  unfold refer. destruct (ents_get (bl_ents st) e); [intros X; injection X as <-; auto|]. destruct (bad_eid e); [discriminate|]. intros X. injection X as <-. auto.
Qed.
Lemma last_opt_In {A} (l : list A) z : last_opt l = Some z -> In z l.
Proof.
  induction l as [|x l IH]; [discriminate|]. destruct l as [|y l]; [intros X; injection X as <-; now left|]. intros X. right. apply IH. exact X.
Qed.
Lemma read_link_sound st x st' : sound st -> read_link st x = Ok st' -> sound st'.
Proof.
  intros S. assert (S0 := S). destruct S0 as (A & B & C). unfold read_link. destruct (split LESS x) as [|trg [|src0 [|? ?]]]; try discriminate.
  destruct (match split1 COLON src0 with Some p => p | None => (src0, []) end) as [src rel].
  destruct (str_eqb trg src) eqn:E; [discriminate|]. destruct (ents_get (bl_ents st) src) as [ms|] eqn:G; [|discriminate]. destruct (last_opt ms) as [m|] eqn:L; [|discriminate].
  destruct (refer st trg) as [st1|e|] eqn:R; try discriminate. cbn [rbind]. intros X. injection X as <-.
  apply last_opt_In in L. destruct (A src ms m G L) as [A1 A2]. destruct (refer_links st trg st1 R) as [R1 R2]. destruct (refer_sound st trg st1 S R) as (A' & B' & C').
  split; [exact A'|]. split; [|exact C']. intros m' l. cbn [bl_links]. unfold upd. destruct (Nat.eqb_spec m' m) as [->|]; [|apply B'].
  intros J. apply in_app_iff in J as [J|[<-|[]]]; [now apply B'|]. cbn [fst]. split; auto. rewrite A2. intros ->. rewrite str_eqb_refl in E. discriminate.
Qed.
Lemma read_ante_sound st x st' : sound st -> read_ante st x = Ok st' -> sound st'.
Proof.
  intros S. unfold read_ante. destruct (split LESS x) as [|ante [|this [|? ?]]]; try discriminate.
  destruct (str_eqb ante this) eqn:E; [discriminate|]. destruct (refer st ante) as [st1|e|] eqn:R; try discriminate. cbn [rbind].
  destruct (ents_get (bl_ents st1) this); [|discriminate]. intros X. injection X as <-. destruct (refer_sound st ante st1 S R) as (A' & B' & C').
  split; [exact A'|]. split; [exact B'|]. intros e a. cbn [bl_split]. unfold supd. destruct (str_eqb e this) eqn:E2; [|apply C'].
  apply str_eqb_eq in E2 as ->. intros J. apply in_app_iff in J as [J|[<-|[]]]; [now apply C'|]. intros ->. rewrite str_eqb_refl in E. discriminate.
Qed.
Lemma read_items_sound f : (forall st x st', sound st -> f st x = Ok st' -> sound st') -> forall l st st', sound st -> read_items f st l = Ok st' -> sound st'.
Proof.
  intros F. induction l as [|x l IH]; intros st st' S; cbn [read_items]; [intros X; injection X as <-; auto|].
  destruct (f st x) as [st1|e|] eqn:E; try discriminate. cbn [rbind]. apply IH. now apply (F st x).
Qed.
Lemma load_node_sound b sa st n st' : sound st -> load_node d b sa st n = Ok st' -> sound st'.
Proof.
  intros S. unfold load_node.
  assert (S1 : forall l st, incl l (bd_ms d) -> sound st -> sound (fold_left (add_mention d) l st)).
  { induction l as [|m l IH]; intros s0 Hl S0; cbn [fold_left]; auto. apply IH; [intros z Hz; apply Hl; now right|]. apply add_mention_sound; auto. apply Hl. now left. }
  specialize (S1 (filter (fun m => Nat.eqb (bd_first d m) n) (bd_ms d)) st (fun z Hz => proj1 (proj1 (filter_In _ _ _) Hz)) S).
  set (st1 := fold_left _ _ st) in *. clearbody st1.
  destruct (match b n with [] => Ok st1 | t => read_items read_link st1 (split COMMA t) end) as [st2|e|] eqn:E2; try discriminate. cbn [rbind].
  assert (S2 : sound st2). { destruct (b n) as [|c t]; [injection E2 as <-; auto|]. eapply read_items_sound; [|exact S1|exact E2]. intros; eapply read_link_sound; eauto. }
  destruct (sa n) as [|c t]; [intros X; injection X as <-; auto|]. intros E3. eapply read_items_sound; [|exact S2|exact E3]. intros; eapply read_ante_sound; eauto.
Qed.
Lemma load_nodes_sound b sa : forall ns st st', sound st -> load_nodes d b sa st ns = Ok st' -> sound st'.
Proof.
  induction ns as [|n ns IH]; intros st st' S; cbn [load_nodes]; [intros X; injection X as <-; auto|].
  destruct (load_node d b sa st n) as [st1|e|] eqn:E; try discriminate. cbn [rbind]. apply IH. eapply load_node_sound; eauto.
Qed.
Lemma load_sound b sa st : load_refs d b sa = Ok st -> sound st.
Proof.
  unfold load_refs. destruct (load_nodes d b sa _ (bd_nodes d)) as [st1|e|] eqn:E; try discriminate. cbn [rbind].
  destruct (forallb _ _); [|discriminate]. intros X. injection X as <-. eapply load_nodes_sound; [|exact E]. split; [intros e ms m X; discriminate|]. split; [intros m l []|intros e a []].
Qed.
End Load.
