(** FEATS after ud.RemoveMwt. *)
From Coq Require Import String List NArith ZArith Bool Lia.
From Verif Require Import PyStr PyStrFacts PyList PyListFacts PyExn TreeModel TreeSpec
  DualDictModel DualDictSpec DualDictProofs DocModel MwtSpec MwtProofs TokModel TokSpec TokProofs.
Import ListNotations.

Local Arguments dd_set : simpl never.

Lemma update_good l : forall f, good (Some f) -> good (Some (dd_update f l)).
Proof. induction l as [|[k v] l IH]; intros f G; simpl; auto. apply IH. apply (good_set (Some f)). auto. Qed.
Lemma update_get l : NoDup (map fst l) -> (forall k v, In (k, v) l -> v <> VNone) -> forall f k, good (Some f) ->
  misc_get (Some (dd_update f l)) k = match dict_get l k with Some v => v | None => misc_get (Some f) k end.
Proof.
  induction l as [|[k0 v0] l IH]; intros N NN f k G; simpl; auto.
  inversion N as [|? ? N1 N2]; subst. rewrite IH; auto; [|intros; apply (NN k1); simpl; auto|apply (good_set (Some f)); auto].
  pose proof (get_after_set (Some f) k0 v0 k G) as S. cbn [dd_prop] in S. rewrite S. clear S.
  destruct (str_eqb k k0) eqn:E.
  - apply str_eqb_eq in E as ->. destruct (dict_get l k0) as [v|] eqn:EG.
    + exfalso. apply N1. clear - EG. induction l as [|[k v'] l IH]; simpl in *; [discriminate|].
      destruct (str_eqb k0 k) eqn:E; [apply str_eqb_eq in E; auto|]. right. auto.
    + destruct v0; auto. elim (NN k0 VNone); simpl; auto.
  - auto.
Qed.
Lemma update_string l : forall f, (l <> [] \/ dd_string f = None) -> dd_string (dd_update f l) = None.
Proof.
  induction l as [|[k v] l IH]; intros f H; simpl; [destruct H; [tauto|auto]|]. apply IH. right.
  unfold dd_set. destruct v as [| |[|c x]]; cbn; auto; unfold dd_del; cbn; rewrite deser_None; cbn;
    destruct (dict_del _ k); auto.
Qed.
Lemma dict_get_In : forall (l : dict) k v, NoDup (map fst l) -> In (k, v) l -> dict_get l k = Some v.
Proof.
  induction l as [|[k0 v0] l IH]; intros k v N I; [destruct I|]. inversion N; subst. simpl in I. destruct I as [[= -> ->]|I].
  - simpl. rewrite str_eqb_refl. auto.
  - simpl. destruct (str_eqb k k0) eqn:E; [|auto]. apply str_eqb_eq in E as ->. elim H1. apply (in_map fst _ _ I).
Qed.
Lemma items_nodup m : good m -> NoDup (map fst (items m)).
Proof. intros (lower&x&H1&H2&_). unfold items. rewrite H2. auto. Qed.
Lemma feat_items d x k : feat d x k = match dict_get (items (n_feats (d_at d x))) k with Some v => v | None => VStr [] end.
Proof. reflexivity. Qed.

Lemma guess_get d : forall rest f, good (Some f) -> (forall x, In x rest -> plain_feats d x) -> forall k,
  misc_get (Some (guess_feats d f rest)) k = match last_feat d rest k with VStr [] => misc_get (Some f) k | v => v end.
Proof.
  induction rest as [|x rest IH]; intros f G P k; cbn [guess_feats last_feat]; auto.
  destruct (P x) as [OK NE]; [simpl; auto|]. apply good_ok in OK. pose proof (items_nodup _ OK) as N.
  assert (NV : forall k v, In (k, v) (items (n_feats (d_at d x))) -> v <> VStr [] /\ v <> VNone).
  { intros k' v I. pose proof (dict_get_In _ _ _ N I) as E. pose proof (feat_items d x k') as F. rewrite E in F. rewrite <- F. apply NE.
    unfold dd_contains, items in *. cbn [snd]. rewrite E. auto. }
  rewrite IH; [|apply update_good; auto|intros; apply P; simpl; auto].
  rewrite update_get; auto; [|intros k' v I; apply (NV k' v I)].
  rewrite feat_items.
  destruct (last_feat d rest k) as [| |[|c y]]; auto. destruct (dict_get (items (n_feats (d_at d x))) k) as [v|] eqn:E; auto.
  assert (NV' : v <> VStr []).
  { pose proof (NE k) as NK. unfold dd_contains, items in *. cbn [snd] in NK. rewrite E in NK. rewrite feat_items in NK. unfold items in NK. rewrite E in NK. apply NK. auto. }
  destruct v as [| |[|c y]]; auto. tauto.
Qed.
Lemma guess_string d : forall rest f, dd_string f = None \/ (exists x, In x rest /\ items (n_feats (d_at d x)) <> []) ->
  dd_string (guess_feats d f rest) = None.
Proof.
  induction rest as [|x rest IH]; intros f H; cbn [guess_feats]; [destruct H as [H|(x&[]&_)]; auto|].
  apply IH. destruct H as [H|(y&[->|I]&H)]; [left; apply update_string; auto|left; apply update_string; auto|eauto].
Qed.
Lemma itself_get f k : dd_string f = None -> misc_get (Some (set_to_itself f)) k = misc_get (Some f) k.
Proof. destruct f as [x l]. cbn. intros ->. auto. Qed.

Lemma feats_prop d r m w rest d' : sound_sentence d r -> remove_mwts d r = (d', Ok tt) -> In m (every_other (d_mwts d r)) ->
  m_words (d_m d m) = w :: rest -> (forall x, In x (w :: rest) -> plain_feats d x) ->
  (exists x k, In x rest /\ feat d x k <> VStr []) ->
  forall k, feat d' w k = last_feat d (w :: rest) k.
Proof.
  intros S E I EW P (x&k0&Ix&NE) k. destruct (view_of d r S) as (ts&_&V). destruct (remove_mwts_ok d r ts V) as (d2&E2&A&_).
  rewrite E in E2. injection E2 as <-. pose proof (af_new _ _ _ _ _ A m I) as B. unfold became, first_word, others in B. rewrite EW in B.
  cbn [hd tl] in B. unfold feat. rewrite B. cbn [set_feats n_feats].
  rewrite itself_get.
  - rewrite guess_get.
    + cbn [last_feat]. destruct (last_feat d rest k) as [| |[|c y]]; auto.
    + destruct (P w) as [OK _]; [simpl; auto|]. apply good_ok in OK. cbn [set_misc set_form n_feats].
      destruct (n_feats (d_at d w)); auto.
    + intros y J. apply P. simpl. auto.
  - apply guess_string. right. exists x. split; [auto|]. intros N. rewrite feat_items, N in NE. simpl in NE. tauto.
Qed.
