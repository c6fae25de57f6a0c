(** C76: ud.RemoveMwt. *)
From Coq Require Import String List NArith ZArith Bool Lia.
From Verif Require Import PyStr PyList PyListFacts PyExn TreeModel TreeSpec TreeProps TreeExamples DualDictModel DualDictSpec DualDictProofs DocModel
  MwtSpec MwtProofs TokModel TokSpec TokProofs TokFeats Props_Mwt.
Import ListNotations.
Local Open Scope string_scope.
Local Open Scope list_scope.

(** Two multi-word tokens, the words of which have features. *)
Definition fword (f feats m : string) : attrs := mkAttrs (Some (s f)) None None None (opt_dd (s feats)) None (opt_dd (s m)) (Some US) None.
Definition words5 (x : nat) : attrs :=
  match x with
  | 1 => fword "vamos" "Mood=Imp|Number=Plur" "_" | 2 => fword "nos" "Case=Acc|Number=Sing" "_" | 3 => fword "a" "_" "_"
  | 4 => fword "el" "Gender=Masc" "_" | 5 => fword "mar" "_" "SpaceAfter=No" | _ => no_attrs
  end.
Definition five : doc := mkDoc (planted [0; 1; 5; 5; 1]) words5 (fun _ => None) (fun _ => []) (fun _ => no_mwt) 0 (fun _ => no_rinfo).
Definition two_mwts : doc :=
  fst (create_multiword_token (fst (create_multiword_token five 0 [1; 2] (Some (s "vamonos")) (s "X=1|SpaceAfter=No"))) 0 [3; 4] (Some (s "al")) []).
Lemma two_mwts_sound : sound_sentence two_mwts 0.
Proof.
  assert (W : mwt_world two_mwts).
  { apply mw_create; [apply mw_create; [apply attrs_world|vm_compute; lia|]|vm_compute; lia|].
    - intros w [<-|[<-|[]]]; vm_compute; lia.
    - intros w [<-|[<-|[]]]; vm_compute; lia. }
  constructor.
  - change (d_h two_mwts) with (d_h five). unfold five. cbn [d_h]. planted_ok.
  - exact (world_agree _ W).
  - split.
    + intros m I. vm_compute in I. destruct I as [<-|[<-|[]]]; (split; [discriminate|]).
      * exists [], [3; 4; 5]. vm_compute. reflexivity.
      * exists [1; 2], [5]. vm_compute. reflexivity.
    + intros w m I E. vm_compute in I. decompose [or] I; subst; vm_compute in E; try discriminate; try tauto; injection E as <-; vm_compute; tauto.
  - intros e I. vm_compute in I. tauto.
  - split.
    + intros w I. vm_compute in I. decompose [or] I; subst; try tauto; vm_compute; discriminate.
    + intros m I. vm_compute in I. decompose [or] I; subst; try tauto; vm_compute; discriminate.
Qed.

(** The block never raises; the sentence stays well-formed and its text is kept; every other multi-word token is removed
    (the first, the third, ...), and of each the first word stays, with the form and MISC of the token.
    (Missing: all of them removed; see C76_all_removed_refuted.) *)
Theorem C76_remove_partial : forall d r, sound_sentence d r ->
  exists d', remove_mwts d r = (d', Ok tt) /\ sound_sentence d' r /\ compute_text d' r true = compute_text d r true /\
    (let gone := every_other (d_mwts d r) in
     d_mwts d' r = filter (fun m => negb (mem m gone)) (d_mwts d r) /\
     (forall m, In m gone -> exists w rest, m_words (d_m d m) = w :: rest /\ d_mwt d' w = None /\
        n_form (d_at d' w) = m_form (d_m d m) /\ (forall k, misc_of d' w k = misc_get (m_misc (d_m d m)) k) /\
        n_lemma (d_at d' w) = n_lemma (d_at d w) /\ n_upos (d_at d' w) = n_upos (d_at d w) /\ n_xpos (d_at d' w) = n_xpos (d_at d w) /\
        n_deprel (d_at d' w) = n_deprel (d_at d w)) /\
     (forall w, In w (h_desc (d_h d') r) <-> In w (h_desc (d_h d) r) /\
        forall m first rest, In m gone -> m_words (d_m d m) = first :: rest -> ~ In w rest) /\
     (exists f, h_desc (d_h d') r = filter f (h_desc (d_h d) r)) /\
     d_m d' = d_m d /\
     (forall w, In w (h_desc (d_h d') r) -> (forall m, In m gone -> ~ In w (m_words (d_m d m))) -> d_at d' w = d_at d w)).
Proof. exact remove_mwts_prop. Qed.
Print Assumptions C76_remove_partial.
Example C76_remove_example : sound_sentence two_mwts 0 /\ every_other (d_mwts two_mwts 0) = [0] /\
  compute_text two_mwts 0 true = Ok (s "vamonosal mar") /\ h_desc (d_h (fst (remove_mwts two_mwts 0))) 0 = [1; 3; 4; 5].
Proof. split; [exact two_mwts_sound|]. vm_compute. auto. Qed.

(** With two multi-word tokens the second one stays. *)
Theorem C76_all_removed_refuted : exists d r, sound_sentence d r /\ snd (remove_mwts d r) = Ok tt /\ d_mwts (fst (remove_mwts d r)) r <> [].
Proof. exists two_mwts, 0. split; [exact two_mwts_sound|]. split; [vm_compute; reflexivity|]. vm_compute. discriminate. Qed.
Print Assumptions C76_all_removed_refuted.

(** The features of the word that stays: each is that of the last word of the token which has it, if some word after
    the first has any feature.  (Missing: the other case; see C76_feats_refuted.) *)
Theorem C76_feats_partial : forall d r m w rest d', sound_sentence d r -> remove_mwts d r = (d', Ok tt) -> In m (every_other (d_mwts d r)) ->
  m_words (d_m d m) = w :: rest -> (forall x, In x (w :: rest) -> plain_feats d x) ->
  (exists x k, In x rest /\ feat d x k <> VStr []) ->
  forall k, feat d' w k = last_feat d (w :: rest) k.
Proof. exact feats_prop. Qed.
Print Assumptions C76_feats_partial.
Lemma plain_of_items d x l : items (n_feats (d_at d x)) = l -> misc_ok (n_feats (d_at d x)) -> NoDup (map fst l) ->
  (forall k v, In (k, v) l -> v <> VStr [] /\ v <> VNone) -> plain_feats d x.
Proof.
  intros E M N F. split; [auto|]. intros k H. rewrite feat_items. unfold dd_contains in H. cbn [snd] in H.
  change (match dict_get (items (n_feats (d_at d x))) k with Some _ => true | None => false end = true) in H. rewrite E in *.
  destruct (dict_get l k) as [v|] eqn:G; [|discriminate]. apply (F k). apply (DualDictProofs.dict_get_In l); auto.
Qed.
Lemma plain_text d x t : n_feats (d_at d x) = opt_dd t -> opt_dd t = dd_new (Some (MStr t)) -> misc_ok (n_feats (d_at d x)).
Proof.
  intros -> ->. cbn [dd_new misc_ok]. exists (fun x => x). apply (reach _ (Some (MStr t)) _ []); [exact Logic.I|reflexivity|constructor].
Qed.
Lemma two_mwts_feats : (forall x, In x [1; 2] -> plain_feats two_mwts x).
Proof.
  intros x [<-|[<-|[]]].
  - apply (plain_of_items _ _ [(s "Mood", VStr (s "Imp")); (s "Number", VStr (s "Plur"))]).
    + vm_compute. reflexivity.
    + apply (plain_text _ _ (s "Mood=Imp|Number=Plur")); vm_compute; reflexivity.
    + repeat constructor; simpl; intuition discriminate.
    + intros k v [E|[E|[]]]; injection E as _ <-; split; discriminate.
  - apply (plain_of_items _ _ [(s "Case", VStr (s "Acc")); (s "Number", VStr (s "Sing"))]).
    + vm_compute. reflexivity.
    + apply (plain_text _ _ (s "Case=Acc|Number=Sing")); vm_compute; reflexivity.
    + repeat constructor; simpl; intuition discriminate.
    + intros k v [E|[E|[]]]; injection E as _ <-; split; discriminate.
Qed.
Example C76_feats_example : sound_sentence two_mwts 0 /\
  remove_mwts two_mwts 0 = (fst (remove_mwts two_mwts 0), Ok tt) /\ In 0 (every_other (d_mwts two_mwts 0)) /\
  m_words (d_m two_mwts 0) = [1; 2] /\ (forall x, In x [1; 2] -> plain_feats two_mwts x) /\
  (exists x k, In x [2] /\ feat two_mwts x k <> VStr []) /\
  last_feat two_mwts [1; 2] (s "Mood") = VStr (s "Imp") /\ last_feat two_mwts [1; 2] (s "Number") = VStr (s "Sing").
Proof.
  split; [exact two_mwts_sound|]. split.
  { assert (E : snd (remove_mwts two_mwts 0) = Ok tt) by (vm_compute; reflexivity). rewrite <- E. apply surjective_pairing. }
  split; [vm_compute; auto|]. split; [reflexivity|]. split; [exact two_mwts_feats|]. split.
  - exists 2, (s "Case"). split; [simpl; auto|]. vm_compute. discriminate.
  - split; vm_compute; reflexivity.
Qed.
(** If no other word has features, those of the first word are lost (here Gender=Masc of the second token's first word). *)
Definition one_mwt_feats : doc := fst (create_multiword_token five 0 [4; 5] (Some (s "elmar")) []).
Theorem C76_feats_refuted : exists d r m w rest k, sound_sentence d r /\ In m (every_other (d_mwts d r)) /\ m_words (d_m d m) = w :: rest /\ snd (remove_mwts d r) = Ok tt /\ (forall x, In x rest -> feat d x k = VStr []) /\ feat d w k <> VStr [] /\ feat (fst (remove_mwts d r)) w k = VStr [].
Proof.
  exists one_mwt_feats, 0, 0, 4, [5], (s "Gender"). split.
  { assert (W : mwt_world one_mwt_feats).
    { apply mw_create; [apply attrs_world|vm_compute; lia|]. intros w [<-|[<-|[]]]; vm_compute; lia. }
    constructor.
    - change (d_h one_mwt_feats) with (d_h five). unfold five. cbn [d_h]. planted_ok.
    - exact (world_agree _ W).
    - split.
      + intros m I. vm_compute in I. destruct I as [<-|[]]; (split; [discriminate|]). exists [1; 2; 3], []. vm_compute. reflexivity.
      + intros w m I E. vm_compute in I. decompose [or] I; subst; vm_compute in E; try discriminate; try tauto; injection E as <-; vm_compute; tauto.
    - intros e I. vm_compute in I. tauto.
    - split.
      + intros w I. vm_compute in I. decompose [or] I; subst; try tauto; vm_compute; discriminate.
      + intros m I. vm_compute in I. decompose [or] I; subst; try tauto; vm_compute; discriminate. }
  split; [vm_compute; auto|]. split; [reflexivity|]. split; [vm_compute; reflexivity|]. split.
  - intros x [<-|[]]. vm_compute. reflexivity.
  - split; vm_compute; [discriminate|reflexivity].
Qed.
Print Assumptions C76_feats_refuted.
