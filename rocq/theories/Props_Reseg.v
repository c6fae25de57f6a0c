(** C79, C80: blocks that join sentences. *)
From Coq Require Import String List NArith ZArith Bool Lia.
From Verif Require Import PyStr PyList PyListFacts PyExn TreeModel TreeSpec TreeProps TreeExamples DualDictModel DualDictSpec DualDictProofs DocModel
  MwtSpec MwtProofs StealModel TokModel TokSpec TokProofs Props_Mwt Props_Join Props_JoinToken ResegModel ResegSpec ResegProofs ResegMerge.
Import ListNotations.
Local Open Scope string_scope.
Local Open Scope list_scope.

(** C79.  [gs] are the sentences of the result, each with the sentences that were appended to it. *)
Theorem C79_merge : forall d bundles, bundles <> [] -> NoDup (map b_root bundles) ->
  (forall b, In b bundles -> sound_sentence d (b_root b) /\ h_desc (d_h d) (b_root b) <> [] /\
     forall w, last_opt (h_desc (d_h d) (b_root b)) = Some w -> n_form (d_at d w) <> Some []) ->
  exists d' gs, merge_document d bundles = (d', Ok (map fst gs)) /\
    flat_map (fun g => fst g :: snd g) gs = bundles /\
    (forall b l, In (b, l) gs -> chain (fun x _ => ends_semicolon d (b_root x)) (b :: l) /\ appended d d' (b_root b) (map b_root l)) /\
    (forall pre b l c k post, gs = pre ++ (b, l) :: (c, k) :: post -> ~ ends_semicolon d (b_root (last l b))) /\
    (forall w, d_at d' w = d_at d w) /\ (forall w, d_mwt d' w = d_mwt d w) /\ (forall m, d_m d' m = d_m d m).
Proof. exact merge_prop. Qed.
Print Assumptions C79_merge.
(** An empty document, or an empty sentence at the beginning, ends with IndexError. *)
Theorem C79_empty : (forall d, merge_document d [] = (d, Raise IndexError)) /\
  (forall d b c rest, h_desc (d_h d) (b_root b) = [] \/ h_desc (d_h d) (b_root c) = [] -> merge_document d (b :: c :: rest) = (d, Raise IndexError)).
Proof. exact merge_empty. Qed.
Print Assumptions C79_empty.

(** C80, MISC attributes.  No sentence of the result has a marked word at the start; all sentences with a marked word were appended. *)
Theorem C80_by_misc_partial : forall name value d bundles, name <> s "SpaceAfter" -> NoDup (map b_root bundles) ->
  (forall b, In b bundles -> sound_sentence d (b_root b) /\ forall w, In w (h_desc (d_h d) (b_root b)) -> misc_ok (n_misc (d_at d w))) ->
  (forall b rest, bundles = b :: rest -> ~ has_commands name value d (b_root b)) ->
  exists d' gs, join_by_misc name value d bundles None bundles = (d', Ok (map fst gs)) /\
    flat_map (fun g => fst g :: snd g) gs = bundles /\
    (forall b l, In (b, l) gs -> ~ has_commands name value d (b_root b) /\ (forall c, In c l -> has_commands name value d (b_root c)) /\
       appended d d' (b_root b) (map b_root l)) /\
    (forall w, same_but_misc (d_at d' w) (d_at d w)) /\
    (forall w k, k <> name -> misc_of d' w k = misc_of d w k) /\
    (forall b w, In b bundles -> In w (h_desc (d_h d) (b_root b)) ->
       (has_command name value d w -> misc_of d' w name = VStr []) /\ (~ has_command name value d w -> misc_of d' w name = misc_of d w name)) /\
    (forall w, d_mwt d' w = d_mwt d w) /\ (forall m, d_m d' m = d_m d m).
Proof. exact join_misc_prop. Qed.
Print Assumptions C80_by_misc_partial.
Theorem C80_first_marked : forall name value d b rest, has_commands name value d (b_root b) ->
  join_by_misc name value d (b :: rest) None (b :: rest) = (d, Raise AttributeError).
Proof. exact first_marked. Qed.
Print Assumptions C80_first_marked.
(** With sent_id the block never joins anything. *)
Theorem C80_by_id_partial : forall x d bundles,
  ((exists b, In b bundles /\ b_id b = Some x) -> join_by_id x d bundles None bundles = (d, Raise AttributeError)) /\
  (~ (exists b, In b bundles /\ b_id b = Some x) -> join_by_id x d bundles None bundles = (d, Ok bundles)).
Proof. exact by_id_prop. Qed.
Print Assumptions C80_by_id_partial.

(** "Come now ;" (the mark is on "now;") / "zum" "Haus" / "Ja": three sentences with the roots 0, 1, 2. *)
Definition three_ops : list tree_op :=
  [OpCreate 0; OpCreate 0; OpCreate 1; OpCreate 1; OpCreate 1; OpCreate 2;
   OpParent 4 (Some 3); OpParent 5 (Some 7); OpParent 6 (Some 7)].
Definition three_heap : heap := fold_left (fun h o => fst (tree_step h o)) three_ops (fst (new_root (fst (new_root (fst (new_root heap0)))))).
Lemma three_world : world [2; 1; 0] three_heap.
Proof.
  unfold three_heap, three_ops. cbn [fold_left].
  repeat match goal with
  | |- world _ (fst (tree_step _ (OpParent ?x _))) => apply (world_op [2;1;0] _ (if Nat.leb x 4 then 0 else 1));
      [|simpl; auto|vm_compute; intuition (auto 20)]
  | |- world _ (fst (tree_step _ (OpCreate ?x))) => apply (world_op [2;1;0] _ x); [|simpl; auto|vm_compute; intuition (auto 20)]
  end.
  apply (world_new [1; 0] (fst (new_root (fst (new_root heap0))))), (world_new [0] (fst (new_root heap0))), (world_new [] heap0). constructor.
Qed.
Definition words_3 (x : nat) : attrs :=
  match x with
  | 3 => word "Come" "_" | 4 => word "now;" "_" | 5 => word "zu" "_" | 6 => word "dem" "Join=Yes|Gloss=the"
  | 7 => word "Haus" "SpaceAfter=No" | 8 => word "Ja;" "Join=No" | _ => no_attrs
  end.
Definition three_0 : doc := mkDoc three_heap words_3 (fun _ => None) (fun _ => []) (fun _ => no_mwt) 0 (fun _ => no_rinfo).
Definition three : doc := fst (create_multiword_token three_0 1 [5; 6] (Some (s "zum")) []).
Definition three_b : list bundle1 := [mkB (Some (s "a")) 0; mkB (Some (s "b")) 1; mkB (Some (s "c")) 2].
Lemma three_sound r : In r [0; 1; 2] -> sound_sentence three r.
Proof.
  intros Ir.
  assert (W : mwt_world three). { apply mw_create; [apply attrs_world|vm_compute; lia|]. intros w [<-|[<-|[]]]; vm_compute; lia. }
  constructor.
  - change (d_h three) with three_heap. apply (world_consistent _ _ three_world). simpl in *. tauto.
  - exact (world_agree _ W).
  - split.
    + intros m I. destruct Ir as [<-|[<-|[<-|[]]]]; vm_compute in I; try tauto. destruct I as [<-|[]]; (split; [discriminate|]). exists [], [7]. vm_compute. reflexivity.
    + intros w m I E. destruct Ir as [<-|[<-|[<-|[]]]]; vm_compute in I; decompose [or] I; subst; vm_compute in E; try discriminate; try tauto; injection E as <-; vm_compute; tauto.
  - intros e I. destruct Ir as [<-|[<-|[<-|[]]]]; vm_compute in I; tauto.
  - split.
    + intros w I. destruct Ir as [<-|[<-|[<-|[]]]]; vm_compute in I; decompose [or] I; subst; try tauto; vm_compute; discriminate.
    + intros m I. destruct Ir as [<-|[<-|[<-|[]]]]; vm_compute in I; decompose [or] I; subst; try tauto; vm_compute; discriminate.
Qed.
Lemma three_misc w : In w [3; 4; 5; 6; 7; 8] -> misc_ok (n_misc (d_at three w)).
Proof.
  intros I. simpl in I. decompose [or] I; subst; try tauto.
  - apply (text_misc _ _ (s "_")); vm_compute; reflexivity.
  - apply (text_misc _ _ (s "_")); vm_compute; reflexivity.
  - eapply (cleared_misc2 _ _ "_"); vm_compute; reflexivity.
  - eapply (cleared_misc2 _ _ "Join=Yes|Gloss=the"); vm_compute; reflexivity.
  - apply (text_misc _ _ (s "SpaceAfter=No")); vm_compute; reflexivity.
  - apply (text_misc _ _ (s "Join=No")); vm_compute; reflexivity.
Qed.

Example C79_example : three_b <> [] /\ NoDup (map b_root three_b) /\
  (forall b, In b three_b -> sound_sentence three (b_root b) /\ h_desc (d_h three) (b_root b) <> [] /\
     forall w, last_opt (h_desc (d_h three) (b_root b)) = Some w -> n_form (d_at three w) <> Some []) /\
  let (d', o) := merge_document three three_b in
  o = Ok [mkB (Some (s "a")) 0; mkB (Some (s "c")) 2] /\
  h_desc (d_h d') 0 = [3; 4; 5; 6; 7] /\ map (h_par (d_h d')) [3; 4; 5; 6; 7] = [Some 0; Some 3; Some 7; Some 7; Some 0] /\
  ri_text (d_ri d' 0) = Some (s "Come now; zum Haus") /\ token_descendants d' 0 = Ok [TWord 3; TWord 4; TMwt 0; TWord 7].
Proof.
  split; [discriminate|]. split; [repeat constructor; simpl; intuition discriminate|]. split.
  { intros b I. simpl in I. decompose [or] I; subst; try tauto; (split; [apply three_sound; simpl; auto|]); (split; [vm_compute; discriminate|]);
      intros w E; vm_compute in E; injection E as <-; vm_compute; discriminate. }
  vm_compute. auto 10.
Qed.
Example C80_example : s "Join" <> s "SpaceAfter" /\ NoDup (map b_root three_b) /\
  (forall b, In b three_b -> sound_sentence three (b_root b) /\ forall w, In w (h_desc (d_h three) (b_root b)) -> misc_ok (n_misc (d_at three w))) /\
  (forall b rest, three_b = b :: rest -> ~ has_commands (s "Join") (Some (s "Yes")) three (b_root b)) /\
  (let (d', o) := join_by_misc (s "Join") (Some (s "Yes")) three three_b None three_b in
   o = Ok [mkB (Some (s "a")) 0; mkB (Some (s "c")) 2] /\ h_desc (d_h d') 0 = [3; 4; 5; 6; 7] /\
   ri_text (d_ri d' 0) = Some (s "Come now; zum Haus") /\
   map (fun w => misc_of d' w (s "Join")) [6; 8] = [VStr []; VStr (s "No")]) /\
  (let (d', o) := join_by_misc (s "Join") None three three_b None three_b in
   o = Ok [mkB (Some (s "a")) 0] /\ ri_text (d_ri d' 0) = Some (s "Come now; zum HausJa;")).
Proof.
  split; [discriminate|]. split; [repeat constructor; simpl; intuition discriminate|]. split; [|split; [|split]].
  - intros b I. simpl in I. decompose [or] I; subst; try tauto; (split; [apply three_sound; simpl; auto|]);
      intros w J; apply three_misc; vm_compute in J |- *; tauto.
  - intros b rest E (w&I&C). injection E as <- <-. vm_compute in I. decompose [or] I; subst; try tauto; vm_compute in C; discriminate.
  - vm_compute. auto.
  - vm_compute. auto.
Qed.
(** C80 with sent_id: the second sentence should be joined to the first one. *)
Theorem C80_by_id_refuted : ~ (forall x d b c rest, sound_sentence d (b_root b) -> sound_sentence d (b_root c) -> b_root b <> b_root c ->
  h_desc (d_h d) (b_root c) <> [] -> b_id b <> Some x -> b_id c = Some x ->
  exists d', join_by_id x d (b :: c :: rest) None (b :: c :: rest) = (d', Ok (b :: rest)) /\ appended d d' (b_root b) [b_root c]).
Proof.
  intros H. destruct (H (s "b") three (mkB (Some (s "a")) 0) (mkB (Some (s "b")) 1) []) as (d'&E&_);
    [apply three_sound; simpl; auto..|discriminate|vm_compute; discriminate|discriminate|reflexivity|].
  vm_compute in E. discriminate.
Qed.
Print Assumptions C80_by_id_refuted.
