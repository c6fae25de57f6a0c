(** C81: util.SplitSentence. *)
From Coq Require Import String List NArith ZArith Bool Lia.
From Verif Require Import PyStr PyList PyListFacts PyExn TreeModel TreeSpec TreeProps TreeExamples DualDictModel DualDictSpec DualDictProofs DocModel
  MwtSpec MwtProofs StealModel TokModel TokSpec TokProofs Props_Mwt Props_Join Props_JoinToken ResegModel ResegSpec ResegProofs ResegMerge Props_Reseg
  SplitModel SplitSpec SplitProofs.
Import ListNotations.
Local Open Scope string_scope.
Local Open Scope list_scope.

(** C81 with sent_id and word_id: the first sentence with the id is split, no other one is touched. *)
Theorem C81_by_id_partial : forall x pre d b post w1 w2, (forall c, In c pre -> b_id c <> Some x) -> b_id b = Some x ->
  sound_sentence d (b_root b) -> h_desc (d_h d) (b_root b) = w1 ++ w2 -> w2 <> [] -> no_token_across d w1 w2 -> last_single d w2 ->
  exists d' r2, split_by_id x (Z.of_nat (length w1) + 1) d (pre ++ b :: post) =
      (d', Ok (pre ++ mkB (Some (x ++ s "A")) (b_root b) :: mkB (Some (x ++ s "B")) r2 :: post)) /\
    divided d d' (b_root b) r2 w1 w2 /\ (forall w, In w (w1 ++ w2) -> n_misc (d_at d' w) = n_misc (d_at d w)).
Proof. exact split_by_id_ok. Qed.
Print Assumptions C81_by_id_partial.
(** No such sentence: nothing happens.  No such word: IndexError. *)
Theorem C81_by_id_errors : forall x n d bundles,
  ((forall c, In c bundles -> b_id c <> Some x) -> split_by_id x n d bundles = (d, Ok bundles)) /\
  (forall pre b post, bundles = pre ++ b :: post -> (forall c, In c pre -> b_id c <> Some x) -> b_id b = Some x ->
     (forall w, In w (h_desc (d_h d) (b_root b)) -> (h_ord (d_h d) w < n)%Z) -> snd (split_by_id x n d bundles) = Raise IndexError).
Proof. exact split_errors. Qed.
Print Assumptions C81_by_id_errors.

(** C81 with misc_name, for one sentence with one marked word, which is not the first one. *)
Theorem C81_by_misc_partial : forall name value d b i w1 x w2, name <> s "SpaceAfter" -> b_id b = Some i -> sound_sentence d (b_root b) ->
  h_desc (d_h d) (b_root b) = w1 ++ x :: w2 -> w1 <> [] ->
  (forall w, In w (h_desc (d_h d) (b_root b)) -> (has_command name value d w <-> w = x)) -> misc_ok (n_misc (d_at d x)) ->
  no_token_across d w1 (x :: w2) -> last_single d (x :: w2) ->
  exists d' r2, split_marked name value d b = (d', Ok [mkB (Some (i ++ s "A")) (b_root b); mkB (Some (i ++ s "B")) r2]) /\
    divided d d' (b_root b) r2 w1 (x :: w2) /\
    (forall w k, In w (w1 ++ x :: w2) -> misc_of d' w k = if Nat.eqb w x && str_eqb k name then VStr [] else misc_of d w k).
Proof. exact split_marked_ok. Qed.
Print Assumptions C81_by_misc_partial.
Theorem C81_unmarked : forall name value d b, (forall w, In w (h_desc (d_h d) (b_root b)) -> ~ has_command name value d w) ->
  split_marked name value d b = (d, Ok [b]).
Proof. exact split_unmarked. Qed.
Print Assumptions C81_unmarked.

(** "zum" "Haus" of [three] is split before "Haus", by the id and by a mark. *)
Definition words_4 (x : nat) : attrs := match x with 7 => word "Haus" "Cut=Yes|Gloss=house" | _ => words_3 x end.
Definition marked_0 : doc := mkDoc three_heap words_4 (fun _ => None) (fun _ => []) (fun _ => no_mwt) 0 (fun _ => no_rinfo).
Definition marked : doc := fst (create_multiword_token marked_0 1 [5; 6] (Some (s "zum")) []).
Ltac sound_1 pre post :=
  constructor;
  [ match goal with |- consistent ?h 1 => change h with three_heap end; apply (world_consistent _ _ three_world); simpl; tauto
  | apply world_agree; apply mw_create; [apply attrs_world|vm_compute; lia|]; intros w [<-|[<-|[]]]; vm_compute; lia
  | split; [intros m I; vm_compute in I; destruct I as [<-|[]]; (split; [discriminate|]); exists pre, post; vm_compute; reflexivity
           |intros w m I E; vm_compute in I; decompose [or] I; subst; vm_compute in E; try discriminate; try tauto; injection E as <-; vm_compute; tauto]
  | intros e I; vm_compute in I; tauto
  | split; [intros w I; vm_compute in I; decompose [or] I; subst; try tauto; vm_compute; discriminate
           |intros m I; vm_compute in I; decompose [or] I; subst; try tauto; vm_compute; discriminate] ].
Lemma marked_sound : sound_sentence marked 1.
Proof. sound_1 (@nil nat) [7]. Qed.
Example C81_example : sound_sentence three 1 /\ h_desc (d_h three) 1 = [5; 6] ++ [7] /\ no_token_across three [5; 6] [7] /\ last_single three [7] /\
  (let (d', o) := split_by_id (s "b") 3 three three_b in
   o = Ok [mkB (Some (s "a")) 0; mkB (Some (s "bA")) 1; mkB (Some (s "bB")) 9; mkB (Some (s "c")) 2] /\
   h_desc (d_h d') 1 = [5; 6] /\ h_desc (d_h d') 9 = [7] /\ map (h_par (d_h d')) [5; 6; 7] = [Some 1; Some 1; Some 9] /\
   map (fun w => n_deprel (d_at d' w)) [5; 6; 7] = [Some (s "root"); Some (s "root"); Some (s "root")] /\
   ri_text (d_ri d' 1) = Some (s "zum") /\ ri_text (d_ri d' 9) = Some (s "Haus")) /\
  sound_sentence marked 1 /\ (forall w, In w [5; 6; 7] -> (has_command (s "Cut") None marked w <-> w = 7)) /\ misc_ok (n_misc (d_at marked 7)) /\
  (let (d', o) := split_marked (s "Cut") None marked (mkB (Some (s "b")) 1) in
   o = Ok [mkB (Some (s "bA")) 1; mkB (Some (s "bB")) 9] /\ ri_text (d_ri d' 1) = Some (s "zum") /\ ri_text (d_ri d' 9) = Some (s "Haus") /\
   misc_of d' 7 (s "Cut") = VStr [] /\ misc_of d' 7 (s "Gloss") = VStr (s "house")).
Proof.
  split; [apply three_sound; simpl; auto|]. split; [reflexivity|]. split.
  { intros a b m I [<-|[]] _ E. vm_compute in E. discriminate. }
  split. { intros w l E. destruct l as [|y [|z l]]; [|discriminate..]. injection E as <-. reflexivity. }
  split; [vm_compute; auto 10|]. split; [exact marked_sound|]. split.
  { intros w I. simpl in I. decompose [or] I; subst; try tauto; vm_compute; (split; [intros X; try (elim X; reflexivity); reflexivity|intros; discriminate]). }
  split; [apply (text_misc _ _ (s "Cut=Yes|Gloss=house")); vm_compute; reflexivity|]. vm_compute. auto 10.
Qed.

(** A sentence which ends with a multi-word token: steal_nodes fails, the words are in neither sentence. *)
Definition mwt_last : doc := fst (create_multiword_token three_0 1 [6; 7] (Some (s "zum")) []).
Lemma mwt_last_sound : sound_sentence mwt_last 1.
Proof. sound_1 [5] (@nil nat). Qed.
Theorem C81_last_token_refuted : ~ (forall x d b w1 w2, b_id b = Some x -> sound_sentence d (b_root b) ->
  h_desc (d_h d) (b_root b) = w1 ++ w2 -> w1 <> [] -> w2 <> [] -> no_token_across d w1 w2 ->
  exists d' r2, split_by_id x (Z.of_nat (length w1) + 1) d [b] = (d', Ok [mkB (Some (x ++ s "A")) (b_root b); mkB (Some (x ++ s "B")) r2]) /\
    divided d d' (b_root b) r2 w1 w2).
Proof.
  intros H. destruct (H (s "b") mwt_last (mkB (Some (s "b")) 1) [5] [6; 7]) as (d'&r2&E&_);
    [reflexivity|exact mwt_last_sound|reflexivity|discriminate|discriminate| |].
  - intros a b m [<-|[]] I E. vm_compute in E. discriminate.
  - vm_compute in E. discriminate.
Qed.
Print Assumptions C81_last_token_refuted.
(** With misc_value, a mark on the first word makes an empty sentence ("n.ord > 1" guards only the case without a value). *)
Definition words_5 (x : nat) : attrs := match x with 5 => word "zu" "Cut=Yes" | _ => words_3 x end.
Definition marked_first : doc := fst (create_multiword_token (mkDoc three_heap words_5 (fun _ => None) (fun _ => []) (fun _ => no_mwt) 0 (fun _ => no_rinfo)) 1 [5; 6] (Some (s "zum")) []).
Lemma marked_first_sound : sound_sentence marked_first 1.
Proof. sound_1 (@nil nat) [7]. Qed.
Theorem C81_first_word_refuted : ~ (forall name value d b d' l, sound_sentence d (b_root b) -> h_desc (d_h d) (b_root b) <> [] ->
  split_marked name value d b = (d', Ok l) -> forall c, In c l -> h_desc (d_h d') (b_root c) <> []).
Proof.
  intros H. destruct (split_marked (s "Cut") (Some (s "Yes")) marked_first (mkB (Some (s "b")) 1)) as [d' o] eqn:E.
  assert (X : o = Ok [mkB (Some (s "bA")) 1; mkB (Some (s "bB")) 9] /\ h_desc (d_h d') 1 = []).
  { change o with (snd (d', o)). change d' with (fst (d', o)) at 2. rewrite <- E. vm_compute. auto. }
  destruct X as [-> X]. refine (H _ _ _ (mkB (Some (s "b")) 1) _ _ marked_first_sound _ E (mkB (Some (s "bA")) 1) _ X); [vm_compute; discriminate|simpl; auto].
Qed.
Print Assumptions C81_first_word_refuted.
