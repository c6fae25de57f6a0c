(** C78: ud.JoinToken. *)
From Coq Require Import String List NArith ZArith Bool Lia.
From Verif Require Import PyStr PyList PyListFacts PyExn TreeModel TreeSpec TreeProps TreeExamples DualDictModel DualDictSpec DualDictProofs DocModel
  MwtSpec MwtProofs TokModel TokSpec TokProofs TokToken Props_Mwt Props_Join.
Import ListNotations.
Local Open Scope string_scope.
Local Open Scope list_scope.

(** [grp w] are the words which the word [w] of the result replaces.  The groups partition the sentence into consecutive words;
    two neighbouring words are in one group exactly if the second is to be joined with the first ([to_join], TokSpec).
    Each dependency of the result is a dependency (with its relation) between words of the two groups.  The text is kept;
    the attributes of the remaining words are as [joined_word] (TokSpec) says; multi-word tokens do not change. *)
Theorem C78_join : forall name value d r, sound_sentence d r ->
  (forall w, live (d_h d) r w -> misc_ok (n_misc (d_at d w))) ->
  (forall w, In w (h_desc (d_h d) r) -> misc_of d w (s "SpaceAfter") <> VNone) ->
  d_mwt d r = None /\ misc_of d r (s "SpaceAfter") <> VStr (s "No") ->
  exists d' grp, join_tokens name value d r = (d', Ok tt) /\ sound_sentence d' r /\ compute_text d' r true = compute_text d r true /\
    flat_map grp (h_desc (d_h d') r) = h_desc (d_h d) r /\ grp r = [r] /\
    (forall w, In w (h_desc (d_h d') r) -> (exists l, grp w = w :: l) /\ linked (to_join name value d) (grp w) /\
       joined_word name value d r w (grp w) (d_at d' w) /\
       forall q, h_par (d_h d') w = Some q ->
         exists a b, In a (grp w) /\ In b (grp q) /\ h_par (d_h d) a = Some b /\ n_deprel (d_at d' w) = n_deprel (d_at d a)) /\
    (forall pre w w' rest, h_desc (d_h d') r = pre ++ w :: w' :: rest -> ~ to_join name value d (last (grp w) w) w') /\
    (forall w, ~ In w (h_desc (d_h d) r) -> same_but_misc (d_at d' w) (d_at d w) /\ forall k, misc_of d' w k = misc_of d w k) /\
    (forall w, d_mwt d' w = d_mwt d w) /\ (forall r', d_mwts d' r' = d_mwts d r') /\ (forall m, d_m d' m = d_m d m).
Proof. exact join_token_prop. Qed.
Print Assumptions C78_join.

(** "de" <- "mo"(joined) -> "cra" (joined), "cy" (a space before it), "a" "el" (the token "al"); 1 depends on 2, 2 on 3. *)
Definition words_j (x : nat) : attrs :=
  match x with
  | 1 => word "de" "JoinToken=Yes|SpaceAfter=No" | 2 => word "mo" "JoinToken=Yes|SpaceAfter=No" | 3 => word "cra" "JoinToken=Yes"
  | 4 => word "cy" "JoinToken=Yes|Gloss=x" | 5 => word "a" "_" | 6 => word "el" "JoinToken=Yes" | _ => no_attrs
  end.
Definition six_j0 : doc := mkDoc (planted [2; 3; 0; 2; 6; 4]) words_j (fun _ => None) (fun _ => []) (fun _ => no_mwt) 0 (fun _ => no_rinfo).
Definition six_j : doc := fst (create_multiword_token six_j0 0 [5; 6] (Some (s "al")) []).
Lemma six_j_sound : sound_sentence six_j 0.
Proof.
  assert (W : mwt_world six_j). { apply mw_create; [apply attrs_world|vm_compute; lia|]. intros w [<-|[<-|[]]]; vm_compute; lia. }
  constructor.
  - change (d_h six_j) with (d_h six_j0). unfold six_j0. cbn [d_h]. planted_ok.
  - exact (world_agree _ W).
  - split.
    + intros m I. vm_compute in I. destruct I as [<-|[]]; (split; [discriminate|]). exists [1; 2; 3; 4], []. vm_compute. reflexivity.
    + intros w m I E. vm_compute in I. decompose [or] I; subst; vm_compute in E; try discriminate; try tauto; injection E as <-; vm_compute; tauto.
  - intros e I. vm_compute in I. tauto.
  - split.
    + intros w I. vm_compute in I. decompose [or] I; subst; try tauto; vm_compute; discriminate.
    + intros m I. vm_compute in I. decompose [or] I; subst; try tauto; vm_compute; discriminate.
Qed.
Lemma cleared_misc2 d x t dd : n_misc (d_at d x) = Some dd -> dd = fst (dd_run (fun x => x) (match opt_dd (s t) with Some y => y | None => dd_empty end) [OSet (s "SpaceAfter") VNone]) ->
  misc_ok (n_misc (d_at d x)).
Proof.
  intros -> ->. exists (fun x => x). unfold opt_dd. destruct (s t) as [|c l]; [apply (reach _ None); [exact Logic.I|reflexivity|repeat constructor]|].
  destruct (str_eqb (c :: l) US); [apply (reach _ None); [exact Logic.I|reflexivity|repeat constructor]|].
  apply (reach _ (Some (MStr (c :: l)))); [exact Logic.I|reflexivity|repeat constructor].
Qed.
Example C78_example : sound_sentence six_j 0 /\
  (forall w, live (d_h six_j) 0 w -> misc_ok (n_misc (d_at six_j w))) /\
  (forall w, In w (h_desc (d_h six_j) 0) -> misc_of six_j w (s "SpaceAfter") <> VNone) /\
  (d_mwt six_j 0 = None /\ misc_of six_j 0 (s "SpaceAfter") <> VStr (s "No")) /\
  compute_text six_j 0 true = Ok (s "democra cy al") /\
  let d' := fst (join_tokens (s "JoinToken") None six_j 0) in
  h_desc (d_h d') 0 = [1; 4; 5; 6] /\ map (h_par (d_h d')) [1; 4; 5; 6] = [Some 0; Some 1; Some 6; Some 4] /\
  n_form (d_at d' 1) = Some (s "democra") /\ misc_of d' 1 (s "SpaceAfter") = VStr [] /\
  map (fun w => misc_of d' w (s "Bug")) [1; 4; 5; 6] =
    [VStr (s "JoiningTokensWithSpaceNotSupported"); VStr (s "JoiningTokensWithSpaceNotSupported"); VStr []; VStr (s "JoiningTokenNotSupportedHere")].
Proof.
  split; [exact six_j_sound|]. split.
  { intros w [->|I]; [exact Logic.I|]. vm_compute in I. decompose [or] I; subst; try tauto.
    - apply (text_misc _ _ (s "JoinToken=Yes|SpaceAfter=No")); vm_compute; reflexivity.
    - apply (text_misc _ _ (s "JoinToken=Yes|SpaceAfter=No")); vm_compute; reflexivity.
    - apply (text_misc _ _ (s "JoinToken=Yes")); vm_compute; reflexivity.
    - apply (text_misc _ _ (s "JoinToken=Yes|Gloss=x")); vm_compute; reflexivity.
    - eapply (cleared_misc2 _ _ "_"); vm_compute; reflexivity.
    - eapply (cleared_misc2 _ _ "JoinToken=Yes"); vm_compute; reflexivity. }
  split; [intros w I; vm_compute in I; decompose [or] I; subst; try tauto; vm_compute; discriminate|].
  split; [split; [reflexivity|vm_compute; discriminate]|]. vm_compute. auto 10.
Qed.
