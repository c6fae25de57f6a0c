(** C77: ud.JoinAsMwt. *)
From Coq Require Import String List NArith ZArith Bool Lia.
From Verif Require Import PyStr PyList PyListFacts PyExn TreeModel TreeSpec TreeProps TreeExamples DualDictModel DualDictSpec DualDictProofs DocModel
  MwtSpec MwtProofs TokModel TokSpec TokProofs TokJoin Props_Mwt.
Import ListNotations.
Local Open Scope string_scope.
Local Open Scope list_scope.

(** The text is kept, and the tokens of the sentence change as [regrouped] (TokSpec) says, whatever isalpha is: each longest
    sequence of words without a token, glued by SpaceAfter=No and letters on both sides, becomes one token; the words in
    it lose SpaceAfter and, with revert_orig_form, get their OrigForm as FORM; nothing else changes. *)
Theorem C77_join : forall alpha revert d r, mwt_world d -> sound_sentence d r ->
  (forall w, In w (h_desc (d_h d) r) -> n_form (d_at d w) <> Some [] /\ misc_ok (n_misc (d_at d w)) /\ exists f, misc_of d w (s "OrigForm") = VStr f) ->
  exists d' ts ts', join_as_mwt alpha revert d r = (d', Ok tt) /\
    token_descendants d r = Ok ts /\ token_descendants d' r = Ok ts' /\ regrouped alpha d d' ts ts' /\
    compute_text d' r true = compute_text d r true /\ sound_sentence d' r /\ d_h d' = d_h d /\
    (forall m, In m (d_mwts d r) -> In m (d_mwts d' r) /\ d_m d' m = d_m d m) /\ (forall r', r' <> r -> d_mwts d' r' = d_mwts d r') /\
    (forall w, ~ In w (h_desc (d_h d) r) -> d_at d' w = d_at d w /\ d_mwt d' w = d_mwt d w) /\
    (forall w, In w (h_desc (d_h d) r) -> d_mwt d' w = d_mwt d w ->
       same_but_misc (d_at d' w) (d_at d w) /\ forall k, misc_of d' w k = misc_of d w k) /\
    (forall w, In w (h_desc (d_h d) r) -> d_mwt d' w <> d_mwt d w ->
       d_mwt d w = None /\ same_but_form_misc (d_at d' w) (d_at d w) /\
       n_form (d_at d' w) = (if revert then match misc_of d w (s "OrigForm") with VStr (c :: f) => Some (c :: f) | _ => n_form (d_at d w) end else n_form (d_at d w)) /\
       misc_of d' w (s "SpaceAfter") = VStr [] /\ (revert = true -> misc_of d' w (s "OrigForm") = VStr []) /\
       (forall k, k <> s "SpaceAfter" -> (revert = true -> k <> s "OrigForm") -> misc_of d' w k = misc_of d w k)).
Proof. exact join_prop. Qed.
Print Assumptions C77_join.

(** Lower-case letters *)
Definition letter (c : N) : bool := N.leb 97 c && N.leb c 122.
Definition words6 (x : nat) : attrs :=
  match x with
  | 1 => word "di" "SpaceAfter=No" | 2 => word "me" "SpaceAfter=No" | 3 => word "lo" "OrigForm=la|SpaceAfter=No" | 4 => word "," "SpaceAfter=No"
  | 5 => word "a" "_" | 6 => word "el" "_" | _ => no_attrs
  end.
Definition six0 : doc := mkDoc (planted [0; 1; 1; 1; 6; 1]) words6 (fun _ => None) (fun _ => []) (fun _ => no_mwt) 0 (fun _ => no_rinfo).
Definition six : doc := fst (create_multiword_token six0 0 [5; 6] (Some (s "al")) []).
Lemma six_world : mwt_world six.
Proof. apply mw_create; [apply attrs_world|vm_compute; lia|]. intros w [<-|[<-|[]]]; vm_compute; lia. Qed.
Lemma six_sound : sound_sentence six 0.
Proof.
  constructor.
  - change (d_h six) with (d_h six0). unfold six0. cbn [d_h]. planted_ok.
  - exact (world_agree _ six_world).
  - split.
    + intros m I. vm_compute in I. destruct I as [<-|[]]; (split; [discriminate|]). exists [1; 2; 3; 4], []. vm_compute. reflexivity.
    + intros w m I E. vm_compute in I. decompose [or] I; subst; vm_compute in E; try discriminate; try tauto; injection E as <-; vm_compute; tauto.
  - intros e I. vm_compute in I. tauto.
  - split.
    + intros w I. vm_compute in I. decompose [or] I; subst; try tauto; vm_compute; discriminate.
    + intros m I. vm_compute in I. decompose [or] I; subst; try tauto; vm_compute; discriminate.
Qed.
Lemma text_misc d x t : n_misc (d_at d x) = opt_dd t -> misc_ok (n_misc (d_at d x)).
Proof.
  intros ->. unfold opt_dd. destruct t as [|c t]; [exact I|]. destruct (str_eqb (c :: t) US); [exact I|].
  cbn [dd_new misc_ok]. exists (fun x => x). apply (reach _ (Some (MStr (c :: t))) _ []); [exact Logic.I|reflexivity|constructor].
Qed.
Lemma cleared_misc d x dd : n_misc (d_at d x) = Some dd -> dd = fst (dd_run (fun x => x) dd_empty [OSet (s "SpaceAfter") VNone]) ->
  misc_ok (n_misc (d_at d x)).
Proof.
  intros -> ->. exists (fun x => x). apply (reach _ None); [exact Logic.I|reflexivity|repeat constructor].
Qed.
Example C77_example : mwt_world six /\ sound_sentence six 0 /\
  (forall w, In w (h_desc (d_h six) 0) -> n_form (d_at six w) <> Some [] /\ misc_ok (n_misc (d_at six w)) /\ exists f, misc_of six w (s "OrigForm") = VStr f) /\
  token_descendants six 0 = Ok [TWord 1; TWord 2; TWord 3; TWord 4; TMwt 0] /\
  compute_text six 0 true = Ok (s "dimelo,al") /\
  let d' := fst (join_as_mwt letter true six 0) in
  token_descendants d' 0 = Ok [TMwt 1; TWord 4; TMwt 0] /\ n_form (d_at d' 3) = Some (s "la").
Proof.
  split; [exact six_world|]. split; [exact six_sound|]. split.
  - intros w I. vm_compute in I. split; [|split].
    + decompose [or] I; subst; try tauto; vm_compute; discriminate.
    + decompose [or] I; subst; try tauto.
      * apply (text_misc _ _ (s "SpaceAfter=No")); vm_compute; reflexivity.
      * apply (text_misc _ _ (s "SpaceAfter=No")); vm_compute; reflexivity.
      * apply (text_misc _ _ (s "OrigForm=la|SpaceAfter=No")); vm_compute; reflexivity.
      * apply (text_misc _ _ (s "SpaceAfter=No")); vm_compute; reflexivity.
      * eapply cleared_misc; vm_compute; reflexivity.
      * eapply cleared_misc; vm_compute; reflexivity.
    + decompose [or] I; subst; try tauto; eexists; vm_compute; reflexivity.
  - vm_compute. auto 10.
Qed.
(** A word with the empty FORM next to a glued word makes the block raise. *)
Theorem C77_empty_form : exists d r, sound_sentence d r /\ snd (join_as_mwt letter true d r) = Raise IndexError.
Proof.
  exists (mkDoc (planted [0; 1]) (fun x => match x with 1 => word "di" "SpaceAfter=No" | _ => word "" "_" end) (fun _ => None) (fun _ => []) (fun _ => no_mwt) 0 (fun _ => no_rinfo)), 0.
  split; [|vm_compute; reflexivity]. constructor; cbn [d_h d_mwts d_m d_mwt].
  - planted_ok.
  - apply world_agree. apply attrs_world.
  - split; [intros m []|]. intros w m I E. discriminate.
  - intros e I. vm_compute in I. tauto.
  - split; [|intros m []]. intros w I. vm_compute in I. decompose [or] I; subst; try tauto; vm_compute; discriminate.
Qed.
Print Assumptions C77_empty_form.
