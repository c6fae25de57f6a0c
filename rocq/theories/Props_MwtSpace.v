(** Properties of ud.FixMwtSpace: C85. *)
From Coq Require Import String List NArith ZArith Bool Lia.
From Verif Require Import PyStr PyList PyExn TreeModel TreeSpec TreeProps TreeExamples DualDictModel DocModel MwtSpec MwtProofs TokModel TokSpec TokProofs Props_Mwt Props_Tok
  MwtSpaceModel MwtSpaceSpec MwtSpaceProofs.
Import ListNotations.
Local Open Scope string_scope.
Local Open Scope list_scope.

(** C85. The block never raises on a well-formed sentence; exactly the multi-word tokens whose form has a space and is that of their words
    separated by spaces are replaced by their words; words, attributes, the other tokens and other trees stay. *)
Theorem C85_tokens : forall r d, sound_sentence d r -> exists d' ts ts',
  token_descendants d r = Ok ts /\ fix_mwt_space d r = (d', Ok tt) /\ sound_sentence d' r /\ token_descendants d' r = Ok ts' /\ unwrapped d ts ts' /\
  d_h d' = d_h d /\ d_at d' = d_at d /\ d_m d' = d_m d /\ d_ri d' = d_ri d /\ (forall q, q <> r -> d_mwts d' q = d_mwts d q).
Proof. exact space_prop. Qed.
Print Assumptions C85_tokens.

(** C85. The text is kept if SpaceAfter of the words says the same as that of the token.
    (Missing: this hypothesis, see C85_text_refuted.) *)
Theorem C85_text_partial : forall r d d', sound_sentence d r -> (forall m, In m (d_mwts d r) -> needless d m -> same_spacing d m) ->
  fix_mwt_space d r = (d', Ok tt) -> compute_text d' r true = compute_text d r true.
Proof. exact space_text. Qed.
Print Assumptions C85_text_partial.

(** Words: a b c d e; the tokens "a b" and "c d". *)
Definition sp_words (x : nat) : attrs :=
  match x with
  | 1 => fword "a" "_" "_" | 2 => fword "b" "_" "_" | 3 => fword "c" "_" "_" | 4 => fword "d" "_" "_" | 5 => fword "." "_" "SpaceAfter=No" | _ => no_attrs
  end.
Definition sp_five : doc := mkDoc (planted [0; 1; 5; 5; 1]) sp_words (fun _ => None) (fun _ => []) (fun _ => no_mwt) 0 (fun _ => no_rinfo).
Definition sp_doc (m1 f2 m2 : string) : doc :=
  fst (create_multiword_token (fst (create_multiword_token sp_five 0 [1; 2] (Some (s "a b")) (s m1))) 0 [3; 4] (Some (s f2)) (s m2)).
Definition sp_lost : doc := sp_doc "_" "c d" "SpaceAfter=No".
Definition sp_kept : doc := sp_doc "_" "c  d" "SpaceAfter=No".
Lemma sp_world m1 f2 m2 : mwt_world (sp_doc m1 f2 m2).
Proof.
  unfold sp_doc. apply mw_create; [apply mw_create; [apply attrs_world|vm_compute; lia|]| |].
  - intros w [<-|[<-|[]]]; vm_compute; lia.
  - vm_compute; lia.
  - intros w [<-|[<-|[]]]; vm_compute; lia.
Qed.
Ltac sp_ok d :=
  assert (W : mwt_world d) by (unfold d; apply sp_world);
  constructor;
  [ change (d_h d) with (d_h sp_five); unfold sp_five; cbn [d_h]; planted_ok
  | exact (world_agree _ W)
  | split;
    [ intros m I; vm_compute in I; decompose [or] I; subst; try tauto; (split; [vm_compute; discriminate|]);
      [exists [], [3; 4; 5]; vm_compute; reflexivity | exists [1; 2], [5]; vm_compute; reflexivity]
    | intros w m I E; vm_compute in I; decompose [or] I; subst; vm_compute in E; try discriminate; try tauto; injection E as <-; vm_compute; tauto ]
  | intros e I; vm_compute in I; tauto
  | split;
    [ intros w I; vm_compute in I; decompose [or] I; subst; try tauto; vm_compute; discriminate
    | intros m I; vm_compute in I; decompose [or] I; subst; try tauto; vm_compute; discriminate ] ].
Lemma sp_lost_sound : sound_sentence sp_lost 0.
Proof. sp_ok sp_lost. Qed.
Lemma sp_kept_sound : sound_sentence sp_kept 0.
Proof. sp_ok sp_kept. Qed.

(** C85. mwt.remove forgets SpaceAfter=No of the token: the text gets a space. *)
Theorem C85_text_refuted : ~ (forall r d d', sound_sentence d r -> fix_mwt_space d r = (d', Ok tt) -> compute_text d' r true = compute_text d r true).
Proof.
  intros H. specialize (H 0 sp_lost (fst (fix_mwt_space sp_lost 0)) sp_lost_sound).
  assert (E : compute_text (fst (fix_mwt_space sp_lost 0)) 0 true <> compute_text sp_lost 0 true) by (vm_compute; discriminate).
  apply E, H. assert (S : snd (fix_mwt_space sp_lost 0) = Ok tt) by (vm_compute; reflexivity). rewrite <- S. apply surjective_pairing.
Qed.
Print Assumptions C85_text_refuted.

(** The first token is replaced by its words, the second one ("c  d", two spaces) stays. *)
Example C85_example : let d := sp_kept in
  sound_sentence d 0 /\ needless d 0 /\ same_spacing d 0 /\
  token_descendants d 0 = Ok [TMwt 0; TMwt 1; TWord 5] /\
  token_descendants (fst (fix_mwt_space d 0)) 0 = Ok [TWord 1; TWord 2; TMwt 1; TWord 5] /\
  compute_text (fst (fix_mwt_space d 0)) 0 true = Ok (s "a b c  d.").
Proof.
  cbv zeta. split; [exact sp_kept_sound|]. split; [|split; [|vm_compute; auto]].
  - exists (s "a b"). split; [reflexivity|]. split; [vm_compute; auto|]. change (s "a b") with (s "a" ++ [SP] ++ s "b").
    change (m_words (d_m sp_kept 0)) with [1; 2]. constructor; [reflexivity|]. constructor. reflexivity.
  - exists [1], 2. split; [reflexivity|]. split.
    + intros x [<-|[]] N. vm_compute in N. discriminate.
    + split; intros N; vm_compute in N; discriminate.
Qed.
