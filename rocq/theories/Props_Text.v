(** C41, C42: tokenization of texts and SpaceAfter. *)
From Coq Require Import String List NArith ZArith Bool Lia.
From Verif Require Import PyStr PyList PyListFacts PyExn TreeModel TreeSpec TreeProps TreeExamples DualDictModel DualDictSpec
  DocModel MwtSpec MwtProofs TextModel TextSpec TextProofs TextSpace Props_Mwt.
Import ListNotations.
Local Open Scope string_scope.
Local Open Scope list_scope.

(** A sentence that is not tokenized yet. *)
Definition sentence (x : str) : doc :=
  mkDoc (planted []) (fun _ => no_attrs) (fun _ => None) (fun _ => []) (fun _ => no_mwt) 0
        (fun _ => mkRI None None (Some x) [] VNone VNone [] []).
Lemma sentence_consistent x : consistent (d_h (sentence x)) 0.
Proof. unfold sentence. cbn [d_h]. planted_ok. Qed.
Definition said : str := s " He said:" ++ [TAB; SP] ++ s "Hi!" ++ [LF].
Lemma said_words : words_of said [s "He"; s "said:"; s "Hi!"].
Proof.
  assert (SO : forall x, forallb (fun c => negb (is_space c)) x = true -> solid x).
  { intros x H c I. apply (proj1 (forallb_forall _ _)) with (x := c) in H; auto. now apply negb_true_iff. }
  assert (BL : forall x, forallb is_space x = true -> blank x).
  { intros x H c I. apply (proj1 (forallb_forall _ _)) with (x := c) in H; auto. }
  apply (wo_more (s " ") (s "He") SP (s "said:" ++ [TAB; SP] ++ s "Hi!" ++ [LF])); [apply BL|discriminate|apply SO|..]; try reflexivity.
  apply (wo_more (s " ") (s "said:") TAB ([SP] ++ s "Hi!" ++ [LF])); [apply BL|discriminate|apply SO|..]; try reflexivity.
  apply (wo_more [TAB; SP] (s "Hi!") LF []); [apply BL|discriminate|apply SO|..]; try reflexivity.
  apply wo_none, BL. reflexivity.
Qed.
(** The ASCII part of \w. *)
Definition ascii_word (c : char) : bool :=
  ((48 <=? c) && (c <=? 57) || (65 <=? c) && (c <=? 90) || (97 <=? c) && (c <=? 122) || (c =? 95))%N.
Lemma ascii_word_solid c : ascii_word c = true -> is_space c = false.
Proof.
  unfold ascii_word. intros H. assert (L : (48 <= c <= 122)%N).
  { repeat (apply orb_prop in H as [H|H]); try (apply andb_prop in H as [H1 H2]; apply N.leb_le in H1, H2; lia).
    apply N.eqb_eq in H. lia. }
  destruct (is_space c) eqn:E; [|reflexivity]. exfalso. clear H. unfold is_space in E.
  repeat (apply orb_prop in E as [E|E]); try (apply andb_prop in E as [E1 E2]; apply N.leb_le in E1, E2; lia);
    apply N.eqb_eq in E; lia.
Qed.

(** C41: every text has words, and only in one way. *)
Theorem C41_words : forall x, exists ws, words_of x ws /\ forall ws', words_of x ws' -> ws' = ws.
Proof. intros x. destruct (words_exist x) as [ws W]. exists ws. split; [exact W|]. intros ws' W'. exact (words_unique _ _ _ W' W). Qed.
Print Assumptions C41_words.
Theorem C41_on_whitespace : forall d r x ws, consistent (d_h d) r -> h_ch (d_h d) r = [] -> ri_text (d_ri d r) = Some x ->
  words_of x ws ->
  exists d', tokenize_tree tokenize_on_whitespace false d r = (d', Ok tt) /\ consistent (d_h d') r /\ flat d' r /\
    map (fun n => n_form (d_at d' n)) (h_desc (d_h d') r) = map Some ws /\
    compute_text d' r true = Ok (join (s " ") ws) /\ d_ri d' = d_ri d.
Proof. exact on_whitespace_statement. Qed.
Print Assumptions C41_on_whitespace.
Theorem C41_on_whitespace_keep : forall d r x ws, consistent (d_h d) r -> h_ch (d_h d) r = [] -> ri_text (d_ri d r) = Some x ->
  words_of x ws -> ws <> [] ->
  exists d' n l b y, tokenize_tree tokenize_on_whitespace true d r = (d', Ok tt) /\ consistent (d_h d') r /\ flat d' r /\
    compute_text d' r true = Ok (join (s " ") ws) /\
    map (fun n => n_form (d_at d' n)) (h_desc (d_h d') r) = map Some ws /\
    h_desc (d_h d') r = n :: l /\ space_before (n_misc (d_at d' n)) b /\ encoded d' (n :: l) y /\ x = b ++ y /\ d_ri d' = d_ri d.
Proof. exact on_whitespace_keep. Qed.
Print Assumptions C41_on_whitespace_keep.
(** tokenize.Simple, for any class \w of characters that are not whitespace. *)
Theorem C41_simple : forall wd, (forall c, wd c = true -> is_space c = false) ->
  forall d r x ws, consistent (d_h d) r -> h_ch (d_h d) r = [] -> ri_text (d_ri d r) = Some x -> words_of x ws ->
  exists d' ts, tokenize_tree (tokenize_simple wd) false d r = (d', Ok tt) /\ consistent (d_h d') r /\ flat d' r /\
    map (fun n => n_form (d_at d' n)) (h_desc (d_h d') r) = map Some ts /\
    concat ts = ink x /\ Forall (simple_token wd) ts /\
    (forall l1 n n' l2 f f', h_desc (d_h d') r = l1 ++ n :: n' :: l2 -> n_form (d_at d' n) = Some f -> n_form (d_at d' n') = Some f' ->
       (forall c, In c f -> wd c = true) -> (forall c, In c f' -> wd c = true) -> misc_get (n_misc (d_at d' n)) (s "SpaceAfter") = VStr []) /\
    compute_text d' r true = Ok (join (s " ") ws) /\ d_ri d' = d_ri d.
Proof. exact simple_statement. Qed.
Print Assumptions C41_simple.
Theorem C41_simple_keep : forall wd, (forall c, wd c = true -> is_space c = false) ->
  forall d r x ws, consistent (d_h d) r -> h_ch (d_h d) r = [] -> ri_text (d_ri d r) = Some x ->
  words_of x ws -> ws <> [] ->
  exists d' n l b y, tokenize_tree (tokenize_simple wd) true d r = (d', Ok tt) /\ consistent (d_h d') r /\ flat d' r /\
    compute_text d' r true = Ok (join (s " ") ws) /\
    h_desc (d_h d') r = n :: l /\ space_before (n_misc (d_at d' n)) b /\ encoded d' (n :: l) y /\ x = b ++ y /\ d_ri d' = d_ri d.
Proof. exact simple_keep. Qed.
Print Assumptions C41_simple_keep.
(** A tree that already has words is refused and left alone. *)
Theorem C41_already_tokenized : forall tok keep d r, consistent (d_h d) r -> h_desc (d_h d) r <> [] ->
  tokenize_tree tok keep d r = (d, Raise ValueError).
Proof.
  intros tok keep d r C N. unfold tokenize_tree. destruct (h_ch (d_h d) r) eqn:E; [|reflexivity].
  elim N. exact (no_children_no_words _ _ C E).
Qed.
Print Assumptions C41_already_tokenized.
Example C41_case : consistent (d_h (sentence said)) 0 /\ h_ch (d_h (sentence said)) 0 = [] /\
  ri_text (d_ri (sentence said) 0) = Some said /\ words_of said [s "He"; s "said:"; s "Hi!"] /\
  (forall c, ascii_word c = true -> is_space c = false) /\
  (let d := fst (tokenize_tree (tokenize_simple ascii_word) false (sentence said) 0) in
   map (fun n => n_form (d_at d n)) (h_desc (d_h d) 0) = map Some [s "He"; s "said"; s ":"; s "Hi"; s "!"] /\
   map (fun n => misc_get (n_misc (d_at d n)) (s "SpaceAfter")) (h_desc (d_h d) 0) =
     [VStr []; VStr (s "No"); VStr []; VStr (s "No"); VStr []]) /\
  (let d := fst (tokenize_tree tokenize_on_whitespace true (sentence said) 0) in
   map (fun n => misc_get (n_misc (d_at d n)) (s "SpacesAfter")) (h_desc (d_h d) 0) = [VStr []; VStr (s "\t\s"); VStr (s "\n")] /\
   misc_get (n_misc (d_at d 1)) (s "SpacesBefore") = VStr (s "\s")).
Proof.
  split; [apply sentence_consistent|]. split; [reflexivity|]. split; [reflexivity|]. split; [exact said_words|].
  split; [exact ascii_word_solid|]. split; vm_compute; auto.
Qed.
Example C41_refused : consistent (d_h four) 0 /\ h_desc (d_h four) 0 <> [].
Proof. split; [exact four_consistent|]. vm_compute. discriminate. Qed.

(** C42: [y] is the text with single spaces between the tokens. *)
Theorem C42_text_restored : forall d r ts text y, consistent (d_h d) r -> mwts_agree d -> contiguous d r ->
  (forall t, In t ts -> proper_form d t /\ misc_ok (token_misc d t)) ->
  (forall x, In x (h_emp (d_h d) r) -> misc_ok (n_misc (d_at d x))) ->
  token_descendants d r = Ok ts -> ri_text (d_ri d r) = Some text -> laid_out d ts text y ->
  exists d', set_space_after d r = (d', Ok tt) /\ only_space_after d d' /\ compute_text d' r true = Ok y /\
    (forall x, In x (h_emp (d_h d) r) -> ~ In x (h_desc (d_h d) r) -> misc_get (n_misc (d_at d' x)) (s "SpaceAfter") = VStr []).
Proof. exact set_space_statement. Qed.
Print Assumptions C42_text_restored.
(** If the forms contain no whitespace, y is the whole text with whitespace normalised. *)
Theorem C42_normalised : forall d ts text y ws, laid_out d ts text y ->
  (forall t, In t ts -> exists f, token_form d t = Some f /\ f <> [] /\ solid f) -> words_of text ws -> y = join (s " ") ws.
Proof. exact laid_words. Qed.
Print Assumptions C42_normalised.
Definition ya_text : str := s "vamonos!" ++ [TAB; SP] ++ s "Ya".
Definition ya : doc := put_ri with_mwt 0 (mkRI None None (Some ya_text) [] VNone VNone [] []).
Example C42_case : consistent (d_h ya) 0 /\ mwts_agree ya /\ contiguous ya 0 /\
  (forall t, In t [TMwt 0; TWord 3; TWord 4] -> proper_form ya t /\ misc_ok (token_misc ya t)) /\
  (forall x, In x (h_emp (d_h ya) 0) -> misc_ok (n_misc (d_at ya x))) /\
  token_descendants ya 0 = Ok [TMwt 0; TWord 3; TWord 4] /\ ri_text (d_ri ya 0) = Some ya_text /\
  laid_out ya [TMwt 0; TWord 3; TWord 4] ya_text (s "vamonos! Ya") /\
  (let d := put_m ya 0 (mkMwt [1; 2] (Some (s "vamonos")) None 0) in compute_text d 0 true = Ok (s "vamonos ! Ya") /\
     compute_text (fst (set_space_after d 0)) 0 true = Ok (s "vamonos! Ya")).
Proof.
  split; [exact four_consistent|].
  split; [exact (world_agree _ (mw_attrs _ _ _ with_mwt_world))|]. split; [exact with_mwt_contiguous|].
  split. { intros t [<-|[<-|[<-|[]]]]; (split; [eexists; split; [reflexivity|]; split; [discriminate|]; split; reflexivity|]);
           unfold token_misc; cbn -[dd_set]; try exact I.
           exists (fun x => x). apply (reach _ None _ [OSet (s "SpaceAfter") (VStr (s "No"))]); try reflexivity; repeat constructor. }
  split; [intros x H; vm_compute in H; destruct H|]. split; [vm_compute; reflexivity|]. split; [vm_compute; reflexivity|].
  split; [|split; vm_compute; reflexivity].
  apply (lo_joined ya (TMwt 0) [TWord 3; TWord 4] (s "vamonos") (s "!" ++ [TAB; SP] ++ s "Ya") (s "! Ya")); [vm_compute; reflexivity|].
  apply (lo_spaced ya (TWord 3) [TWord 4] (s "!") TAB [SP] (s "Ya") (s "Ya")); [vm_compute; reflexivity|reflexivity|intros c [<-|[]]; reflexivity|].
  apply (lo_last ya (TWord 4) (s "Ya") []); [vm_compute; reflexivity|intros c []].
Qed.
