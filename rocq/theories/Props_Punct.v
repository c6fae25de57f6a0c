(** C75: ud.FixPunct. *)
From Coq Require Import String List NArith ZArith Bool Lia.
From Verif Require Import PyStr PyList PyExn TreeModel TreeSpec TreeProps TreeExamples DeprelModel
  RehangModel RehangSpec PunctModel PunctProofs PunctThms PunctProj PunctPairs Props_Rehang.
Import ListNotations.
Local Open Scope string_scope.
Local Open Scope list_scope.

(** ---- example sentences: parents, labels, forms, UPOS tags ---- *)
Definition tags (ts : list string) (x : nat) : option str :=
  match x with O => Some (s "<ROOT>") | S i => option_map s (nth_error ts i) end.
Definition forms (fs : list str) (x : nat) : str :=
  match x with O => s "<ROOT>" | S i => nth i fs [] end.
Definition tagged (ps : list nat) (ds ts : list string) : lst := mkL (planted ps) (labels ds) (tags ts) (fun _ => []).
Definition comma := s ",". Definition stop := s ".". Definition word := s "w".
Definition lpar := s "(". Definition rpar := s ")". Definition lbrace := s "{". Definition rbrace := s "}".
Definition lbrack := s "[". Definition dquote : str := [34%N].

(** w ( w ) , w . with punctuation attached at random *)
Definition bracketed := tagged [5; 1; 6; 1; 6; 0; 1] ["dep"; "punct"; "dep"; "punct"; "punct"; "root"; "punct"] ["X"; "PUNCT"; "X"; "PUNCT"; "PUNCT"; "X"; "PUNCT"].
Definition bracketed_forms := forms [word; lpar; word; rpar; comma; word; stop].
Lemma bracketed_ok : consistent (l_heap bracketed) 0.
Proof. unfold bracketed, tagged. cbn [l_heap]. planted_ok. Qed.
(** , . w w : the second mark is attached across the head *)
Definition crossed := tagged [4; 4; 0; 3] ["punct"; "punct"; "root"; "dep"] ["PUNCT"; "PUNCT"; "X"; "X"].
Definition crossed_forms := forms [comma; stop; word; word].
Lemma crossed_ok : consistent (l_heap crossed) 0.
Proof. unfold crossed, tagged. cbn [l_heap]. planted_ok. Qed.
(** ( , ) where the opening mark is tagged SYM *)
Definition symbol := tagged [3; 3; 0] ["punct"; "punct"; "root"] ["SYM"; "PUNCT"; "PUNCT"].
Definition symbol_forms := forms [lpar; comma; rpar].
Lemma symbol_ok : consistent (l_heap symbol) 0.
Proof. unfold symbol, tagged. cbn [l_heap]. planted_ok. Qed.
(** overlapping pairs, all of them tagged PUNCT *)
Definition overlapping := tagged [0; 0; 8; 6; 6; 1; 2; 2; 8; 7]
  ["root"; "root"; "punct"; "punct"; "punct"; "punct"; "punct"; "dep"; "punct"; "punct"]
  ["X"; "PUNCT"; "PUNCT"; "PUNCT"; "PUNCT"; "PUNCT"; "PUNCT"; "X"; "PUNCT"; "PUNCT"].
Definition overlapping_forms := forms [word; lpar; dquote; lbrace; dquote; lpar; lpar; word; rbrace; lbrack].
Lemma overlapping_ok : consistent (l_heap overlapping) 0.
Proof. unfold overlapping, tagged. cbn [l_heap]. planted_ok. Qed.
(** w ( , ) *)
Definition only_comma := tagged [0; 4; 4; 1] ["root"; "punct"; "punct"; "punct"] ["X"; "PUNCT"; "PUNCT"; "PUNCT"].
Definition only_comma_forms := forms [word; lpar; comma; rpar].
Lemma only_comma_ok : consistent (l_heap only_comma) 0.
Proof. unfold only_comma, tagged. cbn [l_heap]. planted_ok. Qed.
(** w , w . with two words on the root *)
Definition two_tops := tagged [0; 4; 0; 2] ["root"; "punct"; "root"; "punct"] ["X"; "PUNCT"; "X"; "PUNCT"].
Definition two_tops_forms := forms [word; comma; word; stop].
Lemma two_tops_ok : consistent (l_heap two_tops) 0.
Proof. unfold two_tops, tagged. cbn [l_heap]. planted_ok. Qed.

Lemma no_opening (form : nat -> str) l : forallb (fun x => forallb (fun oc => negb (str_eqb (form x) (fst oc))) paired_punct) l = true ->
  forall x o c, In x l -> In (o, c) paired_punct -> form x <> o.
Proof.
  intros G x o c Hx Ho E. rewrite forallb_forall in G. specialize (G x Hx). rewrite forallb_forall in G. specialize (G (o, c) Ho). cbn [fst] in G.
  rewrite E, PyStrFacts.str_eqb_refl in G. discriminate.
Qed.
Lemma all_marks (form : nat -> str) (upos : nat -> option str) l : forallb (fun x => str_eqb (form x) (s "w") || ostr_eqb (upos x) (s "PUNCT")) l = true ->
  forall x, In x l -> form x <> s "w" -> upos x = Some (s "PUNCT").
Proof.
  intros G x Hx N. rewrite forallb_forall in G. specialize (G x Hx). apply orb_true_iff in G as [G|G]; [exfalso; apply N; now apply PyStrFacts.str_eqb_eq|now apply RehangProofs.ostr_eqb_eq].
Qed.

(** The opening and closing marks other than the two ASCII quotes (code points). *)
Definition brackets : list str := map (fun n => [n]) [40; 41; 91; 93; 123; 125; 8220; 8221; 8222; 171; 187; 8249; 8250; 12298; 12299; 12300; 12301; 12302; 12303; 191; 63; 161; 33]%N.
Lemma plain_word check_upos form st p : l_upos st p <> Some (s "PUNCT") -> (check_upos = true \/ ~ In (form p) brackets) -> is_punct check_upos form st p = false.
Proof.
  intros U B. unfold is_punct, upos_punct. destruct (ostr_eqb (l_upos st p) (s "PUNCT")) eqn:E; [exfalso; apply U; now apply RehangProofs.ostr_eqb_eq|].
  destruct check_upos; auto. destruct B as [B|B]; [discriminate|]. destruct (in_quotes (form p)) eqn:Q; auto.
  destruct (existsb _ paired_punct) eqn:X; auto. exfalso. unfold in_quotes in Q. cbn [existsb] in Q. rewrite !orb_false_iff in Q. destruct Q as (_ & Q1 & Q2 & _).
  apply existsb_exists in X as ([a b] & J & EQ). cbn [fst snd] in EQ. apply orb_true_iff in EQ.
  assert (EQ' : form p = a \/ form p = b) by (destruct EQ as [EQ|EQ]; apply PyStrFacts.str_eqb_eq in EQ; auto). clear EQ. apply B.
  assert (N1 : form p <> [39%N]) by (intros Y; rewrite Y, PyStrFacts.str_eqb_refl in Q1; discriminate).
  assert (N2 : form p <> [34%N]) by (intros Y; rewrite Y, PyStrFacts.str_eqb_refl in Q2; discriminate).
  cbn [paired_punct In] in J. repeat (destruct J as [J|J]; [injection J as <- <-; destruct EQ' as [EQ'|EQ']; rewrite EQ' in *; try congruence; vm_compute; tauto|]). destruct J.
Qed.

(** C75. *)
Theorem C75_result_partial : forall check_upos form r st, consistent (l_heap st) r ->
  l_upos st r = Some (s "<ROOT>") -> form r = s "<ROOT>" -> h_desc (l_heap st) r <> [] ->
  exists st' res, fix_punct check_upos form st r = (st', res) /\
    (* whatever happens: the same words in a consistent tree, nothing else touched *)
    rehung (l_heap st) (l_heap st') r /\ (forall x, l_upos st' x = l_upos st x) /\ (forall x, l_pproj st' x = l_pproj st x) /\
    (forall x, ~ In x (h_desc (l_heap st) r) -> l_dep st' x = l_dep st x) /\
    (* it ends, and the only possible exception is that an attachment would make a cycle *)
    (res = Ok tt \/ res = Raise CycleError) /\
    (* if it ends well: one child of the root, labelled root; other labels are as before, or
       'punct' on punctuation, or had the universal part root, which is now punct *)
    (res = Ok tt -> exists c, h_ch (l_heap st') r = [c] /\ udep st' c = Some (s "root") /\
       forall x, In x (h_desc (l_heap st) r) -> x <> c ->
         l_dep st' x = l_dep st x \/ (ostr_eqb (l_upos st x) (s "PUNCT") = true /\ l_dep st' x = Some (s "punct")) \/
         (udep st x = Some (s "root") /\ l_dep st' x = set_udeprel (l_dep st x) (s "punct"))).
Proof. exact fix_punct_prop. Qed.
Print Assumptions C75_result_partial.
Example C75_result_example : consistent (l_heap bracketed) 0 /\ l_upos bracketed 0 = Some (s "<ROOT>") /\ bracketed_forms 0 = s "<ROOT>" /\
  parents bracketed 0 = [Some 5; Some 1; Some 6; Some 1; Some 6; Some 0; Some 1] /\
  let '(st', res) := fix_punct false bracketed_forms bracketed 0 in
  res = Ok tt /\ parents st' 0 = [Some 6; Some 3; Some 6; Some 3; Some 3; Some 0; Some 6].
Proof. split; [exact bracketed_ok|]. vm_compute. auto 10. Qed.

(** Sentences without an opening mark: no exception, and where the words hang. *)
Theorem C75_no_pairs_partial : forall check_upos form r st, consistent (l_heap st) r ->
  l_upos st r = Some (s "<ROOT>") -> form r = s "<ROOT>" -> h_desc (l_heap st) r <> [] ->
  (forall x o c, In x (h_desc (l_heap st) r) -> In (o, c) paired_punct -> form x <> o) ->
  exists st' c, fix_punct check_upos form st r = (st', Ok tt) /\ h_ch (l_heap st') r = [c] /\
    (* punctuation has no children, unless it is the only child of the root *)
    (forall x p, In x (h_desc (l_heap st) r) -> h_par (l_heap st') x = Some p -> l_upos st p <> Some (s "PUNCT") \/ p = c) /\
    (* a word that is no punctuation and did not hang on punctuation or on the root stays *)
    (forall x p, In x (h_desc (l_heap st) r) -> l_upos st x <> Some (s "PUNCT") -> h_par (l_heap st) x = Some p -> p <> r ->
       l_upos st p <> Some (s "PUNCT") -> (check_upos = true \/ ~ In (form p) brackets) -> h_par (l_heap st') x = Some p) /\
    (* any other word that is no punctuation goes up, or below the child of the root *)
    (forall x p, In x (h_desc (l_heap st) r) -> l_upos st x <> Some (s "PUNCT") -> h_par (l_heap st') x = Some p ->
       up (l_heap st) x p \/ p = c).
Proof.
  intros chk form r st C RU RF NE NP. destruct (no_pairs_prop chk form r st C RU RF NE NP) as (st' & c & A & B & D & F & G). exists st', c.
  split; [exact A|]. split; [exact B|]. split; [exact D|]. split; [|exact G]. intros x p Hx Ux Ep Np Up Bp. apply F; auto. now apply plain_word.
Qed.
Print Assumptions C75_no_pairs_partial.
Example C75_no_pairs_example : consistent (l_heap two_tops) 0 /\ l_upos two_tops 0 = Some (s "<ROOT>") /\ two_tops_forms 0 = s "<ROOT>" /\
  (forall x o c, In x (h_desc (l_heap two_tops) 0) -> In (o, c) paired_punct -> two_tops_forms x <> o) /\
  parents (fst (fix_punct false two_tops_forms two_tops 0)) 0 = [Some 0; Some 1; Some 1; Some 3].
Proof.
  split; [exact two_tops_ok|]. split; [reflexivity|]. split; [reflexivity|]. split; [|vm_compute; reflexivity].
  apply no_opening. vm_compute. reflexivity.
Qed.

(** Sentences without an opening mark in which no two marks are neighbours (and which do not start with a substring
    of .?! tagged PUNCT): every mark is attached projectively to a word, and no mark makes another word non-projective. *)
Definition lonely := tagged [3; 5; 0; 1; 3; 4] ["punct"; "dep"; "root"; "punct"; "dep"; "punct"] ["PUNCT"; "X"; "X"; "PUNCT"; "X"; "PUNCT"].
Definition lonely_forms := forms [comma; word; word; comma; word; stop].
Lemma lonely_ok : consistent (l_heap lonely) 0.
Proof. unfold lonely, tagged. cbn [l_heap]. planted_ok. Qed.
Theorem C75_isolated_partial : forall check_upos form r st, consistent (l_heap st) r ->
  l_upos st r = Some (s "<ROOT>") -> form r = s "<ROOT>" ->
  (forall x o c, In x (h_desc (l_heap st) r) -> In (o, c) paired_punct -> form x <> o) ->
  (forall x y, In x (h_desc (l_heap st) r) -> In y (h_desc (l_heap st) r) -> h_ord (l_heap st) y = (h_ord (l_heap st) x + 1)%Z ->
     l_upos st x = Some (s "PUNCT") -> l_upos st y <> Some (s "PUNCT")) ->
  (forall x a b, In x (h_desc (l_heap st) r) -> h_ord (l_heap st) x = 1%Z -> l_upos st x = Some (s "PUNCT") -> s ".?!" <> a ++ form x ++ b) ->
  (exists w, In w (h_desc (l_heap st) r) /\ l_upos st w <> Some (s "PUNCT")) ->
  exists st', fix_punct check_upos form st r = (st', Ok tt) /\
    (forall x, In x (h_desc (l_heap st) r) -> l_upos st x = Some (s "PUNCT") -> is_nonprojective (l_heap st') x = Ok false /\
       exists p, h_par (l_heap st') x = Some p /\ In p (h_desc (l_heap st) r) /\ l_upos st p <> Some (s "PUNCT")) /\
    (forall z p, In z (h_desc (l_heap st) r) -> h_par (l_heap st') z = Some p ->
       (* if all the words between z and its parent that are no marks are below the parent *)
       (forall w, In w (h_desc (l_heap st) r) -> l_upos st w <> Some (s "PUNCT") ->
          ((h_ord (l_heap st) z < h_ord (l_heap st) w < h_ord (l_heap st) p)%Z \/ (h_ord (l_heap st) p < h_ord (l_heap st) w < h_ord (l_heap st) z)%Z) ->
          up (l_heap st') w p) ->
       is_nonprojective (l_heap st') z = Ok false).
Proof. exact isolated_prop. Qed.
Print Assumptions C75_isolated_partial.
Example C75_isolated_example : consistent (l_heap lonely) 0 /\ l_upos lonely 0 = Some (s "<ROOT>") /\ lonely_forms 0 = s "<ROOT>" /\
  (forall x o c, In x (h_desc (l_heap lonely) 0) -> In (o, c) paired_punct -> lonely_forms x <> o) /\
  (forall x y, In x (h_desc (l_heap lonely) 0) -> In y (h_desc (l_heap lonely) 0) -> h_ord (l_heap lonely) y = (h_ord (l_heap lonely) x + 1)%Z ->
     l_upos lonely x = Some (s "PUNCT") -> l_upos lonely y <> Some (s "PUNCT")) /\
  (forall x a b, In x (h_desc (l_heap lonely) 0) -> h_ord (l_heap lonely) x = 1%Z -> l_upos lonely x = Some (s "PUNCT") -> s ".?!" <> a ++ lonely_forms x ++ b) /\
  (exists w, In w (h_desc (l_heap lonely) 0) /\ l_upos lonely w <> Some (s "PUNCT")) /\
  parents (fst (fix_punct false lonely_forms lonely 0)) 0 = [Some 3; Some 5; Some 0; Some 5; Some 3; Some 3].
Proof.
  split; [exact lonely_ok|]. split; [reflexivity|]. split; [reflexivity|].
  assert (W : h_desc (l_heap lonely) 0 = [1; 2; 3; 4; 5; 6]) by (vm_compute; reflexivity). rewrite W.
  split. { apply no_opening. vm_compute. reflexivity. }
  split. { intros x y Hx Hy. simpl in Hx, Hy. repeat (destruct Hx as [<-|Hx]; [repeat (destruct Hy as [<-|Hy]; [vm_compute; intros; congruence|]); destruct Hy|]). destruct Hx. }
  split. { intros x a b Hx. simpl in Hx. repeat (destruct Hx as [<-|Hx]; [try (vm_compute; intros; congruence)|]); [|destruct Hx].
           intros _ _ E. assert (J : In 44%N (s ".?!")) by (rewrite E; apply in_app_iff; right; apply in_app_iff; left; vm_compute; auto). vm_compute in J. intuition discriminate. }
  split. { exists 3. split; [simpl; auto|]. vm_compute. discriminate. }
  vm_compute. reflexivity.
Qed.

(** A pair of marks around a phrase: o and c are the marks, hd is the head of the phrase between them. *)
Definition phrased := tagged [0; 1; 4; 1; 3; 4; 1] ["root"; "punct"; "dep"; "dep"; "punct"; "dep"; "punct"] ["X"; "PUNCT"; "X"; "X"; "PUNCT"; "X"; "PUNCT"].
Definition phrased_forms := forms [word; lpar; word; word; rpar; word; stop].
Lemma phrased_ok : consistent (l_heap phrased) 0.
Proof. unfold phrased, tagged. cbn [l_heap]. planted_ok. Qed.
Theorem C75_pair_partial : forall check_upos form r st, consistent (l_heap st) r ->
  l_upos st r = Some (s "<ROOT>") -> form r = s "<ROOT>" ->
  forall o c hd, let words := h_desc (l_heap st) r in let pos := h_ord (l_heap st) in let inside x := (pos o < pos x < pos c)%Z in
  In o words -> In c words -> In hd words -> l_upos st o = Some (s "PUNCT") -> In (form o, form c) paired_punct ->
  (* no opening mark before this one *)
  (forall x a b, In x words -> (pos x < pos o)%Z -> In (a, b) paired_punct -> form x <> a) ->
  (* between the marks there are no marks, and all the words hang together on hd *)
  inside hd ->
  (forall x, In x words -> inside x -> l_upos st x <> Some (s "PUNCT") /\ forall a b, In (a, b) paired_punct -> form x <> a /\ form x <> b) ->
  (forall x, In x words -> inside x -> x <> hd -> exists p, h_par (l_heap st) x = Some p /\ inside p) ->
  (forall p, h_par (l_heap st) hd = Some p -> ~ inside p) ->
  (* a word outside that hangs on a word inside hangs on hd; nothing hangs on the two marks *)
  (forall x p, In x words -> x <> o -> x <> c -> ~ inside x -> h_par (l_heap st) x = Some p -> inside p -> p = hd) ->
  (forall x p, In x words -> h_par (l_heap st) x = Some p -> p <> o /\ p <> c) ->
  exists st' res, fix_punct check_upos form st r = (st', res) /\
    (* if the block ends well, both marks are attached to hd, projectively *)
    (res = Ok tt -> h_par (l_heap st') o = Some hd /\ h_par (l_heap st') c = Some hd /\
       is_nonprojective (l_heap st') o = Ok false /\ is_nonprojective (l_heap st') c = Ok false) /\
    (* if there is no other opening mark, it ends well *)
    ((forall x a b, In x words -> x <> o -> In (a, b) paired_punct -> form x <> a) -> res = Ok tt).
Proof. exact pair_prop. Qed.
Print Assumptions C75_pair_partial.
Lemma marks_at (form : nat -> str) l (keep : nat -> bool) : forallb (fun x => keep x || forallb (fun oc => negb (str_eqb (form x) (fst oc)) && negb (str_eqb (form x) (snd oc))) paired_punct) l = true ->
  forall x a b, In x l -> keep x = false -> In (a, b) paired_punct -> form x <> a /\ form x <> b.
Proof.
  intros G x a b Hx Kx Ho. rewrite forallb_forall in G. specialize (G x Hx). rewrite Kx in G. cbn [orb] in G. rewrite forallb_forall in G. specialize (G (a, b) Ho). cbn [fst snd] in G.
  apply andb_true_iff in G as [G1 G2]. split; intros E; rewrite E, PyStrFacts.str_eqb_refl in *; discriminate.
Qed.
Example C75_pair_example : consistent (l_heap phrased) 0 /\ l_upos phrased 0 = Some (s "<ROOT>") /\ phrased_forms 0 = s "<ROOT>" /\
  let o := 2 in let c := 5 in let hd := 4 in
  let words := h_desc (l_heap phrased) 0 in let pos := h_ord (l_heap phrased) in let inside x := (pos o < pos x < pos c)%Z in
  In o words /\ In c words /\ In hd words /\ l_upos phrased o = Some (s "PUNCT") /\ In (phrased_forms o, phrased_forms c) paired_punct /\
  (forall x a b, In x words -> x <> o -> In (a, b) paired_punct -> phrased_forms x <> a) /\
  inside hd /\
  (forall x, In x words -> inside x -> l_upos phrased x <> Some (s "PUNCT") /\ forall a b, In (a, b) paired_punct -> phrased_forms x <> a /\ phrased_forms x <> b) /\
  (forall x, In x words -> inside x -> x <> hd -> exists p, h_par (l_heap phrased) x = Some p /\ inside p) /\
  (forall p, h_par (l_heap phrased) hd = Some p -> ~ inside p) /\
  (forall x p, In x words -> x <> o -> x <> c -> ~ inside x -> h_par (l_heap phrased) x = Some p -> inside p -> p = hd) /\
  (forall x p, In x words -> h_par (l_heap phrased) x = Some p -> p <> o /\ p <> c) /\
  parents (fst (fix_punct false phrased_forms phrased 0)) 0 = [Some 0; Some 4; Some 4; Some 1; Some 4; Some 4; Some 1].
Proof.
  split; [exact phrased_ok|]. split; [reflexivity|]. split; [reflexivity|]. cbv zeta.
  assert (W : h_desc (l_heap phrased) 0 = [1; 2; 3; 4; 5; 6; 7]) by (vm_compute; reflexivity). rewrite W.
  assert (M := marks_at phrased_forms [1; 2; 3; 4; 5; 6; 7] (fun x => Nat.eqb x 2 || Nat.eqb x 5) ltac:(vm_compute; reflexivity)). cbv beta in M.
  assert (M2 := no_opening phrased_forms [1; 3; 4; 5; 6; 7] ltac:(vm_compute; reflexivity)).
  split; [simpl; auto|]. split; [simpl; auto 10|]. split; [simpl; auto 10|]. split; [reflexivity|]. split; [vm_compute; auto|].
  split. { intros x a b Hx N. apply M2. clear - Hx N. simpl in Hx |- *. intuition congruence. }
  split. { vm_compute. auto. }
  split. { intros x Hx Ix. split; [clear M M2|intros a b J; refine (M x a b Hx _ J); clear M M2 J]; simpl in Hx; repeat (destruct Hx as [<-|Hx]; [first [solve [exfalso; clear - Ix; vm_compute in Ix; destruct Ix; discriminate]|solve [clear; vm_compute; discriminate]|solve [clear; reflexivity]]|]); destruct Hx. }
  clear M M2.
  split. { intros x Hx I N. simpl in Hx. repeat (destruct Hx as [<-|Hx]; [first [solve [exfalso; clear - I; vm_compute in I; destruct I; discriminate]|solve [exfalso; clear - N; congruence]|solve [clear; exists 4; vm_compute; auto]]|]); destruct Hx. }
  split. { intros p. vm_compute. intros E. injection E as <-. intros []. discriminate. }
  split. { intros x p Hx N1 N2 I E J. simpl in Hx. repeat (destruct Hx as [<-|Hx]; [vm_compute in E; injection E as <-; first [solve [exfalso; clear - N1; congruence]|solve [exfalso; clear - N2; congruence]|solve [exfalso; clear - J; vm_compute in J; destruct J; discriminate]|solve [exfalso; clear - I; apply I; vm_compute; auto]|reflexivity]|]); destruct Hx. }
  split. { intros x p Hx E. simpl in Hx. repeat (destruct Hx as [<-|Hx]; [vm_compute in E; injection E as <-; split; discriminate|]); destruct Hx. }
  vm_compute. reflexivity.
Qed.

(** An empty sentence cannot be processed. *)
Theorem C75_empty : forall check_upos form r st, consistent (l_heap st) r -> h_desc (l_heap st) r = [] ->
  fix_punct check_upos form st r = (st, Raise IndexError).
Proof. intros chk form r st C. exact (empty_prop chk form r st C). Qed.
Print Assumptions C75_empty.
Example C75_empty_example : consistent (l_heap empty_sentence) 0 /\ h_desc (l_heap empty_sentence) 0 = [].
Proof. split; [exact empty_sentence_ok|reflexivity]. Qed.

Lemma ended form st : snd (fix_punct false form st 0) = Ok tt -> fix_punct false form st 0 = (fst (fix_punct false form st 0), Ok tt).
Proof. intros <-. apply surjective_pairing. Qed.
(** Punctuation may stay attached non-projectively. *)
Theorem C75_projective_refuted : exists form st st', consistent (l_heap st) 0 /\ l_upos st 0 = Some (s "<ROOT>") /\ form 0 = s "<ROOT>" /\
  fix_punct false form st 0 = (st', Ok tt) /\
  exists x, In x (h_desc (l_heap st') 0) /\ l_upos st' x = Some (s "PUNCT") /\ is_nonprojective (l_heap st') x = Ok true.
Proof.
  exists crossed_forms, crossed, (fst (fix_punct false crossed_forms crossed 0)). split; [exact crossed_ok|]. split; [reflexivity|]. split; [reflexivity|]. split; [apply ended; vm_compute; reflexivity|].
  exists 2. split; [vm_compute; auto 10|]. split; vm_compute; reflexivity.
Qed.
Print Assumptions C75_projective_refuted.
(** The block stops with CycleError: an opening mark not tagged PUNCT around punctuation. *)
Theorem C75_symbol_refuted : exists form st, consistent (l_heap st) 0 /\ l_upos st 0 = Some (s "<ROOT>") /\ form 0 = s "<ROOT>" /\
  snd (fix_punct false form st 0) = Raise CycleError.
Proof. exists symbol_forms, symbol. split; [exact symbol_ok|]. vm_compute. auto. Qed.
Print Assumptions C75_symbol_refuted.
(** The same with overlapping pairs, although every mark is tagged PUNCT. *)
Theorem C75_overlap_refuted : exists form st, consistent (l_heap st) 0 /\ l_upos st 0 = Some (s "<ROOT>") /\ form 0 = s "<ROOT>" /\
  (forall x, In x (h_desc (l_heap st) 0) -> form x <> s "w" -> l_upos st x = Some (s "PUNCT")) /\
  snd (fix_punct false form st 0) = Raise CycleError.
Proof.
  exists overlapping_forms, overlapping. split; [exact overlapping_ok|]. split; [reflexivity|]. split; [reflexivity|]. split; [|vm_compute; reflexivity].
  apply (all_marks overlapping_forms (l_upos overlapping)). vm_compute. reflexivity.
Qed.
Print Assumptions C75_overlap_refuted.
(** With pairs, a punctuation mark below the child of the root may have children. *)
Theorem C75_children_refuted : exists form st st' c, consistent (l_heap st) 0 /\ l_upos st 0 = Some (s "<ROOT>") /\ form 0 = s "<ROOT>" /\
  fix_punct false form st 0 = (st', Ok tt) /\ h_ch (l_heap st') 0 = [c] /\
  exists x, x <> c /\ In x (h_desc (l_heap st') 0) /\ l_upos st' x = Some (s "PUNCT") /\ h_ch (l_heap st') x <> [].
Proof.
  exists only_comma_forms, only_comma, (fst (fix_punct false only_comma_forms only_comma 0)), 1. split; [exact only_comma_ok|]. split; [reflexivity|]. split; [reflexivity|]. split; [apply ended; vm_compute; reflexivity|]. split; [vm_compute; reflexivity|].
  exists 3. split; [discriminate|]. split; [vm_compute; auto 10|]. split; [vm_compute; reflexivity|]. vm_compute. discriminate.
Qed.
Print Assumptions C75_children_refuted.
(** Another word may keep the label root. *)
Theorem C75_label_refuted : exists form st st' c x, consistent (l_heap st) 0 /\ l_upos st 0 = Some (s "<ROOT>") /\ form 0 = s "<ROOT>" /\
  fix_punct false form st 0 = (st', Ok tt) /\ h_ch (l_heap st') 0 = [c] /\ x <> c /\ In x (h_desc (l_heap st') 0) /\ udep st' x = Some (s "root").
Proof.
  exists two_tops_forms, two_tops, (fst (fix_punct false two_tops_forms two_tops 0)), 1, 3. split; [exact two_tops_ok|]. split; [reflexivity|]. split; [reflexivity|]. split; [apply ended; vm_compute; reflexivity|]. split; [vm_compute; reflexivity|].
  split; [discriminate|]. split; [vm_compute; auto 10|vm_compute; reflexivity].
Qed.
Print Assumptions C75_label_refuted.
