(** C23-C27, C57: reading and writing CoNLL-U. *)
From Coq Require Import String List NArith ZArith Bool Lia Sorted Permutation.
From Verif Require Import PyStr PyList PyListFacts PyExn TreeModel TreeSpec DualDictModel DualDictSpec DocModel MwtSpec
  TreeOps ConlluModel ConlluSpec ConlluRead ConlluLines ConlluTree ConlluRound ConlluCommentsAll.
Import ListNotations.
Local Open Scope string_scope.
Local Open Scope list_scope.

(** ---- A sentence with comments, a multi-word token and an empty node ---- *)
Definition w1 : wordv := mkWordv (s "vamos") (s "ir") (Some (s "VERB")) None (s "Mood=Imp") 0 (Some (s "root")) (s "0:root") (s "_").
Definition w2 : wordv := mkWordv (s "nos") (s "nosotros") (Some (s "PRON")) None (s "_") 1 (Some (s "obj")) (s "_") (s "_").
Definition w3 : wordv := mkWordv (s "!") (s "!") (Some (s "PUNCT")) None (s "_") 1 (Some (s "punct")) (s "_") (s "SpaceAfter=No").
Definition e1 : emptyv := mkEmptyv 2 1 (s "_") (s "yo") (s "PRON") (s "_") (s "_") (s "1:nsubj") (s "_").
Definition m1 : mwtv := mkMwtv 1 2 (s "vamonos") (s "SpaceAfter=No").
Definition sample (heads : nat * nat * nat) (comments : list citem) : sentv :=
  let '(a, b, c) := heads in
  mkSentv [with_head w1 a; with_head w2 b; with_head w3 c] [e1] [m1] comments (s "t1") (s "vamonos!") VTrue VNone
          (Some (s "eid-etype")) [(s "key", s "1")].
Definition good : sentv := sample (0, 1, 1) [CNewdoc; CEntity; COther (s " a comment"); CSentId; CText].
Definition bare : sentv := sample (0, 1, 1) [COther (s " a comment")].
Definition keep (x : str) : str := x.
Definition same (x : str) : option str := Some x.
Definition strictly : rcfg := mkRcfg true false.
Definition fixing : rcfg := mkRcfg true true.
Definition env1 : wenv := mkWenv (Some (s "t1")) (Some (s "eid-etype")).

Ltac chars := intros ? I; cbn in I; intuition (subst; try reflexivity; try discriminate).
Ltac crunch := repeat match goal with
  | |- _ /\ _ => split
  | |- Forall _ _ => constructor
  | |- True => exact I
  | |- ~ In _ _ => let H := fresh in intros H; cbn in H; intuition discriminate
  | |- ok_word _ => red | |- ok_empty _ _ => red | |- ok_mwt _ _ => red
  | |- column _ => red | |- dict_column _ => red
  | |- opt_column ?x => let y := eval hnf in x in change (opt_column y); unfold opt_column
  | |- _ <> _ => discriminate
  | |- _ <= _ => cbn; lia
  end.
Lemma comment_ordinary : ordinary (s " a comment").
Proof.
  repeat split; try discriminate.
  - chars.
  - intros [] S; try discriminate.
  - intros (s1 & e & s2 & a & x & E & _). discriminate.
  - intros (s1 & x & E & _). discriminate.
  - intros (n & [-> | ->] & [E|(s1 & s2 & x & E & _)]); discriminate.
  - intros (p & k & s1 & x & [-> | ->] & E & _); discriminate.
  - intros (a & s1 & s2 & b & x & E & _); discriminate.
Qed.
Lemma sample_representable heads l : (forall x, In (COther x) l -> x = s " a comment") -> NoDup l -> ~ In CNewpar l ->
  representable keep same (sample heads l).
Proof.
  intros HO ND NP. destruct heads as [[a b] c]. split; cbn [sample sv_words sv_empties sv_mwts sv_sent_id sv_text sv_newdoc sv_newpar sv_entity sv_json].
  - crunch.
  - discriminate.
  - crunch.
  - repeat constructor.
  - crunch.
  - repeat constructor.
  - intros m w [<-|[]] I. cbn in I. destruct I as [<-|[<-|[]]]; split; reflexivity.
  - split; [intros x I; rewrite (HO x I); exact comment_ordinary|]. split.
    + intros c' _ l1 l2 E. cbn in E. rewrite E in ND. apply NoDup_remove_2 in ND. split; intros I; apply ND, in_app_iff; auto.
    + cbn. repeat split; try discriminate. tauto.
  - split; [discriminate|chars].
  - split; [reflexivity|]. split; [reflexivity|]. crunch.
  - exact I.
  - exact I.
  - split; [discriminate|chars].
  - split; [repeat constructor|]. intros k x [[= <- <-]|[]]. crunch; reflexivity.
Qed.
Lemma good_representable : representable keep same good.
Proof.
  apply sample_representable.
  - cbn. intros x H. intuition congruence.
  - repeat constructor; cbn; intuition discriminate.
  - cbn. intuition discriminate.
Qed.
Lemma bare_representable : representable keep same bare.
Proof.
  apply sample_representable; cbn; try tauto; [intros x H; intuition congruence|repeat constructor; tauto|intuition discriminate].
Qed.

(** ---- C23 ---- *)
(** Any HEADs: the sentence is read if and only if they form a tree. *)
Theorem C23_read_iff_tree : forall cfg lower canon d0 ge v, representable lower canon v -> rc_fix_cycles cfg = false ->
  let r := h_next (d_h d0) in
  exists d o, read_tree_from_lines cfg canon lower d0 ge (conllu_lines v) = ((d, final_ge v ge), o) /\
    ((heads_ok (sv_words v) /\ o = Ok (Some r) /\ consistent (d_h d) r /\ tokens lower d r v) \/
     (~ heads_ok (sv_words v) /\ o = Raise ValueError)) /\
    (forall y, y < r -> same_object (d_h d0) (d_h d) y).
Proof. intros cfg lower canon d0 ge v RV. exact (read_iff cfg lower canon d0 ge v RV). Qed.
Print Assumptions C23_read_iff_tree.
(** Any lines at all: no endless loop, and a returned tree has no cycle. *)
Theorem C23_any_lines : forall cfg canon lower d0 ge lines, rc_fix_cycles cfg = false ->
  exists d ge' o, read_tree_from_lines cfg canon lower d0 ge lines = ((d, ge'), o) /\
    match o with
    | Ok (Some r) => attached (d_h d) r /\ h_next (d_h d0) <= r /\
                     (forall y, y < h_next (d_h d0) -> same_object (d_h d0) (d_h d) y)
    | Ok None => True
    | Raise _ => True
    | Diverge => False
    end.
Proof. exact read_any. Qed.
Print Assumptions C23_any_lines.
Example C23_example : representable keep same good /\ heads_ok (sv_words good) /\
  (exists d, read_tree_from_lines strictly same keep doc0 None (conllu_lines good) = ((d, Some (s "eid-etype")), Ok (Some 0)) /\
     map (h_par (d_h d)) (h_desc (d_h d) 0) = [Some 0; Some 1; Some 1] /\ h_emp (d_h d) 0 = [3]) /\
  ~ heads_ok (sv_words (sample (2, 1, 0) [])) /\ representable keep same (sample (2, 1, 0) []).
Proof.
  split; [exact good_representable|]. split.
  { split; [repeat constructor|]. intros i Hi. cbn in Hi. assert (E : i = 1 \/ i = 2 \/ i = 3) by lia.
    destruct E as [->|[-> | ->]]; repeat (apply reaches_here || apply reaches_up; cbn). }
  split; [eexists; split; [vm_compute; reflexivity|split; reflexivity]|]. split.
  - intros [_ H]. specialize (H 1 ltac:(cbn; lia)).
    assert (G : forall i, reaches0 (head_of (sv_words (sample (2, 1, 0) []))) i -> i = 1 \/ i = 2 -> False).
    { intros i R. induction R as [|i R IH]; intros [E|E]; try discriminate; subst i; apply IH; cbn; auto. }
    exact (G 1 H (or_introl eq_refl)).
  - apply sample_representable; cbn; try tauto. constructor.
Qed.

(** C57: negative HEADs are accepted and count from the end. *)
Definition neg_lines : list str :=
  [join [TAB] [s "1"; s "a"; s "a"; s "_"; s "_"; s "_"; s "-1"; s "_"; s "_"; s "_"];
   join [TAB] [s "2"; s "b"; s "b"; s "_"; s "_"; s "_"; s "0"; s "_"; s "_"; s "_"]].
Theorem C57_negative_head_refuted :
  ~ (forall cfg canon lower d0 ge lines, Exists (fun l => exists z, (z < 0)%Z /\ nth_error (split TAB l) 6 = Some (str_of_Z z)) lines ->
       exists p e, read_tree_from_lines cfg canon lower d0 ge lines = (p, Raise e)).
Proof.
  intros H. destruct (H strictly same keep doc0 None neg_lines) as (p & e & E).
  - left. exists (-1)%Z. split; [lia|reflexivity].
  - vm_compute in E. discriminate.
Qed.
Print Assumptions C57_negative_head_refuted.
Example C57_example : exists d ge, read_tree_from_lines strictly same keep doc0 None neg_lines = ((d, ge), Ok (Some 0)) /\
  map (h_par (d_h d)) (h_desc (d_h d) 0) = [Some 2; Some 0].
Proof. do 2 eexists. split; vm_compute; reflexivity. Qed.

(** ---- C24 ---- *)
Definition selfish (hs : list nat) : sentv :=
  mkSentv (map (fun h => mkWordv (s "a") (s "a") None None (s "_") h None (s "_") (s "_")) hs) [] [] [] (s "t") (s "a") VNone VNone None [].
Lemma selfish_representable hs : representable keep same (selfish hs).
Proof.
  split; cbn [selfish sv_words sv_empties sv_mwts sv_sent_id sv_text sv_newdoc sv_newpar sv_entity sv_json].
  - apply Forall_forall. intros w J. apply in_map_iff in J as (h & <- & _). crunch.
  - intros w E. destruct hs as [|h [|]]; try discriminate. injection E as <-. discriminate.
  - constructor.
  - constructor.
  - constructor.
  - constructor.
  - intros m w [].
  - split; [intros x []|]. split; [intros c _ [|] l2; discriminate|cbn; tauto].
  - split; [discriminate|chars].
  - split; [reflexivity|]. split; [reflexivity|]. crunch.
  - exact I.
  - exact I.
  - exact I.
  - split; [constructor|intros k x []].
Qed.
Theorem C24_fix_cycles_refuted :
  ~ (forall lower canon d0 ge v, representable lower canon v -> Forall (fun w => wv_head w <= length (sv_words v)) (sv_words v) ->
       exists d ge', read_tree_from_lines fixing canon lower d0 ge (conllu_lines v) = ((d, ge'), Ok (Some (h_next (d_h d0)))) /\
         consistent (d_h d) (h_next (d_h d0))).
Proof.
  intros H. destruct (H keep same doc0 None (selfish [1]) (selfish_representable [1])) as (d & ge' & E & C).
  - repeat constructor.
  - vm_compute in E. injection E as E _. pose proof (c_connected _ _ C 1) as U.
    assert (P1 : h_par (d_h d) 1 = Some 1) by (rewrite <- E; reflexivity).
    assert (D : In 1 (h_desc (d_h d) 0)) by (rewrite <- E; cbn; auto).
    specialize (U D). clear - U P1.
    assert (G : forall x a, up (d_h d) x a -> x = 1 -> a = 0 -> False).
    { induction 1 as [x p E|x p a E U' IH]; intros -> ->; rewrite P1 in E; [discriminate|]. injection E as <-. auto. }
    exact (G 1 0 U eq_refl eq_refl).
Qed.
Print Assumptions C24_fix_cycles_refuted.
(** A self-HEAD followed by another cycle makes the reader climb forever. *)
Theorem C24_fix_cycles_diverges : exists v p, representable keep same v /\ Forall (fun w => wv_head w <= length (sv_words v)) (sv_words v) /\
  read_tree_from_lines fixing same keep doc0 None (conllu_lines v) = (p, Diverge).
Proof.
  exists (selfish [1; 3; 1]). eexists. split; [apply selfish_representable|]. split; [repeat constructor|]. vm_compute. reflexivity.
Qed.
Print Assumptions C24_fix_cycles_diverges.
(** Missing: the case of a word that is its own HEAD (false, see above). *)
Theorem C24_fix_cycles_partial : forall cfg lower canon d0 ge v, representable lower canon v -> rc_fix_cycles cfg = true ->
  Forall (fun w => wv_head w <= length (sv_words v)) (sv_words v) ->
  (forall i, 1 <= i <= length (sv_words v) -> head_of (sv_words v) i <> i) ->
  let r := h_next (d_h d0) in
  exists d ws', read_tree_from_lines cfg canon lower d0 ge (conllu_lines v) = ((d, final_ge v ge), Ok (Some r)) /\
    consistent (d_h d) r /\ tokens lower d r (with_words v ws') /\ heads_fixed (sv_words v) ws'.
Proof. intros cfg lower canon d0 ge v RV. exact (read_fix cfg lower canon d0 ge v RV). Qed.
Print Assumptions C24_fix_cycles_partial.
Example C24_example : (forall i, 1 <= i <= length (sv_words (selfish [2; 3; 1])) -> head_of (sv_words (selfish [2; 3; 1])) i <> i) /\
  exists d, read_tree_from_lines fixing same keep doc0 None (conllu_lines (selfish [2; 3; 1])) = ((d, None), Ok (Some 0)) /\
    map (h_par (d_h d)) (h_desc (d_h d) 0) = [Some 2; Some 3; Some 0].
Proof.
  split; [|eexists; split; vm_compute; reflexivity]. intros i Hi. cbn in Hi. assert (E : i = 1 \/ i = 2 \/ i = 3) by lia.
  destruct E as [->|[-> | ->]]; cbn; discriminate.
Qed.

(** ---- C25 ---- *)
Theorem C25_write_then_read : forall lower canon v, representable lower canon v ->
  forall cfg env d r, consistent (d_h d) r -> sentence lower env d r v ->
  (In CEntity (sv_comments v) \/ set_val (sv_newdoc v) = true -> we_bundle env <> None) ->
  exists items lines, interleave (sv_comments v) (missing v) items /\
    process_tree wdefault env lower d r = Ok (lines ++ [[]]) /\
    forall d0 ge, let r' := h_next (d_h d0) in
    exists d' ge', read_tree_from_lines cfg canon lower d0 ge lines = ((d', ge'), Ok (Some r')) /\
      consistent (d_h d') r' /\
      (forall env', some_nonempty (we_ge env') = sv_entity v -> sentence lower env' d' r' (with_comments v items)) /\
      forall y, y < r' -> unchanged d0 d' y.
Proof. exact write_read. Qed.
Print Assumptions C25_write_then_read.
(** A tree in memory that contains [bare]: special comments have to be added when writing. *)
Definition good_tree : doc := fst (fst (read_tree_from_lines strictly same keep doc0 None (conllu_lines good))).
Definition bare_ri : rinfo := mkRI (Some (s "t1")) None (Some (s "vamonos!")) (s " a comment") VNone VTrue [(s "key", s "1")] [].
Definition bare_tree : doc := put_ri good_tree 0 bare_ri.
Lemma good_sentence : sentence keep env1 good_tree 0 good /\ consistent (d_h good_tree) 0.
Proof.
  unfold good_tree. destruct (read_ok strictly keep same doc0 None good good_representable) as (d & E & C & SE & _).
  - apply C23_example.
  - reflexivity.
  - rewrite E. split; [apply SE; reflexivity|exact C].
Qed.
Lemma bare_sentence d : tokens keep d 0 good -> sentence keep env1 (put_ri d 0 bare_ri) 0 bare.
Proof.
  intros [T1 T2 T3 T4]. assert (E : d_ri (put_ri d 0 bare_ri) 0 = bare_ri) by (cbn; apply upd_same).
  split; unfold shown_text; rewrite ?E; try reflexivity; [|apply sid_assigned; reflexivity|left; reflexivity|left; reflexivity].
  split; [exact T1|exact T2|exact T3|exact T4].
Qed.
Example C25_example : representable keep same bare /\ consistent (d_h bare_tree) 0 /\ sentence keep env1 bare_tree 0 bare /\
  missing bare = [CNewdoc; CEntity; CSentId; CText].
Proof.
  split; [exact bare_representable|]. split; [exact (proj2 good_sentence)|]. split; [|reflexivity].
  apply bare_sentence. apply (se_tokens _ _ _ _ _ (proj1 good_sentence)).
Qed.

(** ---- C26 ---- *)
Theorem C26_read_then_write : forall lower canon v, representable lower canon v ->
  forall cfg d0 ge, heads_ok (sv_words v) -> missing v = [] ->
  exists d' ge', let r' := h_next (d_h d0) in
    read_tree_from_lines cfg canon lower d0 ge (conllu_lines v) = ((d', ge'), Ok (Some r')) /\
    forall env, some_nonempty (we_ge env) = sv_entity v ->
      (In CEntity (sv_comments v) \/ set_val (sv_newdoc v) = true -> we_bundle env <> None) ->
      process_tree wdefault env lower d' r' = Ok (conllu_lines v ++ [[]]).
Proof. exact read_write. Qed.
Print Assumptions C26_read_then_write.
Example C26_example : representable keep same good /\ heads_ok (sv_words good) /\ missing good = [] /\
  some_nonempty (we_ge env1) = sv_entity good /\ we_bundle env1 <> None /\
  nth_error (conllu_lines good) 6 = Some (join [TAB] [s "1-2"; s "vamonos"; s "_"; s "_"; s "_"; s "_"; s "_"; s "_"; s "_"; s "SpaceAfter=No"]).
Proof. split; [exact good_representable|]. split; [apply C23_example|]. repeat split. discriminate. Qed.
(** The tenth empty node after a word does not survive: 1.10 is read as the float 1.1. *)
Definition ten_lines : list str :=
  [s "# sent_id = t"; s "# text = a"; join [TAB] [s "1"; s "a"; s "a"; s "_"; s "_"; s "_"; s "0"; s "_"; s "_"; s "_"];
   join [TAB] [s "1.10"; s "b"; s "b"; s "_"; s "_"; s "_"; s "_"; s "_"; s "0:dep"; s "_"]].
Theorem C26_tenth_empty_refuted : exists d ge lines,
  read_tree_from_lines strictly same keep doc0 None ten_lines = ((d, ge), Ok (Some 0)) /\
  process_tree wdefault env1 keep d 0 = Ok (lines ++ [[]]) /\
  nth_error lines 3 = Some (join [TAB] [s "1.1"; s "b"; s "b"; s "_"; s "_"; s "_"; s "_"; s "_"; s "0:dep"; s "_"]) /\ lines <> ten_lines.
Proof.
  do 2 eexists. exists (firstn 3 ten_lines ++ [join [TAB] [s "1.1"; s "b"; s "b"; s "_"; s "_"; s "_"; s "_"; s "_"; s "0:dep"; s "_"]]).
  split; [vm_compute; reflexivity|]. split; [vm_compute; reflexivity|]. split; [reflexivity|discriminate].
Qed.
Print Assumptions C26_tenth_empty_refuted.

(** ---- C27 ---- *)
(** Reading keeps every comment line, in order, as a special or an ordinary comment. *)
Theorem C27_read_keeps_comments : forall cfg canon lower d0 ge lines d ge' r,
  read_tree_from_lines cfg canon lower d0 ge lines = ((d, ge'), Ok (Some r)) ->
  (forall l a, In l lines -> is_comment l = true -> In a l -> is_linebreak a = false) ->
  exists items, Forall2 line_item (filter is_comment lines) items /\
    splitlines (ri_comment (d_ri d r)) = map placeholder (somes items).
Proof. exact read_comments. Qed.
Print Assumptions C27_read_keeps_comments.
(** Writing prints the comments in that order with the current values, adding the missing special
    ones.  Missing: comments equal to a placeholder such as "#$TEXT", duplicated special comments
    are printed twice, and nothing is printed (an exception) if the first comment is a newdoc,
    newpar or global.Entity whose value was deleted; see the refutations below. *)
Theorem C27_write_keeps_order_partial : forall env lower d r v out, header env d r v ->
  (forall x c, In (COther x) (sv_comments v) -> is_special c = true -> x <> placeholder c) ->
  (In CEntity (sv_comments v) \/ set_val (sv_newdoc v) = true -> we_bundle env <> None) ->
  process_tree wdefault env lower d r = Ok out ->
  exists items js rest, out = map (comment_line v) items ++ map json_line js ++ rest /\
    interleave (filter (set_now v) (sv_comments v)) (missing v) items /\
    Permutation js (ri_json (d_ri d r)) /\ Forall (fun l => is_comment l = false) rest.
Proof. exact write_comments. Qed.
Print Assumptions C27_write_keeps_order_partial.
Theorem C27_written_unless_first_deleted : forall env d r v, header env d r v ->
  (forall x c, In (COther x) (sv_comments v) -> is_special c = true -> x <> placeholder c) ->
  (In CEntity (sv_comments v) \/ set_val (sv_newdoc v) = true -> we_bundle env <> None) ->
  (forall c l, sv_comments v = c :: l -> is_special c = true -> set_now v c = true) ->
  exists items, comment_lines wdefault env d r = Ok (map (comment_line v) items) /\
    interleave (filter (set_now v) (sv_comments v)) (missing v) items.
Proof. exact comments_any. Qed.
Print Assumptions C27_written_unless_first_deleted.
(** If the first comment is a newdoc, newpar or global.Entity comment and its value was deleted,
    writing raises AttributeError. *)
Theorem C27_first_deleted_refuted : forall env d r v, header env d r v ->
  (forall x c, In (COther x) (sv_comments v) -> is_special c = true -> x <> placeholder c) ->
  (In CEntity (sv_comments v) \/ set_val (sv_newdoc v) = true -> we_bundle env <> None) ->
  forall c l, sv_comments v = c :: l -> is_special c = true -> set_now v c = false ->
  comment_lines wdefault env d r = Raise AttributeError.
Proof. exact comments_first. Qed.
Print Assumptions C27_first_deleted_refuted.
Definition word_a : str := join [TAB] [s "1"; s "a"; s "a"; s "_"; s "_"; s "_"; s "0"; s "_"; s "_"; s "_"].
Theorem C27_duplicate_refuted : exists d ge,
  read_tree_from_lines strictly same keep doc0 None [s "# sent_id = x"; s "# text = a"; s "# sent_id = y"; word_a] = ((d, ge), Ok (Some 0)) /\
  process_tree wdefault env1 keep d 0 = Ok [s "# sent_id = y"; s "# text = a"; s "# sent_id = y"; word_a; []].
Proof. do 2 eexists. split; vm_compute; reflexivity. Qed.
Print Assumptions C27_duplicate_refuted.
Theorem C27_placeholder_refuted : exists d ge,
  read_tree_from_lines strictly same keep doc0 None [s "# sent_id = x"; s "# text = a"; s "#$TEXT"; s "#"; word_a] = ((d, ge), Ok (Some 0)) /\
  process_tree wdefault env1 keep d 0 = Ok [s "# sent_id = x"; s "# text = a"; s "# text = a"; word_a; []].
Proof. do 2 eexists. split; vm_compute; reflexivity. Qed.
Print Assumptions C27_placeholder_refuted.
(** newpar was deleted and sent_id changed after reading; newdoc was added. *)
Definition edited (nd : val) : doc :=
  let d := fst (fst (read_tree_from_lines strictly same keep doc0 None
             [s "# one"; s "# newpar id = p"; s "# sent_id=x"; s "# two"; s "# text =a"; word_a])) in
  put_ri d 0 (mkRI (Some (s "new")) None (Some (s "b")) (ri_comment (d_ri d 0)) VNone nd [] []).
Definition edited_v : sentv :=
  mkSentv [] [] [] [COther (s " one"); CNewpar; CSentId; COther (s " two"); CText] (s "new") (s "b") VTrue VNone (Some (s "eid-etype")) [].
Example C27_example : header env1 (edited VTrue) 0 edited_v /\
  process_tree wdefault env1 keep (edited VTrue) 0 =
    Ok [s "# newdoc"; s "# global.Entity = eid-etype"; s "# one"; s "# sent_id = new"; s "# two"; s "# text = b"; word_a; []].
Proof. split; [|vm_compute; reflexivity]. split; try reflexivity; first [apply sid_assigned; reflexivity|left; reflexivity]. Qed.
