(** Specification of the CoNLL-U format and of what a tree contains, independent of the
    algorithms of the reader and the writer. *)
From Coq Require Import String List NArith ZArith Bool Sorted Permutation.
From Verif Require Import PyStr PyList PyExn TreeModel TreeSpec DualDictModel DualDictSpec DocModel MwtSpec ConlluModel.
Import ListNotations.

(** ---- A sentence as a value ---- *)
Record wordv := mkWordv {
  wv_form : str; wv_lemma : str; wv_upos : option str; wv_xpos : option str; wv_feats : str;
  wv_head : nat; wv_deprel : option str; wv_deps : str; wv_misc : str }.
(** An empty node with ord [ev_after].[ev_minor]. *)
Record emptyv := mkEmptyv {
  ev_after : nat; ev_minor : nat; ev_form : str; ev_lemma : str; ev_upos : str; ev_xpos : str;
  ev_feats : str; ev_deps : str; ev_misc : str }.
(** A multi-word token over the words number [mv_first] .. [mv_last]. *)
Record mwtv := mkMwtv { mv_first : nat; mv_last : nat; mv_form : str; mv_misc : str }.
(** Comment lines: the special ones only mark the position, their values are in the sentence;
    an ordinary comment is the text after the hash. *)
Inductive citem := CSentId | CText | CNewdoc | CNewpar | CEntity | COther (x : str).
Record sentv := mkSentv {
  sv_words : list wordv; sv_empties : list emptyv; sv_mwts : list mwtv;
  sv_comments : list citem; sv_sent_id : str; sv_text : str; sv_newdoc : val; sv_newpar : val;
  sv_entity : option str; sv_json : list (str * str) }.
Definition with_comments (v : sentv) (l : list citem) : sentv :=
  mkSentv (sv_words v) (sv_empties v) (sv_mwts v) l (sv_sent_id v) (sv_text v) (sv_newdoc v) (sv_newpar v)
          (sv_entity v) (sv_json v).

(** ---- The CoNLL-U lines of a sentence ---- *)
Definition num (n : nat) : str := str_of_Z (Z.of_nat n).
Definition underscore (x : option str) : str := match x with Some y => y | None => s "_" end.
Definition word_columns (i : nat) (w : wordv) : list str :=
  [num i; wv_form w; wv_lemma w; underscore (wv_upos w); underscore (wv_xpos w); wv_feats w;
   num (wv_head w); underscore (wv_deprel w); wv_deps w; wv_misc w].
Definition empty_columns (e : emptyv) : list str :=
  [num (ev_after e) ++ s "." ++ num (ev_minor e); ev_form e; ev_lemma e; ev_upos e; ev_xpos e; ev_feats e;
   s "_"; s "_"; ev_deps e; ev_misc e].
Definition mwt_columns (m : mwtv) : list str :=
  [num (mv_first m) ++ s "-" ++ num (mv_last m); mv_form m; s "_"; s "_"; s "_"; s "_"; s "_"; s "_"; s "_"; mv_misc m].
Definition line_of (columns : list str) : str := join [TAB] columns.

Definition empties_after (v : sentv) (k : nat) : list str :=
  map (fun e => line_of (empty_columns e)) (filter (fun e => Nat.eqb (ev_after e) k) (sv_empties v)).
Definition mwts_from (v : sentv) (k : nat) : list str :=
  map (fun m => line_of (mwt_columns m)) (filter (fun m => Nat.eqb (mv_first m) k) (sv_mwts v)).
(** the lines of the words from number i on *)
Fixpoint words_from (v : sentv) (i : nat) (ws : list wordv) : list str :=
  match ws with
  | [] => []
  | w :: ws => mwts_from v i ++ [line_of (word_columns i w)] ++ empties_after v i ++ words_from v (S i) ws
  end.
(** CoNLL-U does not allow a sentence without words: an artificial one is written. *)
Definition artificial_line : str := line_of [s "1"; s "_"; s "_"; s "_"; s "_"; s "_"; s "0"; s "_"; s "_"; s "Empty=Yes"].

Definition with_id (x : str) (v : val) : str := match v with VStr i => x ++ s " id = " ++ i | _ => x end.
Definition comment_line (v : sentv) (c : citem) : str :=
  match c with
  | CSentId => s "# sent_id = " ++ sv_sent_id v
  | CText => s "# text = " ++ sv_text v
  | CNewdoc => with_id (s "# newdoc") (sv_newdoc v)
  | CNewpar => with_id (s "# newpar") (sv_newpar v)
  | CEntity => s "# global.Entity = " ++ underscore (sv_entity v)
  | COther x => s "#" ++ x
  end.
Definition json_line (kv : str * str) : str := s "# json_" ++ fst kv ++ s " = " ++ snd kv.

Definition conllu_lines (v : sentv) : list str :=
  map (comment_line v) (sv_comments v) ++ map json_line (sv_json v) ++
  empties_after v 0 ++ words_from v 1 (sv_words v) ++
  (match sv_words v with [] => [artificial_line] | _ => [] end).

(** ---- Which sentences the format can hold (apart from the HEADs, see [heads_ok]) ---- *)
(** a column: no tab (and no line feed) *)
Definition column (x : str) : Prop := ~ In TAB x /\ ~ In LF x.
(** an optional column: '_' means that there is no value *)
Definition opt_column (x : option str) : Prop := match x with Some y => column y /\ y <> s "_" | None => True end.
(** FEATS and MISC *)
Definition dict_column (x : str) : Prop := column x /\ x <> [].
Definition ok_word (w : wordv) : Prop :=
  column (wv_form w) /\ column (wv_lemma w) /\ opt_column (wv_upos w) /\ opt_column (wv_xpos w) /\
  dict_column (wv_feats w) /\ opt_column (wv_deprel w) /\ column (wv_deps w) /\ dict_column (wv_misc w).
Definition ok_empty (n : nat) (e : emptyv) : Prop :=
  ev_after e <= n /\ 1 <= ev_minor e <= 9 /\ column (ev_form e) /\ column (ev_lemma e) /\ column (ev_upos e) /\
  column (ev_xpos e) /\ dict_column (ev_feats e) /\ column (ev_deps e) /\ dict_column (ev_misc e).
Definition ok_mwt (n : nat) (m : mwtv) : Prop :=
  1 <= mv_first m <= mv_last m /\ mv_last m <= n /\ column (mv_form m) /\ dict_column (mv_misc m).
(** MISC of a word inside a multi-word token: SpaceAfter belongs to the token, and the text is
    in the canonical order (create_multiword_token edits it). *)
Definition inner_misc (lower : str -> str) (x : str) : Prop :=
  m_val (of_text x) (s "SpaceAfter") = None /\
  canonical lower (of_text x) = x.

Definition spaces (x : str) : Prop := forall a, In a x -> is_space a = true.
Definition no_spaces (x : str) : Prop := forall a, In a x -> is_space a = false.
(** Lines that have a special meaning, as written in the regular expressions of the reader *)
Definition sent_id_line (l : str) : Prop :=
  exists s1 e s2 a x, l = s "# sent_id" ++ s1 ++ e ++ s2 ++ a :: x /\ spaces s1 /\ (e = [] \/ e = s "=") /\ spaces s2 /\
                      is_space a = false.
Definition text_line (l : str) : Prop := exists s1 x, l = s "# text" ++ s1 ++ s "=" ++ x /\ spaces s1.
Definition pardoc_line (l : str) : Prop :=
  exists n, (n = s "# newpar" \/ n = s "# newdoc") /\
    (l = n \/ exists s1 s2 x, l = n ++ s1 ++ s "id" ++ s2 ++ s "=" ++ x /\ spaces s1 /\ s1 <> [] /\ spaces s2 /\ x <> []).
Definition json_comment (l : str) : Prop :=
  exists p k s1 x, (p = s "# json_" \/ p = s "# doc_json_") /\ l = p ++ k ++ s1 ++ s "=" ++ x /\ k <> [] /\
    ~ In SP k /\ ~ In EQ k /\ spaces s1 /\ x <> [].
Definition entity_line (l : str) : Prop :=
  exists a s1 s2 b x, l = s "# global" ++ a :: s "Entity" ++ s1 ++ s "=" ++ s2 ++ b :: x /\ spaces s1 /\ spaces s2 /\
                      is_space b = false.
(** Placeholders used inside root.comment *)
Definition placeholder (c : citem) : str :=
  match c with
  | CSentId => s "$SENT_ID" | CText => s "$TEXT" | CNewdoc => s "$NEWDOC" | CNewpar => s "$NEWPAR"
  | CEntity => s "$GLOBAL.ENTITY" | COther x => x
  end.
Definition is_special (c : citem) : bool := match c with COther _ => false | _ => true end.
(** An ordinary comment: not empty, one line, none of the special forms. *)
Definition ordinary (x : str) : Prop :=
  x <> [] /\ (forall a, In a x -> is_linebreak a = false) /\
  (forall c, is_special c = true -> x <> placeholder c) /\
  ~ sent_id_line (s "#" ++ x) /\ ~ text_line (s "#" ++ x) /\ ~ pardoc_line (s "#" ++ x) /\
  ~ json_comment (s "#" ++ x) /\ ~ entity_line (s "#" ++ x).

(** no value, True, or a string that can stand after "id = " *)
Definition ok_pardoc (v : val) : Prop :=
  match v with VStr [] => False | VStr (a :: x) => is_space a = false /\ ~ In LF (a :: x) | _ => True end.
Definition ok_comments (v : sentv) : Prop :=
  (forall x, In (COther x) (sv_comments v) -> ordinary x) /\
  (forall c, is_special c = true -> forall l1 l2, sv_comments v = l1 ++ c :: l2 -> ~ In c l1 /\ ~ In c l2) /\
  (In CNewdoc (sv_comments v) -> sv_newdoc v <> VNone) /\
  (In CNewpar (sv_comments v) -> sv_newpar v <> VNone) /\
  (In CEntity (sv_comments v) -> sv_entity v <> None).
Definition ok_json (canon : str -> option str) (l : list (str * str)) : Prop :=
  StronglySorted (fun a b => str_leb (fst a) (fst b) = true /\ fst a <> fst b) l /\
  forall k x, In (k, x) l -> k <> [] /\ ~ In SP k /\ ~ In EQ k /\ canon x = Some x /\
    match x with [] => False | a :: _ => is_space a = false end.

(** HEADs: following them from any word ends in 0. *)
Inductive reaches0 (heads : nat -> nat) : nat -> Prop :=
| reaches_here : reaches0 heads 0
| reaches_up i : reaches0 heads (heads i) -> reaches0 heads i.
Definition head_of (ws : list wordv) (i : nat) : nat :=
  match i with
  | 0 => 0
  | S j => match nth_error ws j with Some w => wv_head w | None => 0 end
  end.
Definition heads_ok (ws : list wordv) : Prop :=
  Forall (fun w => wv_head w <= length ws) ws /\
  forall i, 1 <= i <= length ws -> reaches0 (head_of ws) i.

(** Following the HEADs from word i one gets back to i. *)
Definition on_cycle (ws : list wordv) (i : nat) : Prop := 1 <= i /\ exists k, 1 <= k /\ Nat.iter k (head_of ws) i = i.

(** The words inside multi-word token m *)
Definition covered {A} (m : mwtv) (ws : list A) : list A := firstn (S (mv_last m) - mv_first m) (skipn (mv_first m - 1) ws).

Record representable (lower : str -> str) (canon : str -> option str) (v : sentv) : Prop := {
  rv_words : Forall ok_word (sv_words v);
  rv_real : forall w, sv_words v = [w] -> wv_misc w <> s "Empty=Yes";
  rv_empties : Forall (ok_empty (length (sv_words v))) (sv_empties v);
  rv_eorder : StronglySorted (fun a b => ev_after a * 10 + ev_minor a < ev_after b * 10 + ev_minor b) (sv_empties v);
  rv_mwts : Forall (ok_mwt (length (sv_words v))) (sv_mwts v);
  rv_morder : StronglySorted (fun a b => mv_last a < mv_first b) (sv_mwts v);
  rv_inner : forall m w, In m (sv_mwts v) -> In w (covered m (sv_words v)) -> inner_misc lower (wv_misc w);
  rv_comments : ok_comments v;
  rv_sent_id : sv_sent_id v <> [] /\ no_spaces (sv_sent_id v);
  rv_text : match sv_text v with [] => True | a :: _ => is_space a = false end /\ rstrip (sv_text v) = sv_text v /\
            ~ In LF (sv_text v) /\ ~ In CR (sv_text v);
  rv_newdoc : ok_pardoc (sv_newdoc v);
  rv_newpar : ok_pardoc (sv_newpar v);
  rv_entity : match sv_entity v with Some x => x <> [] /\ no_spaces x | None => True end;
  rv_json : ok_json canon (sv_json v)
}.

(** A tree without cycles: as [consistent], but nothing is said about the ords (the IDs may be
    arbitrary numbers in a malformed file). *)
Record attached (h : heap) (r : nat) : Prop := {
  at_once : NoDup (h_desc h r);
  at_rootout : ~ In r (h_desc h r);
  at_parents : forall x, In x (h_desc h r) -> exists p, h_par h x = Some p /\ live h r p;
  at_top : h_par h r = None;
  at_children : forall y, live h r y -> h_ch h y = filter (has_parent h y) (h_desc h r);
  at_connected : forall x, In x (h_desc h r) -> up h x r;
  at_roots : forall y, live h r y -> h_root h y = r;
  at_kinds : (forall x, In x (h_desc h r) -> h_kind h x = KNode) /\ h_kind h r = KRoot;
  at_alloc : forall y, live h r y -> y < h_next h
}.

(** ---- What a tree in memory contains ---- *)
(** str(node.feats), str(node.misc) *)
Definition text_of_dd (lower : str -> str) (m : option dualdict) : str := snd (dd_str lower (dd_prop m)).
Definition word_is (lower : str -> str) (d : doc) (x : nat) (w : wordv) : Prop :=
  let a := d_at d x in
  n_form a = Some (wv_form w) /\ n_lemma a = Some (wv_lemma w) /\ n_upos a = wv_upos w /\ n_xpos a = wv_xpos w /\
  text_of_dd lower (n_feats a) = wv_feats w /\
  (exists p, h_par (d_h d) x = Some p /\ h_ord (d_h d) p = Z.of_nat (wv_head w)) /\
  n_deprel a = wv_deprel w /\ underscore (shown_deps d a) = wv_deps w /\ text_of_dd lower (n_misc a) = wv_misc w.
Definition empty_is (lower : str -> str) (d : doc) (x : nat) (e : emptyv) : Prop :=
  let a := d_at d x in
  h_kind (d_h d) x = KEmpty /\ d_mwt d x = None /\ h_par (d_h d) x = None /\
  h_eord (d_h d) x = (10 * Z.of_nat (ev_after e) + Z.of_nat (ev_minor e))%Z /\
  n_form a = Some (ev_form e) /\ n_lemma a = Some (ev_lemma e) /\ n_upos a = Some (ev_upos e) /\
  n_xpos a = Some (ev_xpos e) /\ text_of_dd lower (n_feats a) = ev_feats e /\ n_deprel a = None /\
  underscore (shown_deps d a) = ev_deps e /\ text_of_dd lower (n_misc a) = ev_misc e.
Definition mwt_is (lower : str -> str) (d : doc) (r : nat) (m : nat) (mv : mwtv) : Prop :=
  m_words (d_m d m) = covered mv (h_desc (d_h d) r) /\ m_form (d_m d m) = Some (mv_form mv) /\
  text_of_dd lower (m_misc (d_m d m)) = mv_misc mv.
(** words, empty nodes and multi-word tokens of the sentence *)
Record tokens (lower : str -> str) (d : doc) (r : nat) (v : sentv) : Prop := {
  tk_words : Forall2 (word_is lower d) (h_desc (d_h d) r) (sv_words v);
  tk_empties : Forall2 (empty_is lower d) (h_emp (d_h d) r) (sv_empties v);
  tk_mwts : exists l, Permutation l (d_mwts d r) /\ Forall2 (mwt_is lower d r) l (sv_mwts v);
  tk_mwt_of : forall w m, In w (h_desc (d_h d) r) -> (d_mwt d w = Some m <-> In m (d_mwts d r) /\ In w (m_words (d_m d m)))
}.
(** The sent_id of a tree: the one assigned, or else the ID of its bundle ('?' without a bundle) followed by '/' and
    the zone, if there is one. *)
Inductive sent_id_is (env : wenv) (ri : rinfo) : str -> Prop :=
| sid_assigned x : ri_sent_id ri = Some x -> sent_id_is env ri x
| sid_plain b : ri_sent_id ri = None -> (we_bundle env = Some b \/ (we_bundle env = None /\ b = s "?")) ->
    (ri_zone ri = None \/ ri_zone ri = Some []) -> sent_id_is env ri b
| sid_zone b z : ri_sent_id ri = None -> (we_bundle env = Some b \/ (we_bundle env = None /\ b = s "?")) ->
    ri_zone ri = Some z -> z <> [] -> sent_id_is env ri (b ++ s "/" ++ z).
Definition pardoc_is (x y : val) : Prop := x = y \/ (x = VStr [] /\ y = VNone).

Record sentence (lower : str -> str) (env : wenv) (d : doc) (r : nat) (v : sentv) : Prop := {
  se_tokens : tokens lower d r v;
  se_comment : splitlines (ri_comment (d_ri d r)) = map placeholder (sv_comments v);
  se_sent_id : sent_id_is env (d_ri d r) (sv_sent_id v);
  se_text : shown_text d r = Ok (sv_text v);
  se_newdoc : pardoc_is (ri_newdoc (d_ri d r)) (sv_newdoc v);
  se_newpar : pardoc_is (ri_newpar (d_ri d r)) (sv_newpar v);
  se_entity : some_nonempty (we_ge env) = sv_entity v;
  se_json : Permutation (ri_json (d_ri d r)) (sv_json v)
}.

(** The sentence with the HEADs of some words that are on a cycle replaced by 0. *)
Definition with_words (v : sentv) (ws : list wordv) : sentv :=
  mkSentv ws (sv_empties v) (sv_mwts v) (sv_comments v) (sv_sent_id v) (sv_text v) (sv_newdoc v) (sv_newpar v)
          (sv_entity v) (sv_json v).
Definition with_head (w : wordv) (i : nat) : wordv :=
  mkWordv (wv_form w) (wv_lemma w) (wv_upos w) (wv_xpos w) (wv_feats w) i (wv_deprel w) (wv_deps w) (wv_misc w).
Definition heads_fixed (ws ws' : list wordv) : Prop :=
  length ws' = length ws /\
  forall i w w', nth_error ws i = Some w -> nth_error ws' i = Some w' ->
    w' = w \/ (w' = with_head w 0 /\ on_cycle ws (S i)).

(** [interleave l1 l2 l]: l consists of l1 and l2, each in its order. *)
Inductive interleave {A} : list A -> list A -> list A -> Prop :=
| il_nil : interleave [] [] []
| il_left x l1 l2 l : interleave l1 l2 l -> interleave (x :: l1) l2 (x :: l)
| il_right x l1 l2 l : interleave l1 l2 l -> interleave l1 (x :: l2) (x :: l).

(** The special comments that must be printed, in the order in which missing ones are added. *)
Definition set_val (v : val) : bool := match v with VNone | VStr [] => false | _ => true end.
Definition specials (v : sentv) : list citem :=
  (if set_val (sv_newdoc v) then [CNewdoc] ++ (match sv_entity v with Some _ => [CEntity] | None => [] end) else []) ++
  (if set_val (sv_newpar v) then [CNewpar] else []) ++ [CSentId; CText].
Definition same_special (a b : citem) : bool :=
  match a, b with
  | CSentId, CSentId | CText, CText | CNewdoc, CNewdoc | CNewpar, CNewpar | CEntity, CEntity => true
  | _, _ => false
  end.
Definition missing (v : sentv) : list citem :=
  filter (fun c => negb (existsb (same_special c) (sv_comments v))) (specials v).

(** ---- Comment lines in general ---- *)
Definition named_line (n l : str) : Prop :=
  l = n \/ exists s1 s2 x, l = n ++ s1 ++ s "id" ++ s2 ++ s "=" ++ x /\ spaces s1 /\ s1 <> [] /\ spaces s2 /\ x <> [].
(** What a comment line means: a special comment, an ordinary one, or (None) a JSON value, which
    is stored elsewhere. *)
Inductive line_item : str -> option citem -> Prop :=
| li_sent_id l : sent_id_line l -> line_item l (Some CSentId)
| li_text l : text_line l -> line_item l (Some CText)
| li_newdoc l : named_line (s "# newdoc") l -> line_item l (Some CNewdoc)
| li_newpar l : named_line (s "# newpar") l -> line_item l (Some CNewpar)
| li_json l : json_comment l -> line_item l None
| li_entity l : entity_line l -> line_item l (Some CEntity)
| li_other x : ~ sent_id_line (s "#" ++ x) -> ~ text_line (s "#" ++ x) -> ~ pardoc_line (s "#" ++ x) ->
    ~ json_comment (s "#" ++ x) -> ~ entity_line (s "#" ++ x) -> line_item (s "#" ++ x) (Some (COther x)).
Definition is_comment (l : str) : bool := match l with c :: _ => N.eqb c HASH | [] => false end.
Definition somes {A} (l : list (option A)) : list A := flat_map (fun x => match x with Some a => [a] | None => [] end) l.

(** The comments of a tree and their current values are those of [v]. *)
Record header (env : wenv) (d : doc) (r : nat) (v : sentv) : Prop := {
  hd_comment : splitlines (ri_comment (d_ri d r)) = map placeholder (sv_comments v);
  hd_sent_id : sent_id_is env (d_ri d r) (sv_sent_id v);
  hd_text : shown_text d r = Ok (sv_text v);
  hd_newdoc : pardoc_is (ri_newdoc (d_ri d r)) (sv_newdoc v);
  hd_newpar : pardoc_is (ri_newpar (d_ri d r)) (sv_newpar v);
  hd_entity : some_nonempty (we_ge env) = sv_entity v
}.
(** Is there something to print for this comment? *)
Definition set_now (v : sentv) (c : citem) : bool :=
  match c with
  | CNewdoc => set_val (sv_newdoc v)
  | CNewpar => set_val (sv_newpar v)
  | CEntity => match sv_entity v with Some _ => true | None => false end
  | COther [] => false
  | _ => true
  end.
