(** Reading the CoNLL-U lines of a representable sentence. *)
From Coq Require Import String List NArith ZArith Bool Lia Sorted Permutation.
From Verif Require Import PyStr PyStrFacts PyList PyListFacts PyExn TreeModel TreeSpec TreeFacts TreeRepr TreeOps TreeCalls
  DualDictModel DualDictSpec DualDictProofs DocModel MwtSpec MwtProofs ConlluModel ConlluSpec ConlluRe ConlluComments ConlluWrite
  ConlluAttach ConlluRead.
Import ListNotations.

(** ---- numbers ---- *)
Lemma num_spec n : forallb is_digit (num n) = true /\ num n <> [] /\ py_int (num n) = Some (Z.of_nat n).
Proof.
  unfold num. destruct (str_of_Z_nonneg (Z.of_nat n)) as (A & B & _); [lia|]. split; auto. split; auto. apply py_int_str_of_Z. lia.
Qed.
Lemma digits_no c x : is_digit c = false -> forallb is_digit x = true -> ~ In c x.
Proof. intros E F I. rewrite forallb_forall in F. apply F in I. congruence. Qed.
Lemma num_no c n : is_digit c = false -> ~ In c (num n).
Proof. intros E. apply digits_no; auto. apply num_spec. Qed.
Lemma num_head n : exists a x, num n = a :: x /\ is_digit a = true.
Proof.
  destruct (num_spec n) as (A & B & _). destruct (num n) as [|a x]; [congruence|]. exists a, x. split; auto.
  simpl in A. apply andb_true_iff in A. tauto.
Qed.
Lemma num_small m : 1 <= m <= 9 -> num m = [N.of_nat (48 + m)].
Proof.
  intros H. assert (m = 1 \/ m = 2 \/ m = 3 \/ m = 4 \/ m = 5 \/ m = 6 \/ m = 7 \/ m = 8 \/ m = 9) as D by lia.
  repeat (destruct D as [->|D]; [reflexivity|]). now subst.
Qed.
Lemma tenths_num a m : 1 <= m <= 9 -> float_tenths (num a ++ s "." ++ num m) = Ok (10 * Z.of_nat a + Z.of_nat m)%Z.
Proof.
  intros H. unfold float_tenths. change (s "." ++ num m) with (DOT :: num m).
  rewrite split1_app by now apply num_no. rewrite num_small by auto.
  destruct (num_spec a) as (A & B & _). rewrite A.
  assert (D : is_digit (N.of_nat (48 + m)) = true /\ digit_val (N.of_nat (48 + m)) = Z.of_nat m).
  { assert (m = 1 \/ m = 2 \/ m = 3 \/ m = 4 \/ m = 5 \/ m = 6 \/ m = 7 \/ m = 8 \/ m = 9) as D by lia.
    repeat (destruct D as [->|D]; [split; reflexivity|]). subst. split; reflexivity. }
  destruct D as [D1 D2]. rewrite D1, D2. cbn [andb forallb].
  unfold num. destruct (str_of_Z_nonneg (Z.of_nat a)) as (_ & _ & Q); [lia|]. specialize (Q []). rewrite app_nil_r in Q. rewrite Q. reflexivity.
Qed.

(** ---- one line ---- *)
Lemma read_columns cfg canon r st cols a x0 : length cols = 10 -> (forall x, In x cols -> ~ In TAB x) ->
  field cols 0 = a :: x0 -> is_digit a = true ->
  read_line cfg canon r st (line_of cols) =
    if has_char MINUS (field cols 0) then
      (mkRd (rd_d st) (rd_ge st) (rd_nodes st) (rd_parents st) (rd_mwts st ++ [cols]), Ok tt)
    else if has_char DOT (field cols 0) then
      let (d, x) := read_empty (rd_d st) r cols in
      (mkRd d (rd_ge st) (rd_nodes st) (rd_parents st) (rd_mwts st), x)
    else
      match read_word (rc_strict cfg) (rd_d st) r cols with
      | (d, Ok (n, p)) => (mkRd d (rd_ge st) (rd_nodes st ++ [n]) (rd_parents st ++ [p]) (rd_mwts st), Ok tt)
      | (d, Raise e) => (mkRd d (rd_ge st) (rd_nodes st) (rd_parents st) (rd_mwts st), Raise e)
      | (d, Diverge) => (mkRd d (rd_ge st) (rd_nodes st) (rd_parents st) (rd_mwts st), Diverge)
      end.
Proof.
  intros L T F D.
  assert (E : exists y, line_of cols = a :: y).
  { destruct cols as [|c0 cols]; [discriminate|]. unfold field in F. simpl in F. subst c0. unfold line_of.
    destruct cols as [|c1 cols]; [discriminate|]. simpl. eauto. }
  destruct E as [y E]. unfold read_line. rewrite E.
  assert (N.eqb a HASH = false) as ->.
  { destruct (N.eqb_spec a HASH); auto. subst. discriminate. }
  rewrite <- E.
  assert (split TAB (line_of cols) = cols) as ->.
  { unfold line_of. apply split_join; auto. destruct cols; discriminate. }
  match goal with |- context [Nat.eqb ?x 10] => replace x with 10 by exact (eq_sym L) end.
  cbn [repeat negb Nat.eqb andb Nat.sub]. rewrite app_nil_r. reflexivity.
Qed.

Lemma read_lines_app cfg canon r l1 l2 : forall st,
  read_lines cfg canon r st (l1 ++ l2) = bind (read_lines cfg canon r st l1) (fun st _ => read_lines cfg canon r st l2).
Proof.
  induction l1 as [|l l1 IH]; intros st; cbn [read_lines app]; auto.
  destruct (read_line cfg canon r st l) as [st' [u|e|]]; cbn [bind]; auto.
Qed.

Ltac notab :=
  match goal with
  | H : column ?x |- ~ In TAB ?x => exact (proj1 H)
  | H : dict_column ?x |- ~ In TAB ?x => exact (proj1 (proj1 H))
  | H : opt_column ?x |- ~ In TAB (underscore ?x) => destruct x; [exact (proj1 (proj1 H))|cbn; intros [|[]]; discriminate]
  | |- ~ In TAB (num _) => apply num_no; reflexivity
  | |- ~ In TAB (num _ ++ _ :: _) => idtac
  end.

Section block.
  Variables (cfg : rcfg) (canon : str -> option str) (d0 : doc) (r : nat).

  Lemma word_line_ok st ns es wf ef mf ri ge i w : rinv d0 r st ns es wf ef mf ri ge -> ok_word w ->
    exists st' n, read_line cfg canon r st (line_of (word_columns i w)) = (st', Ok tt) /\
      rinv d0 r st' (ns ++ [n]) es (wf ++ [word_columns i w]) ef mf ri ge.
  Proof.
    intros IV (W1 & W2 & W3 & W4 & W5 & W6 & W7 & W8).
    destruct (num_head i) as (a & x & Ei & Da).
    rewrite (read_columns cfg canon r st (word_columns i w) a x); auto.
    - change (field (word_columns i w) 0) with (num i).
      rewrite (proj2 (has_char_false MINUS (num i))) by now apply num_no.
      rewrite (proj2 (has_char_false DOT (num i))) by now apply num_no.
      destruct (word_step d0 r (rc_strict cfg) st ns es wf ef mf ri ge (word_columns i w) (Z.of_nat i) IV) as (d & n & E & IV').
      + change (field (word_columns i w) 0) with (num i). apply num_spec.
      + left. change (field (word_columns i w) 6) with (num (wv_head w)). rewrite (proj2 (proj2 (num_spec _))). discriminate.
      + rewrite E. eexists _, n. split; [reflexivity|]. exact IV'.
    - intros y I. unfold word_columns in I. simpl in I. repeat (destruct I as [<-|I]; [notab|]). destruct I.
  Qed.
  Lemma empty_line_ok st ns es wf ef mf ri ge e k : rinv d0 r st ns es wf ef mf ri ge -> ok_empty k e ->
    exists st' n, read_line cfg canon r st (line_of (empty_columns e)) = (st', Ok tt) /\
      rinv d0 r st' ns (es ++ [n]) wf (ef ++ [empty_columns e]) mf ri ge.
  Proof.
    intros IV (W0 & W00 & W1 & W2 & W3 & W4 & W5 & W6 & W7).
    destruct (num_head (ev_after e)) as (a & x & Ei & Da).
    assert (F0 : field (empty_columns e) 0 = num (ev_after e) ++ s "." ++ num (ev_minor e)) by reflexivity.
    rewrite (read_columns cfg canon r st (empty_columns e) a (x ++ s "." ++ num (ev_minor e))); auto.
    - rewrite F0. rewrite (proj2 (has_char_false MINUS _)).
      2:{ rewrite !in_app_iff. intros [I|[[I|[]]|I]]; try (discriminate I); revert I; now apply num_no. }
      rewrite (proj2 (has_char_In DOT _)).
      2:{ rewrite !in_app_iff. right. left. simpl. auto. }
      destruct (empty_step d0 r st ns es wf ef mf ri ge (empty_columns e) (10 * Z.of_nat (ev_after e) + Z.of_nat (ev_minor e)) IV) as (d & n & E & IV').
      + rewrite F0. now apply tenths_num.
      + rewrite E. eexists _, n. split; [reflexivity|]. exact IV'.
    - intros y I. unfold empty_columns in I. destruct I as [<-|I].
      { rewrite !in_app_iff. intros [I|[[I|[]]|I]]; try (discriminate I); revert I; now apply num_no. }
      simpl in I. repeat (destruct I as [<-|I]; [first [notab|cbn; intros [|[]]; discriminate]|]). destruct I.
    - rewrite F0, Ei. reflexivity.
  Qed.
  Lemma mwt_line_ok st ns es wf ef mf ri ge m k : rinv d0 r st ns es wf ef mf ri ge -> ok_mwt k m ->
    exists st', read_line cfg canon r st (line_of (mwt_columns m)) = (st', Ok tt) /\
      rinv d0 r st' ns es wf ef (mf ++ [mwt_columns m]) ri ge.
  Proof.
    intros IV (W0 & W00 & W1 & W2).
    destruct (num_head (mv_first m)) as (a & x & Ei & Da).
    assert (F0 : field (mwt_columns m) 0 = num (mv_first m) ++ s "-" ++ num (mv_last m)) by reflexivity.
    rewrite (read_columns cfg canon r st (mwt_columns m) a (x ++ s "-" ++ num (mv_last m))); auto.
    - rewrite F0. rewrite (proj2 (has_char_In MINUS _)).
      2:{ rewrite !in_app_iff. right. left. simpl. auto. }
      eexists. split; [reflexivity|]. now apply mwt_step.
    - intros y I. unfold mwt_columns in I. destruct I as [<-|I].
      { rewrite !in_app_iff. intros [I|[[I|[]]|I]]; try (discriminate I); revert I; now apply num_no. }
      simpl in I. repeat (destruct I as [<-|I]; [first [notab|cbn; intros [|[]]; discriminate]|]). destruct I.
    - rewrite F0, Ei. reflexivity.
  Qed.

  Lemma empties_block k : forall l st ns es wf ef mf ri ge, rinv d0 r st ns es wf ef mf ri ge -> Forall (ok_empty k) l ->
    exists st' es', read_lines cfg canon r st (map (fun e => line_of (empty_columns e)) l) = (st', Ok tt) /\
      rinv d0 r st' ns es' wf (ef ++ map empty_columns l) mf ri ge.
  Proof.
    induction l as [|e l IH]; intros st ns es wf ef mf ri ge IV F; cbn [map read_lines].
    - exists st, es. rewrite app_nil_r. auto.
    - inversion F as [|? ? F1 F2]; subst. destruct (empty_line_ok _ _ _ _ _ _ _ _ _ _ IV F1) as (st1 & n & E1 & IV1).
      rewrite E1. cbn [bind]. destruct (IH _ _ _ _ _ _ _ _ IV1 F2) as (st2 & es' & E2 & IV2).
      exists st2, es'. split; auto. now rewrite <- app_assoc in IV2.
  Qed.
  Lemma mwts_block k : forall l st ns es wf ef mf ri ge, rinv d0 r st ns es wf ef mf ri ge -> Forall (ok_mwt k) l ->
    exists st', read_lines cfg canon r st (map (fun m => line_of (mwt_columns m)) l) = (st', Ok tt) /\
      rinv d0 r st' ns es wf ef (mf ++ map mwt_columns l) ri ge.
  Proof.
    induction l as [|e l IH]; intros st ns es wf ef mf ri ge IV F; cbn [map read_lines].
    - exists st. rewrite app_nil_r. auto.
    - inversion F as [|? ? F1 F2]; subst. destruct (mwt_line_ok _ _ _ _ _ _ _ _ _ _ IV F1) as (st1 & E1 & IV1).
      rewrite E1. cbn [bind]. destruct (IH _ _ _ _ _ _ _ _ IV1 F2) as (st2 & E2 & IV2).
      exists st2. split; auto. now rewrite <- app_assoc in IV2.
  Qed.

  Fixpoint cols_from (i : nat) (ws : list wordv) : list (list str) :=
    match ws with [] => [] | w :: ws => word_columns i w :: cols_from (S i) ws end.
  Definition after_k (v : sentv) (k : nat) : list emptyv := filter (fun e => Nat.eqb (ev_after e) k) (sv_empties v).
  Definition from_k (v : sentv) (k : nat) : list mwtv := filter (fun m => Nat.eqb (mv_first m) k) (sv_mwts v).
  Lemma Forall_filter {A} (P : A -> Prop) f l : Forall P l -> Forall P (filter f l).
  Proof. rewrite !Forall_forall. intros H x I. apply filter_In in I. apply H. tauto. Qed.

  Lemma words_block v k : Forall (ok_empty k) (sv_empties v) -> Forall (ok_mwt k) (sv_mwts v) ->
    forall ws i st ns es wf ef mf ri ge, rinv d0 r st ns es wf ef mf ri ge -> Forall ok_word ws ->
    exists st' ns' es', read_lines cfg canon r st (words_from v i ws) = (st', Ok tt) /\
      rinv d0 r st' ns' es' (wf ++ cols_from i ws) (ef ++ map empty_columns (flat_map (after_k v) (seq i (length ws))))
        (mf ++ map mwt_columns (flat_map (from_k v) (seq i (length ws)))) ri ge.
  Proof.
    intros FE FM. induction ws as [|w ws IH]; intros i st ns es wf ef mf ri ge IV F.
    - exists st, ns, es. simpl. rewrite !app_nil_r. auto.
    - inversion F as [|? ? F1 F2]; subst. cbn [words_from cols_from Datatypes.length seq flat_map].
      rewrite read_lines_app. destruct (mwts_block k (from_k v i) _ _ _ _ _ _ _ _ IV) as (st1 & E1 & IV1); [now apply Forall_filter|].
      unfold mwts_from. fold (from_k v i). rewrite E1. cbn [bind]. rewrite read_lines_app. cbn [read_lines].
      destruct (word_line_ok _ _ _ _ _ _ _ _ i w IV1 F1) as (st2 & n & E2 & IV2). rewrite E2. cbn [bind].
      rewrite read_lines_app. unfold empties_after. fold (after_k v i).
      destruct (empties_block k (after_k v i) _ _ _ _ _ _ _ _ IV2) as (st3 & es3 & E3 & IV3); [now apply Forall_filter|].
      rewrite E3. cbn [bind]. destruct (IH (S i) _ _ _ _ _ _ _ _ IV3 F2) as (st4 & ns4 & es4 & E4 & IV4).
      exists st4, ns4, es4. split; auto. rewrite <- !app_assoc, <- !map_app in IV4. exact IV4.
  Qed.

  Definition apply_items (v : sentv) (cs : list citem) (p : rinfo * option str) : rinfo * option str :=
    fold_left (fun p c => apply_item v (fst p) (snd p) c) cs p.
  Definition apply_json (l : list (str * str)) (ri : rinfo) : rinfo :=
    fold_left (fun ri kv => with_json ri (jset (ri_json ri) (fst kv) (snd kv))) l ri.
  Lemma comment_hash v c : exists x, comment_line v c = HASH :: x.
  Proof. destruct c; simpl; eauto; [destruct (sv_newdoc v)|destruct (sv_newpar v)]; simpl; eauto. Qed.

  Lemma comments_block lower v : representable lower canon v -> forall cs, incl cs (sv_comments v) ->
    forall st ns es wf ef mf ri ge, rinv d0 r st ns es wf ef mf ri ge ->
    exists st', read_lines cfg canon r st (map (comment_line v) cs) = (st', Ok tt) /\
      rinv d0 r st' ns es wf ef mf (fst (apply_items v cs (ri, ge))) (snd (apply_items v cs (ri, ge))).
  Proof.
    intros RV. induction cs as [|c cs IH]; intros Inc st ns es wf ef mf ri ge IV; cbn [map read_lines].
    - exists st. simpl. auto.
    - assert (Ic : In c (sv_comments v)) by (apply Inc; simpl; auto).
      assert (E : read_line cfg canon r st (comment_line v c) =
        (mkRd (put_ri (rd_d st) r (fst (apply_item v ri ge c))) (snd (apply_item v ri ge c)) (rd_nodes st) (rd_parents st) (rd_mwts st), Ok tt)).
      { unfold read_line. destruct (comment_hash v c) as [x E]. rewrite E. change (N.eqb HASH HASH) with true. cbv iota.
        rewrite <- E, (iv_ri _ _ _ _ _ _ _ _ _ _ IV), (iv_ge _ _ _ _ _ _ _ _ _ _ IV), (parse_item lower canon v RV ri ge c Ic).
        destruct (apply_item v ri ge c); reflexivity. }
      rewrite E. cbn [bind].
      destruct (IH (fun y I => Inc y (or_intror I)) _ _ _ _ _ _ _ _
        (comment_step d0 r _ _ _ _ _ _ _ _ (fst (apply_item v ri ge c)) (snd (apply_item v ri ge c)) IV)) as (st' & E' & IV').
      exists st'. split; auto.
  Qed.
  Lemma json_block lower v : representable lower canon v -> forall l, incl l (sv_json v) ->
    forall st ns es wf ef mf ri ge, rinv d0 r st ns es wf ef mf ri ge ->
    exists st', read_lines cfg canon r st (map json_line l) = (st', Ok tt) /\
      rinv d0 r st' ns es wf ef mf (apply_json l ri) ge.
  Proof.
    intros RV. induction l as [|[k x] l IH]; intros Inc st ns es wf ef mf ri ge IV; cbn [map read_lines].
    - exists st. simpl. auto.
    - assert (Ic : In (k, x) (sv_json v)) by (apply Inc; simpl; auto).
      assert (E : read_line cfg canon r st (json_line (k, x)) =
        (mkRd (put_ri (rd_d st) r (with_json ri (jset (ri_json ri) k x))) ge (rd_nodes st) (rd_parents st) (rd_mwts st), Ok tt)).
      { unfold read_line. assert (H : exists y, json_line (k, x) = HASH :: y) by (eexists; reflexivity). destruct H as [y E].
        rewrite E. change (N.eqb HASH HASH) with true. cbv iota.
        rewrite <- E, (iv_ri _ _ _ _ _ _ _ _ _ _ IV), (iv_ge _ _ _ _ _ _ _ _ _ _ IV), (parse_json lower canon v RV ri ge k x Ic).
        reflexivity. }
      rewrite E. cbn [bind].
      destruct (IH (fun y I => Inc y (or_intror I)) _ _ _ _ _ _ _ _
        (comment_step d0 r _ _ _ _ _ _ _ _ (with_json ri (jset (ri_json ri) k x)) ge IV)) as (st' & E' & IV').
      exists st'. split; auto.
  Qed.
End block.

(** ---- partition of a sorted list by its keys ---- *)
Lemma sorted_split {A} (key : A -> nat) i l : StronglySorted (fun a b => key a <= key b) l -> (forall a, In a l -> i <= key a) ->
  l = filter (fun a => Nat.eqb (key a) i) l ++ filter (fun a => negb (Nat.eqb (key a) i)) l.
Proof.
  induction 1 as [|x l S IH F]; intros B; simpl; auto. rewrite Forall_forall in F.
  destruct (Nat.eqb_spec (key x) i) as [E|N]; simpl.
  - f_equal. apply IH. intros; apply B; simpl; auto.
  - assert (G : forall a, In a l -> Nat.eqb (key a) i = false).
    { intros a I. apply Nat.eqb_neq. specialize (F a I). specialize (B x (or_introl eq_refl)). lia. }
    rewrite (filter_none _ l) by auto. simpl. f_equal. symmetry. apply filter_all. intros a I. rewrite (G a I). auto.
Qed.
Lemma partition_keys {A} (key : A -> nat) : forall n i l, StronglySorted (fun a b => key a <= key b) l ->
  (forall a, In a l -> i <= key a < i + n) -> flat_map (fun k => filter (fun a => Nat.eqb (key a) k) l) (seq i n) = l.
Proof.
  induction n as [|n IH]; intros i l SS B; simpl.
  - destruct l as [|a l]; auto. specialize (B a (or_introl eq_refl)). lia.
  - transitivity (filter (fun a => Nat.eqb (key a) i) l ++ filter (fun a => negb (Nat.eqb (key a) i)) l).
    2:{ symmetry. apply sorted_split; auto. intros a I; apply B in I; lia. }
    f_equal.
    transitivity (flat_map (fun k => filter (fun a => Nat.eqb (key a) k) (filter (fun a => negb (Nat.eqb (key a) i)) l)) (seq (S i) n)); [|apply IH].
    + rewrite !flat_map_concat_map. f_equal. apply map_ext_in. intros k Ik. apply in_seq in Ik.
      rewrite filter_filter. apply filter_ext. intros a. destruct (Nat.eqb_spec (key a) k), (Nat.eqb_spec (key a) i); simpl; auto. lia.
    + clear IH B. induction SS as [|x l SS IH F]; simpl; [constructor|]. destruct (negb (Nat.eqb (key x) i)); auto.
      constructor; auto. now apply Forall_filter.
    + intros a I. apply filter_In in I as [I N]. apply B in I. apply negb_true_iff, Nat.eqb_neq in N. lia.
Qed.

(** ---- what the comments leave in the root ---- *)
Lemma splitlines_line x : (forall a, In a x -> is_linebreak a = false) -> forall cur y,
  splitlines_from cur (x ++ LF :: y) = (rev (match cur with Some l => l | None => [] end) ++ x) :: splitlines y.
Proof.
  induction x as [|a x IH]; intros H cur y.
  - simpl. rewrite app_nil_r. unfold splitlines. destruct y as [|b y]; auto.
  - cbn [app splitlines_from]. rewrite (H a) by (simpl; auto). rewrite IH by (intros; apply H; simpl; auto).
    f_equal. destruct cur; simpl; rewrite <- ?app_assoc; auto.
Qed.
Lemma placeholder_breaks c : match c with COther x => forall a, In a x -> is_linebreak a = false | _ => True end ->
  forall a, In a (placeholder c) -> is_linebreak a = false.
Proof.
  destruct c; auto; intros _ a I; cbn in I; repeat (destruct I as [<-|I]; [reflexivity|]); destruct I.
Qed.
Definition placeholder_text (cs : list citem) : str := flat_map (fun c => placeholder c ++ [LF]) cs.
Lemma splitlines_placeholders cs : (forall x, In (COther x) cs -> forall a, In a x -> is_linebreak a = false) ->
  splitlines (placeholder_text cs) = map placeholder cs.
Proof.
  induction cs as [|c cs IH]; intros H; auto. unfold placeholder_text. cbn [flat_map map]. rewrite <- app_assoc. cbn [app].
  unfold splitlines. rewrite splitlines_line.
  - simpl. f_equal. apply IH. intros x I. apply H. simpl; auto.
  - apply placeholder_breaks. destruct c; auto. apply H. simpl; auto.
Qed.

Lemma apply_items_spec v : forall cs ri ge,
  let p := apply_items v cs (ri, ge) in
  ri_comment (fst p) = ri_comment ri ++ placeholder_text cs /\
  ri_sent_id (fst p) = (if existsb (same_special CSentId) cs then Some (sv_sent_id v) else ri_sent_id ri) /\
  ri_text (fst p) = (if existsb (same_special CText) cs then Some (sv_text v) else ri_text ri) /\
  ri_newdoc (fst p) = (if existsb (same_special CNewdoc) cs then sv_newdoc v else ri_newdoc ri) /\
  ri_newpar (fst p) = (if existsb (same_special CNewpar) cs then sv_newpar v else ri_newpar ri) /\
  snd p = (if existsb (same_special CEntity) cs then sv_entity v else ge) /\
  ri_zone (fst p) = ri_zone ri /\ ri_json (fst p) = ri_json ri /\ ri_doc_json (fst p) = ri_doc_json ri.
Proof.
  induction cs as [|c cs IH]; intros ri ge; cbn zeta.
  - simpl. rewrite app_nil_r. repeat split.
  - unfold apply_items. cbn [fold_left]. cbn [fst snd]. destruct (apply_item v ri ge c) as [ri1 ge1] eqn:E.
    specialize (IH ri1 ge1). unfold apply_items in IH. cbn zeta in IH.
    destruct IH as (H1 & H2 & H3 & H4 & H5 & H6 & H7 & H8 & H9).
    unfold apply_item in E. injection E as <- <-.
    rewrite H1, H2, H3, H4, H5, H6, H7, H8, H9. unfold placeholder_text. cbn [flat_map existsb].
    split.
    { unfold add_line. cbn [ri_comment]. rewrite <- !app_assoc. destruct c; reflexivity. }
    destruct c; cbn; repeat split; auto; match goal with |- context [existsb ?f cs] => destruct (existsb f cs); auto end.
Qed.
Lemma jset_new l k x : ~ In k (map fst l) -> jset l k x = l ++ [(k, x)].
Proof.
  induction l as [|[k' x'] l IH]; simpl; intros N; auto. destruct (str_eqb_spec k k'); [subst; tauto|]. f_equal. apply IH. tauto.
Qed.
Lemma apply_json_spec : forall l ri, NoDup (map fst (ri_json ri ++ l)) ->
  apply_json l ri = with_json ri (ri_json ri ++ l).
Proof.
  induction l as [|[k x] l IH]; intros ri ND; unfold apply_json; cbn [fold_left].
  - rewrite app_nil_r. destruct ri; reflexivity.
  - fold (apply_json l (with_json ri (jset (ri_json ri) k x))). cbn [fst snd].
    rewrite jset_new.
    + rewrite IH; [simpl; now rewrite <- app_assoc|]. simpl. now rewrite <- app_assoc.
    + rewrite map_app in ND. simpl in ND. apply NoDup_remove_2 in ND. intros I. apply ND, in_app_iff. auto.
Qed.

(** ---- all lines ---- *)
Definition final_ri (v : sentv) : rinfo := with_json (fst (apply_items v (sv_comments v) (no_rinfo, None))) (sv_json v).
Definition final_ge (v : sentv) (ge : option str) : option str := if existsb (same_special CEntity) (sv_comments v) then sv_entity v else ge.
Definition artificial_word : wordv := mkWordv US US None None US 0 None US EmptyYes.
(** the word lines that are read *)
Definition words_read (v : sentv) : list wordv := match sv_words v with [] => [artificial_word] | ws => ws end.

Lemma apply_items_fst v : forall cs ri ge ge', fst (apply_items v cs (ri, ge)) = fst (apply_items v cs (ri, ge')).
Proof.
  induction cs as [|c cs IH]; intros ri ge ge'; auto. unfold apply_items. cbn [fold_left fst snd].
  unfold apply_item. apply IH.
Qed.

Lemma conllu_block cfg lower canon d0 ge v : representable lower canon v ->
  let r := h_next (d_h d0) in
  exists st ns es, read_lines cfg canon r (mkRd (fst (doc_new_root d0)) ge [r] [0%Z] []) (conllu_lines v) = (st, Ok tt) /\
    rinv d0 r st ns es (cols_from 1 (words_read v)) (map empty_columns (sv_empties v)) (map mwt_columns (sv_mwts v))
         (final_ri v) (final_ge v ge).
Proof.
  intros RV r. pose proof (rinv_start d0 r ge eq_refl) as I0. unfold conllu_lines.
  rewrite read_lines_app.
  destruct (comments_block cfg canon d0 r lower v RV (sv_comments v) (incl_refl _) _ _ _ _ _ _ _ _ I0) as (st1 & E1 & I1).
  rewrite E1. cbn [bind].
  destruct (apply_items_spec v (sv_comments v) no_rinfo ge) as (H1 & H2 & H3 & H4 & H5 & H6 & H7 & H8 & H9).
  set (ri1 := fst (apply_items v (sv_comments v) (no_rinfo, ge))) in *. rewrite H6 in I1.
  rewrite read_lines_app.
  destruct (json_block cfg canon d0 r lower v RV (sv_json v) (incl_refl _) _ _ _ _ _ _ _ _ I1) as (st2 & E2 & I2).
  rewrite E2. cbn [bind].
  assert (J : apply_json (sv_json v) ri1 = final_ri v).
  { rewrite apply_json_spec.
    - rewrite H8. cbn [ri_json no_rinfo app]. unfold final_ri, ri1. now rewrite (apply_items_fst v _ _ ge None).
    - rewrite H8. cbn [ri_json no_rinfo app]. destruct (rv_json _ _ _ RV) as [SS _]. clear - SS.
      induction SS as [|[k x] l S IH F]; simpl; constructor; auto. rewrite Forall_forall in F. intros I.
      apply in_map_iff in I as ([k' x'] & E & I). simpl in E. subst. apply F in I. simpl in I. tauto. }
  rewrite J in I2. fold (final_ge v ge) in I2.
  set (n := length (sv_words v)).
  pose proof (rv_empties _ _ _ RV) as FE. pose proof (rv_mwts _ _ _ RV) as FM. fold n in FE, FM.
  rewrite read_lines_app. unfold empties_after. fold (after_k v 0).
  destruct (empties_block cfg canon d0 r n (after_k v 0) _ _ _ _ _ _ _ _ I2) as (st3 & es3 & E3 & I3); [now apply Forall_filter|].
  rewrite E3. cbn [bind]. rewrite read_lines_app.
  destruct (words_block cfg canon d0 r v n FE FM (sv_words v) 1 _ _ _ _ _ _ _ _ I3 (rv_words _ _ _ RV)) as (st4 & ns4 & es4 & E4 & I4).
  rewrite E4. cbn [bind].
  assert (PE : map empty_columns (after_k v 0) ++ map empty_columns (flat_map (after_k v) (seq 1 (length (sv_words v)))) = map empty_columns (sv_empties v)).
  { rewrite <- map_app. f_equal. change (after_k v 0 ++ flat_map (after_k v) (seq 1 (length (sv_words v)))) with (flat_map (after_k v) (seq 0 (S n))).
    apply (partition_keys ev_after).
    - pose proof (rv_eorder _ _ _ RV) as SS. rewrite Forall_forall in FE. clear - SS FE. induction SS as [|x l S IH F]; constructor.
      + apply IH. intros; apply FE; simpl; auto.
      + rewrite Forall_forall in *. intros y I. specialize (F y I). simpl in F.
        destruct (FE x (or_introl eq_refl)) as (_ & B1 & _). destruct (FE y (or_intror I)) as (_ & B2 & _). lia.
    - intros a I. rewrite Forall_forall in FE. destruct (FE a I) as (B & _). lia. }
  assert (PM : map mwt_columns (flat_map (from_k v) (seq 1 (length (sv_words v)))) = map mwt_columns (sv_mwts v)).
  { f_equal. apply (partition_keys mv_first).
    - pose proof (rv_morder _ _ _ RV) as SS. rewrite Forall_forall in FM. clear - SS FM. induction SS as [|x l S IH F]; constructor.
      + apply IH. intros; apply FM; simpl; auto.
      + rewrite Forall_forall in *. intros y I. specialize (F y I). simpl in F.
        destruct (FM x (or_introl eq_refl)) as (B1 & _). lia.
    - intros a I. rewrite Forall_forall in FM. destruct (FM a I) as (B & B' & _). unfold n in *. lia. }
  cbn [app] in I4. rewrite PE, PM in I4.
  unfold words_read. destruct (sv_words v) as [|w ws] eqn:EW.
  - cbn [cols_from app] in I4. change artificial_line with (line_of (word_columns 1 artificial_word)). cbn [read_lines].
    destruct (word_line_ok cfg canon d0 r _ _ _ _ _ _ _ _ 1 artificial_word I4) as (st5 & n5 & E5 & I5).
    { unfold ok_word, artificial_word, column, opt_column, dict_column. simpl.
      repeat split; try discriminate; intros I; cbn in I; intuition discriminate. }
    rewrite E5. cbn [bind]. exists st5, (ns4 ++ [n5]), es4. split; auto.
  - cbn [read_lines]. exists st4, ns4, es4. split; auto.
Qed.
