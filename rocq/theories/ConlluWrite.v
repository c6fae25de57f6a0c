(** The lines printed by the writer for a tree that holds a representable sentence. *)
From Coq Require Import String List NArith ZArith Bool Lia Sorted Permutation.
From Verif Require Import PyStr PyStrFacts PyList PyListFacts PyExn TreeModel TreeSpec TreeFacts TreeRepr TreeOps TreeCalls
  DualDictModel DocModel ConlluModel ConlluSpec ConlluComments.
Import ListNotations.

(** ---- lists ---- *)
Lemma nth_error_skipn {A} : forall k (l : list A) j, nth_error (skipn k l) j = nth_error l (k + j).
Proof. induction k as [|k IH]; intros l j; simpl; auto. destruct l; simpl; [now destruct j|auto]. Qed.
Lemma nth_error_firstn {A} : forall k (l : list A) j, j < k -> nth_error (firstn k l) j = nth_error l j.
Proof.
  induction k as [|k IH]; intros l j H; [lia|]. destruct l; simpl; auto. destruct j; simpl; auto. apply IH. lia.
Qed.
Lemma last_opt_nth {A} (l : list A) : last_opt l = nth_error l (length l - 1).
Proof.
  induction l as [|x l IH]; simpl; auto. destruct l; auto. rewrite IH. simpl. now rewrite Nat.sub_0_r.
Qed.
Lemma SS_app {A} (R : A -> A -> Prop) l1 l2 : StronglySorted R l1 -> StronglySorted R l2 ->
  (forall a b, In a l1 -> In b l2 -> R a b) -> StronglySorted R (l1 ++ l2).
Proof.
  induction 1 as [|x l S IH F]; intros S2 H; simpl; auto. constructor.
  - apply IH; auto. intros; apply H; simpl; auto.
  - rewrite Forall_forall in *. intros b I. apply in_app_iff in I as [I|I]; auto. apply H; simpl; auto.
Qed.
Lemma SS_firstn {A} (R : A -> A -> Prop) k l : StronglySorted R l -> StronglySorted R (firstn k l).
Proof.
  intros S; revert k; induction S as [|x l S IH F]; intros [|k]; simpl; try constructor; auto.
  rewrite Forall_forall in *. intros y I. apply F. rewrite <- (firstn_skipn k l). apply in_app_iff; auto.
Qed.
Lemma SS_skipn {A} (R : A -> A -> Prop) k l : StronglySorted R l -> StronglySorted R (skipn k l).
Proof.
  revert l; induction k as [|k IH]; intros l S; simpl; auto. destruct l; auto. inversion S; auto.
Qed.
Lemma Forall2_filter {A B} (P : A -> B -> Prop) (f : A -> bool) (g : B -> bool) l l' :
  Forall2 P l l' -> (forall a b, In a l -> In b l' -> P a b -> f a = g b) -> Forall2 P (filter f l) (filter g l').
Proof.
  induction 1 as [|a b l l' H F IH]; simpl; intros E; auto.
  rewrite (E a b) by auto. destruct (g b); [constructor|]; auto.
Qed.
Lemma Forall2_map_eq {A B C} (P : A -> B -> Prop) (f : A -> C) (g : B -> C) l l' :
  Forall2 P l l' -> (forall a b, In a l -> In b l' -> P a b -> f a = g b) -> map f l = map g l'.
Proof. induction 1; simpl; intros E; auto. f_equal; auto. Qed.
Lemma Forall2_nth_l {A B} (P : A -> B -> Prop) l l' : Forall2 P l l' ->
  forall i a, nth_error l i = Some a -> exists b, nth_error l' i = Some b /\ P a b.
Proof. induction 1; intros [|i] c; simpl; try discriminate; [intros [= <-]; eauto|auto]. Qed.
Lemma Forall2_nth_r {A B} (P : A -> B -> Prop) l l' : Forall2 P l l' ->
  forall i b, nth_error l' i = Some b -> exists a, nth_error l i = Some a /\ P a b.
Proof. induction 1; intros [|i] c; simpl; try discriminate; [intros [= <-]; eauto|auto]. Qed.
Lemma Forall2_In_l {A B} (P : A -> B -> Prop) l l' a : Forall2 P l l' -> In a l -> exists b, In b l' /\ P a b.
Proof.
  intros H I. apply In_nth_error in I as [i E]. destruct (Forall2_nth_l _ _ _ H _ _ E) as [b [F Q]].
  exists b. split; auto. eapply nth_error_In; eauto.
Qed.
Lemma Forall2_In_r {A B} (P : A -> B -> Prop) l l' b : Forall2 P l l' -> In b l' -> exists a, In a l /\ P a b.
Proof.
  intros H I. apply In_nth_error in I as [i E]. destruct (Forall2_nth_r _ _ _ H _ _ E) as [a [F Q]].
  exists a. split; auto. eapply nth_error_In; eauto.
Qed.
Lemma SS_trichotomy {A} (R : A -> A -> Prop) l a b : StronglySorted R l -> In a l -> In b l -> a = b \/ R a b \/ R b a.
Proof.
  induction 1 as [|x l S IH F]; simpl; [tauto|]. rewrite Forall_forall in F.
  intros [->|I] [->|J]; auto.
Qed.

Lemma Forall2_sorted {A B} (P : A -> B -> Prop) (R : A -> A -> Prop) (Q : B -> B -> Prop) l l' :
  (forall a b a' b', In b l' -> In b' l' -> P a b -> P a' b' -> Q b b' -> R a a') ->
  Forall2 P l l' -> StronglySorted Q l' -> StronglySorted R l.
Proof.
  intros H F. induction F as [|a b l l' p F IH]; intros S; constructor; inversion S as [|? ? S' G]; subst.
  - apply IH; auto. intros; eapply (H a0 b0 a' b'); simpl; auto.
  - rewrite Forall_forall in *. intros a' I. destruct (Forall2_In_l _ _ _ _ F I) as [b' [J Pb]].
    eapply H; [| |exact p|exact Pb|]; simpl; auto.
Qed.

Lemma SS_NoDup {A} (R : A -> A -> Prop) l : (forall a, In a l -> ~ R a a) -> StronglySorted R l -> NoDup l.
Proof.
  intros H S. induction S as [|x l S IH F]; constructor; [|apply IH; intros; apply H; simpl; auto].
  intros I. rewrite Forall_forall in F. apply (H x); simpl; auto.
Qed.
Lemma filter_single {A} (f : A -> bool) l x : NoDup l -> In x l -> f x = true ->
  (forall y, In y l -> f y = true -> x = y) -> filter f l = [x].
Proof.
  induction l as [|y l IH]; simpl; intros ND I E U; [tauto|]. inversion ND as [|? ? N ND']; subst.
  destruct I as [->|I].
  - rewrite E. rewrite filter_none; auto. intros z J. destruct (f z) eqn:Ez; auto. assert (x = z) by auto. congruence.
  - destruct (f y) eqn:Ey; [assert (x = y) by auto; congruence|]. apply IH; auto.
Qed.
Lemma skipn_add {A} : forall a b (l : list A), skipn a (skipn b l) = skipn (b + a) l.
Proof. intros a b; induction b as [|b IH]; intros l; simpl; auto. destruct l; auto. now rewrite skipn_nil. Qed.

(** ---- covered words ---- *)
Lemma covered_nth {A} m (xs : list A) j : 1 <= mv_first m <= mv_last m -> mv_last m <= length xs ->
  j < S (mv_last m) - mv_first m -> nth_error (covered m xs) j = nth_error xs (mv_first m - 1 + j).
Proof. intros. unfold covered. rewrite nth_error_firstn by lia. apply nth_error_skipn. Qed.
Lemma covered_length {A} m (xs : list A) : 1 <= mv_first m <= mv_last m -> mv_last m <= length xs ->
  length (covered m xs) = S (mv_last m) - mv_first m.
Proof. intros. unfold covered. rewrite firstn_length, skipn_length. lia. Qed.
Lemma covered_In {A} m (xs : list A) i x : NoDup xs -> 1 <= mv_first m <= mv_last m -> mv_last m <= length xs ->
  nth_error xs (i - 1) = Some x -> 1 <= i -> (In x (covered m xs) <-> mv_first m <= i <= mv_last m).
Proof.
  intros ND H1 H2 E Hi. split.
  - intros I. apply In_nth_error in I as [j J].
    assert (L : j < length (covered m xs)) by (apply nth_error_Some; congruence).
    rewrite covered_length in L by auto. rewrite covered_nth in J by auto.
    rewrite NoDup_nth_error in ND.
    assert (i - 1 = mv_first m - 1 + j).
    { apply ND; [apply nth_error_Some|]; congruence. }
    lia.
  - intros I. apply nth_error_In with (n := i - mv_first m). rewrite covered_nth by lia.
    now replace (mv_first m - 1 + (i - mv_first m)) with (i - 1) by lia.
Qed.

(** ---- comments ---- *)
Section write.
  Variable lower : str -> str.
  Variable canon : str -> option str.
  Variables (env : wenv) (d : doc) (r : nat) (v : sentv).
  Hypothesis RV : representable lower canon v.
  Hypothesis C : consistent (d_h d) r.
  Hypothesis SE : sentence lower env d r v.
  Hypothesis BU : In CEntity (sv_comments v) \/ set_val (sv_newdoc v) = true -> we_bundle env <> None.

  Lemma pardoc_truthy x y : pardoc_is x y -> ok_pardoc y -> truthy x = set_val y /\ (set_val y = true -> x = y).
  Proof.
    intros [->|[-> ->]] O; (split; [|try discriminate; auto]); auto.
  Qed.
  Lemma set_val_None y : ok_pardoc y -> y <> VNone -> set_val y = true.
  Proof. destruct y as [| |[|a y]]; simpl; tauto. Qed.
  Lemma pardoc_line x y : tl (with_id (HASH :: x) y) = pardoc x y.
  Proof. destruct y; simpl; auto; unfold pardoc; now rewrite app_nil_r. Qed.

  Lemma render_item c : In c (sv_comments v) ->
    render wdefault env d r (placeholder c) = Ok (Some (tl (comment_line v c))).
  Proof.
    intros I. destruct RV, SE. destruct rv_comments as (OO & _ & Cd & Cp & Ce).
    destruct c as [| | | | |x]; unfold render, placeholder, comment_line; cbn [wc_sent_id wc_text wdefault].
    - change (str_eqb (s "$SENT_ID") P_SENT_ID) with true. cbv iota. rewrite (shown_sent_id_is _ _ _ se_sent_id). reflexivity.
    - change (str_eqb (s "$TEXT") P_SENT_ID) with false. change (str_eqb (s "$TEXT") P_TEXT) with true. cbv iota.
      rewrite se_text. reflexivity.
    - change (str_eqb (s "$NEWDOC") P_SENT_ID) with false. change (str_eqb (s "$NEWDOC") P_TEXT) with false.
      change (str_eqb (s "$NEWDOC") P_NEWDOC) with true. cbv iota.
      destruct (pardoc_truthy _ _ se_newdoc rv_newdoc) as [T E].
      pose proof (set_val_None _ rv_newdoc (Cd I)) as SV. rewrite T, SV. rewrite (E SV). cbn [andb].
      change (s "# newdoc") with (HASH :: s " newdoc"). now rewrite pardoc_line.
    - change (str_eqb (s "$NEWPAR") P_SENT_ID) with false. change (str_eqb (s "$NEWPAR") P_TEXT) with false.
      change (str_eqb (s "$NEWPAR") P_NEWDOC) with false. change (str_eqb (s "$NEWPAR") P_NEWPAR) with true. cbv iota.
      destruct (pardoc_truthy _ _ se_newpar rv_newpar) as [T E].
      pose proof (set_val_None _ rv_newpar (Cp I)) as SV. rewrite T, SV. rewrite (E SV). cbn [andb].
      change (s "# newpar") with (HASH :: s " newpar"). now rewrite pardoc_line.
    - change (str_eqb (s "$GLOBAL.ENTITY") P_SENT_ID) with false. change (str_eqb (s "$GLOBAL.ENTITY") P_TEXT) with false.
      change (str_eqb (s "$GLOBAL.ENTITY") P_NEWDOC) with false. change (str_eqb (s "$GLOBAL.ENTITY") P_NEWPAR) with false.
      change (str_eqb (s "$GLOBAL.ENTITY") P_GE) with true. cbv iota.
      unfold shown_ge. destruct (we_bundle env); [|tauto]. cbn [rbind]. rewrite se_entity.
      destruct (sv_entity v) as [g|]; [reflexivity|]. now apply Ce in I.
    - destruct (OO x I) as (NE & NB & NP & _).
      rewrite (proj2 (str_eqb_neq x P_SENT_ID)) by (apply (NP CSentId); auto).
      rewrite (proj2 (str_eqb_neq x P_TEXT)) by (apply (NP CText); auto).
      rewrite (proj2 (str_eqb_neq x P_NEWDOC)) by (apply (NP CNewdoc); auto).
      rewrite (proj2 (str_eqb_neq x P_NEWPAR)) by (apply (NP CNewpar); auto).
      rewrite (proj2 (str_eqb_neq x P_GE)) by (apply (NP CEntity); auto). reflexivity.
  Qed.
  Lemma print_item c : In c (sv_comments v) -> print_comment (Some (tl (comment_line v c))) = [comment_line v c].
  Proof.
    intros I. destruct RV. destruct rv_comments as (OO & _).
    destruct c as [| | | | |x]; try reflexivity; unfold comment_line.
    - unfold with_id. destruct (sv_newdoc v); reflexivity.
    - unfold with_id. destruct (sv_newpar v); reflexivity.
    - destruct (OO x I) as [NE _]. destruct x; [congruence|reflexivity].
  Qed.
  Lemma render_items : forall l, incl l (sv_comments v) ->
    map_res (render wdefault env d r) (map placeholder l) = Ok (map (fun c => Some (tl (comment_line v c))) l) /\
    printed_lines (map (fun c => Some (tl (comment_line v c))) l) = map (comment_line v) l.
  Proof.
    induction l as [|c l IH]; intros I; [split; auto|]. destruct IH as [I1 I2]; [intros x J; apply I; simpl; auto|].
    split; cbn [map map_res].
    - rewrite render_item by (apply I; simpl; auto). cbn [rbind]. rewrite I1. reflexivity.
    - cbn [flat_map]. rewrite print_item by (apply I; simpl; auto). now rewrite I2.
  Qed.
  Lemma placeholder_In c : is_special c = true -> In (placeholder c) (map placeholder (sv_comments v)) -> In c (sv_comments v).
  Proof.
    intros S I. apply in_map_iff in I as [c' [E I]]. destruct (is_special c') eqn:S'.
    - destruct c', c; try discriminate; auto; vm_compute in E; discriminate.
    - destruct c' as [| | | | |x]; try discriminate. destruct RV. destruct rv_comments as (OO & _).
      destruct (OO x I) as (_ & _ & NP & _). exfalso. exact (NP c S E).
  Qed.
  Lemma same_special_eq c c' : is_special c = true -> same_special c c' = true <-> c = c'.
  Proof. destruct c, c'; simpl; split; congruence. Qed.
  Lemma addition_item c : is_special c = true ->
    addition (splitlines (ri_comment (d_ri d r))) (placeholder c) (comment_line v c) =
    map (comment_line v) (if negb (existsb (same_special c) (sv_comments v)) then [c] else []).
  Proof.
    intros S. unfold addition. rewrite (se_comment _ _ _ _ _ SE).
    destruct (Nat.eqb_spec (upto (placeholder c) (map placeholder (sv_comments v))) 0) as [E|E].
    - apply upto_0 in E. destruct (existsb _ _) eqn:X; auto. apply existsb_exists in X as [c' [I Q]].
      apply same_special_eq in Q; auto. subst. elim E. now apply in_map.
    - destruct (existsb _ _) eqn:X; auto. elim E. apply upto_0. intros I. apply placeholder_In in I; auto.
      rewrite <- not_true_iff_false in X. apply X. apply existsb_exists. exists c. split; auto.
      now apply same_special_eq.
  Qed.
  Lemma added_ok : added_lines wdefault env (d_ri d r) (sv_entity v) (sv_text v) = map (comment_line v) (missing v).
  Proof.
    destruct RV, SE. unfold added_lines. cbn [wc_sent_id wc_text wdefault].
    destruct (pardoc_truthy _ _ se_newdoc rv_newdoc) as [Td Ed].
    destruct (pardoc_truthy _ _ se_newpar rv_newpar) as [Tp Ep]. rewrite Td, Tp, (shown_sent_id_is _ _ _ se_sent_id).
    change (s "# sent_id = " ++ sv_sent_id v) with (comment_line v CSentId).
    change (s "# text = " ++ sv_text v) with (comment_line v CText).
    change P_SENT_ID with (placeholder CSentId). change P_TEXT with (placeholder CText).
    rewrite !addition_item by auto.
    unfold missing, specials.
    assert (N1 : set_val (sv_newdoc v) = true ->
      addition (splitlines (ri_comment (d_ri d r))) P_NEWDOC (HASH :: pardoc (s " newdoc") (ri_newdoc (d_ri d r))) =
      map (comment_line v) (if negb (existsb (same_special CNewdoc) (sv_comments v)) then [CNewdoc] else [])).
    { intros SV. rewrite (Ed SV). rewrite <- addition_item by auto. f_equal. unfold comment_line.
      change (s "# newdoc") with (HASH :: s " newdoc"). rewrite <- pardoc_line. destruct (sv_newdoc v); reflexivity. }
    assert (N2 : set_val (sv_newpar v) = true ->
      addition (splitlines (ri_comment (d_ri d r))) P_NEWPAR (HASH :: pardoc (s " newpar") (ri_newpar (d_ri d r))) =
      map (comment_line v) (if negb (existsb (same_special CNewpar) (sv_comments v)) then [CNewpar] else [])).
    { intros SV. rewrite (Ep SV). rewrite <- addition_item by auto. f_equal. unfold comment_line.
      change (s "# newpar") with (HASH :: s " newpar"). rewrite <- pardoc_line. destruct (sv_newpar v); reflexivity. }
    assert (N3 : forall x, sv_entity v = Some x ->
      addition (splitlines (ri_comment (d_ri d r))) P_GE (s "# global.Entity = " ++ x) =
      map (comment_line v) (if negb (existsb (same_special CEntity) (sv_comments v)) then [CEntity] else [])).
    { intros x E. rewrite <- addition_item by auto. f_equal. unfold comment_line. rewrite E. reflexivity. }
    rewrite !filter_app, !map_app. rewrite <- !app_assoc. f_equal; [|f_equal].
    - destruct (set_val (sv_newdoc v)); auto. rewrite N1 by auto. rewrite filter_app, map_app. f_equal.
      destruct (sv_entity v); auto.
    - destruct (set_val (sv_newpar v)); auto.
    - simpl filter. destruct (existsb (same_special CSentId) _), (existsb (same_special CText) _); reflexivity.
  Qed.
  Lemma comments_ok : exists items, comment_lines wdefault env d r = Ok (map (comment_line v) items) /\
    interleave (sv_comments v) (missing v) items.
  Proof.
    destruct (render_items (sv_comments v)) as [M P]; [apply incl_refl|].
    destruct (comment_lines_ok wdefault env d r (map (fun c => Some (tl (comment_line v c))) (sv_comments v))
               (sv_entity v) (sv_text v)) as [out [E I]].
    - rewrite (se_comment _ _ _ _ _ SE). auto.
    - destruct (sv_comments v); simpl; congruence.
    - intros _ T. destruct RV, SE. destruct (pardoc_truthy _ _ se_newdoc rv_newdoc) as [Td Ed]. rewrite Td in T.
      unfold shown_ge. destruct (we_bundle env) eqn:B; [|exfalso; tauto]. now rewrite se_entity.
    - intros _ _. apply (se_text _ _ _ _ _ SE).
    - rewrite P, added_ok in I. apply interleave_map in I as [items [-> I]]. exists items. auto.
  Qed.

  (** ---- json ---- *)
  Lemma json_ok : json_lines (d_ri d r) = map json_line (sv_json v).
  Proof.
    unfold json_lines. change (fun kv : str * str => s "# json_" ++ fst kv ++ s " = " ++ snd kv) with json_line. f_equal.
    destruct RV, SE. destruct rv_json as [SS _].
    pose (lt := fun a b : str * str => str_leb (fst a) (fst b) = true /\ fst a <> fst b).
    symmetry. apply (sorted_unique lt).
    - intros a _ [_ H]. auto.
    - intros a b _ _ [H1 H2] [H3 _]. apply H2. now apply str_leb_antisym.
    - exact SS.
    - assert (S : StronglySorted (fun a b => str_leb (fst a) (fst b) = true)
                    (isort (fun a b => str_leb (fst a) (fst b)) (ri_json (d_ri d r)))).
      { apply isort_sorted; intros; [apply str_leb_total|eapply str_leb_trans; eauto]. }
      assert (ND : NoDup (map fst (isort (fun a b => str_leb (fst a) (fst b)) (ri_json (d_ri d r))))).
      { eapply Permutation_NoDup; [apply Permutation_map, Permutation_sym; eapply perm_trans; [apply isort_perm|exact se_json]|].
        clear - SS. induction SS as [|x l S IH F]; simpl; constructor; auto. intros I. apply in_map_iff in I as [y [E I]].
        rewrite Forall_forall in F. apply F in I as [_ N]. congruence. }
      revert S ND. generalize (isort (fun a b : str * str => str_leb (fst a) (fst b)) (ri_json (d_ri d r))).
      induction 1 as [|x l S IH F]; simpl; intros ND; constructor; inversion ND; subst; auto.
      rewrite Forall_forall in *. intros y I. split; [now apply F|]. intros E. apply H1. rewrite E. now apply in_map.
    - apply Permutation_sym. eapply perm_trans; [apply isort_perm|exact se_json].
  Qed.

  (** ---- tokens ---- *)
  Let h := d_h d.
  Let xs := h_desc h r.
  Let es := h_emp h r.
  Let HR := consistent_Repr h r C.

  Lemma xs_ord i x : nth_error xs i = Some x -> h_ord h x = (Z.of_nat i + 1)%Z.
  Proof. apply (r_ord h _ HR). Qed.
  Lemma xs_kind x : In x xs -> is_empty h x = false.
  Proof. intros I. unfold is_empty. now rewrite (proj1 (c_kinds h r C) x I). Qed.
  Lemma xs_len : length xs = length (sv_words v).
  Proof. eapply Forall2_length_eq. apply (tk_words _ _ _ _ (se_tokens _ _ _ _ _ SE)). Qed.
  Lemma ord_num x n : h_kind h x <> KEmpty -> h_ord h x = Z.of_nat n -> ord_str h x = num n.
  Proof. intros K E. unfold ord_str, is_empty. rewrite E. destruct (h_kind h x) eqn:?; try congruence; reflexivity. Qed.
  Lemma dd_col_text m : dd_col lower m = text_of_dd lower m.
  Proof. destruct m; auto. Qed.

  Lemma word_line i x w : nth_error xs i = Some x -> word_is lower d x w -> node_line lower d x = line_of (word_columns (S i) w).
  Proof.
    intros E (W1 & W2 & W3 & W4 & W5 & (p & Hp & Op) & W6 & W7 & W8). unfold node_line, line_of, word_columns. fold h.
    assert (I : In x xs) by (eapply nth_error_In; eauto).
    rewrite (ord_num x (S i)).
    2:{ rewrite (proj1 (c_kinds h r C) x I). discriminate. }
    2:{ rewrite (xs_ord _ _ E). lia. }
    fold h in Hp, Op. rewrite Hp. rewrite (ord_num p (wv_head w)); auto.
    2:{ destruct (c_parents h r C x I) as [q [Hq L]]. assert (p = q) by congruence. subst q.
        destruct L as [->|L]; [rewrite (proj2 (c_kinds h r C))|rewrite (proj1 (c_kinds h r C) p L)]; discriminate. }
    change col with underscore. rewrite !dd_col_text, W1, W2, W3, W4, W5, W6, W7, W8. reflexivity.
  Qed.
  Lemma empty_line x e : In e (sv_empties v) -> empty_is lower d x e -> node_line lower d x = line_of (empty_columns e).
  Proof.
    intros I (K & M & P & O & E1 & E2 & E3 & E4 & E5 & E6 & E7 & E8). unfold node_line, line_of, empty_columns. fold h.
    fold h in K, P, O. unfold ord_str, is_empty. rewrite K, P, O.
    destruct RV. rewrite Forall_forall in rv_empties. destruct (rv_empties e I) as (_ & MI & _).
    replace ((10 * Z.of_nat (ev_after e) + Z.of_nat (ev_minor e)) / 10)%Z with (Z.of_nat (ev_after e)).
    2:{ apply Z.div_unique with (Z.of_nat (ev_minor e)); lia. }
    replace ((10 * Z.of_nat (ev_after e) + Z.of_nat (ev_minor e)) mod 10)%Z with (Z.of_nat (ev_minor e)).
    2:{ apply Z.mod_unique with (Z.of_nat (ev_after e)); lia. }
    change col with underscore. rewrite !dd_col_text, E1, E2, E3, E4, E5, E6, E7, E8. reflexivity.
  Qed.

  Definition emps (k : nat) : list nat := filter (fun e => Z.eqb (h_eord h e / 10) (Z.of_nat k)) es.
  Fixpoint seqn (k : nat) (l : list nat) : list nat :=
    match l with [] => [] | x :: l => x :: emps k ++ seqn (S k) l end.

  Lemma es_is e : In e es -> exists ev, In ev (sv_empties v) /\ empty_is lower d e ev /\
    (h_eord h e / 10 = Z.of_nat (ev_after ev))%Z /\ (10 * Z.of_nat (ev_after ev) < h_eord h e < 10 * Z.of_nat (ev_after ev) + 10)%Z /\
    ev_after ev <= length xs /\ is_empty h e = true.
  Proof.
    intros I. destruct (Forall2_In_l _ _ _ _ (tk_empties _ _ _ _ (se_tokens _ _ _ _ _ SE)) I) as [ev [J H]]. exists ev.
    destruct RV. rewrite Forall_forall in rv_empties. destruct (rv_empties ev J) as (A & MI & _).
    pose proof H as (K & _ & _ & O & _). fold h in K, O. rewrite O. do 2 (split; [auto|]).
    split; [symmetry; apply Z.div_unique with (Z.of_nat (ev_minor ev)); lia|]. split; [lia|].
    rewrite xs_len. split; auto. unfold is_empty. now rewrite K.
  Qed.
  Lemma emps_sorted k : StronglySorted (key_lt (okey h)) (emps k).
  Proof.
    apply filter_StronglySorted. eapply Forall2_sorted; [|apply (tk_empties _ _ _ _ (se_tokens _ _ _ _ _ SE))|apply (rv_eorder _ _ _ RV)].
    intros a b a' b' _ _ (K & _ & _ & O & _) (K' & _ & _ & O' & _) L. unfold key_lt, okey, is_empty. fold h in K, K', O, O'.
    rewrite K, K', O, O'. lia.
  Qed.
  Lemma emps_bounds k e : In e (emps k) -> (10 * Z.of_nat k < okey h e < 10 * Z.of_nat k + 10)%Z.
  Proof.
    intros I. apply filter_In in I as [I E]. destruct (es_is e I) as (ev & _ & _ & Q & B & _ & K). apply Z.eqb_eq in E.
    unfold okey. rewrite K. lia.
  Qed.
  Lemma seqn_sorted : forall l k, pos_ok h k l -> (forall x, In x l -> In x xs) ->
    StronglySorted (key_lt (okey h)) (seqn (S k) l) /\ (forall y, In y (seqn (S k) l) -> (10 * (Z.of_nat k + 1) <= okey h y)%Z).
  Proof.
    induction l as [|x l IH]; intros k P I; cbn [seqn]; [split; [constructor|intros y []]|].
    apply pos_ok_cons in P as [O P]. destruct (IH (S k) P) as [S1 B1]; [intros y Hy; apply I; simpl; auto|].
    assert (OX : okey h x = (10 * (Z.of_nat k + 1))%Z).
    { unfold okey. rewrite xs_kind by (apply I; simpl; auto). lia. }
    assert (AB : forall y, In y (emps (S k) ++ seqn (S (S k)) l) -> (10 * (Z.of_nat k + 1) < okey h y)%Z).
    { intros y Hy. apply in_app_iff in Hy as [Hy|Hy]; [apply emps_bounds in Hy; lia|apply B1 in Hy; lia]. }
    split.
    - constructor.
      + apply SS_app; auto using emps_sorted. intros a b Ha Hb. apply emps_bounds in Ha. apply B1 in Hb. unfold key_lt. lia.
      + rewrite Forall_forall. intros y Hy. apply AB in Hy. unfold key_lt. lia.
    - intros y [<-|Hy]; [lia|]. apply AB in Hy. lia.
  Qed.
  Lemma seqn_perm : forall l k, Permutation (seqn k l)
    (l ++ filter (fun e => Z.leb (Z.of_nat k) (h_eord h e / 10) && Z.ltb (h_eord h e / 10) (Z.of_nat (k + length l)))%Z es).
  Proof.
    induction l as [|x l IH]; intros k; cbn [seqn app].
    - rewrite filter_none; auto. intros e _. simpl. rewrite Nat.add_0_r.
      destruct (Z.leb_spec (Z.of_nat k) (h_eord h e / 10)); simpl; auto. apply Z.ltb_ge. lia.
    - constructor. eapply perm_trans; [apply Permutation_app_head, IH|].
      eapply perm_trans; [apply Permutation_app_swap_app|]. apply Permutation_app_head.
      unfold emps. eapply perm_trans; [apply filter_or_perm|].
      + intros e _ E1 E2. apply Z.eqb_eq in E1. apply andb_true_iff in E2 as [E2 _]. apply Z.leb_le in E2. lia.
      + erewrite filter_ext; [apply Permutation_refl|]. intros e. cbn [Datatypes.length].
        destruct (Z.eqb_spec (h_eord h e / 10) (Z.of_nat k)) as [E|E]; cbn [orb].
        * symmetry. apply andb_true_iff. split; [apply Z.leb_le|apply Z.ltb_lt]; lia.
        * apply eq_true_iff_eq. rewrite !andb_true_iff, !Z.leb_le, !Z.ltb_lt. lia.
  Qed.
  Lemma nodes_ok : (if nonempty es then descendants_and_empty h r else xs) = emps 0 ++ seqn 1 xs.
  Proof.
    destruct es as [|e0 es0] eqn:EE.
    - unfold emps. rewrite EE. cbn [filter app nonempty].
      assert (forall l k, seqn k l = l) as ->; auto. induction l as [|x l IH]; intros k; cbn [seqn]; auto.
      unfold emps. rewrite EE. simpl. f_equal. apply IH.
    - cbn [nonempty]. unfold descendants_and_empty. fold xs es. apply sort_on_unique.
      + apply Permutation_sym. eapply perm_trans; [apply Permutation_app_head, seqn_perm|].
        eapply perm_trans; [apply Permutation_app_swap_app|]. apply Permutation_app_head.
        unfold emps. eapply perm_trans; [apply filter_or_perm|].
        * intros e _ E1 E2. apply Z.eqb_eq in E1. apply andb_true_iff in E2 as [E2 _]. apply Z.leb_le in E2. lia.
        * rewrite filter_all; auto. intros e I. destruct (es_is e I) as (ev & _ & _ & Q & B & L & K). rewrite Q.
          destruct (Z.eqb_spec (Z.of_nat (ev_after ev)) (Z.of_nat 0)); auto. cbn [orb]. apply andb_true_iff. split; [apply Z.leb_le|apply Z.ltb_lt]; lia.
      + apply SS_app; [apply emps_sorted|apply seqn_sorted; auto|].
        * intros i x Hx. rewrite (xs_ord _ _ Hx). lia.
        * intros a b Ha Hb. apply emps_bounds in Ha. apply seqn_sorted in Hb; auto.
          -- unfold key_lt. lia.
          -- intros i x Hx. rewrite (xs_ord _ _ Hx). lia.
  Qed.
  Lemma emps_lines k : map (node_line lower d) (emps k) = empties_after v k.
  Proof.
    unfold empties_after, emps. eapply Forall2_map_eq.
    - apply Forall2_filter; [apply (tk_empties _ _ _ _ (se_tokens _ _ _ _ _ SE))|]. intros a b Ia Ib H. destruct H as (_ & _ & _ & O & _). fold h in O.
      destruct RV. rewrite Forall_forall in rv_empties. destruct (rv_empties b Ib) as (_ & MI & _).
      replace (h_eord h a / 10)%Z with (Z.of_nat (ev_after b)) by (apply Z.div_unique with (Z.of_nat (ev_minor b)); lia).
      apply eq_true_iff_eq. rewrite Z.eqb_eq, Nat.eqb_eq. lia.
    - intros a b _ Ib H. apply empty_line; auto. apply filter_In in Ib. tauto.
  Qed.
  Lemma emps_tokens k last l o : token_lines lower d last l = Ok o ->
    token_lines lower d last (emps k ++ l) = Ok (empties_after v k ++ o).
  Proof.
    intros E. rewrite <- emps_lines.
    assert (A : forall e, In e (emps k) -> d_mwt d e = None).
    { intros e I. apply filter_In in I as [I _]. destruct (es_is e I) as (ev & _ & (_ & M & _) & _). auto. }
    revert A. induction (emps k) as [|e m IH]; intros A; cbn [app map token_lines]; auto.
    rewrite (A e) by (simpl; auto). rewrite IH; [reflexivity|]. intros; apply A; simpl; auto.
  Qed.

  (** multi-word tokens *)
  Lemma mwt_bounds mv : In mv (sv_mwts v) -> 1 <= mv_first mv <= mv_last mv /\ mv_last mv <= length xs.
  Proof. intros I. destruct RV. rewrite Forall_forall in rv_mwts. destruct (rv_mwts mv I) as (A & B & _). rewrite xs_len. auto. Qed.
  Lemma mwt_disjoint a b : In a (sv_mwts v) -> In b (sv_mwts v) -> a = b \/ mv_last a < mv_first b \/ mv_last b < mv_first a.
  Proof. apply (SS_trichotomy (fun a b => mv_last a < mv_first b)). apply (rv_morder _ _ _ RV). Qed.
  Lemma xs_nodup : NoDup xs.
  Proof. apply (c_once h r C). Qed.
  Lemma mwt_of_word i x m : nth_error xs (i - 1) = Some x -> 1 <= i -> d_mwt d x = Some m ->
    exists mv, In mv (sv_mwts v) /\ mwt_is lower d r m mv /\ mv_first mv <= i <= mv_last mv.
  Proof.
    intros E Hi M. apply (tk_mwt_of _ _ _ _ (se_tokens _ _ _ _ _ SE)) in M; [|eapply nth_error_In; eauto]. destruct M as [I W].
    destruct (tk_mwts _ _ _ _ (se_tokens _ _ _ _ _ SE)) as (l & P & F). apply (Permutation_in _ (Permutation_sym P)) in I.
    destruct (Forall2_In_l _ _ _ _ F I) as [mv [J H]]. exists mv. do 2 (split; [auto|]).
    destruct (mwt_bounds mv J). pose proof H as (HW & _). rewrite HW in W.
    apply (covered_In mv xs i x) in W; auto. apply xs_nodup.
  Qed.
  Lemma word_of_mwt i x mv : nth_error xs (i - 1) = Some x -> 1 <= i -> In mv (sv_mwts v) -> mv_first mv <= i <= mv_last mv ->
    exists m, d_mwt d x = Some m /\ mwt_is lower d r m mv.
  Proof.
    intros E Hi I B. destruct (tk_mwts _ _ _ _ (se_tokens _ _ _ _ _ SE)) as (l & P & F). destruct (Forall2_In_r _ _ _ _ F I) as [m [J H]].
    exists m. split; auto. apply (tk_mwt_of _ _ _ _ (se_tokens _ _ _ _ _ SE)); [eapply nth_error_In; eauto|].
    split; [eapply Permutation_in; eauto|]. pose proof H as (HW & _). rewrite HW. destruct (mwt_bounds mv I).
    apply (covered_In mv xs i x); auto. apply xs_nodup.
  Qed.
  Lemma mwt_sorted_ok m mv : In mv (sv_mwts v) -> mwt_is lower d r m mv -> mwt_sorted d m = covered mv xs.
  Proof.
    intros I (W & _). unfold mwt_sorted. rewrite W. apply sort_on_unique; auto.
    unfold covered. apply SS_firstn, SS_skipn. apply (words_sorted h _ HR).
  Qed.
  Lemma mwt_line_ok m mv : In mv (sv_mwts v) -> mwt_is lower d r m mv ->
    exists z, ord_range d m = Ok (num (mv_first mv) ++ s "-" ++ num (mv_last mv)) /\
      last_opt (mwt_sorted d m) = Some z /\ okey h z = (10 * Z.of_nat (mv_last mv))%Z /\
      mwt_line lower d m (num (mv_first mv) ++ s "-" ++ num (mv_last mv)) = line_of (mwt_columns mv).
  Proof.
    intros I H. destruct (mwt_bounds mv I) as [B1 B2]. pose proof (mwt_sorted_ok m mv I H) as MS.
    assert (LN : length (covered mv xs) = S (mv_last mv) - mv_first mv) by (now apply covered_length).
    destruct (nth_error xs (mv_last mv - 1)) as [z|] eqn:EZ; [|apply nth_error_None in EZ; lia].
    assert (LZ : last_opt (covered mv xs) = Some z).
    { rewrite last_opt_nth, LN. rewrite covered_nth by lia. rewrite <- EZ. f_equal. lia. }
    exists z. unfold ord_range. rewrite MS, LZ. destruct (covered mv xs) as [|a l] eqn:EC; [cbn [Datatypes.length] in LN; lia|].
    assert (EA : nth_error xs (mv_first mv - 1) = Some a).
    { assert (X : nth_error (covered mv xs) 0 = Some a) by (rewrite EC; auto). rewrite covered_nth in X by lia.
      rewrite <- X. f_equal. lia. }
    fold h. rewrite (xs_ord _ _ EA), (xs_ord _ _ EZ).
    split. { unfold num. do 2 f_equal; [f_equal; lia|]. do 2 f_equal. lia. }
    split; auto. split.
    { unfold okey. rewrite xs_kind by (eapply nth_error_In; eauto). rewrite (xs_ord _ _ EZ). lia. }
    destruct H as (_ & F & M). unfold mwt_line, line_of, mwt_columns. rewrite dd_col_text, F, M. reflexivity.
  Qed.

  Definition last_inv (i : nat) (last : Z) : Prop :=
    (forall mv, In mv (sv_mwts v) -> mv_first mv < i -> (10 * Z.of_nat (mv_last mv) <= last)%Z) /\
    (last = 0%Z \/ exists mv, In mv (sv_mwts v) /\ mv_first mv < i /\ last = (10 * Z.of_nat (mv_last mv))%Z).
  Lemma words_tokens : forall l ws i last, skipn i xs = l -> Forall2 (word_is lower d) l ws -> last_inv (S i) last ->
    token_lines lower d last (seqn (S i) l) = Ok (words_from v (S i) ws).
  Proof.
    induction l as [|x l IH]; intros ws i last EX F LI; inversion F as [|? w ? ws' Hw F']; subst; [reflexivity|].
    cbn [seqn words_from].
    assert (NX : nth_error xs i = Some x).
    { rewrite <- (Nat.add_0_r i), <- nth_error_skipn, EX. auto. }
    assert (EX' : skipn (S i) xs = l).
    { change l with (skipn 1 (x :: l)). rewrite <- EX. rewrite skipn_add. f_equal. lia. }
    assert (OX : okey h x = (10 * (Z.of_nat i + 1))%Z).
    { unfold okey. rewrite xs_kind by (eapply nth_error_In; eauto). rewrite (xs_ord _ _ NX). lia. }
    assert (NX' : nth_error xs (S i - 1) = Some x) by (simpl; rewrite Nat.sub_0_r; auto).
    assert (REST : forall last', last_inv (S (S i)) last' ->
      rbind (token_lines lower d last' (emps (S i) ++ seqn (S (S i)) l)) (fun ls => Ok (node_line lower d x :: ls)) =
      Ok (line_of (word_columns (S i) w) :: empties_after v (S i) ++ words_from v (S (S i)) ws')).
    { intros last' LI'. rewrite (emps_tokens _ _ _ _ (IH ws' (S i) last' EX' F' LI')). cbn [rbind].
      now rewrite (word_line i x w NX Hw). }
    cbn [token_lines]. fold h. rewrite OX. destruct LI as [LI1 LI2].
    destruct (existsb (fun mv => Nat.leb (mv_first mv) (S i) && Nat.leb (S i) (mv_last mv)) (sv_mwts v)) eqn:EB.
    - apply existsb_exists in EB as [mv [I B]]. apply andb_true_iff in B as [B1 B2].
      apply Nat.leb_le in B1. apply Nat.leb_le in B2.
      destruct (word_of_mwt (S i) x mv NX') as [m [M HM]]; auto; [lia|]. rewrite M.
      destruct (mwt_bounds mv I) as [BB1 BB2].
      destruct (Nat.eq_dec (mv_first mv) (S i)) as [EF|NF].
      + (* first word of the token *)
        destruct (Z.ltb_spec last (10 * (Z.of_nat i + 1))%Z) as [LT|GE].
        2:{ destruct LI2 as [->|(mv' & I' & L' & ->)]; [lia|].
            destruct (mwt_disjoint mv mv' I I') as [->|[D|D]]; destruct (mwt_bounds mv' I'); lia. }
        destruct (mwt_line_ok m mv I HM) as (z & E1 & E2 & E3 & E4). rewrite E1, E2. cbn [rbind]. fold h. rewrite E3.
        rewrite REST.
        * cbn [rbind]. rewrite E4. f_equal.
          assert (mwts_from v (S i) = [line_of (mwt_columns mv)]) as ->; auto.
          unfold mwts_from.
          assert (filter (fun m0 => Nat.eqb (mv_first m0) (S i)) (sv_mwts v) = [mv]) as ->; auto.
          apply (filter_single _ _ mv); auto.
          -- apply (SS_NoDup (fun a b => mv_last a < mv_first b)); [|apply (rv_morder _ _ _ RV)].
             intros a Ha. destruct (mwt_bounds a Ha). lia.
          -- apply Nat.eqb_eq. auto.
          -- intros b Hb Eb. apply Nat.eqb_eq in Eb. destruct (mwt_disjoint mv b I Hb) as [->|[D|D]]; auto; destruct (mwt_bounds b Hb); lia.
        * split.
          -- intros mv' I' L'. destruct (mwt_disjoint mv mv' I I') as [->|[D|D]]; destruct (mwt_bounds mv' I'); lia.
          -- right. exists mv. repeat split; auto. lia.
      + (* inside *)
        pose proof (LI1 mv I ltac:(lia)) as GE.
        destruct (Z.ltb_spec last (10 * (Z.of_nat i + 1))%Z) as [LT|_]; [lia|].
        rewrite REST.
        * assert (mwts_from v (S i) = []) as ->; auto. unfold mwts_from. rewrite filter_none; auto.
          intros b Hb. apply Nat.eqb_neq. intros Eb. destruct (mwt_disjoint mv b I Hb) as [->|[D|D]]; destruct (mwt_bounds b Hb); lia.
        * split.
          -- intros mv' I' L'. destruct (Nat.eq_dec (mv_first mv') (S i)); [|apply LI1; auto; lia].
             destruct (mwt_disjoint mv mv' I I') as [->|[D|D]]; destruct (mwt_bounds mv' I'); lia.
          -- destruct LI2 as [->|(mv' & I' & L' & ->)]; auto. right. exists mv'. repeat split; auto.
    - assert (NC : forall mv, In mv (sv_mwts v) -> ~ (mv_first mv <= S i <= mv_last mv)).
      { intros mv I B. rewrite <- not_true_iff_false in EB. apply EB. apply existsb_exists. exists mv. split; auto.
        apply andb_true_iff. rewrite !Nat.leb_le. auto. }
      destruct (d_mwt d x) as [m|] eqn:M.
      { destruct (mwt_of_word (S i) x m NX') as (mv & I & _ & B); auto; [lia|]. now apply NC in B. }
      rewrite REST.
      * assert (mwts_from v (S i) = []) as ->; auto. unfold mwts_from. rewrite filter_none; auto.
        intros b Hb. apply Nat.eqb_neq. intros Eb. apply (NC b Hb). destruct (mwt_bounds b Hb). lia.
      * split.
        -- intros mv' I' L'. destruct (Nat.eq_dec (mv_first mv') (S i)); [|apply LI1; auto; lia].
           exfalso. apply (NC mv' I'). destruct (mwt_bounds mv' I'). lia.
        -- destruct LI2 as [->|(mv' & I' & L' & ->)]; auto. right. exists mv'. repeat split; auto.
  Qed.
  Lemma words_from_comments items : forall ws i, words_from v i ws = words_from (with_comments v items) i ws.
  Proof. induction ws as [|w ws IH]; intros i; cbn [words_from]; auto. rewrite IH. reflexivity. Qed.

  Lemma write_ok : exists items, interleave (sv_comments v) (missing v) items /\
    process_tree wdefault env lower d r = Ok (conllu_lines (with_comments v items) ++ [[]]).
  Proof.
    destruct comments_ok as [items [E I]]. exists items. split; auto.
    unfold process_tree. fold h xs es. rewrite nodes_ok. cbn [wc_empty_trees wdefault]. rewrite andb_false_r.
    rewrite E. cbn [rbind].
    rewrite (emps_tokens 0 0 (seqn 1 xs) (words_from v 1 (sv_words v))).
    2:{ apply words_tokens; auto; [apply (tk_words _ _ _ _ (se_tokens _ _ _ _ _ SE))|]. split; auto. intros mv J L. destruct (mwt_bounds mv J). lia. }
    cbn [rbind]. f_equal. rewrite json_ok. unfold conllu_lines. cbn [with_comments sv_comments sv_json sv_words].
    assert (N : nonempty xs = nonempty (sv_words v)).
    { pose proof xs_len as L. destruct xs, (sv_words v); auto; discriminate. }
    rewrite <- !app_assoc. do 4 f_equal.
    - apply words_from_comments.
    - rewrite N. destruct (sv_words v); auto.
  Qed.
End write.
