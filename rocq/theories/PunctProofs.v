(** Proofs about ud.FixPunct: what every step keeps, and that every loop ends. *)
From Coq Require Import String List NArith ZArith Bool Lia Permutation.
From Verif Require Import PyStr PyStrFacts PyList PyListFacts PyExn TreeModel TreeSpec TreeFacts TreeRepr TreeOps TreeCalls
  TreeQuery TreeProps DeprelModel RehangModel RehangSpec RehangProofs RehangFix RehangProj RehangDeproj PunctModel.
Import ListNotations.
Local Open Scope Z_scope.

Section Heap.
Variables (h : heap) (r : nat).
Hypothesis C : consistent h r.

Lemma word_index x : In x (h_desc h r) -> exists i, nth_error (h_desc h r) i = Some x /\ h_ord h x = Z.of_nat i + 1.
Proof. intros H. apply In_nth_error in H as [i Hi]. exists i. split; auto. exact (r_ord h (abs h r) (consistent_Repr h r C) i x Hi). Qed.
Lemma word_pos x : In x (h_desc h r) -> 1 <= h_ord h x <= Z.of_nat (length (h_desc h r)).
Proof. intros H. destruct (word_index x H) as (i & Hi & ->). assert (i < length (h_desc h r))%nat by (apply nth_error_Some; congruence). lia. Qed.
Lemma live_pos x : live h r x -> 0 <= h_ord h x <= Z.of_nat (length (h_desc h r)).
Proof. intros [->|H]; [rewrite (c_ord0 h r C); lia|]. pose proof (word_pos x H). lia. Qed.
Lemma live_ord_pos x : live h r x -> 0 < h_ord h x -> In x (h_desc h r).
Proof. intros [->|H] P; auto. rewrite (c_ord0 h r C) in P. lia. Qed.
Lemma few_words : (length (h_desc h r) < fuel h)%nat.
Proof. pose proof (words_lt_next h (abs h r) (consistent_wf h r C) (consistent_Repr h r C)) as W. unfold fuel. cbn in W. lia. Qed.
Lemma live_index x : live h r x -> nth_error (r :: h_desc h r) (Z.to_nat (h_ord h x)) = Some x.
Proof.
  intros [->|H]; [now rewrite (c_ord0 h r C)|]. destruct (word_index x H) as (i & Hi & ->). replace (Z.to_nat (Z.of_nat i + 1)) with (S i) by lia. exact Hi.
Qed.
Lemma prev_ok' x : In x (h_desc h r) -> exists q, prev_node h x = Ok (Some q) /\ live h r q /\ h_ord h q = h_ord h x - 1.
Proof.
  intros H. destruct (word_index x H) as (i & Hi & O). destruct (neighbours_prop h r C (S i) x Hi) as [_ P]. rewrite P.
  destruct i as [|i]; cbn [nth_error].
  - exists r. split; auto. split; [now left|]. rewrite (c_ord0 h r C). lia.
  - cbn in P. destruct (nth_error (h_desc h r) i) as [q|] eqn:E; [|apply nth_error_None in E; assert (S i < length (h_desc h r))%nat by (apply nth_error_Some; congruence); lia].
    exists q. split; auto. split; [right; eapply nth_error_In; eauto|]. rewrite O. rewrite (r_ord h (abs h r) (consistent_Repr h r C) i q E). lia.
Qed.
Lemma next_ok' x : live h r x ->
  (next_node h x = None /\ h_ord h x = Z.of_nat (length (h_desc h r))) \/
  exists q, next_node h x = Some q /\ In q (h_desc h r) /\ h_ord h q = h_ord h x + 1.
Proof.
  intros L. pose proof (live_pos x L) as P. destruct (neighbours_prop h r C _ x (live_index x L)) as [N _]. rewrite N. cbn [nth_error].
  destruct (nth_error (h_desc h r) (Z.to_nat (h_ord h x))) as [q|] eqn:E.
  - right. exists q. split; auto. split; [eapply nth_error_In; eauto|]. rewrite (r_ord h (abs h r) (consistent_Repr h r C) _ q E). lia.
  - left. split; auto. apply nth_error_None in E. lia.
Qed.
Lemma gap_total x : live h r x -> exists b, is_nonprojective_gap h x = Ok b.
Proof.
  intros [->|H].
  - unfold is_nonprojective_gap, fuel. cbn [climb_all]. rewrite (c_top h r C). cbn [rbind].
    assert (GS : forall test anc l, (forall w, In w l -> In w (h_desc h r)) -> exists b, gap_scan h test anc l = Ok b).
    { intros test anc l HI. rewrite (gap_scan_ok h (abs h r) (consistent_Repr h r C)); eauto. }
    match goal with |- context [gap_scan h ?t ?a (py_to ?l ?k)] => destruct (GS t a (py_to l k)) as [b ->] end.
    { intros w Hw. unfold py_to in Hw. rewrite <- (firstn_skipn (py_bound (h_desc h r) (h_ord h r - 1)) (h_desc h r)). apply in_app_iff. now left. }
    cbn [rbind]. destruct b; eauto.
    match goal with |- context [gap_scan h ?t ?a (py_from ?l ?k)] => destruct (GS t a (py_from l k)) as [b ->] end; eauto.
    intros w Hw. unfold py_from in Hw. rewrite <- (firstn_skipn (py_bound (h_desc h r) (h_ord h r)) (h_desc h r)). apply in_app_iff. now right.
  - destruct (gap_prop h r C x H) as (b & E & _). eauto.
Qed.
Lemma sub_list x : live h r x -> exists l, descendants_add_self h x = Ok l /\ l <> [].
Proof.
  intros L. destruct (descendants_prop h r C x L) as (l & E & _ & LL). unfold descendants_add_self. rewrite E. cbn [rbind]. eexists. split; [reflexivity|].
  destruct (LL true false false) as (f & F & ->). intros N.
  assert (J : In x (filter f (r :: h_desc h r))).
  { apply filter_In. split; [destruct L as [->|L]; [now left|now right]|]. apply F; auto. split; [right; auto|split; discriminate]. }
  rewrite N in J. exact J.
Qed.
End Heap.

Lemma last_some {A} (l : list A) : l <> [] -> exists z, last_opt l = Some z /\ In z l.
Proof.
  intros N. destruct (exists_last N) as (k & z & ->). exists z. rewrite last_opt_app. split; auto. apply in_app_iff. right. now left.
Qed.

Lemma nth_skipped {A} (n : nat) : forall (l : list A) i, nth_error (skipn n l) i = nth_error l (n + i).
Proof. induction n as [|n IH]; intros [|a l] i; auto; [now destruct i|]. cbn. apply IH. Qed.

Section Punct.
Variables (r : nat) (chk : bool) (form : nat -> str) (st0 : lst).
Hypothesis C0 : consistent (l_heap st0) r.
(** The exceptions that are expected. *)
Variable (E : exn -> Prop).

Notation words := (h_desc (l_heap st0) r).
Definition lv (x : nat) : Prop := live (l_heap st0) r x.
Definition punct (x : nat) : bool := ostr_eqb (l_upos st0 x) (s "PUNCT").

(** What holds in every state on the way. *)
Record inv (st : lst) : Prop := {
  i_rehung : rehung (l_heap st0) (l_heap st) r;
  i_upos : forall x, l_upos st x = l_upos st0 x;
  i_pproj : forall x, l_pproj st x = l_pproj st0 x;
  i_dep : forall x, l_dep st x = l_dep st0 x \/ (In x words /\ punct x = true /\ l_dep st x = Some (s "punct"))
}.
Lemma inv_start : inv st0.
Proof. constructor; auto using rehung_refl. Qed.
Lemma inv_cons st : inv st -> consistent (l_heap st) r.
Proof. intros I. apply (i_rehung _ I). Qed.
Lemma inv_words st : inv st -> h_desc (l_heap st) r = words.
Proof. intros I. apply (i_rehung _ I). Qed.
Lemma inv_live st y : inv st -> (live (l_heap st) r y <-> lv y).
Proof. intros I. apply rehung_live, (i_rehung _ I). Qed.
Lemma inv_heap st h : inv st -> rehung (l_heap st) h r -> inv (set_heap st h).
Proof. intros [A B D F] R. constructor; auto. cbn. eapply rehung_trans; eauto. Qed.
Lemma inv_ord st x : inv st -> lv x -> ord st x = h_ord (l_heap st0) x.
Proof. intros I L. apply (rehung_ord _ _ r); auto. apply (i_rehung _ I). Qed.
Lemma inv_upos st x : inv st -> upos_punct st x = punct x.
Proof. intros I. unfold upos_punct, punct. now rewrite (i_upos _ I). Qed.
Lemma inv_fuel st : inv st -> fuel (l_heap st) = fuel (l_heap st0).
Proof. intros I. unfold fuel. now rewrite (rh_next _ _ _ (i_rehung _ I)). Qed.
Lemma word_lv x : In x words -> lv x.
Proof. now right. Qed.
Lemma inv_parent st x : inv st -> In x words -> exists p, h_par (l_heap st) x = Some p /\ lv p.
Proof.
  intros I H. rewrite <- (inv_words st I) in H. destruct (parent_exists _ r x (inv_cons st I) H) as (p & A & B). exists p. split; auto. now apply (inv_live st p I).
Qed.

Definition safe {A} (Q : lst -> A -> Prop) (m : lst * res A) : Prop :=
  inv (fst m) /\ match snd m with Ok a => Q (fst m) a | Raise e => E e | Diverge => False end.
Lemma safe_bind {A B} (Q : lst -> A -> Prop) (R : lst -> B -> Prop) m k :
  safe Q m -> (forall st a, inv st -> Q st a -> safe R (k st a)) -> safe R (bind m k).
Proof.
  intros [I H] K. destruct m as [st [a|e|]]; cbn in *; [now apply K|split; auto|contradiction].
Qed.
Lemma safe_ok {A} (Q : lst -> A -> Prop) st a : inv st -> Q st a -> safe Q (st, Ok a).
Proof. intros. split; auto. Qed.
Lemma safe_weak {A} (Q R : lst -> A -> Prop) m : safe Q m -> (forall st a, inv st -> Q st a -> R st a) -> safe R m.
Proof. intros [I H] K. split; auto. destruct (snd m); auto. Qed.
Lemma safe_query {A B} (Q : lst -> B -> Prop) st (m : res A) a k : m = Ok a -> safe Q (k st a) -> safe Q (bind (query st m) k).
Proof. intros -> H. exact H. Qed.

Definition par (st : lst) (x : nat) : option nat := h_par (l_heap st) x.
(** Only the parent of a changed, to b. *)
Definition moved (st : lst) (a b : nat) (st' : lst) : Prop :=
  par st' a = Some b /\ (forall y, y <> a -> lv y -> par st' y = par st y) /\ (forall x, l_dep st' x = l_dep st x).
Lemma safe_assign st a b : inv st -> In a words -> lv b -> (in_subtree (l_heap st) b a -> E CycleError) ->
  safe (fun st' _ => moved st a b st') (assign_parent st a (Some b)).
Proof.
  intros I Ha Hb HE. assert (C := inv_cons st I). rewrite <- (inv_words st I) in Ha. apply (inv_live st b I) in Hb.
  pose proof (set_parent_prop (l_heap st) r C a b Ha Hb) as P.
  assert (DE : in_subtree (l_heap st) b a \/ ~ in_subtree (l_heap st) b a).
  { destruct (is_descendant_prop (l_heap st) r C b a Hb (or_intror Ha)) as (bb & _ & D). unfold in_subtree. destruct (Nat.eq_dec b a); auto.
    destruct bb; [left; right; now apply D|right]. intros [X|X]; auto. apply D in X. discriminate. }
  destruct DE as [S|S].
  - unfold assign_parent. destruct (set_parent (l_heap st) a (Some b)) as [h' res]. destruct P as [P _]. destruct (P S) as [-> ->]. split; cbn.
    + apply inv_heap; auto. now apply rehung_refl.
    + auto.
  - destruct (assign_ok r st a b C Ha Hb S) as (h' & -> & R & P1 & P2). apply safe_ok; [now apply inv_heap|]. split; auto. split; auto.
    intros y Ny Ly. apply P2; auto. now apply (inv_live st y I).
Qed.

Lemma nonproj_ok st x : inv st -> In x words -> exists b, is_nonprojective (l_heap st) x = Ok b.
Proof. intros I H. apply (nonproj_total r); [now apply inv_cons|]. now rewrite (inv_words st I). Qed.
Lemma gap_ok' st x : inv st -> lv x -> exists b, is_nonprojective_gap (l_heap st) x = Ok b.
Proof. intros I H. apply (gap_total _ r); [now apply inv_cons|]. now apply (inv_live st x I). Qed.
Lemma causes_ok st x : inv st -> In x words -> exists b, causes_gap st x = Ok b.
Proof.
  intros I H. unfold causes_gap. destruct (gap_ok' st x I (word_lv x H)) as [b ->]. cbn [rbind]. destruct b; eauto.
  unfold the_parent. destruct (inv_parent st x I H) as (p & -> & L). cbn [rbind]. destruct (gap_ok' st p I L) as [c ->]. cbn. eauto.
Qed.
Lemma bad_ok st x p : inv st -> In x words -> exists b, still_bad st x p = Ok b.
Proof.
  intros I H. unfold still_bad. destruct (upos_punct st p); eauto. destruct (nonproj_ok st x I H) as [b ->]. cbn [rbind]. destruct b; eauto. now apply causes_ok.
Qed.
Lemma prev_live st x : inv st -> In x words -> exists q, prev_node (l_heap st) x = Ok (Some q) /\ lv q /\ h_ord (l_heap st0) q = h_ord (l_heap st0) x - 1.
Proof.
  intros I H. assert (H' := H). rewrite <- (inv_words st I) in H'. destruct (prev_ok' _ r (inv_cons st I) x H') as (q & A & B & D). exists q. apply (inv_live st q I) in B.
  split; auto. split; auto. rewrite <- !(inv_ord st) by auto using word_lv. exact D.
Qed.
Lemma next_live st x : inv st -> lv x ->
  (next_node (l_heap st) x = None /\ h_ord (l_heap st0) x = Z.of_nat (length words)) \/
  exists q, next_node (l_heap st) x = Some q /\ In q words /\ h_ord (l_heap st0) q = h_ord (l_heap st0) x + 1.
Proof.
  intros I L. assert (L' := L). apply (inv_live st x I) in L'. destruct (next_ok' _ r (inv_cons st I) x L') as [[A B]|(q & A & B & D)].
  - left. split; auto. rewrite <- (inv_words st I), <- B. symmetry. now apply inv_ord.
  - right. exists q. split; auto. rewrite (inv_words st I) in B. split; auto. rewrite <- !(inv_ord st) by auto using word_lv. exact D.
Qed.

(** ---- pairs ---- *)
Lemma find_heads_ok st o c : inv st -> forall l heads phs, incl l words ->
  (forall x, In x heads -> lv x /\ h_ord (l_heap st0) o < h_ord (l_heap st0) x < h_ord (l_heap st0) c) ->
  (forall x, In x phs -> lv x /\ h_ord (l_heap st0) o < h_ord (l_heap st0) x < h_ord (l_heap st0) c) -> lv o -> lv c ->
  exists hs ps, find_heads st o c l heads phs = Ok (hs, ps) /\
    (forall x, In x hs -> lv x /\ h_ord (l_heap st0) o < h_ord (l_heap st0) x < h_ord (l_heap st0) c) /\
    (forall x, In x ps -> lv x /\ h_ord (l_heap st0) o < h_ord (l_heap st0) x < h_ord (l_heap st0) c).
Proof.
  intros I. induction l as [|x l IH]; intros heads phs Hl H1 H2 Lo Lc; cbn [find_heads]; [eauto|].
  assert (Hx : In x words) by (apply Hl; now left). assert (Hl' : incl l words) by (intros z Hz; apply Hl; now right).
  destruct (Nat.eqb x o || Nat.eqb x c); [auto|]. unfold the_parent. destruct (inv_parent st x I Hx) as (p & -> & Lp). cbn [rbind].
  assert (SN : forall l y, (forall x, In x l -> lv x /\ h_ord (l_heap st0) o < h_ord (l_heap st0) x < h_ord (l_heap st0) c) ->
    lv y /\ h_ord (l_heap st0) o < h_ord (l_heap st0) y < h_ord (l_heap st0) c ->
    forall x, In x (l ++ [y]) -> lv x /\ h_ord (l_heap st0) o < h_ord (l_heap st0) x < h_ord (l_heap st0) c).
  { intros k y K Y z Hz. apply in_app_iff in Hz as [Hz|[<-|[]]]; auto. }
  assert (OX := inv_ord st x I (word_lv x Hx)). assert (OP := inv_ord st p I Lp). assert (OO := inv_ord st o I Lo). assert (OC := inv_ord st c I Lc).
  destruct ((ord st o <? ord st x) && (ord st x <? ord st c)) eqn:E1.
  - apply andb_true_iff in E1 as [E1 E2]. apply Z.ltb_lt in E1, E2.
    destruct (_ || _); auto. destruct (upos_punct st x); apply IH; auto; apply SN; auto; split; auto using word_lv; lia.
  - destruct ((ord st o <? ord st p) && (ord st p <? ord st c)) eqn:E3; auto. apply andb_true_iff in E3 as [E3 E4]. apply Z.ltb_lt in E3, E4.
    destruct (upos_punct st p); apply IH; auto; apply SN; auto; split; auto; lia.
Qed.

Hypothesis EC : E CycleError.

Lemma move_right_ok : forall f st o c p, inv st -> In o words -> In c words -> par st o = Some p -> lv p ->
  h_ord (l_heap st0) c - h_ord (l_heap st0) p <= Z.of_nat f ->
  safe (fun _ _ => True) (move_right f st o c).
Proof.
  induction f as [|f IH]; intros st o c p I Ho Hc Ep Lp Hf; cbn [move_right]; (eapply safe_query; [unfold the_parent; unfold par in Ep; rewrite Ep; reflexivity|]);
    cbv beta; rewrite (inv_ord st p I Lp), (inv_ord st c I (word_lv c Hc)).
  - replace (h_ord (l_heap st0) p <? h_ord (l_heap st0) c - 1) with false by (symmetry; apply Z.ltb_ge; lia). now apply safe_ok.
  - destruct (Z.ltb_spec (h_ord (l_heap st0) p) (h_ord (l_heap st0) c - 1)) as [L|]; [|now apply safe_ok].
    destruct (bad_ok st o p I Ho) as [b Eb]. eapply safe_query; [exact Eb|]. cbv beta. destruct b; [|now apply safe_ok].
    destruct (next_live st p I Lp) as [[En On]|(q & En & Hq & Oq)].
    + pose proof (word_pos (l_heap st0) r C0 c Hc). lia.
    + rewrite En. eapply safe_bind; [apply safe_assign; auto using word_lv|]. cbv beta. intros st' _ I' M. apply (IH st' o c q); auto using word_lv; [apply M|lia].
Qed.
Lemma move_left_ok : forall f st o c p, inv st -> In o words -> In c words -> par st c = Some p -> lv p ->
  h_ord (l_heap st0) p <= Z.of_nat f ->
  safe (fun _ _ => True) (move_left f st o c).
Proof.
  induction f as [|f IH]; intros st o c p I Ho Hc Ep Lp Hf; cbn [move_left]; (eapply safe_query; [unfold the_parent; unfold par in Ep; rewrite Ep; reflexivity|]);
    cbv beta; rewrite (inv_ord st p I Lp), (inv_ord st o I (word_lv o Ho)); pose proof (word_pos (l_heap st0) r C0 o Ho) as PO.
  - replace (h_ord (l_heap st0) o + 1 <? h_ord (l_heap st0) p) with false by (symmetry; apply Z.ltb_ge; lia). now apply safe_ok.
  - destruct (Z.ltb_spec (h_ord (l_heap st0) o + 1) (h_ord (l_heap st0) p)) as [L|]; [|now apply safe_ok].
    destruct (bad_ok st c p I Hc) as [b Eb]. eapply safe_query; [exact Eb|]. cbv beta. destruct b; [|now apply safe_ok].
    assert (Hp : In p words) by (apply (live_ord_pos (l_heap st0) r C0); auto; lia).
    destruct (prev_live st p I Hp) as (q & En & Lq & Oq). eapply safe_query; [exact En|]. cbv beta.
    eapply safe_bind; [apply safe_assign; auto|]. cbv beta. intros st' _ I' M. apply (IH st' o c q); auto; [apply M|lia].
Qed.

Lemma fix_pair_ok st pt o c : inv st -> In o words -> In c words -> h_ord (l_heap st0) o < h_ord (l_heap st0) c ->
  safe (fun _ _ => True) (fix_pair st pt r o c).
Proof.
  intros I Ho Hc Hoc. unfold fix_pair. assert (NW := few_words (l_heap st0) r C0).
  destruct (find_heads_ok st o c I (h_desc (l_heap st) r) [] []) as (hs & ps & EH & H1 & H2); auto using word_lv; try (intros ? []).
  { rewrite (inv_words st I). apply incl_refl. }
  eapply safe_query; [exact EH|]. cbv beta iota.
  set (heads := match hs with [] => ps | _ => hs end).
  assert (HH : forall x, In x heads -> lv x /\ h_ord (l_heap st0) o < h_ord (l_heap st0) x < h_ord (l_heap st0) c) by (unfold heads; destruct hs; auto).
  clearbody heads. clear H1 H2 EH. cbv zeta.
  assert (HS : forall x, In x (sort_nodes (l_heap st) heads) -> lv x /\ h_ord (l_heap st0) o < h_ord (l_heap st0) x < h_ord (l_heap st0) c).
  { intros x Hx. apply HH. eapply Permutation_in; [apply sort_on_perm|exact Hx]. }
  destruct (sort_nodes (l_heap st) heads) as [|first rest] eqn:ES; [now apply safe_ok|].
  destruct (last_some (first :: rest)) as (z & -> & Hz); [discriminate|].
  destruct (HS first (or_introl eq_refl)) as [Lf Of]. destruct (HS z Hz) as [Lz Oz]. clear HS HH ES Hz.
  eapply safe_bind; [apply safe_assign; auto|]. cbv beta. intros st1 _ I1 M1.
  eapply safe_bind; [apply safe_assign; auto|]. cbv beta. intros st2 _ I2 M2. cbv zeta.
  destruct (causes_ok st2 o I2 Ho) as [b Eb]. eapply safe_query; [exact Eb|]. cbv beta.
  eapply (safe_bind (fun _ _ => True)).
  { destruct b; [|now apply safe_ok]. destruct (next_live st2 o I2 (word_lv o Ho)) as [[En On]|(q & En & Hq & Oq)].
    { pose proof (word_pos (l_heap st0) r C0 c Hc). lia. }
    rewrite En. eapply safe_bind; [apply safe_assign; auto using word_lv|]. cbv beta. intros st3 _ I3 M3.
    apply (move_right_ok _ st3 o c q); auto using word_lv; [apply M3|]. pose proof (word_pos (l_heap st0) r C0 c Hc). pose proof (word_pos (l_heap st0) r C0 q Hq).
    rewrite (inv_fuel st3 I3). lia. }
  cbv beta. intros st3 _ I3 _. destruct (causes_ok st3 c I3 Hc) as [b' Eb']. eapply safe_query; [exact Eb'|]. cbv beta.
  eapply (safe_bind (fun _ _ => True)).
  { destruct b'; [|now apply safe_ok]. destruct (prev_live st3 c I3 Hc) as (q & En & Hq & Oq).
    eapply safe_query; [exact En|]. cbv beta. eapply safe_bind; [apply safe_assign; auto|]. cbv beta. intros st4 _ I4 M4.
    apply (move_left_ok _ st4 o c q); auto; [apply M4|]. pose proof (live_pos (l_heap st0) r C0 q Hq). rewrite (inv_fuel st4 I4). lia. }
  cbv beta. intros st4 _ I4 _. now apply safe_ok.
Qed.

Lemma find_closing_In o c : forall l k x, find_closing form o c k l = Some x -> In x l.
Proof.
  induction l as [|y l IH]; intros k x H; [discriminate|]. cbn [find_closing] in H. destruct (str_eqb (form y) c).
  - destruct k; [injection H as ->; now left|right; eauto].
  - destruct (str_eqb (form y) o); right; eauto.
Qed.
Lemma py_from_ord x y : In x words -> In y (py_from words (h_ord (l_heap st0) x)) -> In y words /\ h_ord (l_heap st0) x < h_ord (l_heap st0) y.
Proof.
  intros Hx Hy. pose proof (word_pos (l_heap st0) r C0 x Hx) as P. unfold py_from in Hy. rewrite py_bound_nonneg in Hy by lia.
  apply In_nth_error in Hy as [i Hi]. rewrite nth_skipped in Hi. split; [eapply nth_error_In; eauto|].
  rewrite (r_ord (l_heap st0) (abs (l_heap st0) r) (consistent_Repr _ r C0) _ y Hi). lia.
Qed.
Lemma fix_paired_ok st pt o cl : inv st -> In o words -> safe (fun _ _ => True) (fix_paired chk form st pt r o cl).
Proof.
  intros I Ho. unfold fix_paired. destruct (_ && _); [now apply safe_ok|].
  destruct (find_closing _ _ _ _ _) as [c|] eqn:F; [|now apply safe_ok]. apply find_closing_In in F.
  rewrite (inv_words st I), (inv_ord st o I (word_lv o Ho)) in F. apply py_from_ord in F as [F1 F2]; auto. now apply fix_pair_ok.
Qed.
Lemma fix_pairs_ok : forall l st pt, incl l words -> inv st -> safe (fun _ _ => True) (fix_pairs chk form l st pt r).
Proof.
  induction l as [|x l IH]; intros st pt Hl I; cbn [fix_pairs]; [now apply safe_ok|].
  assert (Hx : In x words) by (apply Hl; now left).
  eapply (safe_bind (fun _ _ => True)).
  - destruct (is_closing _); [now apply safe_ok|]. destruct (paired_get _ _); [now apply fix_paired_ok|now apply safe_ok].
  - cbv beta. intros st' pt' I' _. apply IH; auto. intros z Hz. apply Hl. now right.
Qed.
End Punct.
