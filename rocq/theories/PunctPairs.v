(** Proofs about ud.FixPunct: the first pair of marks around a phrase is attached to the head of the phrase. *)
From Coq Require Import String List NArith ZArith Bool Lia Permutation.
From Verif Require Import PyStr PyStrFacts PyList PyListFacts PyExn TreeModel TreeSpec TreeFacts TreeRepr TreeOps TreeCalls
  TreeQuery TreeProps DeprelModel DeprelProofs RehangModel RehangSpec RehangProofs RehangFix RehangProj RehangDeproj
  PunctModel PunctProofs PunctFix PunctThms PunctProj.
Import ListNotations.
Local Open Scope Z_scope.

Section Pair.
Variables (r : nat) (chk : bool) (form : nat -> str) (st0 : lst).
Hypothesis C0 : consistent (l_heap st0) r.
Variable (E : exn -> Prop).
Notation words := (h_desc (l_heap st0) r).
Notation lv := (lv r st0).
Notation punct := (punct st0).
Notation inv := (inv r st0).
Notation safe := (PunctProofs.safe r st0 E).
Notation clean := (PunctFix.clean r st0).
Notation pos x := (h_ord (l_heap st0) x).
Notation ups st := (up (l_heap st)).
Notation subt st := (in_subtree (l_heap st)).
Hypothesis HR : punct r = false.

(** ---- any pair: only the two marks move ---- *)
Definition two (o c : nat) (st st' : lst) : Prop := forall y, y <> o -> y <> c -> lv y -> par st' y = par st y.
Lemma two_refl o c st : two o c st st. Proof. intros y; auto. Qed.
Lemma two_trans o c a b d : two o c a b -> two o c b d -> two o c a d.
Proof. intros H K y N1 N2 L. rewrite K; auto. Qed.
Lemma two_o o c b st st' : moved r st0 st o b st' -> two o c st st'.
Proof. intros (_ & M & _) y N1 N2 L. auto. Qed.
Lemma two_c o c b st st' : moved r st0 st c b st' -> two o c st st'.
Proof. intros (_ & M & _) y N1 N2 L. auto. Qed.

Section Any.
Hypothesis EC : E CycleError.
Lemma move_right_two : forall f st o c p, inv st -> In o words -> In c words -> par st o = Some p -> lv p ->
  pos c - pos p <= Z.of_nat f -> safe (fun st' _ => two o c st st') (move_right f st o c).
Proof.
  induction f as [|f IH]; intros st o c p I Ho Hc Ep Lp Hf; cbn [move_right]; (eapply safe_query; [unfold the_parent; unfold par in Ep; rewrite Ep; reflexivity|]);
    cbv beta; rewrite (inv_ord r st0 C0 st p I Lp), (inv_ord r st0 C0 st c I (or_intror Hc)).
  - replace (pos p <? pos c - 1) with false by (symmetry; apply Z.ltb_ge; lia). apply safe_ok; auto using two_refl.
  - destruct (Z.ltb_spec (pos p) (pos c - 1)) as [L|]; [|apply safe_ok; auto using two_refl].
    destruct (bad_ok r st0 st o p I Ho) as [b Eb]. eapply safe_query; [exact Eb|]. cbv beta. destruct b; [|apply safe_ok; auto using two_refl].
    destruct (next_live r st0 C0 st p I Lp) as [[En On]|(q & En & Hq & Oq)].
    + pose proof (word_pos (l_heap st0) r C0 c Hc). lia.
    + rewrite En. eapply safe_bind; [apply safe_assign; auto; now right|]. cbv beta. intros st' _ I' M.
      eapply safe_weak; [apply (IH st' o c q); auto; [apply M|now right|lia]|]. cbv beta. intros st2 _ _ T. eapply two_trans; [eapply two_o; eauto|exact T].
Qed.
Lemma move_left_two : forall f st o c p, inv st -> In o words -> In c words -> par st c = Some p -> lv p ->
  pos p <= Z.of_nat f -> safe (fun st' _ => two o c st st') (move_left f st o c).
Proof.
  induction f as [|f IH]; intros st o c p I Ho Hc Ep Lp Hf; cbn [move_left]; (eapply safe_query; [unfold the_parent; unfold par in Ep; rewrite Ep; reflexivity|]);
    cbv beta; rewrite (inv_ord r st0 C0 st p I Lp), (inv_ord r st0 C0 st o I (or_intror Ho)); pose proof (word_pos (l_heap st0) r C0 o Ho) as PO.
  - replace (pos o + 1 <? pos p) with false by (symmetry; apply Z.ltb_ge; lia). apply safe_ok; auto using two_refl.
  - destruct (Z.ltb_spec (pos o + 1) (pos p)) as [L|]; [|apply safe_ok; auto using two_refl].
    destruct (bad_ok r st0 st c p I Hc) as [b Eb]. eapply safe_query; [exact Eb|]. cbv beta. destruct b; [|apply safe_ok; auto using two_refl].
    assert (Hp : In p words) by (apply (live_ord_pos (l_heap st0) r C0); auto; lia).
    destruct (prev_live r st0 C0 st p I Hp) as (q & En & Lq & Oq). eapply safe_query; [exact En|]. cbv beta.
    eapply safe_bind; [apply safe_assign; auto|]. cbv beta. intros st' _ I' M.
    eapply safe_weak; [apply (IH st' o c q); auto; [apply M|lia]|]. cbv beta. intros st2 _ _ T. eapply two_trans; [eapply two_c; eauto|exact T].
Qed.
Lemma fix_pair_two st pt o c : inv st -> In o words -> In c words -> pos o < pos c ->
  safe (fun st' pt' => two o c st st' /\ forall k, k <> pos o -> k <> pos c -> pt' k = pt k) (fix_pair st pt r o c).
Proof.
  intros I Ho Hc Hoc. unfold fix_pair. assert (NW := few_words (l_heap st0) r C0).
  destruct (find_heads_ok r st0 C0 st o c I (h_desc (l_heap st) r) [] []) as (hs & ps & EH & H1 & H2); try (intros ? []); try (now right).
  { rewrite (inv_words r st0 st I). apply incl_refl. }
  eapply safe_query; [exact EH|]. cbv beta iota.
  set (heads := match hs with [] => ps | _ => hs end).
  assert (HH : forall x, In x heads -> lv x /\ pos o < pos x < pos c) by (unfold heads; destruct hs; auto).
  clearbody heads. clear H1 H2 EH. cbv zeta.
  assert (HS : forall x, In x (sort_nodes (l_heap st) heads) -> lv x /\ pos o < pos x < pos c).
  { intros x Hx. apply HH. eapply Permutation_in; [apply sort_on_perm|exact Hx]. }
  destruct (sort_nodes (l_heap st) heads) as [|first rest] eqn:ES; [apply safe_ok; auto using two_refl|].
  destruct (last_some (first :: rest)) as (z & -> & Hz); [discriminate|].
  destruct (HS first (or_introl eq_refl)) as [Lf Of]. destruct (HS z Hz) as [Lz Oz]. clear HS HH ES Hz.
  eapply safe_bind; [apply safe_assign; auto|]. cbv beta. intros st1 _ I1 M1.
  eapply safe_bind; [apply safe_assign; auto|]. cbv beta. intros st2 _ I2 M2. cbv zeta.
  assert (T2 : two o c st st2) by (eapply two_trans; [eapply two_o; eauto|eapply two_c; eauto]).
  destruct (causes_ok r st0 st2 o I2 Ho) as [b Eb]. eapply safe_query; [exact Eb|]. cbv beta.
  eapply (safe_bind _ _ _ (fun st' _ => two o c st st')).
  { destruct b; [|now apply safe_ok]. destruct (next_live r st0 C0 st2 o I2 (or_intror Ho)) as [[En On]|(q & En & Hq & Oq)].
    { pose proof (word_pos (l_heap st0) r C0 c Hc). lia. }
    rewrite En. eapply safe_bind; [apply safe_assign; auto; now right|]. cbv beta. intros st3 _ I3 M3.
    eapply safe_weak; [apply (move_right_two _ st3 o c q); auto; [apply M3|now right|]|].
    - pose proof (word_pos (l_heap st0) r C0 c Hc). pose proof (word_pos (l_heap st0) r C0 q Hq). rewrite (inv_fuel r st0 st3 I3). lia.
    - cbv beta. intros st' _ _ T. eapply two_trans; [exact T2|]. eapply two_trans; [eapply two_o; eauto|exact T]. }
  cbv beta. intros st3 _ I3 T3. destruct (causes_ok r st0 st3 c I3 Hc) as [b' Eb']. eapply safe_query; [exact Eb'|]. cbv beta.
  eapply (safe_bind _ _ _ (fun st' _ => two o c st st')).
  { destruct b'; [|now apply safe_ok]. destruct (prev_live r st0 C0 st3 c I3 Hc) as (q & En & Hq & Oq).
    eapply safe_query; [exact En|]. cbv beta. eapply safe_bind; [apply safe_assign; auto|]. cbv beta. intros st4 _ I4 M4.
    eapply safe_weak; [apply (move_left_two _ st4 o c q); auto; [apply M4|]|].
    - pose proof (PunctProofs.live_pos (l_heap st0) r C0 q Hq). rewrite (inv_fuel r st0 st4 I4). lia.
    - cbv beta. intros st' _ _ T. eapply two_trans; [exact T3|]. eapply two_trans; [eapply two_c; eauto|exact T]. }
  cbv beta. intros st4 _ I4 T4. apply safe_ok; auto. split; auto. intros k N1 N2. unfold put_type.
  rewrite !(inv_ord r st0 C0 st2) by (auto; now right). destruct (Z.eqb_spec k (pos c)); [contradiction|]. now destruct (Z.eqb_spec k (pos o)).
Qed.
End Any.

(** ---- a pair around a phrase ---- *)
Variables (o c hd : nat).
Hypotheses (Ho : In o words) (Hc : In c words) (Hh : In hd words).
Notation inside x := (pos o < pos x < pos c).
Hypothesis IH : inside hd.
Hypothesis NPI : forall x, In x words -> inside x -> punct x = false /\ forall a b, In (a, b) paired_punct -> form x <> a /\ form x <> b.

Record phrase (st : lst) : Prop := {
  ph_in : forall x, In x words -> inside x -> x <> hd -> exists p, par st x = Some p /\ inside p;
  ph_hd : forall p, par st hd = Some p -> ~ inside p;
  ph_out : forall x p, In x words -> x <> o -> x <> c -> ~ inside x -> par st x = Some p -> inside p -> p = hd;
  ph_leaf : forall x p, In x words -> par st x = Some p -> p <> o /\ p <> c }.

Lemma oc_ne : o <> hd /\ c <> hd /\ o <> c.
Proof. repeat split; intros ->; lia. Qed.
Lemma inside_word x : lv x -> inside x -> In x words.
Proof. intros L B. apply (live_ord_pos _ r C0); auto. pose proof (word_pos _ r C0 o Ho). lia. Qed.
Lemma phrase_two st st' : phrase st -> two o c st st' -> par st' o = Some hd -> par st' c = Some hd -> phrase st'.
Proof.
  intros [A B D F] T P1 P2. destruct oc_ne as (N1 & N2 & N3).
  assert (K : forall x, In x words -> x <> o -> x <> c -> par st' x = par st x) by (intros x Hx U V; apply T; auto; now right).
  constructor.
  - intros x Hx Ix Nx. assert (x <> o /\ x <> c) as [U V] by (split; intros ->; lia). rewrite K; auto.
  - intros p. rewrite K by auto. apply B.
  - intros x p Hx U V Ix. rewrite K by auto. now apply D.
  - intros x p Hx. destruct (Nat.eq_dec x o) as [->|U]; [rewrite P1; intros X; injection X as <-; auto|]. destruct (Nat.eq_dec x c) as [->|V]; [rewrite P2; intros X; injection X as <-; auto|].
    rewrite K by auto. now apply F.
Qed.

Lemma heads_one st : inv st -> phrase st -> forall l heads, incl l words -> (forall x, In x heads -> x = hd) ->
  exists hs, find_heads st o c l heads [] = Ok (hs, []) /\ (forall x, In x hs -> x = hd) /\ (In hd l \/ heads <> [] -> hs <> []).
Proof.
  intros I [A B D F]. destruct oc_ne as (N1 & N2 & N3). assert (PH : punct hd = false) by now apply NPI.
  induction l as [|x l IHl]; intros heads Hl HH; cbn [find_heads].
  { exists heads. split; auto. split; auto. intros [[]|X]; auto. }
  assert (Hx : In x words) by (apply Hl; now left). assert (Hl' : incl l words) by (intros z Hz; apply Hl; now right).
  assert (Lx : lv x) by now right. assert (Lo : lv o) by now right. assert (Lc : lv c) by now right. assert (Lh : lv hd) by now right.
  assert (SN : forall y, In y (heads ++ [hd]) -> y = hd) by (intros y Hy; apply in_app_iff in Hy as [Hy|[<-|[]]]; auto).
  assert (NE : heads ++ [hd] <> []) by (destruct heads; discriminate).
  destruct (Nat.eqb_spec x o) as [->|Nxo]; cbn [orb].
  { destruct (IHl heads Hl' HH) as (hs & E1 & E2 & E3). exists hs. split; auto. split; auto. intros [[X|X]|X]; [congruence|auto|auto]. }
  destruct (Nat.eqb_spec x c) as [->|Nxc]; cbn [orb].
  { destruct (IHl heads Hl' HH) as (hs & E1 & E2 & E3). exists hs. split; auto. split; auto. intros [[X|X]|X]; [congruence|auto|auto]. }
  unfold the_parent. destruct (inv_parent r st0 st x I Hx) as (p & Ep & Lp). rewrite Ep. cbn [rbind].
  rewrite !(inv_ord r st0 C0 st) by auto. destruct (F x p Hx Ep) as [Npo Npc].
  assert (Opo : pos p <> pos o) by (intros EQ; apply Npo; now apply (same_ord _ r C0)).
  assert (Opc : pos p <> pos c) by (intros EQ; apply Npc; now apply (same_ord _ r C0)).
  destruct ((pos o <? pos x) && (pos x <? pos c)) eqn:E1.
  - apply andb_true_iff in E1 as [E1 E2]. apply Z.ltb_lt in E1, E2. assert (Ix : inside x) by lia.
    destruct (Nat.eq_dec x hd) as [->|Nx].
    + assert (E3 : (pos p <? pos o) || (pos c <? pos p) = true).
      { specialize (B p Ep). apply orb_true_iff. rewrite !Z.ltb_lt. lia. }
      rewrite E3, (inv_upos r st0 st hd I), PH. destruct (IHl (heads ++ [hd]) Hl' SN) as (hs & X1 & X2 & X3). exists hs. auto.
    + destruct (A x Hx Ix Nx) as (p' & Ep' & Ip). unfold par in Ep'. assert (p' = p) by congruence. subst p'.
      assert (E3 : (pos p <? pos o) || (pos c <? pos p) = false) by (apply orb_false_iff; rewrite !Z.ltb_ge; lia).
      rewrite E3. destruct (IHl heads Hl' HH) as (hs & X1 & X2 & X3). exists hs. split; auto. split; auto. intros [[X|X]|X]; [congruence|auto|auto].
  - destruct ((pos o <? pos p) && (pos p <? pos c)) eqn:E3.
    + apply andb_true_iff in E3 as [E3 E4]. apply Z.ltb_lt in E3, E4.
      assert (Nx : ~ inside x) by (intros X; apply andb_false_iff in E1; rewrite !Z.ltb_ge in E1; lia).
      assert (p = hd) by (apply (D x p); auto). subst p. rewrite (inv_upos r st0 st hd I), PH. destruct (IHl (heads ++ [hd]) Hl' SN) as (hs & X1 & X2 & X3). exists hs. auto.
    + destruct (IHl heads Hl' HH) as (hs & X1 & X2 & X3). exists hs. split; auto. split; auto. intros [[X|X]|X]; [|auto|auto].
      subst x. apply andb_false_iff in E1. rewrite !Z.ltb_ge in E1. lia.
Qed.

(** Every word inside is in the subtree of the head. *)
Lemma in_phrase st : inv st -> (forall x, In x words -> inside x -> x <> hd -> exists p, par st x = Some p /\ inside p) ->
  forall y, lv y -> inside y -> subt st y hd.
Proof.
  intros I A y Ly Iy. destruct (steps_root r st0 st y I Ly) as (n & S & _). remember r as t eqn:Et in S. revert Et Ly Iy. induction S as [y|y p n t Ep S IHS]; intros -> Ly Iy.
  - exfalso. rewrite (c_ord0 _ r C0) in Iy. pose proof (word_pos _ r C0 o Ho). lia.
  - destruct (Nat.eq_dec y hd) as [->|N]; [now left|]. destruct (A y (inside_word y Ly Iy) Iy N) as (p' & Ep' & Ip). unfold par in Ep'. assert (p' = p) by congruence. subst p'.
    right. destruct (par_lv r st0 st y p I Ly Ep) as [Lp _]. eapply up_in_subtree; [apply up_1; exact Ep|auto].
Qed.
Lemma path_inside st : inv st -> phrase st -> forall d X, lv d -> inside d -> subt st d X -> ups st X hd -> inside X.
Proof.
  intros I [A _ _ _] d X Ld Id [->|U] V; auto. revert Ld Id. induction U as [d p Ep|d p X Ep U IHU]; intros Ld Id.
  - destruct (Nat.eq_dec d hd) as [->|N].
    + exfalso. apply (up_irrefl _ r (inv_cons _ _ st I) hd); [apply (inv_live _ _ st hd I); now right|]. eapply up_S; eauto.
    + destruct (A d (inside_word d Ld Id) Id N) as (p' & Ep' & Ip). unfold par in Ep'. congruence.
  - destruct (par_lv r st0 st d p I Ld Ep) as [Lp _]. destruct (Nat.eq_dec d hd) as [->|N].
    + exfalso. apply (up_irrefl _ r (inv_cons _ _ st I) hd); [apply (inv_live _ _ st hd I); now right|]. eapply up_S; [exact Ep|]. eapply up_trans; eauto.
    + destruct (A d (inside_word d Ld Id) Id N) as (p' & Ep' & Ip). unfold par in Ep'. assert (p' = p) by congruence. subst p'. auto.
Qed.
Lemma enter st : inv st -> phrase st -> forall y X, lv y -> y <> o -> y <> c -> ~ inside y -> inside X -> subt st y X -> subt st hd X.
Proof.
  intros I PH y X Ly N1 N2 Iy IX [->|U]; [contradiction|]. destruct PH as [A B D F]. revert Ly N1 N2 Iy. induction U as [y p Ep|y p X Ep U IHU]; intros Ly N1 N2 Iy.
  - destruct (par_lv r st0 st y p I Ly Ep) as [Lp Hy]. left. symmetry. apply (D y p); auto.
  - destruct (par_lv r st0 st y p I Ly Ep) as [Lp Hy]. destruct (F y p Hy Ep) as [Npo Npc].
    destruct (Z_lt_dec (pos o) (pos p)) as [L1|L1], (Z_lt_dec (pos p) (pos c)) as [L2|L2]; try (apply IHU; auto; lia).
    assert (p = hd) by (apply (D y p); auto). subst p. now right.
Qed.
Lemma no_gap st x : inv st -> phrase st -> x = o \/ x = c -> par st x = Some hd -> causes_gap st x = Ok false.
Proof.
  intros I PH Hx EP. assert (C1 := inv_cons _ _ st I). assert (W1 := inv_words _ _ st I).
  assert (Hxw : In x words) by (destruct Hx as [->| ->]; auto).
  destruct (gap_prop (l_heap st) r C1 x) as (b1 & E1 & H1); [now rewrite W1|]. unfold causes_gap. rewrite E1. cbn [rbind]. destruct b1; auto.
  unfold the_parent. unfold par in EP. rewrite EP. cbn [rbind]. destruct (gap_prop (l_heap st) r C1 hd) as (b2 & E2 & H2); [now rewrite W1|]. rewrite E2. cbn [rbind]. destruct b2; auto.
  exfalso. assert (false = true); [|discriminate]. apply H2. destruct (proj1 H1 eq_refl) as (X & a & d & LX & La & Ld & NX & Sa & Sd & OA).
  assert (NC : ~ subt st hd X) by (intros S; apply NX; right; eapply up_in_subtree; [apply up_1; exact EP|exact S]).
  assert (OO : forall y, lv y -> h_ord (l_heap st) y = pos y) by (intros y Ly; now apply (inv_ord r st0 C0 st y I)).
  apply (inv_live _ _ st a I) in La. apply (inv_live _ _ st d I) in Ld. apply (inv_live _ _ st X I) in LX.
  assert (Lx : lv x) by now right. assert (Lh : lv hd) by now right. rewrite !OO in OA by auto.
  assert (NA : pos a <> pos hd) by (intros EQ; apply NC; rewrite <- (same_ord _ r C0 a hd); auto).
  assert (ND : pos d <> pos hd) by (intros EQ; apply NC; rewrite <- (same_ord _ r C0 d hd); auto).
  (* a node of X inside leads to X inside, and a node of X outside then leads to the head *)
  assert (KEY : forall y z, lv y -> lv z -> inside y -> ~ inside z -> z <> o -> z <> c -> subt st y X -> subt st z X -> False).
  { intros y z Ly Lz Iy Iz Nz1 Nz2 Sy Sz. apply NC. destruct (in_phrase st I (ph_in st PH) y Ly Iy) as [->|U]; auto.
    destruct Sy as [->|Sy]. { apply (enter st I PH z X); auto. }
    destruct (up_comparable _ y hd X U Sy) as [S|S]; auto. apply (enter st I PH z X); auto. apply (path_inside st I PH y X); auto. now right. }
  exists X, a, d. split; [now apply (inv_live _ _ st X I)|]. split; [now apply (inv_live _ _ st a I)|]. split; [now apply (inv_live _ _ st d I)|]. split; auto. split; auto. split; auto.
  rewrite !OO by auto. destruct Hx as [->| ->].
  - split; [lia|]. destruct (Z_lt_dec (pos hd) (pos d)); auto. exfalso. apply (KEY d a); auto; try lia; intros ->; lia.
  - split; [|lia]. destruct (Z_lt_dec (pos a) (pos hd)); auto. exfalso. apply (KEY a d); auto; try lia; intros ->; lia.
Qed.

Definition done (st : lst) (st' : lst) (pt' : ptypes) : Prop :=
  par st' o = Some hd /\ par st' c = Some hd /\ pt' (pos o) <> None /\ pt' (pos c) = Some Closing /\
  (forall y, In y words -> inside y -> par st' y = par st y).
Lemma leaf_sub st b : inv st -> lv b -> (forall x p, In x words -> par st x = Some p -> p <> b) -> forall y, lv y -> subt st y b -> y = b.
Proof.
  intros I Lb NB y Ly [H|U]; auto. exfalso. revert Ly. induction U as [y p Ep|y p b Ep U IHU]; intros Ly; destruct (par_lv r st0 st y p I Ly Ep) as [Lp Hy].
  - now apply (NB y p Hy Ep).
  - auto.
Qed.
Lemma this_pair st pt : inv st -> phrase st ->
  safe (fun st' pt' => done st st' pt' /\ two o c st st') (fix_pair st pt r o c).
Proof.
  intros I PH. destruct oc_ne as (N1 & N2 & N3). unfold fix_pair.
  destruct (heads_one st I PH (h_desc (l_heap st) r) []) as (hs & EH & H1 & H2); [rewrite (inv_words _ _ st I); apply incl_refl|intros ? []|].
  eapply safe_query; [exact EH|]. cbv beta iota. assert (NE : hs <> []) by (apply H2; left; now rewrite (inv_words _ _ st I)).
  replace (match hs with [] => [] | _ => hs end) with hs by now destruct hs. cbv zeta.
  assert (HS : forall x, In x (sort_nodes (l_heap st) hs) -> x = hd).
  { intros x Hx. apply H1. eapply Permutation_in; [apply sort_on_perm|exact Hx]. }
  assert (NE2 : sort_nodes (l_heap st) hs <> []).
  { intros X. apply NE. apply Permutation_nil. rewrite <- X. apply sort_on_perm. }
  destruct (sort_nodes (l_heap st) hs) as [|first rest] eqn:ES; [contradiction|].
  destruct (last_some (first :: rest)) as (z & -> & Hz); [discriminate|]. apply HS in Hz. assert (first = hd) by (apply HS; now left). subst first z.
  assert (Lh : lv hd) by now right.
  eapply safe_bind; [apply safe_assign; auto|].
  { intros S. exfalso. apply N1. symmetry. apply (leaf_sub st o I (or_intror Ho)); auto. intros x p Hx Ep. now apply (ph_leaf st PH x p). }
  cbv beta. intros st1 _ I1 M1.
  assert (LF : forall x p, In x words -> par st1 x = Some p -> p <> o /\ p <> c).
  { intros x p Hx. destruct (Nat.eq_dec x o) as [->|Nx]; [destruct M1 as (-> & _); intros X; injection X as <-; auto|]. destruct M1 as (_ & M & _). rewrite M; auto; [now apply (ph_leaf st PH)|now right]. }
  eapply safe_bind; [apply safe_assign; auto|].
  { intros S. exfalso. apply N2. symmetry. apply (leaf_sub st1 c I1 (or_intror Hc)); auto. intros x p Hx Ep. now apply (LF x p). }
  cbv beta. intros st2 _ I2 M2. cbv zeta.
  assert (T2 : two o c st st2) by (eapply two_trans; [eapply two_o; eauto|eapply two_c; eauto]).
  assert (P2c : par st2 c = Some hd) by apply M2.
  assert (P2o : par st2 o = Some hd) by (destruct M2 as (_ & M & _); rewrite M; auto; [apply M1|now right]).
  assert (PH2 := phrase_two st st2 PH T2 P2o P2c).
  eapply safe_query; [apply no_gap; auto|]. cbv beta iota. cbn [bind]. eapply safe_query; [apply no_gap; auto|]. cbv beta iota. cbn [bind].
  apply safe_ok; auto. split; auto. split; auto. split; auto. rewrite !(inv_ord r st0 C0 st2) by (auto; now right). unfold put_type. split; [|split].
  - rewrite Z.eqb_refl. destruct (_ =? _); discriminate.
  - now rewrite Z.eqb_refl.
  - intros y Hy Iy. apply T2; [intros ->; lia|intros ->; lia|now right].
Qed.

(** ---- the list of words ---- *)
Lemma split_pos l1 l2 : words = l1 ++ o :: l2 -> (forall x, In x l1 -> In x words /\ pos x < pos o) /\ (forall x, In x l2 -> In x words /\ pos o < pos x).
Proof.
  intros EW. assert (RO := r_ord (l_heap st0) (abs (l_heap st0) r) (consistent_Repr _ r C0)). cbn [abs] in RO.
  assert (PO : pos o = Z.of_nat (length l1) + 1) by (apply RO; cbn; rewrite EW, nth_error_app2, Nat.sub_diag by lia; reflexivity).
  split; intros x Hx; (split; [rewrite EW; apply in_app_iff; simpl; auto|]); apply In_nth_error in Hx as [i Hi].
  - assert (i < length l1)%nat by (apply nth_error_Some; congruence). rewrite PO, (RO i x); [lia|]. cbn. rewrite EW, nth_error_app1; auto.
  - rewrite PO, (RO (length l1 + S i)%nat x); [lia|]. cbn. rewrite EW, nth_error_app2 by lia. replace (length l1 + S i - length l1)%nat with (S i) by lia. exact Hi.
Qed.
Definition opening_form (x : nat) : Prop := paired_get paired_punct (form x) <> None.
Lemma skip_pairs l1 l2 st pt : (forall x, In x l1 -> ~ opening_form x) -> fix_pairs chk form (l1 ++ l2) st pt r = fix_pairs chk form l2 st pt r.
Proof.
  induction l1 as [|x l1 IHl]; intros H; auto. cbn [app fix_pairs]. assert (PG : paired_get paired_punct (form x) = None).
  { destruct (paired_get paired_punct (form x)) eqn:EQ; auto. exfalso. apply (H x); [now left|]. unfold opening_form. now rewrite EQ. }
  rewrite PG. destruct (is_closing _); cbn [bind]; apply IHl; intros y Hy; apply H; now right.
Qed.
Lemma pair_In l f v : paired_get l f = Some v -> In (f, v) l.
Proof.
  induction l as [|[a b] l IHl]; [discriminate|]. cbn [paired_get]. destruct (str_eqb f a) eqn:EQ; [|right; auto]. apply str_eqb_eq in EQ as <-. intros X. injection X as <-. now left.
Qed.
(** The other opening marks come later, or there are none. *)
Variable (only : Prop).
Hypothesis D : E CycleError \/ only.
Hypothesis ONLY : only -> forall x, In x words -> x <> o -> ~ opening_form x.

Lemma later_pairs st1 : forall l st pt, (forall x, In x l -> In x words /\ pos o < pos x) -> inv st -> done st1 st pt -> (only -> clean st) ->
  safe (fun st' pt' => done st1 st' pt' /\ (only -> clean st')) (fix_pairs chk form l st pt r).
Proof.
  induction l as [|x l IHl]; intros st pt Hl I DN CL; cbn [fix_pairs]; [apply safe_ok; auto|].
  destruct (Hl x (or_introl eq_refl)) as [Hx Ox]. assert (Hl' : forall z, In z l -> In z words /\ pos o < pos z) by (intros z Hz; apply Hl; now right).
  eapply (safe_bind _ _ _ (fun st' pt' => done st1 st' pt' /\ (only -> clean st'))).
  2:{ cbv beta. intros st' pt' I' [DN' CL']. apply IHl; auto. }
  rewrite (inv_ord r st0 C0 st x I (or_intror Hx)). destruct (is_closing (pt (pos x))) eqn:EC; [apply safe_ok; auto|].
  destruct (paired_get paired_punct (form x)) as [cl|] eqn:PG; [|apply safe_ok; auto].
  assert (Nxo : x <> o) by (intros ->; lia).
  destruct D as [DC|DO].
  2:{ exfalso. apply (ONLY DO x Hx Nxo). unfold opening_form. rewrite PG. discriminate. }
  assert (Nxc : x <> c). { intros ->. destruct DN as (_ & _ & _ & X & _). rewrite X in EC. discriminate. }
  assert (Oxc : pos c < pos x).
  { assert (pos x <> pos c) by (intros EQ; apply Nxc; apply (same_ord _ r C0); auto; now right). destruct (Z_lt_dec (pos c) (pos x)); auto. exfalso.
    apply (proj1 (proj2 (NPI x Hx ltac:(lia)) (form x) cl (pair_In _ _ _ PG))). reflexivity. }
  unfold fix_paired. destruct (_ && _); [apply safe_ok; auto|]. destruct (find_closing _ _ _ _ _) as [c'|] eqn:FC; [|apply safe_ok; auto].
  apply find_closing_In in FC. rewrite (inv_words _ _ st I), (inv_ord r st0 C0 st x I (or_intror Hx)) in FC. apply (py_from_ord r st0 C0) in FC as [F1 F2]; auto.
  eapply safe_weak; [apply fix_pair_two; auto|]. cbv beta. intros st' pt' I' [T P]. destruct DN as (A1 & A2 & A3 & A4 & A5). split.
  - split; [rewrite T; auto; [intros ->; lia|now right]|]. split; [rewrite T; auto; [intros ->; lia|now right]|]. split; [rewrite P by lia; auto|]. split; [rewrite P by lia; auto|].
    intros y Hy Iy. rewrite T; auto; [intros ->; lia|intros ->; lia|now right].
  - intros HO. exfalso. apply (ONLY HO x Hx Nxo). unfold opening_form. rewrite PG. discriminate.
Qed.

Hypothesis PO : punct o = true.
Hypothesis FP : paired_get paired_punct (form o) = Some (form c).
Hypothesis FIRST : forall x, In x words -> pos x < pos o -> ~ opening_form x.

Lemma find_this st : inv st -> find_closing form (form o) (form c) 0 (py_from (h_desc (l_heap st) r) (ord st o)) = Some c.
Proof.
  intros I. rewrite (inv_words _ _ st I), (inv_ord r st0 C0 st o I (or_intror Ho)).
  assert (Hcl : In c (py_from words (pos o))).
  { pose proof (word_pos _ r C0 o Ho) as P. unfold py_from. rewrite py_bound_nonneg by lia.
    destruct (word_index _ r C0 c Hc) as (i & Hi & Oi). apply nth_error_In with (n := (i - Z.to_nat (pos o))%nat). rewrite nth_skipped. rewrite <- Hi. f_equal. lia. }
  assert (SO : forall l1 l2 x, py_from words (pos o) = l1 ++ c :: l2 -> In x l1 -> In x words /\ inside x).
  { intros l1 l2 x EQ Hx. assert (Jx : In x (py_from words (pos o))) by (rewrite EQ; apply in_app_iff; now left). apply (py_from_ord r st0 C0 o) in Jx as [J1 J2]; auto. split; auto. split; auto.
    pose proof (word_pos _ r C0 o Ho) as P. unfold py_from in EQ. rewrite py_bound_nonneg in EQ by lia. apply In_nth_error in Hx as [i Hi].
    assert (i < length l1)%nat by (apply nth_error_Some; congruence).
    assert (RO := r_ord (l_heap st0) (abs (l_heap st0) r) (consistent_Repr _ r C0)). cbn [abs] in RO.
    assert (X1 := nth_skipped (Z.to_nat (pos o)) words i). rewrite EQ, nth_error_app1, Hi in X1 by auto. symmetry in X1. apply RO in X1.
    assert (X2 := nth_skipped (Z.to_nat (pos o)) words (length l1)). rewrite EQ, nth_error_app2, Nat.sub_diag in X2 by lia. symmetry in X2. apply RO in X2. lia. }
  apply in_split in Hcl as (l1 & l2 & EQ). rewrite EQ in *. specialize (SO l1 l2). assert (SO' : forall x, In x l1 -> In x words /\ inside x) by (intros x; now apply SO). clear SO EQ.
  induction l1 as [|x l1 IHl]; cbn [app find_closing]; [now rewrite str_eqb_refl|].
  destruct (SO' x (or_introl eq_refl)) as [Hx Ix]. destruct (NPI x Hx Ix) as [_ NF]. specialize (NF _ _ (pair_In _ _ _ FP)) as [F1 F2].
  destruct (str_eqb (form x) (form c)) eqn:E1; [apply str_eqb_eq in E1; contradiction|]. destruct (str_eqb (form x) (form o)) eqn:E2; [apply str_eqb_eq in E2; contradiction|].
  apply IHl. intros z Hz. apply SO'. now right.
Qed.
Lemma pairs_step st1 : inv st1 -> phrase st1 -> (only -> clean st1) ->
  safe (fun st' pt' => done st1 st' pt' /\ (only -> clean st')) (fix_pairs chk form (h_desc (l_heap st1) r) st1 (fun _ => None) r).
Proof.
  intros I PH CL. rewrite (inv_words _ _ st1 I). destruct (in_split o words Ho) as (l1 & l2 & EW). destruct (split_pos l1 l2 EW) as [S1 S2]. rewrite EW.
  rewrite skip_pairs by (intros x Hx; destruct (S1 x Hx); now apply FIRST). cbn [fix_pairs is_closing]. rewrite FP.
  unfold fix_paired. rewrite (inv_upos r st0 st1 o I), PO, andb_false_r, (find_this st1 I).
  eapply safe_bind; [apply this_pair; auto|]. cbv beta. intros st2 pt I2 [DN T]. apply later_pairs; auto.
  intros HO x p Hx Ep. destruct (Nat.eq_dec x o) as [->|Nxo]. { destruct DN as (X & _). assert (p = hd) by congruence. subst p. now apply NPI. }
  destruct (Nat.eq_dec x c) as [->|Nxc]. { destruct DN as (_ & X & _). assert (p = hd) by congruence. subst p. now apply NPI. }
  rewrite T in Ep; auto; [now apply (CL HO x)|now right].
Qed.
Lemma subord_step st1 st2 pt : inv st2 -> done st1 st2 pt -> (only -> clean st2) ->
  safe (fun st' _ => done st1 st' pt)
    (for_each (fun st x => if upos_punct st x && negb (is_some (pt (ord st x))) then fix_subord form st pt x else (st, Ok tt)) (h_desc (l_heap st2) r) st2).
Proof.
  intros I DN CL. eapply safe_weak; [apply (safe_for_each r st0 E (fun st => done st1 st pt /\ (only -> clean st))); auto|].
  2:{ cbv beta. intros st a _ [X _]. exact X. }
  rewrite (inv_words _ _ st2 I). intros x st Hx I' [DN' CL']. rewrite (inv_upos r st0 st x I').
  destruct (punct x) eqn:PX; cbn [andb]; [|now apply safe_ok]. rewrite (inv_ord r st0 C0 st x I' (or_intror Hx)). destruct (pt (pos x)) as [v|] eqn:EP; cbn [is_some negb]; [now apply safe_ok|].
  eapply safe_weak; [apply (fix_subord_ok r form st0 C0 E HR only D); auto|]. cbv beta. intros st' _ I'' [K1 K2]. destruct DN' as (A1 & A2 & A3 & A4 & A5). split; auto.
  split; [rewrite K1; auto; [congruence|now right]|]. split; [rewrite K1; auto; [congruence|now right]|]. split; auto. split; auto.
  intros y Hy Iy. rewrite K1; auto; [|now right]. intros ->. destruct (NPI x Hy Iy). congruence.
Qed.
End Pair.

Lemma get_In f v : In (f, v) paired_punct -> paired_get paired_punct f = Some v.
Proof. intros H. cbn [paired_punct In] in H. repeat (destruct H as [H|H]; [injection H as <- <-; reflexivity|]). destruct H. Qed.

Section Whole.
Variables (chk : bool) (form : nat -> str) (r : nat) (st : lst).
Hypothesis C : consistent (l_heap st) r.
Hypothesis RU : l_upos st r = Some (s "<ROOT>").
Hypothesis RF : form r = s "<ROOT>".
Notation words := (h_desc (l_heap st) r).
Notation pos x := (h_ord (l_heap st) x).
Notation PUNCT x := (l_upos st x = Some (s "PUNCT")).
Variables (o c hd : nat).
Notation inside x := (pos o < pos x < pos c).
Hypotheses (Ho : In o words) (Hc : In c words) (Hh : In hd words) (PO : PUNCT o) (FP : In (form o, form c) paired_punct).
Hypothesis FIRST : forall x a b, In x words -> pos x < pos o -> In (a, b) paired_punct -> form x <> a.
Hypothesis IH : inside hd.
Hypothesis NPI : forall x, In x words -> inside x -> ~ PUNCT x /\ forall a b, In (a, b) paired_punct -> form x <> a /\ form x <> b.
Hypothesis PH1 : forall x, In x words -> inside x -> x <> hd -> exists p, h_par (l_heap st) x = Some p /\ inside p.
Hypothesis PH2 : forall p, h_par (l_heap st) hd = Some p -> ~ inside p.
Hypothesis PH3 : forall x p, In x words -> x <> o -> x <> c -> ~ inside x -> h_par (l_heap st) x = Some p -> inside p -> p = hd.
Hypothesis PH4 : forall x p, In x words -> h_par (l_heap st) x = Some p -> p <> o /\ p <> c.

Lemma punct_iff x : punct st x = true <-> PUNCT x.
Proof. unfold punct. apply ostr_eqb_eq. Qed.
Lemma npi x : In x words -> inside x -> punct st x = false /\ forall a b, In (a, b) paired_punct -> form x <> a /\ form x <> b.
Proof.
  intros Hx Ix. destruct (NPI x Hx Ix) as [A B]. split; auto. destruct (punct st x) eqn:P; auto. exfalso. apply A. now apply punct_iff.
Qed.
Lemma inside_not_punct x : In x words -> inside x -> is_punct chk form st x = false.
Proof.
  intros Hx Ix. destruct (npi x Hx Ix) as [A B]. unfold is_punct. change (upos_punct st x) with (punct st x). rewrite A. destruct chk; auto. destruct (in_quotes (form x)); auto.
  destruct (existsb _ paired_punct) eqn:EX; auto. exfalso. apply existsb_exists in EX as ([a b] & J & EQ). destruct (B a b J). cbn [fst snd] in EQ. rewrite orb_true_iff, !str_eqb_eq in EQ. tauto.
Qed.
Lemma not_opening x : (forall a b, In (a, b) paired_punct -> form x <> a) -> ~ opening_form form x.
Proof.
  intros N X. unfold opening_form in X. destruct (paired_get paired_punct (form x)) as [v|] eqn:EQ; auto. apply pair_In in EQ. now apply (N _ _ EQ).
Qed.

Lemma run (E : exn -> Prop) (only : Prop) : E CycleError \/ only -> (only -> forall x a b, In x words -> x <> o -> In (a, b) paired_punct -> form x <> a) ->
  exists st' res, fix_punct chk form st r = (st', res) /\
    match res with
    | Ok _ => rehung (l_heap st) (l_heap st') r /\ par st' o = Some hd /\ par st' c = Some hd /\
              is_nonprojective (l_heap st') o = Ok false /\ is_nonprojective (l_heap st') c = Ok false
    | Raise e => E e
    | Diverge => False
    end.
Proof.
  intros D ONLY. destruct (root_punct chk form r st RU RF) as [R1 R2]. unfold fix_punct.
  destruct (first_step chk form r st C R1) as (st1 & E1 & A1 & A2 & A3 & A4 & A5). rewrite E1. cbn [bind].
  assert (I0 := inv_start r st C). assert (I1 := first_inv r st st1 A1 A3). assert (W1 := inv_words _ _ st1 I1).
  assert (PH0 : phrase r st o c hd st) by (constructor; auto).
  assert (HUP : forall p, live (l_heap st) r p -> up (l_heap st) hd p -> ~ inside p).
  { intros p Lp U Ip. apply (up_irrefl _ r C hd); [now right|]. eapply up_in_subtree; [exact U|]. apply (in_phrase r st C o c hd Ho st I0 PH1); auto. }
  assert (UL : forall x p, In x words -> up (l_heap st) x p -> live (l_heap st) r p).
  { intros x p Hx U. assert (Lx : live (l_heap st) r x) by now right. clear Hx. induction U as [x p Ep|x p a Ep U IHU]; destruct (parent_live _ r x p C Lx Ep); auto. }
  assert (LEAF : forall x p, In x words -> up (l_heap st) x p -> p <> o /\ p <> c).
  { intros x p Hx U. assert (Lx : live (l_heap st) r x) by now right. clear Hx. induction U as [x p Ep|x p a Ep U IHU]; destruct (parent_live _ r x p C Lx Ep) as [Lp Hx]; auto. now apply (PH4 x). }
  assert (PH : phrase r st o c hd st1).
  { constructor.
    - intros x Hx Ix Nx. destruct (PH1 x Hx Ix Nx) as (p & Ep & Ip). exists p. split; auto. apply (A5 x p Hx Ep). apply inside_not_punct; auto.
      apply (inside_word r st C o c Ho); auto. apply (parent_live _ r x p C (or_intror Hx) Ep).
    - intros p Ep. apply A2 in Ep; auto. apply HUP; auto. now apply (UL hd).
    - intros x p Hx N1 N2 Ix Ep Ip. apply A2 in Ep; auto. assert (S : in_subtree (l_heap st) hd p).
      { apply (enter r st o c hd st I0 PH0 x p); auto; [now right|now right]. }
      destruct S as [->|U]; auto. exfalso. apply (HUP p); auto. now apply (UL hd).
    - intros x p Hx Ep. apply A2 in Ep; auto. now apply (LEAF x). }
  assert (CL : clean r st st1).
  { intros x p Hx Ep. specialize (A4 x p Hx Ep). unfold is_punct in A4. unfold punct, upos_punct in *. destruct (ostr_eqb (l_upos st p) (s "PUNCT")); [discriminate|auto]. }
  assert (ONLY' : only -> forall x, In x words -> x <> o -> ~ opening_form form x) by (intros HO x Hx Nx; apply not_opening; intros a b; now apply (ONLY HO x)).
  destruct (pairs_step r chk form st C E o c hd Ho Hc Hh IH npi only D ONLY' (proj2 (punct_iff o) PO) (get_In _ _ FP)) with (st1 := st1) as [I2 Q2]; auto.
  { intros x Hx Ox. apply not_opening. intros a b. now apply (FIRST x). }
  destruct (fix_pairs chk form (h_desc (l_heap st1) r) st1 (fun _ => None) r) as [st2 [pt|e|]]; cbn [fst snd bind] in *; try contradiction; [|eauto].
  destruct Q2 as [DN CL2]. destruct (subord_step r form st C E R2 o c hd Ho Hc IH npi only D st1 st2 pt I2 DN CL2) as [I3 Q3].
  destruct (for_each _ (h_desc (l_heap st2) r) st2) as [st3 [[]|e|]]; cbn [fst snd bind] in *; try contradiction; [|eauto].
  destruct (finish r st C st3 I3) as (st' & k & EF & F1 & F2 & F3 & F4 & F5 & F6 & F7 & F8 & F9 & F10); [intros X; rewrite X in Ho; destruct Ho|].
  rewrite EF. exists st', (Ok tt). split; auto. split; auto. destruct Q3 as (D1 & D2 & _ & _ & D5).
  assert (Nhr : hd <> r) by (intros ->; apply (c_rootout _ r C); exact Hh).
  assert (P1 : par st' o = Some hd) by (rewrite F10; auto; congruence). assert (P2 : par st' c = Some hd) by (rewrite F10; auto; congruence).
  split; auto. split; auto.
  assert (I' : inv r st (set_heap st (l_heap st'))) by (apply inv_heap; auto).
  assert (IN : forall y, live (l_heap st) r y -> inside y -> in_subtree (l_heap st') y hd).
  { apply (in_phrase r st C o c hd Ho (set_heap st (l_heap st')) I'). intros x Hx Ix Nx. destruct (ph_in _ _ _ _ _ _ PH x Hx Ix Nx) as (p & Ep & Ip). exists p. split; auto.
    change (par st' x = Some p). rewrite F10; auto; rewrite D5; auto. rewrite Ep. intros X. injection X as ->. rewrite (c_ord0 _ r C) in Ip. pose proof (word_pos _ r C o Ho). lia. }
  assert (C' := rh_consistent _ _ _ F1). assert (W' := rh_words _ _ _ F1).
  assert (NP : forall x, In x words -> (x = o \/ x = c) -> par st' x = Some hd -> is_nonprojective (l_heap st') x = Ok false).
  { intros x Hx Cx Ex. destruct (nonprojective_prop (l_heap st') r C' x hd) as (b & Eb & Hb); auto; [now rewrite W'|]. destruct b; auto. exfalso.
    destruct (proj1 Hb eq_refl) as (w & Hw & BW & NU). rewrite W' in Hw. assert (OO : forall y, live (l_heap st) r y -> h_ord (l_heap st') y = pos y) by (intros y Ly; exact (inv_ord r st C (set_heap st (l_heap st')) y I' Ly)). rewrite !OO in BW by (auto; now right).
    assert (Iw : inside w) by (destruct Cx as [->| ->]; lia). destruct (IN w (or_intror Hw) Iw) as [->|U]; [lia|contradiction]. }
  split; apply NP; auto.
Qed.
Lemma pair_prop : exists st' res, fix_punct chk form st r = (st', res) /\
  (res = Ok tt -> h_par (l_heap st') o = Some hd /\ h_par (l_heap st') c = Some hd /\ is_nonprojective (l_heap st') o = Ok false /\ is_nonprojective (l_heap st') c = Ok false) /\
  ((forall x a b, In x words -> x <> o -> In (a, b) paired_punct -> form x <> a) -> res = Ok tt).
Proof.
  destruct (run (fun e => e = CycleError) False (or_introl eq_refl)) as (st' & res & E1 & R1); [contradiction|].
  exists st', res. split; auto. split.
  - intros ->. tauto.
  - intros ONLY. destruct (run (fun _ => False) True (or_intror Logic.I) (fun _ => ONLY)) as (st2 & res2 & E2 & R2). rewrite E2 in E1. injection E1 as <- <-.
    destruct res2 as [[]|e|]; [auto|contradiction|contradiction].
Qed.
End Whole.
