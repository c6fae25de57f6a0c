(** Proofs about ud.FixCompoundName. *)
From Coq Require Import String List NArith ZArith Bool Lia Sorted.
From Verif Require Import PyStr PyStrFacts PyList PyListFacts PyExn TreeModel TreeSpec TreeFacts TreeRepr TreeOps TreeCalls
  TreeQuery TreeProps DeprelModel RehangModel RehangSpec TreeTreelet RehangProofs RehangFix CnameModel CnameSpec.
Import ListNotations.

Ltac conjs := repeat match goal with |- _ /\ _ => split end.
Lemma digit_b digit form y : existsb digit (form y) = true <-> with_digit digit form y.
Proof. apply existsb_exists. Qed.

Lemma names_spec r st p : consistent (l_heap st) r -> In p (h_desc (l_heap st) r) -> propn st p ->
  (forall y, In y (namewords st p) <-> in_name r st p y) /\ StronglySorted (key_lt (h_ord (l_heap st))) (namewords st p).
Proof.
  intros C Hp Pp. assert (Lp : live (l_heap st) r p) by now right.
  destruct (children_prop (l_heap st) r C p Lp) as [_ H]. destruct (H true false false) as [f [Hf El]]. clear H.
  unfold namewords. rewrite El. split.
  - intros y. rewrite !filter_In. unfold is_nameword. rewrite andb_true_iff, orb_true_iff, !ostr_eqb_eq, Nat.eqb_eq.
    unfold in_name, compound_of, propn in *. split.
    + intros [[Hy Fy] [U D]]. assert (Ly : live (l_heap st) r y) by (destruct Hy as [<-|Hy]; [now left|now right]).
      apply (Hf y Ly) in Fy as [Fy _].
      destruct (Nat.eq_dec y p) as [->|N]; [left; auto|right].
      destruct D as [D|D]; [|contradiction]. destruct Fy as [Fy|[_ Fy]]; [|contradiction].
      destruct (parent_live _ _ _ _ C Ly Fy) as [_ Hw]. auto.
    + intros [[-> U]|[Hy [_ [U [E D]]]]].
      * split; [split; [now right|]|auto]. apply (Hf p Lp). split; auto. split; discriminate.
      * split; [split; [now right|]|auto]. apply (Hf y (or_intror Hy)). split; auto. split; discriminate.
  - apply filter_StronglySorted, filter_StronglySorted.
    apply (all_sorted (l_heap st) (abs (l_heap st) r) (consistent_Repr _ _ C)).
Qed.
Lemma sorted_NoDup (k : nat -> Z) l : StronglySorted (key_lt k) l -> NoDup l.
Proof.
  induction 1 as [|a l S IH F]; constructor; auto. intros I. rewrite Forall_forall in F. specialize (F a I). unfold key_lt in F. lia.
Qed.

Lemma chain_same h h' p : (forall z, up h p z -> h_par h' z = h_par h z) ->
  forall a b, up h' a b -> up h p a -> up h p b.
Proof.
  intros K a b U. induction U as [a q E|a q b E U IH]; intros A.
  - eapply up_trans; eauto. constructor. now rewrite <- K.
  - apply IH. eapply up_trans; eauto. constructor. now rewrite <- K.
Qed.

Section Name.
Variables (r : nat) (st : lst) (p g hd : nat) (rest : list nat).
Hypothesis C : consistent (l_heap st) r.
Hypothesis Hp : In p (h_desc (l_heap st) r).
Hypothesis Pp : propn st p.
Hypothesis Eg : h_par (l_heap st) p = Some g.
Hypothesis El : namewords st p = hd :: rest.

Let names := namewords st p.
Lemma name_In y : In y names <-> in_name r st p y.
Proof. apply (names_spec r st p C Hp Pp). Qed.
Lemma name_word y : In y names -> In y (h_desc (l_heap st) r).
Proof. rewrite name_In. intros [[-> _]|[H _]]; auto. Qed.
Lemma name_not_above y : In y names -> ~ up (l_heap st) p y.
Proof.
  rewrite name_In. intros [[-> _]|[H [_ [_ [E _]]]]] U.
  - now apply (up_irrefl _ r C p (or_intror Hp)).
  - apply (up_irrefl _ r C p (or_intror Hp)). eapply up_trans; eauto. now constructor.
Qed.
Lemma names_nodup : ~ In hd rest /\ NoDup rest.
Proof.
  pose proof (sorted_NoDup _ _ (proj2 (names_spec r st p C Hp Pp))) as ND. rewrite El in ND. now inversion ND.
Qed.
Lemma hd_name : In hd names. Proof. unfold names. rewrite El. simpl; auto. Qed.
Lemma rest_name y : In y rest -> In y names. Proof. unfold names. rewrite El. simpl; auto. Qed.

(** The first word of the name takes the place of p. *)
Lemma head_step : exists st1,
  (if Nat.eqb hd p then (st, Ok tt)
   else bind (assign_parent st hd (Some g)) (fun st1 _ => (set_dep st1 hd (l_dep st p), Ok tt))) = (st1, Ok tt) /\
  rehung (l_heap st) (l_heap st1) r /\ l_upos st1 = l_upos st /\ l_pproj st1 = l_pproj st /\
  h_par (l_heap st1) hd = Some g /\ l_dep st1 hd = l_dep st p /\
  (forall y, y <> hd -> l_dep st1 y = l_dep st y) /\
  (forall y, y <> hd -> live (l_heap st) r y -> h_par (l_heap st1) y = h_par (l_heap st) y).
Proof.
  destruct (Nat.eqb_spec hd p) as [->|N].
  - exists st. conjs; auto. now apply rehung_refl.
  - assert (Hh := hd_name). assert (Wh := name_word hd Hh).
    rewrite name_In in Hh. destruct Hh as [[? _]|[_ [_ [_ [Eh _]]]]]; [contradiction|].
    destruct (assign_up_ok r st hd g C Wh) as [h1 [E1 [R1 [P1 O1]]]].
    { eapply up_S; eauto. now constructor. }
    rewrite E1. cbn [bind]. exists (set_dep (set_heap st h1) hd (l_dep st p)). cbn. conjs; auto.
    + now rewrite upd_same.
    + intros y Ny. now rewrite upd_other.
Qed.

Lemma name_run : exists st', bind (if Nat.eqb hd p then (st, Ok tt)
   else bind (assign_parent st hd (Some g)) (fun st1 _ => (set_dep st1 hd (l_dep st p), Ok tt)))
   (fun st1 _ => for_each (flat_word hd) rest st1) = (st', Ok tt) /\
  rehung (l_heap st) (l_heap st') r /\ l_upos st' = l_upos st /\ l_pproj st' = l_pproj st /\
  h_par (l_heap st') hd = Some g /\ l_dep st' hd = l_dep st p /\
  (forall y, In y rest -> h_par (l_heap st') y = Some hd /\ l_dep st' y = Some (s "flat:name")) /\
  (forall y, ~ In y names -> l_dep st' y = l_dep st y) /\
  (forall y, ~ In y names -> live (l_heap st) r y -> h_par (l_heap st') y = h_par (l_heap st) y).
Proof.
  destruct head_step as [st1 [E1 [R1 [U1 [M1 [P1 [D1 [DO O1]]]]]]]]. rewrite E1. cbn [bind].
  assert (C1 : consistent (l_heap st1) r) by apply R1.
  assert (L1 : forall y, live (l_heap st1) r y <-> live (l_heap st) r y) by (intros y; now apply rehung_live).
  destruct names_nodup as [Nh NR].
  pose (P := fun done st2 => going r st1 st2 /\ l_upos st2 = l_upos st /\ l_pproj st2 = l_pproj st /\
    (forall y, l_dep st2 y = if in_dec Nat.eq_dec y done then Some (s "flat:name") else l_dep st1 y) /\
    (forall y, live (l_heap st) r y -> h_par (l_heap st2) y = if in_dec Nat.eq_dec y done then Some hd else h_par (l_heap st1) y)).
  destruct (for_each_prog P (flat_word hd) rest [] st1) as [st2 [E [G [U [M [D Q]]]]]].
  - intros pre n post st2 Er [G [U [M [D Q]]]]. cbn [app] in *.
    assert (Hn : In n rest) by (rewrite Er, in_app_iff; simpl; auto).
    assert (Npre : forall y, In y pre -> In y rest) by (intros y Hy; rewrite Er, in_app_iff; auto).
    assert (Wn : In n (h_desc (l_heap st2) r)).
    { rewrite (going_words _ _ _ G), (rh_words _ _ _ R1). now apply name_word, rest_name. }
    assert (LL : forall y, live (l_heap st2) r y <-> live (l_heap st) r y) by (intros y; rewrite (going_live _ _ _ _ G); apply L1).
    assert (K : forall z, up (l_heap st) p z -> h_par (l_heap st2) z = h_par (l_heap st) z).
    { intros z Uz. assert (Nz : ~ In z names) by (intros I; now apply (name_not_above z I)).
      assert (Lz : live (l_heap st) r z) by (now apply (live_up _ r C p z (or_intror Hp))).
      rewrite Q by auto. destruct (in_dec Nat.eq_dec z pre) as [I|_]; [exfalso; apply Nz, rest_name, Npre, I|].
      apply O1; auto. intros ->. apply Nz, hd_name. }
    assert (Ehd : h_par (l_heap st2) hd = Some g).
    { rewrite Q by (right; apply name_word, hd_name). destruct (in_dec Nat.eq_dec hd pre) as [I|_]; auto. exfalso. apply Nh, Npre, I. }
    destruct (assign_ok r st2 n hd (going_cons _ _ _ G) Wn) as [h' [E [R [P' O]]]].
    { apply LL. right. apply name_word, hd_name. }
    { assert (Upg : up (l_heap st) p g) by (now constructor).
      intros [->|Uu]; [contradiction|]. apply (name_not_above n (rest_name n Hn)).
      inversion Uu as [? ? E|? q ? E U']; subst; rewrite Ehd in E; injection E as <-; auto.
      now apply (chain_same (l_heap st) (l_heap st2) p K g n). }
    unfold flat_word. rewrite E. cbn [bind]. exists (set_dep (set_heap st2 h') n (Some (s "flat:name"))). split; auto.
    split; [apply (going_step r st1 st2); auto|]. cbn. conjs; auto.
    + intros y. unfold upd. destruct (Nat.eqb_spec y n) as [->|Hy].
      * destruct (in_dec Nat.eq_dec n (pre ++ [n])) as [|X]; auto. exfalso. apply X, in_app_iff. simpl; auto.
      * rewrite D. destruct (in_dec Nat.eq_dec y pre) as [I|X], (in_dec Nat.eq_dec y (pre ++ [n])) as [I2|N2]; auto.
        -- exfalso. apply N2, in_app_iff; auto.
        -- exfalso. apply in_app_iff in I2 as [I2|[I2|[]]]; auto.
    + intros y Hy. destruct (Nat.eq_dec y n) as [->|Hyn].
      * rewrite P'. destruct (in_dec Nat.eq_dec n (pre ++ [n])) as [|X]; auto. exfalso. apply X, in_app_iff. simpl; auto.
      * rewrite O, Q; auto; [|now apply LL].
        destruct (in_dec Nat.eq_dec y pre) as [I|X], (in_dec Nat.eq_dec y (pre ++ [n])) as [I2|N2]; auto.
        -- exfalso. apply N2, in_app_iff; auto.
        -- exfalso. apply in_app_iff in I2 as [I2|[I2|[]]]; auto.
  - split; [now apply going_refl|]. conjs; auto.
  - exists st2. split; auto. cbn [app] in *. split; [eapply rehung_trans; [exact R1|apply G]|]. conjs; auto.
    + rewrite Q by (right; apply name_word, hd_name). destruct (in_dec Nat.eq_dec hd rest); [contradiction|auto].
    + rewrite D. destruct (in_dec Nat.eq_dec hd rest); [contradiction|auto].
    + intros y Hy. rewrite D, Q by (right; now apply name_word, rest_name).
      destruct (in_dec Nat.eq_dec y rest); [auto|contradiction].
    + intros y Ny. rewrite D. destruct (in_dec Nat.eq_dec y rest) as [I|_]; [exfalso; apply Ny, rest_name, I|].
      apply DO. intros ->. apply Ny, hd_name.
    + intros y Ny Ly. rewrite Q by auto. destruct (in_dec Nat.eq_dec y rest) as [I|_]; [exfalso; apply Ny, rest_name, I|].
      apply O1; auto. intros ->. apply Ny, hd_name.
Qed.
End Name.

Lemma numbered_b digit form r st p : consistent (l_heap st) r -> In p (h_desc (l_heap st) r) -> propn st p ->
  (existsb (fun y => existsb digit (form y)) (namewords st p) = true <-> numbered digit form r st p).
Proof.
  intros C Hp Pp. rewrite existsb_exists. unfold numbered. split; intros [y [A B]]; exists y.
  - split; [now apply (name_In r st p C Hp Pp)|now apply digit_b].
  - split; [now apply (name_In r st p C Hp Pp)|now apply digit_b].
Qed.
Lemma compound_word r st p x : consistent (l_heap st) r -> ~ propn st r -> compound_of r st p x -> In p (h_desc (l_heap st) r).
Proof.
  intros C NR [Hx [Pp [_ [Ep _]]]]. destruct (parent_live _ _ _ _ C (or_intror Hx) Ep) as [[->|H] _]; [contradiction|auto].
Qed.

(** One name. *)
Lemma cname_edge r digit form st x p g hd : consistent (l_heap st) r -> compound_of r st p x ->
  h_par (l_heap st) p = Some g -> numbered digit form r st p -> first_of_name r st p hd ->
  exists st', cname_node digit form st x = (st', Ok tt) /\ rehung (l_heap st) (l_heap st') r /\
    l_upos st' = l_upos st /\ l_pproj st' = l_pproj st /\
    h_par (l_heap st') hd = Some g /\ l_dep st' hd = l_dep st p /\
    (forall y, in_name r st p y -> y <> hd -> h_par (l_heap st') y = Some hd /\ l_dep st' y = Some (s "flat:name")) /\
    (forall y, ~ in_name r st p y -> l_dep st' y = l_dep st y) /\
    (forall y, ~ in_name r st p y -> live (l_heap st) r y -> h_par (l_heap st') y = h_par (l_heap st) y).
Proof.
  intros C Hc Eg Hn [H1 H2]. destruct Hc as [Hx [Pp [Px [Ep Dx]]]].
  destruct (parent_live _ _ _ _ C (or_intror Hx) Ep) as [Lp _].
  destruct (parent_live _ _ _ _ C Lp Eg) as [_ Hp].
  unfold cname_node. rewrite (proj2 (ostr_eqb_eq _ _) Px), (proj2 (ostr_eqb_eq _ _) Dx). cbn [andb].
  unfold the_parent. rewrite Ep, (proj2 (ostr_eqb_eq _ _) Pp), (proj2 (numbered_b digit form r st p C Hp Pp) Hn).
  destruct (names_spec r st p C Hp Pp) as [NI NS].
  destruct (namewords st p) as [|h0 rest] eqn:El.
  { exfalso. apply NI in H1. destruct H1. }
  assert (h0 = hd) as ->.
  { destruct (Nat.eq_dec h0 hd) as [|N]; auto. exfalso.
    assert (In h0 (h0 :: rest)) as I0 by (simpl; auto). pose proof (proj1 (NI h0) I0) as J. specialize (H2 h0 J N).
    destruct (proj2 (NI hd) H1) as [I1|I1]; [contradiction|]. apply StronglySorted_inv in NS as [_ F]. rewrite Forall_forall in F.
    specialize (F hd I1). unfold key_lt in F. lia. }
  rewrite Eg.
  destruct (name_run r st p g hd rest C Hp Pp Eg El) as [st' [E [R [U [M [A [B [Q [D K]]]]]]]]].
  exists st'. split; [exact E|]. split; auto. conjs; auto.
  - intros y Hy Ny. apply NI in Hy as [Hy|Hy]; [congruence|]. now apply Q.
  - intros y N. apply D. rewrite El. now rewrite NI.
  - intros y N. apply K. rewrite El. now rewrite NI.
Qed.
Lemma cname_skip r digit form st x : consistent (l_heap st) r -> ~ propn st r -> In x (h_desc (l_heap st) r) ->
  (forall p, compound_of r st p x -> ~ numbered digit form r st p) -> cname_node digit form st x = (st, Ok tt).
Proof.
  intros C NR Hx H. unfold cname_node.
  destruct (ostr_eqb (l_upos st x) (s "PROPN")) eqn:E1; [|reflexivity].
  destruct (ostr_eqb (udep st x) (s "compound")) eqn:E2; [|reflexivity]. cbn [andb].
  destruct (parent_exists _ _ _ C Hx) as [p [Ep Lp]]. unfold the_parent. rewrite Ep.
  destruct (ostr_eqb (l_upos st p) (s "PROPN")) eqn:E3; [|reflexivity].
  apply ostr_eqb_eq in E1, E2, E3.
  assert (Hc : compound_of r st p x) by (repeat split; auto).
  pose proof (compound_word r st p x C NR Hc) as Hp.
  destruct (existsb _ (namewords st p)) eqn:E4; [|reflexivity].
  exfalso. apply (H p Hc). apply (proj1 (numbered_b digit form r st p C Hp E3)). exact E4.
Qed.
Lemma first_exists r st p : consistent (l_heap st) r -> In p (h_desc (l_heap st) r) -> propn st p -> exists hd, first_of_name r st p hd.
Proof.
  intros C Hp Pp. destruct (names_spec r st p C Hp Pp) as [NI NS].
  destruct (namewords st p) as [|hd rest].
  - exfalso. apply (NI p). left. auto.
  - exists hd. split; [apply NI; simpl; auto|]. intros y Hy N. apply NI in Hy as [Hy|Hy]; [congruence|].
    apply StronglySorted_inv in NS as [_ F]. rewrite Forall_forall in F. now apply F.
Qed.
Lemma cname_step r digit form st x : consistent (l_heap st) r -> ~ propn st r -> In x (h_desc (l_heap st) r) ->
  exists st', cname_node digit form st x = (st', Ok tt) /\ rehung (l_heap st) (l_heap st') r /\ l_upos st' = l_upos st /\ l_pproj st' = l_pproj st.
Proof.
  intros C NR Hx. destruct (parent_exists _ _ _ C Hx) as [p [Ep Lp]].
  assert (DE : (compound_of r st p x /\ numbered digit form r st p) \/ ~ (compound_of r st p x /\ numbered digit form r st p)).
  { destruct (ostr_eqb (l_upos st x) (s "PROPN")) eqn:E1; [|right; intros [[_ [_ [A _]]] _]; apply ostr_eqb_eq in A; congruence].
    destruct (ostr_eqb (udep st x) (s "compound")) eqn:E2; [|right; intros [[_ [_ [_ [_ A]]]] _]; apply ostr_eqb_eq in A; congruence].
    destruct (ostr_eqb (l_upos st p) (s "PROPN")) eqn:E3; [|right; intros [[_ [A _]] _]; apply ostr_eqb_eq in A; congruence].
    apply ostr_eqb_eq in E1, E2, E3.
    assert (Hc : compound_of r st p x) by (repeat split; auto).
    pose proof (compound_word r st p x C NR Hc) as Hp.
    destruct (existsb (fun y => existsb digit (form y)) (namewords st p)) eqn:E4.
    - left. split; auto. apply (proj1 (numbered_b digit form r st p C Hp E3)). exact E4.
    - right. intros [_ A]. apply (numbered_b digit form r st p C Hp E3) in A. congruence. }
  destruct DE as [[Hc Hn]|N].
  - pose proof (compound_word r st p x C NR Hc) as Hp. destruct (parent_exists _ _ _ C Hp) as [g [Eg _]].
    destruct (first_exists r st p C Hp (proj1 (proj2 Hc))) as [hd Hf].
    destruct (cname_edge r digit form st x p g hd C Hc Eg Hn Hf) as [st' [E [R [U [M _]]]]]. eauto.
  - exists st. split; [|split; auto; now apply rehung_refl]. apply (cname_skip r); auto.
    intros q Hq Hn. apply N. replace p with q; auto. destruct Hq as [_ [_ [_ [Eq _]]]]. congruence.
Qed.
(** The run. *)
Lemma cname_ok r digit form st : consistent (l_heap st) r -> ~ propn st r ->
  exists st', cname digit form st r = (st', Ok tt) /\ rehung (l_heap st) (l_heap st') r /\ l_upos st' = l_upos st /\ l_pproj st' = l_pproj st /\
    ((forall p x, compound_of r st p x -> ~ numbered digit form r st p) -> st' = st).
Proof.
  intros C NR. unfold cname, each_word.
  destruct (for_each_inv (fun st2 => going r st st2 /\ l_upos st2 = l_upos st /\ l_pproj st2 = l_pproj st /\
     ((forall p x, compound_of r st p x -> ~ numbered digit form r st p) -> st2 = st)) (cname_node digit form) (h_desc (l_heap st) r) st)
    as [st' [E [G [U [M S]]]]].
  - intros x st2 Hx [G [U [M S]]].
    assert (NR2 : ~ propn st2 r) by (unfold propn in *; now rewrite U).
    assert (Hx2 : In x (h_desc (l_heap st2) r)) by (now rewrite (going_words _ _ _ G)).
    destruct (cname_step r digit form st2 x (going_cons _ _ _ G) NR2 Hx2) as [st3 [E [R [U3 M3]]]].
    exists st3. split; auto. split; [eapply going_step; eauto|]. conjs; try congruence.
    intros H. specialize (S H). subst st2. rewrite (cname_skip r) in E; auto. congruence. intros p Hp. now apply (H p x).
  - split; [now apply going_refl|]. auto.
  - exists st'. split; auto. split; [apply G|]. auto.
Qed.
