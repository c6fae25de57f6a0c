(** The tree operations of ud.JoinToken: one word takes over the place of the word after it. *)
From Coq Require Import String List NArith ZArith Bool Lia.
From Verif Require Import PyStr PyList PyListFacts PyExn TreeModel TreeSpec TreeFacts TreeRepr TreeOps TreeRemove TreeCalls TreeQuery TreeProps
  DualDictModel DocModel TokModel TokProofs.
Import ListNotations.

Lemma set_one h r a b : consistent h r -> emp_ok h r -> In a (h_desc h r) -> live h r b -> ~ in_subtree h b a ->
  exists h', set_parent h a (Some b) = (h', Ok tt) /\ consistent h' r /\ emp_ok h' r /\ h_desc h' r = h_desc h r /\
    h_par h' a = Some b /\ (forall y, live h r y -> y <> a -> h_par h' y = h_par h y).
Proof.
  intros C E Ia Lb N. pose proof (set_parent_prop h r C a b Ia Lb) as P.
  assert (SS : same_static h (fst (set_parent h a (Some b)))).
  { pose proof (consistent_wf h r C) as W. pose proof (consistent_Repr h r C) as HR.
    destruct (set_parent_ok h (abs h r) W HR a b Ia) as (S1&S2&S3); [exact Lb|].
    destruct (Nat.eq_dec b a) as [->|NE]; [rewrite S2 by auto; apply same_static_refl|].
    destruct (belowb (abs h r) b a) eqn:B.
    - rewrite S2; [apply same_static_refl|]. right. apply (belowb_spec _ W). auto.
    - destruct S3 as (h'&->&_&_&S&_); auto. intros X. apply (belowb_spec _ W) in X. congruence. }
  destruct (set_parent h a (Some b)) as [h' o]. destruct P as (P1&P2&P3). cbn [fst] in SS. pose proof (emp_same _ _ r SS E) as E'.
  assert (D : h_par h a = Some b \/ h_par h a <> Some b).
  { destruct (h_par h a) as [q|]; [|right; discriminate]. destruct (Nat.eq_dec q b) as [->|]; [auto|right; congruence]. }
  destruct D as [D|D].
  - destruct (P2 D) as [-> ->]. exists h. auto 10.
  - destruct (P3 N D) as (->&C'&D'&Pa&Po&_). exists h'. auto 10.
Qed.

(** Changing the parent of a node outside the path from [x] does not change that path. *)
Lemma up_other h h' c x : (forall y, y <> c -> in_subtree h x y -> h_par h' y = h_par h y) -> ~ in_subtree h x c ->
  forall a, up h' x a <-> up h x a.
Proof.
  intros P N a. split.
  - intros U. assert (G : forall y, up h' y a -> in_subtree h x y -> up h x a).
    { clear U. intros y U. induction U as [y p E|y p a E U IH]; intros I.
      - assert (y <> c) by (intros ->; tauto). rewrite P in E by auto. destruct I as [->|I]; [constructor; auto|]. apply up_trans with y; auto. constructor. auto.
      - assert (y <> c) by (intros ->; tauto). rewrite P in E by auto. apply IH; auto. right.
        destruct I as [->|I]; [constructor; auto|]. apply up_trans with y; auto. constructor. auto. }
    apply (G x U). left. auto.
  - intros U. assert (G : forall y, up h y a -> in_subtree h x y -> up h' y a).
    { clear U. intros y U. induction U as [y p E|y p a E U IH]; intros I.
      - assert (y <> c) by (intros ->; tauto). constructor. rewrite P; auto.
      - assert (y <> c) by (intros ->; tauto). apply up_S with p; [rewrite P; auto|]. apply IH. right.
        destruct I as [->|I]; [constructor; auto|]. apply up_trans with y; auto. constructor. auto. }
    apply (G x U). left. auto.
Qed.

Lemma up_live h r x a : consistent h r -> live h r x -> up h x a -> live h r a.
Proof.
  intros C L U. induction U as [x p E|x p a E U IH].
  - destruct L as [->|L]; [rewrite (c_top _ _ C) in E; discriminate|]. destruct (c_parents _ _ C x L) as (q&E2&Q). congruence.
  - apply IH. destruct L as [->|L]; [rewrite (c_top _ _ C) in E; discriminate|]. destruct (c_parents _ _ C x L) as (q&E2&Q). congruence.
Qed.

Lemma attach_ok r p : forall l d, consistent (d_h d) r -> emp_ok (d_h d) r -> In p (h_desc (d_h d) r) -> NoDup l ->
  (forall c, In c l -> In c (h_desc (d_h d) r) /\ ~ in_subtree (d_h d) p c) ->
  exists h', attach_to d p l = (with_h d h', Ok tt) /\ consistent h' r /\ emp_ok h' r /\ h_desc h' r = h_desc (d_h d) r /\
    (forall y, live (d_h d) r y -> h_par h' y = if mem y l then Some p else h_par (d_h d) y).
Proof.
  induction l as [|c l IH]; intros d C E Ip ND F.
  - exists (d_h d). destruct d. cbn. auto 10.
  - apply NoDup_cons_iff in ND as [NI ND]. destruct (F c) as [Ic Nc]; [simpl; auto|].
    destruct (set_one (d_h d) r c p C E Ic (or_intror Ip) Nc) as (h1&E1&C1&EM1&D1&P1&O1).
    cbn [attach_to]. rewrite E1. cbn [bind].
    destruct (IH (with_h d h1)) as (h2&E2&C2&EM2&D2&P2); cbn [with_h d_h] in *; auto.
    + rewrite D1. auto.
    + intros c' I'. destruct (F c') as [I2 N2]; [simpl; auto|]. rewrite D1. split; [auto|].
      intros [->|U]; [apply N2; left; auto|]. apply N2. right.
      apply (up_other (d_h d) h1 c p); auto.
      intros y NE IS. apply O1; auto. destruct IS as [<-|IS]; [right; auto|]. eapply up_live; eauto. right. auto.
    + exists h2. split; [rewrite E2; destruct d; auto|]. split; [auto|]. split; [auto|]. split; [congruence|].
      intros y L. rewrite P2; [|unfold live; rewrite D1; auto]. unfold mem. cbn [existsb]. fold (mem y l). destruct (Nat.eqb_spec y c); [subst y|].
      * replace (c =? c) with true by (symmetry; apply Nat.eqb_refl). cbn [orb]. destruct (mem c l); auto.
      * destruct (Nat.eqb_spec c y); [congruence|]. cbn [orb]. destruct (mem y l); auto.
Qed.

Lemma remove_leaf h r x : consistent h r -> emp_ok h r -> In x (h_desc h r) ->
  (forall w, In w (h_desc h r) -> h_par h w <> Some x) ->
  exists h', node_remove h x None = (h', Ok tt) /\ consistent h' r /\ emp_ok h' r /\
    h_desc h' r = filter (fun w => negb (Nat.eqb w x)) (h_desc h r) /\ (forall w, In w (h_desc h' r) -> h_par h' w = h_par h w).
Proof.
  intros C E I NC. destruct (remove_prop h r C x None E I) as (h'&EQ&C'&_&K).
  destruct K as [(f&F&D) P]; [intros (m&?&_); discriminate|].
  exists h'. split; [auto|]. split; [auto|]. split.
  { pose proof (remove_frame h r x None C I) as S. rewrite EQ in S. simpl in S. eapply emp_same; eauto. }
  split; [|exact P]. rewrite D. apply filter_ext_in. intros w Iw. specialize (F w Iw).
  assert (NS : w <> x -> ~ in_subtree h w x).
  { intros NE [->|U]; [tauto|]. assert (G : forall a, up h w a -> live h r w -> exists c, In c (h_desc h r) /\ h_par h c = Some a).
    { clear - C. intros a U. induction U as [w p H|w p a H U IH]; intros L.
      - exists w. split; auto. destruct L as [->|L]; auto. rewrite (c_top _ _ C) in H. discriminate.
      - apply IH. eapply up_live; [eauto|exact L|constructor; auto]. }
    destruct (G x U (or_intror Iw)) as (c&Ic&Pc). apply (NC c Ic Pc). }
  destruct (Nat.eqb_spec w x) as [->|NE]; cbn [negb].
  - destruct (f x); auto. exfalso. apply F; auto. left. auto.
  - apply F. auto.
Qed.

Lemma bind_ok {A B} (d : doc) (a : A) (f : doc -> A -> doc * res B) : bind (d, Ok a) f = f d a.
Proof. reflexivity. Qed.
(** join_with without attributes: the tree. *)
Lemma join_tree d r p x : consistent (d_h d) r -> emp_ok (d_h d) r -> In p (h_desc (d_h d) r) -> In x (h_desc (d_h d) r) -> p <> x ->
  exists h' (b : bool), (b = true <-> up (d_h d) p x) /\ consistent h' r /\ emp_ok h' r /\
    h_desc h' r = filter (fun w => negb (Nat.eqb w x)) (h_desc (d_h d) r) /\
    (forall w, In w (h_desc h' r) -> h_par h' w =
       if Nat.eqb w p then (if b then h_par (d_h d) x else h_par (d_h d) p)
       else if has_parent (d_h d) x w then Some p else h_par (d_h d) w) /\
    (forall f, n_form (d_at d p) = Some f -> forall g, n_form (d_at d x) = Some g ->
      join_with d p x =
      (let d1 := if b then put_at d p (set_deprel (d_at d p) (n_deprel (d_at d x))) else d in
       let d2 := put_at d1 p (set_form (d_at d1 p) (Some (f ++ g))) in
       let (d3, v) := read_misc d2 x SpaceAfter in
       with_h (put_misc d3 p SpaceAfter v) h', Ok tt)).
Proof.
  intros C E Ip Ix NE. destruct (descendants_prop (d_h d) r C x (or_intror Ix)) as (ds&ED&(f&F&EL)&_).
  assert (MD : mem p ds = true <-> up (d_h d) p x).
  { rewrite <- (F p) by (right; auto). rewrite (mem_In p ds), EL, filter_In. simpl. tauto. }
  destruct (c_parents _ _ C x Ix) as (q&Eq&Lq).
  (* first step *)
  assert (S1 : exists h1, (if mem p ds then
          let (h, o) := set_parent (d_h d) p (h_par (d_h d) x) in
          bind (with_h d h, o) (fun d _ => (put_at d p (set_deprel (d_at d p) (n_deprel (d_at d x))), Ok tt))
        else (d, Ok tt)) = (with_h (if mem p ds then put_at d p (set_deprel (d_at d p) (n_deprel (d_at d x))) else d) h1, Ok tt) /\
      consistent h1 r /\ emp_ok h1 r /\ h_desc h1 r = h_desc (d_h d) r /\
      h_par h1 p = (if mem p ds then h_par (d_h d) x else h_par (d_h d) p) /\
      (forall y, live (d_h d) r y -> y <> p -> h_par h1 y = h_par (d_h d) y) /\ ~ in_subtree h1 p x).
  { destruct (mem p ds) eqn:B.
    - assert (U : up (d_h d) p x) by (apply MD; auto).
      assert (Nq : ~ in_subtree (d_h d) q p).
      { intros [->|U2].
        - apply (up_irrefl _ r C x (or_intror Ix)). eapply up_S; eauto.
        - apply (up_irrefl _ r C x (or_intror Ix)). eapply up_S; [eauto|]. eapply up_trans; eauto. }
      destruct (set_one _ r p q C E Ip Lq Nq) as (h1&E1&C1&EM1&D1&P1&O1). exists h1. rewrite Eq, E1. cbn [bind].
      split; [destruct d; auto|]. split; [auto|]. split; [auto|]. split; [auto|]. split; [auto|]. split; [auto|].
      intros [->|U2]; [tauto|]. assert (Lx1 : live h1 r x) by (right; rewrite D1; auto).
      apply (up_irrefl _ r C1 x Lx1). apply up_S with q; [rewrite O1; auto; right; auto|].
      assert (Ex : h_par h1 x = Some q) by (rewrite O1; auto; right; auto).
      inversion U2 as [? ? H|? ? ? H U3]; subst; [|congruence]. rewrite P1 in H. injection H as ->.
      exfalso. apply (up_irrefl _ r C x (or_intror Ix)). constructor. auto.
    - exists (d_h d). split; [destruct d; auto|]. split; [auto|]. split; [auto|]. split; [auto|]. split; [auto|]. split; [auto|].
      intros [->|U]; [tauto|]. apply MD in U. congruence. }
  destruct S1 as (h1&E1&C1&EM1&D1&P1&O1&N1).
  set (d1 := with_h (if mem p ds then put_at d p (set_deprel (d_at d p) (n_deprel (d_at d x))) else d) h1) in *.
  assert (CH : h_ch h1 x = filter (has_parent h1 x) (h_desc h1 r)) by (apply (c_children _ _ C1); right; rewrite D1; auto).
  (* second step *)
  destruct (attach_ok r p (h_ch h1 x) d1) as (h2&E2&C2&EM2&D2&P2).
  { exact C1. } { exact EM1. } { change (d_h d1) with h1. rewrite D1. auto. }
  { rewrite CH. apply NoDup_filter. apply C1. }
  { intros c Ic. change (d_h d1) with h1. rewrite CH in Ic. apply filter_In in Ic as [Ic Pc]. split; [auto|].
    unfold has_parent in Pc. destruct (h_par h1 c) as [y|] eqn:Ec; [|discriminate]. apply Nat.eqb_eq in Pc. subst y.
    intros [->|U]; apply N1; right; [constructor; auto|]. eapply up_trans; eauto. constructor. auto. }
  change (d_h d1) with h1 in *.
  assert (MC : forall w, In w (h_desc h1 r) -> mem w (h_ch h1 x) = has_parent h1 x w).
  { intros w I. apply eq_true_iff_eq. rewrite (mem_In w), CH, filter_In. tauto. }
  (* third step *)
  destruct (remove_leaf h2 r x C2 EM2) as (h3&E3&C3&EM3&D3&P3).
  { rewrite D2, D1. auto. }
  { intros w I. rewrite D2 in I. rewrite P2 by (right; auto). rewrite MC by auto. unfold has_parent.
    destruct (h_par h1 w) as [y|] eqn:Ey; [|discriminate]. destruct (Nat.eqb_spec y x); congruence. }
  exists h3, (mem p ds). split; [exact MD|]. split; [auto|]. split; [auto|]. split; [congruence|]. split.
  - intros w I. rewrite P3 by auto. rewrite D3 in I. apply filter_In in I as [I Nx]. rewrite D2 in I. rewrite P2 by (right; auto). rewrite MC by auto.
    assert (Nwx : w <> x). { intros ->. rewrite Nat.eqb_refl in Nx. discriminate. }
    rewrite D1 in I. destruct (Nat.eqb_spec w p) as [->|NP].
    + assert (HP : has_parent h1 x p = false).
      { unfold has_parent. destruct (h_par h1 p) as [y|] eqn:Ey; auto. destruct (Nat.eqb_spec y x); auto. subst y. elim N1. right. constructor. auto. }
      rewrite HP. auto.
    + unfold has_parent. rewrite O1 by (auto; right; auto). auto.
  - intros f1 Ff g1 Fg. unfold join_with. rewrite ED, bind_ok. rewrite E1. rewrite bind_ok. fold d1. change (d_h d1) with h1. rewrite E2. cbn [bind].
    assert (FA : forall y, d_at (with_h d1 h2) y = d_at (if mem p ds then put_at d p (set_deprel (d_at d p) (n_deprel (d_at d x))) else d) y) by reflexivity.
    assert (Fp : n_form (d_at (with_h d1 h2) p) = Some f1).
    { rewrite FA. destruct (mem p ds); auto. cbn [put_at d_at]. unfold upd. rewrite Nat.eqb_refl. auto. }
    assert (Fx : n_form (d_at (with_h d1 h2) x) = Some g1).
    { rewrite FA. destruct (mem p ds); auto. cbn [put_at d_at]. unfold upd. destruct (Nat.eqb_spec x p); [congruence|]. auto. }
    rewrite Fp, Fx. cbn [add_forms bind]. rewrite !FA. unfold d1. cbv zeta. unfold read_misc.
    set (dd := if mem p ds then _ else d).
    change (d_at (put_at (with_h (with_h dd h1) h2) p (set_form (d_at dd p) (Some (f1 ++ g1)))) x) with
      (d_at (put_at dd p (set_form (d_at dd p) (Some (f1 ++ g1)))) x).
    destruct (dd_get _ SpaceAfter) as [mm v]. unfold put_misc. cbn [put_at d_at with_h d_h]. rewrite E3. reflexivity.
Qed.
