(** Proofs about ud.FixChain, ud.FixRightheaded, ud.FixLeaf, ud.FixPunctChild and ud.FixRoot. *)
From Coq Require Import String List NArith ZArith Bool Lia Permutation Sorted.
From Verif Require Import PyStr PyStrFacts PyList PyListFacts PyExn TreeModel TreeSpec TreeFacts TreeRepr TreeOps TreeCalls
  TreeQuery TreeProps DeprelModel RehangModel RehangSpec TreeTreelet RehangProofs.
Import ListNotations.

Lemma earlier_in_prefix h r pre x post p : consistent h r -> h_desc h r = pre ++ x :: post ->
  In p (h_desc h r) -> (h_ord h p < h_ord h x)%Z -> In p pre.
Proof.
  intros C El Hp Ho. rewrite El, in_app_iff in Hp. destruct Hp as [Hp|[->|Hp]]; [auto|lia|exfalso].
  assert (S := words_sorted h (abs h r) (consistent_Repr h r C)). cbn in S. rewrite El in S.
  clear El. induction pre as [|a pre IH]; cbn in S; apply StronglySorted_inv in S as [S F]; [|auto].
  rewrite Forall_forall in F. specialize (F p Hp). unfold key_lt in F. lia.
Qed.
Lemma child_In h r c y : consistent h r -> live h r y -> (In c (h_ch h y) <-> In c (h_desc h r) /\ h_par h c = Some y).
Proof.
  intros C Ly. rewrite (c_children h r C y Ly), filter_In. unfold has_parent.
  destruct (h_par h c) as [q|]; split; intros [A B]; split; auto; try discriminate.
  - apply Nat.eqb_eq in B. congruence.
  - apply Nat.eqb_eq. congruence.
Qed.
Lemma child_NoDup h r y : consistent h r -> live h r y -> NoDup (h_ch h y).
Proof. intros C Ly. rewrite (c_children h r C y Ly). apply NoDup_filter. apply (c_once h r C). Qed.

Section Block.
Variable (r : nat).
Notation going := (going r).
Notation lifting := (lifting r).

(** ---- ud.FixChain ---- *)
Definition no_chain (ds : list str) (st0 st : lst) (x : nat) : Prop :=
  forall q d, h_par (l_heap st) x = Some q -> In d ds -> ~ (udep st0 x = Some d /\ udep st0 q = Some d).
Lemma fixchain_ok ds st : consistent (l_heap st) r -> udep_in st r ds = false ->
  exists st', fixchain ds st r = (st', Ok tt) /\ lifting st st' /\
    ((forall x p d, In x (h_desc (l_heap st) r) -> h_par (l_heap st) x = Some p -> In d ds ->
        udep st x = Some d -> udep st p = Some d -> (h_ord (l_heap st) p < h_ord (l_heap st) x)%Z) ->
     forall x, In x (h_desc (l_heap st) r) -> no_chain ds st st' x).
Proof.
  intros C Hr. unfold fixchain, each_word.
  pose (P := fun done st' => lifting st st' /\
    (forall x, In x (h_desc (l_heap st) r) -> ~ In x done -> h_par (l_heap st') x = h_par (l_heap st) x) /\
    ((forall x p d, In x (h_desc (l_heap st) r) -> h_par (l_heap st) x = Some p -> In d ds ->
        udep st x = Some d -> udep st p = Some d -> (h_ord (l_heap st) p < h_ord (l_heap st) x)%Z) ->
     forall x, In x done -> no_chain ds st st' x)).
  destruct (for_each_prog P (fixchain_node ds) (h_desc (l_heap st) r) [] st) as [st' [E [L [_ N]]]].
  - intros pre x post st1 El [L [U N]]. cbn [app] in *.
    assert (Hx0 : In x (h_desc (l_heap st) r)) by (rewrite El, in_app_iff; simpl; auto).
    assert (Hx : In x (h_desc (l_heap st1) r)) by (now rewrite (lifting_words _ _ _ L)).
    assert (Hnx : ~ In x pre).
    { pose proof (c_once _ _ C) as ND. rewrite El in ND. apply NoDup_remove_2 in ND. rewrite in_app_iff in ND. tauto. }
    destruct (fixchain_node_ok r ds st st1 x Hr L Hx) as [st2 [E [L2 [O Q]]]]. exists st2. split; auto. split; auto. split.
    + intros y Hy Hny. rewrite in_app_iff in Hny. cbn in Hny. rewrite O; [apply U; auto; tauto|intuition|].
      right. now rewrite (lifting_words _ _ _ L).
    + intros HI y Hy. rewrite in_app_iff in Hy. destruct (Nat.eq_dec y x) as [->|Hn].
      * destruct (parent_exists _ _ _ (lifting_cons _ _ _ L) Hx) as [p [Ep Lp]].
        destruct (Q p Ep) as [q [Q1 [_ Q3]]].
        { intros d A B D g Eg Hg. rewrite (U x Hx0 Hnx) in Ep.
          assert (Ho := HI x p d Hx0 Ep B A D).
          assert (Hp0 : In p (h_desc (l_heap st) r)).
          { destruct (parent_live _ _ _ _ C (or_intror Hx0) Ep) as [[->|Hp] _]; auto.
            exfalso. assert (X : udep_in st r ds = true) by (apply udep_in_spec; eauto). congruence. }
          assert (Hpp : In p pre) by exact (earlier_in_prefix _ _ _ _ _ _ C El Hp0 Ho).
          apply (N HI p Hpp g d Eg B). auto. }
        intros q' d Eq Hd. assert (q' = q) by congruence. subst q'. now apply Q3.
      * destruct Hy as [Hy|[->|[]]]; [|contradiction]. intros q d Eq. apply (N HI y Hy q d). rewrite <- Eq. symmetry. apply O; auto.
        right. rewrite (lifting_words _ _ _ L), El, in_app_iff. auto.
  - split; [now apply lifting_refl|]. split; auto. intros _ ? [].
  - exists st'. auto.
Qed.

(** ---- ud.FixRightheaded ---- *)
(** What processing a right-headed word x with parent p does. *)
Lemma precedes_not_root h x p : consistent h r -> live h r x -> precedes_in_tree h x p = true -> p <> r.
Proof.
  intros C Lx E ->. unfold precedes_in_tree in E. apply Z.ltb_lt in E. rewrite (c_ord0 h r C) in E.
  pose proof (node_ord h (abs h r) (consistent_Repr h r C) x Lx). lia.
Qed.
Lemma flip_ok (conj : bool) st x p g : consistent (l_heap st) r -> In x (h_desc (l_heap st) r) ->
  h_par (l_heap st) x = Some p -> h_par (l_heap st) p = Some g ->
  exists st1 st2 st3, assign_parent st x (Some g) = (st1, Ok tt) /\
    (if conj then (st1, Ok tt) else for_each (fun st c => assign_parent st c (Some x)) (children (l_heap st1) p) st1) = (st2, Ok tt) /\
    assign_parent st2 p (Some x) = (st3, Ok tt) /\
    rehung (l_heap st) (l_heap st3) r /\ l_dep st3 = l_dep st /\ l_upos st3 = l_upos st /\ l_pproj st3 = l_pproj st /\
    h_par (l_heap st3) x = Some g /\ h_par (l_heap st3) p = Some x /\
    forall y, y <> x -> y <> p -> live (l_heap st) r y ->
      h_par (l_heap st3) y = (if conj then h_par (l_heap st) y else if has_parent (l_heap st) p y then Some x else h_par (l_heap st) y).
Proof.
  intros C Hx Ep Eg.
  assert (Hxp : x <> p) by (intros ->; apply (up_irrefl _ r C p (or_intror Hx)); now constructor).
  destruct (parent_live _ _ _ _ C (or_intror Hx) Ep) as [Lp _].
  destruct (parent_live _ _ _ _ C Lp Eg) as [Lg Hp].
  assert (Hpg : p <> g) by (intros ->; apply (up_irrefl _ r C g Lp); now constructor).
  assert (Hxg : x <> g).
  { intros ->. apply (up_irrefl _ r C g (or_intror Hx)). eapply up_S; eauto. now constructor. }
  destruct (assign_up_ok r st x g C Hx) as [h1 [E1 [R1 [P1 O1]]]]; [eapply up_S; eauto; now constructor|].
  set (st1 := set_heap st h1) in *.
  (* the middle step *)
  assert (Mid : exists st2, (if conj then (st1, Ok tt) else for_each (fun st c => assign_parent st c (Some x)) (children (l_heap st1) p) st1) = (st2, Ok tt)
    /\ going st1 st2 /\ l_dep st2 = l_dep st /\ l_upos st2 = l_upos st /\ l_pproj st2 = l_pproj st /\
    h_par (l_heap st2) x = Some g /\ h_par (l_heap st2) p = Some g /\
    forall y, live h1 r y -> y <> x -> h_par (l_heap st2) y = (if conj then h_par h1 y else if has_parent h1 p y then Some x else h_par h1 y)).
  { assert (C1 : consistent h1 r) by apply R1.
    assert (Pp1 : h_par h1 p = Some g) by (rewrite O1; auto).
    destruct conj.
    - exists st1. split; auto. split; [now apply going_refl|]. cbn. auto 10.
    - pose (P := fun done st2 => going st1 st2 /\ l_dep st2 = l_dep st /\ l_upos st2 = l_upos st /\ l_pproj st2 = l_pproj st /\
        h_par (l_heap st2) x = Some g /\ h_par (l_heap st2) p = Some g /\
        forall y, live h1 r y -> h_par (l_heap st2) y = if in_dec Nat.eq_dec y done then Some x else h_par h1 y).
      destruct (for_each_prog P (fun st c => assign_parent st c (Some x)) (children (l_heap st1) p) [] st1) as [st2 [E [G [D1 [D2 [D3 [A [B Q]]]]]]]].
      + intros pre c post st2 El [G [D1 [D2 [D3 [A [B Q]]]]]]. cbn [app] in *.
        assert (Lp1 : live h1 r p) by (now apply (rehung_live _ _ _ _ R1)).
        assert (Hc : In c (h_ch h1 p)) by (unfold children in El; cbn in El; rewrite El, in_app_iff; simpl; auto).
        assert (Hcp : ~ In c pre).
        { pose proof (child_NoDup _ _ _ C1 Lp1) as ND. unfold children in El. cbn in El. rewrite El in ND. apply NoDup_remove_2 in ND. rewrite in_app_iff in ND. tauto. }
        apply (child_In _ _ _ _ C1 Lp1) in Hc as [Hc Ec].
        assert (Ec2 : h_par (l_heap st2) c = Some p).
        { rewrite Q by (now right). destruct (in_dec Nat.eq_dec c pre); [contradiction|auto]. }
        assert (Hc2 : In c (h_desc (l_heap st2) r)) by (now rewrite (going_words _ _ _ G)).
        assert (Hcx : c <> x) by (intros ->; congruence).
        destruct (assign_ok r st2 c x (going_cons _ _ _ G) Hc2) as [h' [E [R [P' O]]]].
        { apply (going_live _ _ _ _ G). right. cbn. now rewrite (rh_words _ _ _ R1). }
        { intros [->|U]; [congruence|].
          assert (Ucg : up (l_heap st2) c g) by (eapply up_S; eauto; now constructor).
          assert (Lc2 : live (l_heap st2) r c) by (now right).
          inversion U as [? ? E|? q ? E U']; subst; rewrite A in E; injection E as <-.
          - now apply (up_irrefl _ r (going_cons _ _ _ G) g Lc2).
          - apply (up_irrefl _ r (going_cons _ _ _ G) c Lc2). eapply up_trans; eauto. }
        exists (set_heap st2 h'). split; auto. split; [apply (going_step r st1 st2); auto|]. cbn.
        assert (LL : forall y, live h1 r y -> live (l_heap st2) r y) by (intros y Hy; now apply (going_live _ _ _ _ G)).
        conjs; auto.
        * rewrite O; auto. apply LL. right. now rewrite (rh_words _ _ _ R1).
        * rewrite O; auto. intros <-. congruence.
        * intros y Hy. destruct (Nat.eq_dec y c) as [->|Hn].
          -- rewrite P'. destruct (in_dec Nat.eq_dec c (pre ++ [c])) as [|N]; auto. exfalso. apply N, in_app_iff. simpl; auto.
          -- rewrite O, Q; auto. destruct (in_dec Nat.eq_dec y pre) as [I|N], (in_dec Nat.eq_dec y (pre ++ [c])) as [I2|N2]; auto.
             ++ exfalso. apply N2, in_app_iff; auto.
             ++ exfalso. apply in_app_iff in I2 as [I2|[I2|[]]]; auto.
      + split; [now apply going_refl|]. cbn. auto 10.
      + exists st2. split; auto. split; auto. conjs; auto. intros y Hy Hyx. rewrite Q by auto. cbn [app].
        assert (Lp1 : live h1 r p) by (now apply (rehung_live _ _ _ _ R1)).
        unfold children. change (l_heap st1) with h1.
        destruct (in_dec Nat.eq_dec y (h_ch h1 p)) as [I|N].
        * apply (child_In _ _ _ _ C1 Lp1) in I as [_ I]. unfold has_parent. rewrite I, Nat.eqb_refl. auto.
        * unfold has_parent. destruct (h_par h1 y) as [q|] eqn:Eq; auto. destruct (Nat.eqb_spec q p) as [->|]; auto.
          exfalso. apply N. apply (child_In _ _ _ _ C1 Lp1). split; auto. now destruct (parent_live _ _ _ _ C1 Hy Eq). }
  destruct Mid as [st2 [E2 [G [D1 [D2 [D3 [A [B Q]]]]]]]].
  assert (W1 : h_desc h1 r = h_desc (l_heap st) r) by apply R1.
  assert (LL : forall y, live (l_heap st2) r y <-> live (l_heap st) r y).
  { intros y. rewrite (going_live _ _ _ _ G). cbn. now rewrite (rehung_live _ _ _ _ R1). }
  assert (Hp2 : In p (h_desc (l_heap st2) r)) by (rewrite (going_words _ _ _ G); cbn; now rewrite W1).
  destruct (assign_ok r st2 p x (going_cons _ _ _ G) Hp2) as [h3 [E3 [R3 [P3 O3]]]].
  { apply LL. now right. }
  { intros [->|U]; [congruence|].
    assert (Upg : up (l_heap st2) p g) by (now constructor).
    inversion U as [? ? E|? q ? E U']; subst; rewrite A in E; injection E as <-; [congruence|].
    apply (up_irrefl _ r (going_cons _ _ _ G) p); [apply LL; auto|]. eapply up_trans; eauto. }
  exists st1, st2, (set_heap st2 h3). split; auto. split; auto. split; auto. split.
  { cbn. eapply rehung_trans; [exact R1|]. eapply rehung_trans; [apply G|exact R3]. }
  cbn. conjs; auto.
  - rewrite O3; auto. apply LL. now right.
  - intros y Hyx Hyp Ly. rewrite O3 by (auto; now apply LL). rewrite Q by (auto; now apply (rehung_live _ _ _ _ R1)).
    rewrite (O1 y Hyx Ly). unfold has_parent. now rewrite (O1 y Hyx Ly).
Qed.
Lemma fixright_node_ok ds : forall st x, consistent (l_heap st) r -> In x (h_desc (l_heap st) r) ->
  exists st', fixright_node ds st x = (st', Ok tt) /\ rehung (l_heap st) (l_heap st') r.
Proof.
  induction ds as [|d ds IH]; intros st x C Hx; cbn [fixright_node].
  - exists st. split; auto. now apply rehung_refl.
  - destruct (ostr_eqb (udep st x) d); [|now apply IH].
    destruct (parent_exists _ _ _ C Hx) as [p [Ep Lp]]. unfold the_parent. rewrite Ep.
    destruct (precedes_in_tree (l_heap st) x p) eqn:Epr; [|now apply IH].
    assert (Hpr := precedes_not_root _ _ _ C (or_intror Hx) Epr).
    destruct (live_word_parent _ _ _ C Lp Hpr) as [g [Eg Lg]]. rewrite Eg.
    destruct (flip_ok (str_eqb d (s "conj")) st x p g C Hx Ep Eg) as [st1 [st2 [st3 [E1 [E2 [E3 [R [D _]]]]]]]].
    rewrite E1. cbn [bind]. destruct (str_eqb d (s "conj")); cbn [negb]; cbn in E2; rewrite ?E2; cbn [bind].
    + injection E2 as <-. rewrite E3. cbn [bind].
      match goal with |- context [fixright_node ds ?s0 x] => destruct (IH s0 x) as [st' [E R']] end.
      * apply R. * cbn. now rewrite (rh_words _ _ _ R).
      * exists st'. split; auto. eapply rehung_trans; eauto.
    + rewrite E3. cbn [bind].
      match goal with |- context [fixright_node ds ?s0 x] => destruct (IH s0 x) as [st' [E R']] end.
      * apply R. * cbn. now rewrite (rh_words _ _ _ R).
      * exists st'. split; auto. eapply rehung_trans; eauto.
Qed.
Lemma fixright_ok ds st : consistent (l_heap st) r ->
  exists st', fixright ds st r = (st', Ok tt) /\ rehung (l_heap st) (l_heap st') r.
Proof.
  intros C. unfold fixright, each_word.
  destruct (for_each_inv (fun st' => going st st') (fixright_node ds) (h_desc (l_heap st) r) st) as [st' [E G]].
  - intros x st1 Hx G. destruct (fixright_node_ok ds st1 x (going_cons _ _ _ G)) as [st2 [E R]].
    { now rewrite (going_words _ _ _ G). }
    exists st2. split; auto. eapply going_step; eauto.
  - now apply going_refl.
  - exists st'. split; auto. apply G.
Qed.
(** the effect of one right-headed edge *)
Lemma fixright_one d st x p g : consistent (l_heap st) r -> In x (h_desc (l_heap st) r) ->
  h_par (l_heap st) x = Some p -> h_par (l_heap st) p = Some g -> udep st x = Some d ->
  (h_ord (l_heap st) x < h_ord (l_heap st) p)%Z ->
  exists st', fixright_node [d] st x = (st', Ok tt) /\ rehung (l_heap st) (l_heap st') r /\
    h_par (l_heap st') x = Some g /\ h_par (l_heap st') p = Some x /\
    l_dep st' x = l_dep st p /\ l_dep st' p = l_dep st x /\
    (forall y, y <> x -> y <> p -> live (l_heap st) r y -> l_dep st' y = l_dep st y /\
       h_par (l_heap st') y = (if negb (str_eqb d (s "conj")) && has_parent (l_heap st) p y then Some x else h_par (l_heap st) y)).
Proof.
  intros C Hx Ep Eg Ed Ho. cbn [fixright_node].
  rewrite (proj2 (ostr_eqb_eq _ _) Ed). unfold the_parent. rewrite Ep.
  assert (Epr : precedes_in_tree (l_heap st) x p = true) by (now apply Z.ltb_lt). rewrite Epr, Eg.
  destruct (flip_ok (str_eqb d (s "conj")) st x p g C Hx Ep Eg) as [st1 [st2 [st3 [E1 [E2 [E3 [R [D [_ [_ [A [B Q]]]]]]]]]]]].
  rewrite E1. cbn [bind].
  assert (Hxp : x <> p) by (intros ->; lia).
  destruct (str_eqb d (s "conj")); cbn [negb andb]; cbn in E2; rewrite ?E2; cbn [bind].
  - injection E2 as <-. rewrite E3. cbn [bind]. eexists. split; [reflexivity|]. cbn. rewrite D. unfold upd.
    rewrite Nat.eqb_refl. rewrite (proj2 (Nat.eqb_neq p x)) by auto. rewrite Nat.eqb_refl. conjs; auto.
    intros y Hyx Hyp Ly. rewrite (proj2 (Nat.eqb_neq y x)), (proj2 (Nat.eqb_neq y p)) by auto. auto.
  - rewrite E3. cbn [bind]. eexists. split; [reflexivity|]. cbn. rewrite D. unfold upd.
    rewrite Nat.eqb_refl. rewrite (proj2 (Nat.eqb_neq p x)) by auto. rewrite Nat.eqb_refl. conjs; auto.
    intros y Hyx Hyp Ly. rewrite (proj2 (Nat.eqb_neq y x)), (proj2 (Nat.eqb_neq y p)) by auto. auto.
Qed.

(** ---- ud.FixLeaf ---- *)
Lemma climb_over_ok ds st x n : consistent (l_heap st) r -> live (l_heap st) r x -> udep_in st r ds = false ->
  steps (l_heap st) x n r -> forall f, n <= f -> exists a, climb_over f ds st (Some x) = Ok a /\
    udep_in st a ds = false /\ in_subtree (l_heap st) x a /\
    forall y, in_subtree (l_heap st) x y -> up (l_heap st) y a -> udep_in st y ds = true.
Proof.
  intros C Lx Hr HS. remember r as r0 eqn:Er in HS. revert Er Lx. induction HS as [x|x p n a E HS IH]; intros Er Lx f Hf.
  - subst. exists r. destruct f; cbn [climb_over]; rewrite Hr; (split; [auto|]; split; [auto|]; split; [now left|]);
      (intros y [<-|U] U2; [|assert (U3 := up_trans _ _ _ _ U U2); clear U U2; rename U3 into U2]; exfalso;
       inversion U2 as [? ? E|? ? ? E]; subst; rewrite (c_top _ _ C) in E; discriminate).
  - destruct f as [|f]; [lia|]. cbn [climb_over]. destruct (udep_in st x ds) eqn:Ex.
    + rewrite E. destruct (parent_live _ _ _ _ C Lx E) as [Lp Hx].
      destruct (IH Er Lp f ltac:(lia)) as [b [E1 [E2 [E3 E4]]]]. exists b. split; [|split; [auto|split]].
      * destruct f; cbn [climb_over] in *; auto.
      * right. destruct E3 as [<-|U]; [now constructor|eapply up_S; eauto].
      * intros y [<-|U] U2; auto. apply E4; auto. inversion U as [? ? E'|? ? ? E' U']; subst; rewrite E in E'; injection E' as ->.
        -- now left. -- now right.
    + exists x. split; auto. split; auto. split; [now left|]. intros y Hy U. exfalso.
      apply (up_irrefl _ r C x Lx). eapply in_subtree_up; eauto.
Qed.
Lemma steps_bound h x : consistent h r -> live h r x -> exists n, steps h x n r /\ n < h_next h.
Proof.
  intros C Lx. destruct (depth_prop h r C x Lx) as [n [_ S]]. exists n. split; auto.
  destruct (steps_path h r C x n Lx S) as [l [P <-]].
  pose proof (path_length (abs h r) (consistent_wf h r C) x l P).
  pose proof (words_lt_next h (abs h r) (consistent_wf h r C) (consistent_Repr h r C)). lia.
Qed.
(** move a list of children of x to an ancestor a of x *)
Lemma move_children_ok st0 x a cs : forall st, lifting st0 st -> In x (h_desc (l_heap st) r) -> up (l_heap st) x a ->
  NoDup cs -> (forall c, In c cs -> In c (h_desc (l_heap st) r) /\ h_par (l_heap st) c = Some x) ->
  exists st', for_each (fun st c => assign_parent st c (Some a)) cs st = (st', Ok tt) /\ lifting st0 st' /\
    (forall c, In c cs -> h_par (l_heap st') c = Some a) /\
    (forall y, ~ In y cs -> live (l_heap st) r y -> h_par (l_heap st') y = h_par (l_heap st) y) /\ up (l_heap st') x a.
Proof.
  induction cs as [|c cs IH]; intros st L Hx U ND HC; cbn [for_each].
  - exists st. split; auto. split; auto. split; [intros ? []|]. split; auto.
  - destruct (HC c) as [Hc Ec]; [simpl; auto|]. inversion ND as [|? ? Hnc ND']; subst.
    assert (Uca : up (l_heap st) c a) by (eapply up_S; eauto).
    destruct (assign_up_ok r st c a (lifting_cons _ _ _ L) Hc Uca) as [h' [E [R [P O]]]]. rewrite E. cbn [bind].
    assert (L' : lifting st0 (set_heap st h')) by (eapply lifting_assign; eauto).
    destruct (IH (set_heap st h') L') as [st' [E' [L2 [A [B D]]]]]; auto.
    + cbn. now rewrite (rh_words _ _ _ R).
    + cbn. apply (up_keep (l_heap st) h' r c); auto; [apply (lifting_cons _ _ _ L)|now right|].
      assert (Ucx : up (l_heap st) c x) by (now constructor).
      apply (up_not_in _ r c x (lifting_cons _ _ _ L)); [now right|auto].
    + intros c' Hc'. destruct (HC c') as [H1 H2]; [simpl; auto|]. cbn. rewrite (rh_words _ _ _ R). split; auto.
      rewrite O; auto; [intros ->; contradiction|now right].
    + exists st'. split; auto. split; auto. split; [|split; auto].
      * intros c' [<-|Hc']; auto. rewrite B; auto. cbn. now rewrite (rehung_live _ _ _ _ R); right.
      * intros y Hy Ly. rewrite B; [cbn; apply O; auto; intros ->; apply Hy; simpl; auto|intros I; apply Hy; simpl; auto|].
        cbn. now rewrite (rehung_live _ _ _ _ R).
Qed.
Definition leaf_ok (st0 st : lst) (x : nat) (d : str) : Prop :=
  forall c, In c (h_desc (l_heap st0) r) -> h_par (l_heap st) c = Some x -> udep_in st0 c (leaf_allowed d) = true.
Lemma fixleaf_node_ok all ds : forall st0 st x, udep_in st0 r all = false -> incl ds all -> lifting st0 st -> In x (h_desc (l_heap st) r) ->
  exists st', fixleaf_node all ds st x = (st', Ok tt) /\ lifting st0 st' /\
    (forall c y, In c (h_desc (l_heap st0) r) -> udep_in st0 y all = true -> h_par (l_heap st') c = Some y -> h_par (l_heap st) c = Some y) /\
    (forall d, In d ds -> udep st0 x = Some d -> leaf_ok st0 st' x d) /\
    (forall c, In c (h_desc (l_heap st0) r) -> h_par (l_heap st') c <> h_par (l_heap st) c ->
       h_par (l_heap st) c = Some x /\ udep_in st0 x all = true).
Proof.
  induction ds as [|d ds IH]; intros st0 st x Hr HI L Hx; cbn [fixleaf_node].
  - exists st. split; auto. split; auto. split; auto. split; [intros ? []|]. congruence.
  - assert (HI' : incl ds all) by (intros y Hy; apply HI; simpl; auto).
    rewrite (udep_kept st0 st x (li_labels _ _ _ L)). destruct (ostr_eqb (udep st0 x) d) eqn:Ex.
    + apply ostr_eqb_eq in Ex.
      assert (Hr1 : udep_in st r all = false) by (now rewrite (udep_in_kept _ _ _ _ (li_labels _ _ _ L))).
      assert (C := lifting_cons _ _ _ L).
      destruct (parent_exists _ _ _ C Hx) as [p [Ep Lp]]. rewrite Ep.
      destruct (steps_bound _ p C Lp) as [n [S Hn]].
      destruct (climb_over_ok all st p n C Lp Hr1 S (fuel (l_heap st))) as [a [E1 [E2 [E3 _]]]]; [unfold fuel; lia|].
      rewrite E1.
      assert (Hxall : udep_in st0 x all = true) by (apply udep_in_spec; exists d; split; auto; apply HI; simpl; auto).
      assert (Uxa : up (l_heap st) x a) by (destruct E3 as [<-|U]; [now constructor|eapply up_S; eauto]).
      match goal with |- context [for_each _ ?cs st] =>
        destruct (move_children_ok st0 x a cs st L Hx Uxa) as [st1 [F1 [F2 [F3 [F4 F5]]]]] end.
      { apply NoDup_filter. apply (child_NoDup _ _ _ C). now right. }
      { intros c Hc. apply filter_In in Hc as [Hc _]. unfold children in Hc. apply (child_In _ _ _ _ C (or_intror Hx)) in Hc. auto. }
      rewrite F1. cbn [bind].
      destruct (IH st0 st1 x Hr HI' F2) as [st' [G1 [G2 [G3 [G4 G5]]]]].
      { rewrite (lifting_words _ _ _ F2), <- (lifting_words _ _ _ L). auto. }
      assert (Gold : forall c, In c (h_desc (l_heap st0) r) -> live (l_heap st) r c).
      { intros c Hc. right. now rewrite (lifting_words _ _ _ L). }
      assert (Ha : udep_in st0 a all = false) by (now rewrite <- (udep_in_kept _ _ _ _ (li_labels _ _ _ L))).
      assert (N1 : forall c y, In c (h_desc (l_heap st0) r) -> udep_in st0 y all = true -> h_par (l_heap st1) c = Some y -> h_par (l_heap st) c = Some y /\
         ~ In c (filter (fun c => negb (udep_in st c (leaf_allowed d))) (children (l_heap st) x))).
      { intros c y Hc Hy Ec. match type of F3 with forall c, In c ?cs -> _ => destruct (in_dec Nat.eq_dec c cs) as [I|I] end.
        - rewrite (F3 c I) in Ec. congruence.
        - split; auto. rewrite <- (F4 c I (Gold c Hc)). auto. }
      exists st'. split; auto. split; auto. split; [|split].
      * intros c y Hc Hy Ec. apply (N1 c y Hc Hy). now apply G3.
      * intros d' [<-|Hd] Ed; [|now apply G4]. intros c Hc Ec.
        apply G3 in Ec; auto. destruct (N1 c x Hc Hxall Ec) as [Ec1 NI].
        destruct (udep_in st0 c (leaf_allowed d)) eqn:EE; auto. exfalso. apply NI. apply filter_In. split.
        -- unfold children. apply (child_In _ _ _ _ C (or_intror Hx)). split; auto. now rewrite (lifting_words _ _ _ L).
        -- rewrite (udep_in_kept _ _ _ _ (li_labels _ _ _ L)), EE. auto.
      * intros c Hc Hd. match type of F3 with forall c, In c ?cs -> _ => destruct (in_dec Nat.eq_dec c cs) as [I|I] end.
        -- apply filter_In in I as [I _]. apply (child_In _ _ _ _ C (or_intror Hx)) in I. split; auto. tauto.
        -- rewrite <- (F4 c I (Gold c Hc)) in Hd |- *. now apply G5.
    + destruct (IH st0 st x Hr HI' L Hx) as [st' [G1 [G2 [G3 [G4 G5]]]]]. exists st'. split; auto. split; auto. split; auto. split; auto.
      intros d' [<-|Hd] Ed; [|now apply G4]. rewrite (proj2 (ostr_eqb_eq _ _) Ed) in Ex. discriminate.
Qed.
Lemma fixleaf_ok ds st : consistent (l_heap st) r -> udep_in st r ds = false ->
  exists st', fixleaf ds st r = (st', Ok tt) /\ lifting st st' /\
    (forall x d, In x (h_desc (l_heap st) r) -> In d ds -> udep st x = Some d -> leaf_ok st st' x d) /\
    (forall c p, In c (h_desc (l_heap st) r) -> h_par (l_heap st) c = Some p -> udep_in st p ds = false -> h_par (l_heap st') c = Some p).
Proof.
  intros C Hr. unfold fixleaf, each_word.
  pose (P := fun done st' => lifting st st' /\
    (forall x d, In x done -> In d ds -> udep st x = Some d -> leaf_ok st st' x d) /\
    (forall c p, In c (h_desc (l_heap st) r) -> h_par (l_heap st) c = Some p -> udep_in st p ds = false -> h_par (l_heap st') c = Some p)).
  destruct (for_each_prog P (fixleaf_node ds ds) (h_desc (l_heap st) r) [] st) as [st' [E [L [A B]]]].
  - intros pre x post st1 El [L [A B]]. cbn [app] in *.
    assert (Hx : In x (h_desc (l_heap st1) r)) by (rewrite (lifting_words _ _ _ L), El, in_app_iff; simpl; auto).
    destruct (fixleaf_node_ok ds ds st st1 x Hr (incl_refl _) L Hx) as [st2 [E [L2 [G3 [G4 G5]]]]].
    exists st2. split; auto. split; auto. split.
    + intros y d Hy Hd Ey. destruct (in_app_or _ _ _ Hy) as [Hy'|[<-|[]]]; [|now apply G4].
      intros c Hc Ec. apply (A y d Hy' Hd Ey c Hc). apply G3; auto. apply udep_in_spec; eauto.
    + intros c p Hc Ec Hp. assert (E1 := B c p Hc Ec Hp).
      assert (DE : {h_par (l_heap st2) c = h_par (l_heap st1) c} + {h_par (l_heap st2) c <> h_par (l_heap st1) c})
        by (repeat decide equality). destruct DE as [->|N]; auto.
      destruct (G5 c Hc N) as [E2 E3]. congruence.
  - split; [now apply lifting_refl|]. split; [intros ? ? []|auto].
  - exists st'. auto.
Qed.

(** ---- ud.FixPunctChild ---- *)
Lemma steps_keep h h' a : consistent h r -> only a h h' r ->
  forall x n y, live h r x -> ~ in_subtree h x a -> steps h x n y -> steps h' x n y.
Proof.
  intros C O x n y Lx HN HS. revert Lx HN. induction HS as [x|x p n y E HS IH]; intros Lx HN; [constructor|].
  apply (steps_S h' x p).
  - rewrite O; auto. intros ->. apply HN. now left.
  - apply IH; [eapply parent_live; eauto|]. intros Hi. apply HN. right. eapply up_in_subtree; eauto. now constructor.
Qed.
Lemma punctchild_loop_ok st0 n : forall st x p f, l_dep st0 r <> Some (s "punct") -> lifting st0 st -> In x (h_desc (l_heap st) r) ->
  h_par (l_heap st) x = Some p -> steps (l_heap st) p n r -> n <= f ->
  exists st' q, punctchild_loop f st x = (st', Ok tt) /\ lifting st0 st' /\ only x (l_heap st) (l_heap st') r /\
    h_par (l_heap st') x = Some q /\ l_dep st0 q <> Some (s "punct") /\ in_subtree (l_heap st) p q /\
    (forall y, in_subtree (l_heap st) p y -> up (l_heap st) y q -> l_dep st0 y = Some (s "punct")).
Proof.
  induction n as [|n IH]; intros st x p f Hr L Hx Ep HS Hf.
  - inversion HS; subst. exists st, r. assert (ER : ostr_eqb (l_dep st r) (s "punct") = false).
    { destruct (ostr_eqb (l_dep st r) (s "punct")) eqn:E; auto. apply ostr_eqb_eq in E. rewrite (proj1 (li_labels _ _ _ L r)) in E. contradiction. }
    split; [destruct f; cbn [punctchild_loop]; unfold the_parent; rewrite Ep, ER; auto|].
    split; auto. split; [intros y _ _; auto|]. split; auto. split; auto. split; [now left|].
    intros y Hi U. exfalso. assert (U2 : up (l_heap st) r r) by (eapply in_subtree_up; eauto).
    apply (up_irrefl _ r (lifting_cons _ _ _ L) r); [now left|auto].
  - inversion HS as [|? g ? ? Eg HS']; subst. assert (C := lifting_cons _ _ _ L).
    destruct (ostr_eqb (l_dep st p) (s "punct")) eqn:EP.
    + destruct f as [|f]; [lia|]. cbn [punctchild_loop]. unfold the_parent. rewrite Ep, EP.
      destruct (lift_ok r st x p g C Hx Ep Eg) as [h' [E [R [P O]]]]. rewrite E. cbn [bind].
      assert (Uxg : up (l_heap st) x g) by (eapply up_S; eauto; now constructor).
      assert (L' : lifting st0 (set_heap st h')) by (eapply lifting_assign; eauto).
      destruct (parent_live _ _ _ _ C (or_intror Hx) Ep) as [Lp _]. destruct (parent_live _ _ _ _ C Lp Eg) as [Lg _].
      assert (Ngx : ~ in_subtree (l_heap st) g x) by (apply (up_not_in _ r x g C); [now right|auto]).
      destruct (IH (set_heap st h') x g f Hr L') as [st' [q [A1 [A2 [A3 [A4 [A5 [A6 A7]]]]]]]].
      * cbn. now rewrite (rh_words _ _ _ R).
      * exact P.
      * cbn. eapply steps_keep; eauto.
      * lia.
      * exists st', q. split; auto. split; auto. split.
        { intros y Hn Ly. rewrite A3; auto. cbn. now rewrite (rehung_live _ _ _ _ R). }
        split; auto. split; auto.
        assert (SH : forall u v, live (l_heap st) r u -> up h' u v -> up (l_heap st) u v) by (eapply up_shrink; eauto).
        assert (KP : forall u v, live (l_heap st) r u -> ~ in_subtree (l_heap st) u x -> up (l_heap st) u v -> up h' u v) by (eapply up_keep; eauto).
        cbn in A6, A7.
        split; [right; destruct A6 as [<-|U]; [now constructor|eapply up_S; eauto]|].
        intros y [<-|U] Uy.
        -- apply ostr_eqb_eq in EP. now rewrite (proj1 (li_labels _ _ _ L p)) in EP.
        -- assert (Hgy : in_subtree (l_heap st) g y).
           { inversion U as [? ? E'|? ? ? E' U']; subst; rewrite Eg in E'; injection E' as ->; [now left|now right]. }
           assert (Ly : live (l_heap st) r y) by (destruct Hgy as [<-|U2]; [auto|eapply live_up; eauto]).
           apply A7.
           ++ destruct Hgy as [->|U2]; [now left|right]. apply KP; auto.
           ++ apply KP; auto. intros Hi. apply Ngx. destruct Hgy as [->|U2]; auto. right. eapply up_in_subtree; eauto.
    + exists st, p. assert (EP' : l_dep st0 p <> Some (s "punct")).
      { intros E. rewrite <- (proj1 (li_labels _ _ _ L p)) in E. apply ostr_eqb_eq in E. congruence. }
      split; [destruct f; cbn [punctchild_loop]; unfold the_parent; rewrite Ep, EP; auto|].
      split; auto. split; [intros y _ _; auto|]. split; auto. split; auto. split; [now left|].
      intros y Hi U. exfalso. destruct (parent_live _ _ _ _ C (or_intror Hx) Ep) as [Lp _].
      apply (up_irrefl _ r C p Lp). eapply in_subtree_up; eauto.
Qed.
End Block.
