(** Proofs about ud.Basic2Enhanced. *)
From Coq Require Import String List NArith ZArith Bool Lia.
From Verif Require Import PyStr PyStrFacts PyList PyListFacts PyExn TreeModel TreeSpec EmptySpec DepsModel DepsSpec DepsProofs CorefModel CorefSpec CorefSpan
  EnhModel EnhSpec.
Import ListNotations.

Lemma dae_in h r x : consistent h r -> good_empties h r -> (In x (descendants_and_empty h r) <-> In x (h_desc h r) \/ In x (h_emp h r)).
Proof. intros C G. apply (proj2 (dae_order h r C G)). Qed.

Lemma dae_once h r : consistent h r -> good_empties h r -> NoDup (descendants_and_empty h r).
Proof. intros C G. destruct (dae_order h r C G) as [I _]. eapply increasing_nodup; eauto. Qed.

(** the slots after one step *)
Definition cell (st : dstate) x := (s_raw st x, s_deps st x).
Lemma raw_local st st' x : s_h st' = s_h st -> cell st' x = cell st x -> snd (raw_deps st' x) = snd (raw_deps st x) /\ snd (deps st' x) = snd (deps st x).
Proof.
  intros H C. injection C as C1 C2. unfold raw_deps, deps. rewrite C1, C2, H. split.
  - destruct (s_deps st x) as [[[|a l]|]|]; reflexivity.
  - destruct (s_deps st x); [reflexivity|]. destruct (s_raw st x) as [w|]; [|reflexivity]. destruct (str_eqb w (s "_")); [reflexivity|].
    destruct (parse_deps _ _ _ _) as [l [?|?|]]; reflexivity.
Qed.
Lemma raw_step st x : s_h (fst (raw_deps st x)) = s_h st /\ (forall y, y <> x -> cell (fst (raw_deps st x)) y = cell st y) /\
  snd (raw_deps (fst (raw_deps st x)) x) = snd (raw_deps st x) /\ snd (deps (fst (raw_deps st x)) x) = snd (deps st x).
Proof.
  unfold raw_deps. destruct (s_deps st x) as [[[|a l]|]|] eqn:D; cbn [fst snd]; rewrite ?D; auto.
  - split; [reflexivity|]. split; [intros y N; unfold cell; cbn [s_raw s_deps put_raw]; rewrite upd_neq; auto|].
    split; [cbn [s_deps put_raw]; rewrite D; reflexivity|]. unfold deps. cbn [s_deps put_raw]. rewrite D. reflexivity.
Qed.

Section One.
Variables (deprel : nat -> option str) (r : nat).
Definition written (h : heap) x p : option str := Some (str_of_Z (h_ord h p) ++ s ":" ++ label (deprel x)).
Definition kept (st st' : dstate) x := snd (raw_deps st' x) = snd (raw_deps st x) /\ snd (deps st' x) = snd (deps st x).
Definition filled (st st' : dstate) x := exists p, h_par (s_h st) x = Some p /\ s_raw st' x = written (s_h st) x p /\ s_deps st' x = None.
Lemma unf_dec st x v : snd (raw_deps st x) = Ok v -> ((match v with Some v => str_eqb v (s "_") | None => false end) = true <-> unfilled st x).
Proof.
  intros E. unfold unfilled. rewrite E. destruct v as [v|]; [|split; [discriminate|intros [=]]]. split.
  - intros Q. apply str_eqb_eq in Q. congruence.
  - intros [= ->]. apply str_eqb_refl.
Qed.
Lemma node_step st x : readable st x -> (unfilled st x -> is_empty (s_h st) x = false /\ exists p, h_par (s_h st) x = Some p) ->
  exists st', b2e_node deprel st x = (st', Ok tt) /\ s_h st' = s_h st /\ (forall y, y <> x -> cell st' y = cell st y) /\
    (unfilled st x -> filled st st' x) /\ (~ unfilled st x -> kept st st' x).
Proof.
  intros [v V] P. unfold b2e_node. destruct (raw_step st x) as (H & N & A & B). pose proof (unf_dec st x v V) as U.
  destruct (raw_deps st x) as [st1 o] eqn:E. cbn [fst snd] in *. subst o. cbn [bind].
  destruct (match v with Some v => str_eqb v (s "_") | None => false end).
  - assert (Un : unfilled st x) by (apply U; auto). destruct (P Un) as (Em & p & Hp). unfold parent_of. rewrite H, Em, Hp.
    eexists. split; [reflexivity|]. split; [exact H|]. split.
    + intros y Ny. rewrite <- (N y Ny). unfold cell, set_raw_deps. cbn [s_raw s_deps put_raw put_deps]. rewrite !upd_neq; auto.
    + split; [intros _|intros Q; contradiction]. exists p. split; [auto|]. unfold set_raw_deps. cbn [s_raw s_deps put_raw put_deps]. rewrite !upd_eq.
      split; reflexivity.
  - exists st1. split; [reflexivity|]. split; [exact H|]. split; [exact N|]. split; [intros Q; apply U in Q; discriminate|]. intros _. split; [rewrite A, E; reflexivity|exact B].
Qed.
Lemma nodes_run : forall l st, NoDup l -> (forall x, In x l -> readable st x) ->
  (forall x, In x l -> unfilled st x -> is_empty (s_h st) x = false /\ exists p, h_par (s_h st) x = Some p) ->
  exists st', b2e_nodes deprel st l = (st', Ok tt) /\ s_h st' = s_h st /\ (forall y, ~ In y l -> cell st' y = cell st y) /\
    forall x, In x l -> (unfilled st x -> filled st st' x) /\ (~ unfilled st x -> kept st st' x).
Proof.
  induction l as [|x l IH]; intros st ND R P; cbn [b2e_nodes].
  - exists st. repeat split; auto; contradiction.
  - inversion ND as [|? ? Nx NDl]; subst. destruct (node_step st x) as (st1 & E & H & O & F & K); [apply R; simpl; auto|apply P; simpl; auto|].
    rewrite E. cbn [bind]. assert (L : forall y, In y l -> snd (raw_deps st1 y) = snd (raw_deps st y) /\ snd (deps st1 y) = snd (deps st y)).
    { intros y Hy. apply raw_local; auto. apply O. intros ->. contradiction. }
    destruct (IH st1) as (st' & E' & H' & O' & X'); auto.
    + intros y Hy. unfold readable. rewrite (proj1 (L y Hy)). apply R; simpl; auto.
    + intros y Hy. unfold unfilled. rewrite (proj1 (L y Hy)), H. apply P; simpl; auto.
    + exists st'. split; [auto|]. split; [congruence|]. split.
      * intros y Ny. rewrite O' by (intros Q; apply Ny; simpl; auto). apply O. intros ->. apply Ny. simpl; auto.
      * intros y [<-|Hy].
        -- split; [intros U; destruct (F U) as (p & A & B & D); exists p; specialize (O' x Nx); injection O' as O1 O2; rewrite O1, O2; auto|].
           intros U. destruct (K U) as [A B]. destruct (raw_local st1 st' x) as [A' B']; auto. split; congruence.
        -- destruct (X' y Hy) as [F' K']. unfold unfilled, filled, kept in *. rewrite (proj1 (L y Hy)), (proj2 (L y Hy)), H in *. auto.
Qed.

Lemma b2e_run st : consistent (s_h st) r -> good_empties (s_h st) r ->
  (forall x, In x (h_desc (s_h st) r) \/ In x (h_emp (s_h st) r) -> readable st x) ->
  (forall e, In e (h_emp (s_h st) r) -> ~ unfilled st e) ->
  (forall x, In x (h_desc (s_h st) r) -> ~ In 124%N (label (deprel x))) ->
  exists st', basic2enhanced deprel st r = (st', Ok tt) /\ s_h st' = s_h st /\
    (forall x, In x (h_desc (s_h st) r) -> unfilled st x -> exists p, h_par (s_h st) x = Some p /\
       snd (deps st' x) = Ok (DList [(p, label (deprel x))]) /\ snd (raw_deps st' x) = Ok (Some (str_of_Z (h_ord (s_h st) p) ++ s ":" ++ label (deprel x)))) /\
    (forall x, ~ (In x (h_desc (s_h st) r) /\ unfilled st x) -> snd (raw_deps st' x) = snd (raw_deps st x) /\ snd (deps st' x) = snd (deps st x)).
Proof.
  intros C G R E B. destruct (nodes_run (descendants_and_empty (s_h st) r) st) as (st' & S & H & O & X).
  - apply dae_once; auto.
  - intros x Hx. apply R, dae_in; auto.
  - intros x Hx U. apply dae_in in Hx as [Hx|Hx]; auto; [|elim (E x Hx U)]. split; [apply (not_empty _ r); auto; right; auto|].
    destruct (c_parents _ _ C x Hx) as (p & A & _). eauto.
  - exists st'. split; [exact S|]. split; [exact H|]. split.
    + intros x Hx U. destruct (X x) as [F _]; [apply dae_in; auto|]. destruct (F U) as (p & A & W & D). exists p. split; [auto|].
      destruct (c_parents _ _ C x Hx) as (p' & A' & Lp). assert (p' = p) by congruence. subst p'.
      assert (Q : deps_column (s_h st') [(p, label (deprel x))] = str_of_Z (h_ord (s_h st) p) ++ s ":" ++ label (deprel x)).
      { cbn [deps_column]. unfold id_str. rewrite H, (not_empty _ r p C Lp). reflexivity. }
      destruct (deps_round_trip st' r x [(p, label (deprel x))]) as (st2 & D2 & _ & _ & _); rewrite ?H; auto.
      * left. right. auto.
      * split; [discriminate|]. intros a b [I|[]]. injection I as <- <-. split; [left; auto|auto].
      * rewrite <- H, Q. exact W.
      * rewrite D2. split; [reflexivity|]. unfold raw_deps. rewrite D. cbn [snd]. rewrite W. reflexivity.
    + intros x N. destruct (in_dec Nat.eq_dec x (descendants_and_empty (s_h st) r)) as [I|I].
      * destruct (X x I) as [_ K]. apply K. intros U. apply dae_in in I as [I|I]; auto. apply (E x I U).
      * apply raw_local; auto.
Qed.
(** an empty node without enhanced dependencies *)
Lemma nodes_fail : forall l st e, NoDup l -> In e l -> (forall x, In x l -> readable st x) -> unfilled st e -> is_empty (s_h st) e = true ->
  (forall x, In x l -> is_empty (s_h st) x = false -> exists p, h_par (s_h st) x = Some p) ->
  snd (b2e_nodes deprel st l) = Raise AttributeError.
Proof.
  induction l as [|x l IH]; intros st e ND I R U Em P; [destruct I|]. inversion ND as [|? ? Nx NDl]; subst. cbn [b2e_nodes].
  destruct (is_empty (s_h st) x) eqn:Ex.
  - destruct (snd (raw_deps st x)) as [v| |] eqn:V; [|destruct (R x (or_introl eq_refl)) as [v Q]; congruence..].
    destruct (match v with Some v => str_eqb v (s "_") | None => false end) eqn:Q.
    + unfold b2e_node. destruct (raw_step st x) as (H & _). destruct (raw_deps st x) as [st1 o]. cbn [fst snd] in *. subst o. cbn [bind]. rewrite Q.
      unfold parent_of. rewrite H, Ex. reflexivity.
    + assert (NU : ~ unfilled st x) by (intros W; apply (unf_dec st x v V) in W; congruence).
      destruct (node_step st x) as (st1 & E & H & O & _ & _); [apply R; simpl; auto|intros W; contradiction|]. rewrite E. cbn [bind].
      destruct I as [->|I]; [contradiction|].
      assert (L : forall y, In y l -> snd (raw_deps st1 y) = snd (raw_deps st y)).
      { intros y Hy. apply raw_local; auto. apply O. intros ->. contradiction. }
      apply (IH st1 e); auto; rewrite ?H; auto.
      * intros y Hy. unfold readable. rewrite (L y Hy). apply R; simpl; auto.
      * unfold unfilled. rewrite L; auto.
      * intros y Hy. apply P. simpl; auto.
  - destruct (node_step st x) as (st1 & E & H & O & _ & _); [apply R; simpl; auto|intros W; split; auto; apply P; simpl; auto|]. rewrite E. cbn [bind].
    destruct I as [->|I]; [congruence|].
    assert (L : forall y, In y l -> snd (raw_deps st1 y) = snd (raw_deps st y)).
    { intros y Hy. apply raw_local; auto. apply O. intros ->. contradiction. }
    apply (IH st1 e); auto; rewrite ?H; auto.
    * intros y Hy. unfold readable. rewrite (L y Hy). apply R; simpl; auto.
    * unfold unfilled. rewrite L; auto.
    * intros y Hy. apply P. simpl; auto.
Qed.
Lemma b2e_fails st e : consistent (s_h st) r -> good_empties (s_h st) r ->
  (forall x, In x (h_desc (s_h st) r) \/ In x (h_emp (s_h st) r) -> readable st x) ->
  In e (h_emp (s_h st) r) -> unfilled st e -> snd (basic2enhanced deprel st r) = Raise AttributeError.
Proof.
  intros C G R I U. apply (nodes_fail _ st e); auto.
  - apply dae_once; auto.
  - apply dae_in; auto.
  - intros x Hx. apply R, dae_in; auto.
  - apply (emp_is_empty _ r); auto.
  - intros x Hx Em. apply dae_in in Hx as [Hx|Hx]; auto.
    + destruct (c_parents _ _ C x Hx) as (p & A & _). eauto.
    + rewrite (emp_is_empty _ r x G Hx) in Em. discriminate.
Qed.

Lemma b2e_reach st st' : consistent (s_h st) r -> good_empties (s_h st) r ->
  (forall x, In x (h_desc (s_h st) r) \/ In x (h_emp (s_h st) r) -> readable st x) ->
  (forall x, In x (h_desc (s_h st) r) -> ~ In 124%N (label (deprel x))) ->
  (forall e, In e (h_emp (s_h st) r) -> ~ unfilled st e /\ exists p, enhanced_head st e p /\ live (s_h st) r p) ->
  (forall x, In x (h_desc (s_h st) r) -> ~ unfilled st x -> exists p, h_par (s_h st) x = Some p /\ enhanced_head st x p) ->
  basic2enhanced deprel st r = (st', Ok tt) ->
  forall x, any_node (s_h st) r x -> reachable st' r x.
Proof.
  intros C G R B HE HW S. destruct (b2e_run st C G R) as (st2 & S2 & H & F & K); auto; [intros e He; apply HE; auto|].
  assert (st2 = st') by congruence. subst st2.
  assert (HD : forall x p, In x (h_desc (s_h st) r) -> h_par (s_h st) x = Some p -> enhanced_head st' x p).
  { intros x p Hx Hp. assert (Dec : unfilled st x \/ ~ unfilled st x).
    { destruct (R x (or_introl Hx)) as [v V]. destruct (match v with Some v => str_eqb v (s "_") | None => false end) eqn:Q.
      - left. apply (unf_dec st x v V); auto.
      - right. intros W. apply (unf_dec st x v V) in W. congruence. }
    destruct Dec as [U|U].
    - destruct (F x Hx U) as (q & A & D & _). assert (q = p) by congruence. subst q. exists [(p, label (deprel x))], (label (deprel x)). simpl; auto.
    - destruct (HW x Hx U) as (q & A & l & d & D & I). assert (q = p) by congruence. subst q. exists l, d. split; auto.
      destruct (K x) as [_ K2]; [tauto|congruence]. }
  assert (UP : forall x y, up (s_h st) x y -> y = r -> live (s_h st) r x -> reachable st' r x).
  { intros x y Hup. induction Hup as [x y Hp|x p y Hp Hup IH]; intros -> Lx.
    { destruct Lx as [->|Lx]; [rewrite (c_top _ _ C) in Hp; discriminate|]. apply (reach_step st' r x r); [apply HD; auto|constructor]. }
    destruct Lx as [->|Lx].
    - rewrite (c_top _ _ C) in Hp. discriminate.
    - apply (reach_step st' r x p); [apply HD; auto|]. apply IH; auto. destruct (c_parents _ _ C x Lx) as (q & A & Lq). congruence. }
  assert (W : forall x, live (s_h st) r x -> reachable st' r x).
  { intros x [->|Hx]; [constructor|]. apply (UP x r); auto; [apply (c_connected _ _ C); auto|right; auto]. }
  intros x [L|I]; auto. destruct (HE x I) as (U & p & (l & d & D & Ip) & Lp). apply (reach_step st' r x p); auto.
  exists l, d. split; auto. destruct (K x) as [_ K2]; [tauto|congruence].
Qed.
End One.
