(** The loop that attaches the words to their parents. *)
From Coq Require Import String List NArith ZArith Bool Lia.
From Verif Require Import PyStr PyList PyListFacts PyExn TreeModel TreeSpec TreeFacts TreeRepr TreeOps DocModel ConlluModel ConlluSpec.
Import ListNotations.

(** following parents ends *)
Inductive ended (h : heap) : nat -> Prop :=
| ended_top x : h_par h x = None -> ended h x
| ended_up x p : h_par h x = Some p -> ended h p -> ended h x.

Lemma up_first h x a : up h x a -> exists p, h_par h x = Some p /\ (p = a \/ up h p a).
Proof. inversion 1; subst; eauto. Qed.
Lemma up_snoc h x y p : up h x y -> h_par h y = Some p -> up h x p.
Proof. induction 1; intros; eapply up_S; eauto. now constructor. Qed.
Lemma ended_no_loop h x : ended h x -> ~ up h x x.
Proof.
  induction 1 as [x E|x p E H IH]; intros U.
  - apply up_first in U as (p & E' & _). congruence.
  - apply up_first in U as (q & E' & D). assert (p = q) by congruence. subst q. destruct D as [->|U].
    + apply IH. econstructor; eauto.
    + apply IH. eapply up_snoc; eauto.
Qed.
(** the ancestors, nearest first *)
Inductive chain (h : heap) : nat -> list nat -> Prop :=
| chain_top x : h_par h x = None -> chain h x []
| chain_up x p l : h_par h x = Some p -> chain h p l -> chain h x (p :: l).
Lemma chain_exists h x : ended h x -> exists l, chain h x l.
Proof. induction 1 as [x E|x p E H [l IH]]; [exists []|exists (p :: l)]; econstructor; eauto. Qed.
Lemma chain_up_In h x l : chain h x l -> forall a, In a l <-> up h x a.
Proof.
  induction 1 as [x E|x p l E H IH]; intros a; simpl.
  - split; [tauto|]. intros U. apply up_first in U as (q & E' & _). congruence.
  - rewrite IH. split.
    + intros [<-|U]; [now constructor|eapply up_S; eauto].
    + intros U. apply up_first in U as (q & E' & D). assert (p = q) by congruence. subst. destruct D; auto.
Qed.
Lemma chain_ended h x l : chain h x l -> forall a, In a (x :: l) -> ended h a.
Proof.
  induction 1 as [x E|x p l E H IH]; intros a; simpl.
  - intros [<-|[]]. now constructor.
  - intros [<-|I]; [eapply ended_up; [eauto|apply IH; simpl; auto]|apply IH; auto].
Qed.
Lemma chain_NoDup h x l : chain h x l -> NoDup (x :: l).
Proof.
  intros H. induction H as [x E|x p l E H IH]; (constructor; [|first [exact IH|constructor]]); [intros []|].
  intros I. assert (HC : chain h x (p :: l)) by (econstructor; eauto).
  apply (chain_up_In _ _ _ HC) in I. revert I. apply ended_no_loop. apply (chain_ended _ _ _ HC). simpl; auto.
Qed.
Lemma climbs_chain h node x l : chain h x l -> forall n, length l < n ->
  climbs_to n h node (Some x) = Ok (mem node (x :: l)).
Proof.
  induction 1 as [x E|x p l E H IH]; intros n Hn; (destruct n as [|n]; [simpl in Hn; lia|]); cbn [climbs_to].
  - rewrite E. unfold mem. cbn. rewrite (Nat.eqb_sym node x). destruct (Nat.eqb x node); auto. destruct n; auto.
  - rewrite E. rewrite IH by (simpl in Hn; lia). unfold mem. cbn [existsb]. rewrite (Nat.eqb_sym node x).
    destruct (Nat.eqb x node); auto.
Qed.

Inductive tc (R : nat -> nat -> Prop) : nat -> nat -> Prop :=
| tc_1 x y : R x y -> tc R x y
| tc_S x y z : R x y -> tc R y z -> tc R x z.
Lemma tc_app R x y z : tc R x y -> tc R y z -> tc R x z.
Proof. induction 1; intros; eapply tc_S; eauto. Qed.

Record ainv (h0 h : heap) (r : nat) (ns done todo : list nat) : Prop := {
  ai_done : forall x, In x done -> exists q, h_par h x = Some q /\ In q (r :: ns);
  ai_todo : forall x, In x (r :: todo) -> h_par h x = None;
  ai_ch : forall y, In y (r :: ns) -> h_ch h y = filter (has_parent h y) done;
  ai_ended : forall x, In x (r :: ns) -> ended h x;
  ai_next : h_next h = h_next h0;
  ai_kind : h_kind h = h_kind h0;
  ai_ord : h_ord h = h_ord h0;
  ai_root : h_root h = h_root h0;
  ai_desc : h_desc h = h_desc h0;
  ai_emp : h_emp h = h_emp h0;
  ai_eord : h_eord h = h_eord h0;
  ai_par_out : forall y, ~ In y (r :: ns) -> h_par h y = h_par h0 y;
  ai_ch_out : forall y, ~ In y (r :: ns) -> h_ch h y = h_ch h0 y
}.

Section attach.
  Variables (h0 : heap) (r : nat) (ns : list nat) (ps : list Z) (fix_cycles : bool).
  Let nodes := r :: ns.
  Hypothesis ND : NoDup nodes.
  Hypothesis LT : forall x, In x nodes -> x < h_next h0.
  Definition given (x q : nat) : Prop := exists p, In (x, p) (combine ns ps) /\ py_nth nodes p = Some q.
  Hypothesis NOSELF : fix_cycles = true -> forall x, ~ given x x.

  Lemma given_In x q : given x q -> In x ns /\ In q nodes.
  Proof.
    intros (p & I & E). split; [eapply in_combine_l; eauto|].
    unfold py_nth in E. destruct (py_index nodes p); [|discriminate]. eapply nth_error_In; eauto.
  Qed.

  Lemma attach_step h done node todo q : ns = done ++ node :: todo -> ainv h0 h r ns done (node :: todo) ->
    In q nodes -> q <> node -> ~ up h q node ->
    let h' := put_par h node (Some q) in
    ainv h0 (put_ch h' q (h_ch h' q ++ [node])) r ns (done ++ [node]) todo.
  Proof.
    intros E [A1 A2 A3 A4 A5 A6 A7 A8 A9 A10 A11 A12 A13] Iq Nq Uq. cbv zeta.
    assert (In node ns) by (rewrite E; apply in_app_iff; simpl; auto).
    assert (Nr : node <> r). { inversion ND; subst. intros ->. tauto. }
    assert (ND1 : NoDup (done ++ node :: todo)) by (rewrite <- E; inversion ND; auto).
    assert (Nd : ~ In node done) by (apply NoDup_remove_2 in ND1; intros I; apply ND1, in_app_iff; auto).
    assert (Nt : ~ In node todo) by (apply NoDup_remove_2 in ND1; intros I; apply ND1, in_app_iff; auto).
    assert (PN : h_par h node = None) by (apply A2; simpl; auto).
    set (h' := put_ch (put_par h node (Some q)) q (h_ch (put_par h node (Some q)) q ++ [node])).
    assert (P1 : h_par h' node = Some q) by (unfold h'; simpl; upds; auto).
    assert (P2 : forall x, x <> node -> h_par h' x = h_par h x) by (intros; unfold h'; simpl; upds; auto).
    assert (EQ : ended h' q).
    { assert (G : forall x, ended h x -> x <> node -> ~ up h x node -> ended h' x); [|apply G; auto].
      intros x H1. induction H1 as [x Ex|x p Ex H1 IH]; intros Nx Ux.
      - apply ended_top. rewrite P2; auto.
      - apply ended_up with p; [rewrite P2; auto|]. apply IH.
        + intros ->. apply Ux. now constructor.
        + intros U. apply Ux. eapply up_S; eauto. }
    assert (EA : forall x, In x nodes -> ended h' x).
    { intros x Ix. specialize (A4 x Ix). clear Ix. induction A4 as [x Ex|x p Ex H1 IH].
      - destruct (Nat.eq_dec x node) as [->|N]; [eapply ended_up; eauto|apply ended_top; rewrite P2; auto].
      - destruct (Nat.eq_dec x node) as [->|N]; [eapply ended_up; eauto|eapply ended_up; [rewrite P2; eauto|auto]]. }
    split; auto.
    - intros x Ix. apply in_app_iff in Ix as [Ix|[<-|[]]]; [|exists q; auto].
      rewrite P2 by congruence. auto.
    - intros x [<-|Ix]; [rewrite P2 by auto; apply A2; simpl; auto|].
      rewrite P2 by congruence. apply A2; simpl; auto.
    - intros y Iy. rewrite filter_app. cbn [filter]. unfold has_parent at 2. rewrite P1.
      assert (FE : filter (has_parent h' y) done = filter (has_parent h y) done).
      { apply filter_ext_in. intros c Ic. unfold has_parent. rewrite P2; auto. congruence. }
      rewrite FE, <- A3 by auto. unfold h'. simpl. destruct (Nat.eqb_spec q y) as [->|N]; upds; auto.
      now rewrite app_nil_r.
    - intros y Ny. rewrite P2; auto. intros ->. apply Ny. simpl; auto.
    - intros y Ny. assert (y <> q) by (intros ->; auto). unfold h'. simpl. upds; auto.
  Qed.

  Lemma attach_loop_ok : forall todo tps done dps h,
    ns = done ++ todo -> ps = dps ++ tps -> length done = length dps -> length todo = length tps ->
    ainv h0 h r ns done todo ->
    (forall x p, In (x, p) (combine done dps) -> exists q, py_nth nodes p = Some q /\
       (h_par h x = Some q \/ (fix_cycles = true /\ h_par h x = Some r /\ tc given x x))) ->
    exists h' o done' todo', attach_loop fix_cycles h r nodes (combine todo tps) = (h', o) /\
      ns = done' ++ todo' /\ ainv h0 h' r ns done' todo' /\
      ((o = Ok tt /\ todo' = [] /\
        forall x p, In (x, p) (combine ns ps) -> exists q, py_nth nodes p = Some q /\
          (h_par h' x = Some q \/ (fix_cycles = true /\ h_par h' x = Some r /\ tc given x x))) \/
       (o = Raise ValueError /\
        ((exists x p, In (x, p) (combine ns ps) /\ py_nth nodes p = None) \/
         (fix_cycles = false /\ exists x, tc given x x)))).
  Proof.
    induction todo as [|node todo IH]; intros tps done dps h En Ep L1 L2 A HD.
    { destruct tps; [|discriminate]. exists h, (Ok tt), done, []. rewrite app_nil_r in *. subst.
      do 3 (split; [auto|]). left. auto. }
    destruct tps as [|p tps]; [discriminate|]. injection L2 as L2. cbn [combine attach_loop].
    assert (IN : In (node, p) (combine ns ps)).
    { rewrite En, Ep. clear - L1. revert dps L1. induction done as [|a done IH]; intros [|b dps] L; try discriminate; simpl; auto. }
    destruct (py_nth nodes p) as [q|] eqn:EQ.
    2:{ exists h, (Raise ValueError), done, (node :: todo). do 3 (split; [auto|]). right. split; auto. left. eauto. }
    assert (GV : given node q) by (exists p; auto). destruct (given_In _ _ GV) as [Ino Iq].
    assert (NEXT : forall q', In q' nodes -> q' <> node -> ~ up h q' node -> (q' = q \/ (fix_cycles = true /\ q' = r /\ tc given node node)) ->
      exists h' o done' todo',
        (let h1 := put_par h node (Some q') in
         attach_loop fix_cycles (put_ch h1 q' (h_ch h1 q' ++ [node])) r nodes (combine todo tps)) = (h', o) /\
      ns = done' ++ todo' /\ ainv h0 h' r ns done' todo' /\
      ((o = Ok tt /\ todo' = [] /\
        forall x p, In (x, p) (combine ns ps) -> exists q, py_nth nodes p = Some q /\
          (h_par h' x = Some q \/ (fix_cycles = true /\ h_par h' x = Some r /\ tc given x x))) \/
       (o = Raise ValueError /\
        ((exists x p, In (x, p) (combine ns ps) /\ py_nth nodes p = None) \/
         (fix_cycles = false /\ exists x, tc given x x))))).
    { intros q' I' N' U' Q'. cbv zeta.
      apply (IH tps (done ++ [node]) (dps ++ [p])); auto.
      - now rewrite <- app_assoc.
      - now rewrite <- app_assoc.
      - rewrite !app_length. simpl. lia.
      - apply (attach_step h done node todo q' En A I' N' U').
      - assert (ND1 : NoDup (done ++ node :: todo)) by (rewrite <- En; inversion ND; auto).
        assert (CA : combine (done ++ [node]) (dps ++ [p]) = combine done dps ++ [(node, p)]).
        { clear - L1. revert dps L1. induction done as [|a done IH]; intros [|b dps] L; try discriminate; simpl; auto. f_equal. auto. }
        intros x p' I. rewrite CA in I. apply in_app_iff in I as [I|[[= <- <-]|[]]].
        + destruct (HD x p' I) as (q0 & Eq0 & D). exists q0. split; auto. simpl.
          assert (x <> node). { apply in_combine_l in I. intros ->. apply NoDup_remove_2 in ND1. apply ND1, in_app_iff; auto. }
          upds; auto.
        + exists q. split; auto. simpl. upds. destruct Q' as [->|(? & -> & ?)]; auto. }
    assert (NR : r <> node) by (inversion ND; subst; congruence).
    assert (UR : ~ up h r node).
    { intros U. apply up_first in U as (z & Ez & _). rewrite (ai_todo _ _ _ _ _ _ A r) in Ez; [discriminate|simpl; auto]. }
    destruct (Nat.eqb_spec node q) as [<-|Nq].
    { destruct fix_cycles eqn:FC; [exfalso; eapply NOSELF; eauto|].
      exists h, (Raise ValueError), done, (node :: todo). do 3 (split; [auto|]). right. split; auto. right. split; auto.
      exists node. now constructor. }
    assert (CH : h_ch h node = filter (has_parent h node) done) by (apply (ai_ch _ _ _ _ _ _ A); simpl; auto).
    destruct (chain_exists h q) as [l Hl]; [apply (ai_ended _ _ _ _ _ _ A); auto|].
    (* everything above q is a node of this sentence *)
    assert (UN : forall x a, In x nodes -> up h x a -> In a nodes /\ exists c, In c done /\ h_par h c = Some a).
    { intros x a Ix U. induction U as [x a E|x p0 a E U IHU].
      - destruct Ix as [<-|Ix]; [rewrite (ai_todo _ _ _ _ _ _ A r) in E; [discriminate|simpl; auto]|].
        rewrite En in Ix. apply in_app_iff in Ix as [Ix|Ix].
        + destruct (ai_done _ _ _ _ _ _ A x Ix) as (q0 & E0 & I0). assert (a = q0) by congruence. subst. eauto.
        + rewrite (ai_todo _ _ _ _ _ _ A x) in E; [discriminate|simpl in *; tauto].
      - apply IHU. destruct Ix as [<-|Ix]; [rewrite (ai_todo _ _ _ _ _ _ A r) in E; [discriminate|simpl; auto]|].
        rewrite En in Ix. apply in_app_iff in Ix as [Ix|Ix].
        + destruct (ai_done _ _ _ _ _ _ A x Ix) as (q0 & E0 & I0). assert (p0 = q0) by congruence. subst. auto.
        + rewrite (ai_todo _ _ _ _ _ _ A x) in E; [discriminate|simpl in *; tauto]. }
    assert (LL : length (q :: l) <= h_next h0).
    { apply NoDup_bounded; [eapply chain_NoDup; eauto|]. intros x [<-|Ix]; [auto|].
      apply LT. apply (chain_up_In _ _ _ Hl) in Ix. eapply UN; eauto. }
    destruct (nonempty (h_ch h node)) eqn:NE.
    - assert (CL : climbs_to (fuel h) h node (h_par h q) = Ok (mem node l)).
      { inversion Hl as [? E|? p0 l0 E H1]; subst.
        - rewrite E. reflexivity.
        - rewrite E. apply climbs_chain; auto. unfold fuel. rewrite (ai_next _ _ _ _ _ _ A). simpl in LL. lia. }
      rewrite CL. destruct (mem node l) eqn:ME.
      + apply mem_In in ME. apply (chain_up_In _ _ _ Hl) in ME.
        assert (TC : tc given node node).
        { apply tc_S with q; auto.
          assert (GIV : forall x a, In x done -> h_par h x = Some a -> a <> r -> given x a).
          { intros x a Ix Ea Na.
            assert (exists p', In (x, p') (combine done dps)) as [p' I'].
            { clear - Ix L1. revert dps L1. induction done as [|b done IH]; intros [|c dps] L; try discriminate; simpl in *; [tauto|].
              destruct Ix as [<-|Ix]; [eauto|]. destruct (IH Ix dps) as [p' ?]; [lia|]. eauto. }
            destruct (HD x p' I') as (q0 & E0 & [D|(_ & D & _)]); [|congruence]. exists p'. split; [|congruence].
            rewrite En, Ep. clear - I' L1. revert dps L1 I'. induction done as [|b done IH]; intros [|c dps] L I'; try discriminate; simpl in *; [tauto|].
            destruct I'; auto. }
          clear - ME Iq UN GIV A En NR. induction ME as [x a E|x p0 a E U IHU].
          - constructor. apply GIV; auto. destruct Iq as [<-|Ix]; [rewrite (ai_todo _ _ _ _ _ _ A r) in E; [discriminate|simpl; auto]|].
            rewrite En in Ix. apply in_app_iff in Ix as [Ix|Ix]; auto.
            rewrite (ai_todo _ _ _ _ _ _ A x) in E; [discriminate|simpl in *; tauto].
          - eapply tc_S; [|apply IHU; auto; apply (UN x p0); auto; now constructor].
            apply GIV; auto.
            + destruct Iq as [<-|Ix]; [rewrite (ai_todo _ _ _ _ _ _ A r) in E; [discriminate|simpl; auto]|].
              rewrite En in Ix. apply in_app_iff in Ix as [Ix|Ix]; auto.
              rewrite (ai_todo _ _ _ _ _ _ A x) in E; [discriminate|simpl in *; tauto].
            + intros ->. apply up_first in U as (z & Ez & _). rewrite (ai_todo _ _ _ _ _ _ A r) in Ez; [discriminate|simpl; auto]. }
        destruct fix_cycles eqn:FC.
        * apply NEXT; auto. simpl; auto.
        * exists h, (Raise ValueError), done, (node :: todo). do 3 (split; [auto|]). right. split; auto. right. split; eauto.
      + apply NEXT; auto. intros U. apply (chain_up_In _ _ _ Hl) in U. apply mem_In in U. congruence.
    - apply NEXT; auto. intros U. destruct (UN q node Iq U) as (_ & c & Ic & Ec).
      rewrite CH in NE. assert (I : In c (filter (has_parent h node) done)).
      { apply filter_In. split; auto. unfold has_parent. rewrite Ec. apply Nat.eqb_refl. }
      destruct (filter (has_parent h node) done); [destruct I|discriminate].
  Qed.
End attach.
