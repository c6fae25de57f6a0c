(** Proofs about the visits of a block. *)
From Coq Require Import String List NArith ZArith Bool Lia.
From Verif Require Import PyStr PyStrFacts PyList PyListFacts PyExn TreeModel BlockModel BlockSpec.
Import ListNotations.
Local Open Scope list_scope.

Section Block.
  Variables (B : block) (owner : nat -> nat) (T : tame B owner).

  Lemma outcome_nil w : outcome B w [] None (w, Ok tt).
  Proof. left. cbn. rewrite app_nil_r. auto. Qed.
  Lemma outcome_seq w e1 f1 e2 f2 p (k : docst -> unit -> docst * res unit) : outcome B w e1 f1 p ->
    (f1 = None -> snd p = Ok tt -> outcome B (fst p) e2 f2 (k (fst p) tt)) ->
    outcome B w (match f1 with None => e1 ++ e2 | Some _ => e1 end) (match f1 with None => f2 | Some e => Some e end) (bind p k).
  Proof.
    intros H1 H2. destruct p as [w1 r]. cbn [fst snd] in *. destruct H1 as [[C E]|(l0 & c & l1 & E & C & N & A)]; cbn [fst snd] in *.
    - destruct f1 as [e|].
      + subst r. left. auto.
      + subst r. cbn [bind]. destruct (H2 eq_refl eq_refl) as [[C2 E2]|(l0 & c & l1 & E2 & C2 & N2 & A2)].
        * left. rewrite C2, C, app_assoc. auto.
        * right. exists (e1 ++ l0), c, l1. rewrite E2, C2, C, <- !app_assoc. auto.
    - right. destruct f1 as [e|].
      + exists l0, c, l1. destruct r as [[]|e'|]; [congruence| |]; cbn; auto.
      + exists l0, c, (l1 ++ e2). rewrite E, <- app_assoc. destruct r as [[]|e'|]; [congruence| |]; cbn; auto.
  Qed.
  Lemma outcome_calls w w' e f p : o_calls w' = o_calls w -> outcome B w' e f p -> outcome B w e f p.
  Proof. unfold outcome. now intros ->. Qed.

  (** The state w agrees with w0 on everything that is still to be visited. *)
  Record same (w0 : docst) (R RB : list nat) (w : docst) : Prop := {
    sm_list : forall o, o < o_next w0 -> o_list w o = o_list w0 o;
    sm_next : o_next w0 <= o_next w;
    sm_up : o_up w = o_up w0;
    sm_bundle : forall b, In b RB -> o_bundle w b = o_bundle w0 b;
    sm_tree : forall t, In t R -> o_zone w t = o_zone w0 t /\ o_words w t = o_words w0 t /\ o_emp w t = o_emp w0 t
  }.
  Lemma same_touches w0 R RB w w' t : same w0 (t :: R) RB w -> touches t w w' -> ~ In t R -> ~ In (o_up w0 t) RB -> same w0 R RB w'.
  Proof.
    intros [A1 A2 A3 A4 A5] ((K1 & K2 & _) & U & Bn & X) N NB. split.
    - intros o Ho. rewrite K1 by lia. auto.
    - lia.
    - congruence.
    - intros b Hb. rewrite Bn; [auto|]. rewrite A3. intros ->. auto.
    - intros x Hx. destruct (X x) as (-> & -> & ->); [intros ->; auto|]. apply A5. right; auto.
  Qed.
  Lemma touches_record t w c w' : touches t (record w c) w' -> o_calls w' = o_calls w ++ [c] /\ 
    (forall o, o < o_next w -> o_list w' o = o_list w o) /\ o_next w <= o_next w' /\ o_up w' = o_up w /\
    (forall b, b <> o_up w t -> o_bundle w' b = o_bundle w b) /\
    (forall x, x <> t -> o_zone w' x = o_zone w x /\ o_words w' x = o_words w x /\ o_emp w' x = o_emp w x).
  Proof. intros ((A & Bx & C) & D & E & F). auto 10. Qed.
  Lemma same_touches' w0 R RB w w' t c : same w0 (t :: R) RB w -> touches t (record w c) w' -> ~ In t R -> ~ In (o_up w0 t) RB -> same w0 R RB w'.
  Proof.
    intros S H N NB. apply touches_record in H as (_ & K1 & K2 & U & Bn & X). destruct S as [A1 A2 A3 A4 A5]. split.
    - intros o Ho. rewrite K1 by lia. auto.
    - lia.
    - congruence.
    - intros b Hb. rewrite Bn; [auto|]. rewrite A3. intros ->. auto.
    - intros x Hx. destruct (X x) as (-> & -> & ->); [intros ->; auto|]. apply A5. right; auto.
  Qed.
  Lemma outcome_invoke (mk : nat -> call) m x w : keeps_lists (record w (mk x)) (fst (m x (record w (mk x)))) ->
    answered B (mk x) (snd (m x (record w (mk x)))) -> outcome B w [mk x] None (invoke mk m x w).
  Proof.
    intros (_ & _ & C) A. unfold invoke. destruct (m x (record w (mk x))) as [w' r]. cbn [fst snd] in *.
    destruct r as [[]|e|].
    - left. cbn. auto.
    - right. exists [], (mk x), []. cbn. repeat split; auto. discriminate.
    - right. exists [], (mk x), []. cbn. repeat split; auto. discriminate.
  Qed.

  (** during the visit of the nodes of tree t: everything but the tree t is kept, and its empty nodes if needed *)
  Record in_tree (w0 : docst) (t : nat) (R RB : list nat) (w : docst) : Prop := {
    it_same : same w0 R RB w;
    it_emp : m_empty B <> None -> o_emp w t = o_emp w0 t
  }.
  Lemma in_tree_node w0 t R RB w w' n c : in_tree w0 t R RB w -> owner n = t -> ~ In t R -> ~ In (o_up w0 t) RB ->
    touches (owner n) (record w c) w' -> (m_empty B <> None -> o_emp w' (owner n) = o_emp w (owner n)) -> in_tree w0 t R RB w'.
  Proof.
    intros [S E] O N NB H HE. subst t. apply touches_record in H as (_ & K1 & K2 & U & Bn & X). destruct S as [A1 A2 A3 A4 A5]. split; [split|].
    - intros o Ho. rewrite K1 by lia. auto.
    - lia.
    - congruence.
    - intros b Hb. rewrite Bn; [auto|]. rewrite A3. intros ->. auto.
    - intros x Hx. destruct (X x) as (-> & -> & ->); [intros ->; auto|]. apply A5. auto.
    - intros Q. rewrite HE by auto. auto.
  Qed.
  Lemma each_nodes w0 t R RB m : m_node B = Some m -> ~ In t R -> ~ In (o_up w0 t) RB -> forall l w, (forall n, In n l -> owner n = t) ->
    in_tree w0 t R RB w ->
    outcome B w (map CNode l) None (each (invoke CNode m) l w) /\
    in_tree w0 t R RB (fst (each (invoke CNode m) l w)).
  Proof.
    intros Em N NB. induction l as [|n l IH]; intros w O I; cbn [each map]; [split; auto using outcome_nil|].
    destruct T as (_ & _ & Tn). destruct (Tn m (or_introl Em) n (record w (CNode n))) as [To Te].
    assert (I1 : in_tree w0 t R RB (fst (invoke CNode m n w))) by (eapply in_tree_node; eauto; apply O; left; auto).
    assert (O1 : outcome B w [CNode n] None (invoke CNode m n w)).
    { apply outcome_invoke; [destruct To; auto|]. exists (record w (CNode n)). eauto. }
    destruct (IH (fst (invoke CNode m n w))) as [O2 I2]; [intros; apply O; right; auto|auto|].
    split; [apply (outcome_seq w [CNode n] None (map CNode l) None _ (fun w _ => each (invoke CNode m) l w)); auto|].
    destruct (invoke CNode m n w) as [w1 [[]| |]]; cbn [bind fst] in *; auto.
  Qed.
  Lemma live_empties w0 t R RB m : m_empty B = Some m -> ~ In t R -> ~ In (o_up w0 t) RB -> (forall n, In n (o_emp w0 t) -> owner n = t) ->
    forall l d w fuel, o_emp w0 t = d ++ l -> length l <= fuel -> in_tree w0 t R RB w ->
    outcome B w (map CEmpty l) None (live fuel (fun w => o_emp w t) (invoke CEmpty m) (length d) w) /\
    in_tree w0 t R RB (fst (live fuel (fun w => o_emp w t) (invoke CEmpty m) (length d) w)).
  Proof.
    intros Em N NB O. assert (NE : m_empty B <> None) by congruence.
    induction l as [|n l IH]; intros d w fuel E F I.
    - assert (Q : nth_error (o_emp w t) (length d) = None).
      { rewrite (it_emp _ _ _ _ _ I NE), E, app_nil_r. apply nth_error_None. lia. }
      destruct fuel; cbn [live]; rewrite Q; split; auto; apply outcome_nil.
    - assert (Q : nth_error (o_emp w t) (length d) = Some n).
      { rewrite (it_emp _ _ _ _ _ I NE), E, nth_error_app2, Nat.sub_diag by lia. auto. }
      destruct fuel as [|fuel]; [cbn in F; lia|]. cbn [live]. rewrite Q. cbn [map].
      destruct T as (_ & _ & Tn). destruct (Tn m (or_intror Em) n (record w (CEmpty n))) as [To Te].
      assert (On : owner n = t) by (apply O; rewrite E; apply in_app_iff; right; left; auto).
      assert (I1 : in_tree w0 t R RB (fst (invoke CEmpty m n w))) by (eapply in_tree_node; eauto).
      assert (O1 : outcome B w [CEmpty n] None (invoke CEmpty m n w)).
      { apply outcome_invoke; [destruct To; auto|]. exists (record w (CEmpty n)). eauto. }
      destruct (IH (d ++ [n]) (fst (invoke CEmpty m n w)) fuel) as [O2 I2]; [rewrite E, <- app_assoc; auto|cbn in F; lia|auto|].
      rewrite app_length, Nat.add_1_r in O2, I2.
      split; [apply (outcome_seq w [CEmpty n] None (map CEmpty l) None _ (fun w _ => live fuel _ (invoke CEmpty m) (S (length d)) w)); auto|].
      destruct (invoke CEmpty m n w) as [w1 [[]| |]]; cbn [bind fst] in *; auto.
  Qed.

  Definition plan_tree (w0 : docst) (t : nat) : list call := if visited B w0 t then tree_calls B w0 t else [].
  Definition stop_tree (w0 : docst) (t : nat) : option exn := if blocking B w0 t then Some (failure B) else None.
  Lemma root_remove_touches w t : touches t w (root_remove w t).
  Proof.
    split; [split; [|split; cbn; auto]|].
    - intros o Ho. cbn. unfold upd. destruct (Nat.eqb_spec o (o_next w)); [lia|auto].
    - split; [reflexivity|]. split; [|auto]. intros b Hb. cbn. unfold upd. destruct (Nat.eqb_spec b (o_up w t)); congruence.
  Qed.
  Lemma should_process_spec w0 R RB w t : same w0 (t :: R) RB w -> ~ In t R -> ~ In (o_up w0 t) RB ->
    let p := should_process B t w in
    o_calls (fst p) = o_calls w /\
    match stop_tree w0 t with
    | Some e => visited B w0 t = false /\ snd p = Raise e
    | None => snd p = Ok (visited B w0 t) /\ same w0 R RB (fst p) /\ (visited B w0 t = true -> fst p = w)
    end.
  Proof.
    intros S N NB. cbv zeta. destruct (sm_tree _ _ _ _ S t (or_introl eq_refl)) as (Ez & Ew & _).
    assert (SR : same w0 R RB w).
    { destruct S as [A1 A2 A3 A4 A5]. split; auto. intros x Hx. apply A5. right; auto. }
    unfold should_process, stop_tree, blocking, visited, tree_empty, failure. rewrite Ew.
    assert (Z : (if str_eqb (p_zones B) (s "all") then (w, Ok true) else
        match o_zone w t with
        | Some z => (w, Ok ((str_eqb (p_zones B) [] && str_eqb z []) || str_in z (split 44%N (p_zones B))))
        | None => (w, Ok false)
        end) = (w, Ok (zone_selected B w0 t))).
    { unfold zone_selected. rewrite Ez. destruct (str_eqb_spec (p_zones B) (s "all")); cbn [orb]; auto.
      destruct (o_zone w0 t) as [z|]; auto. f_equal. f_equal. unfold str_in.
      destruct (str_eqb_spec (p_zones B) []) as [->|]; cbn [andb orb]; auto.
      cbn. destruct (str_eqb z []); auto. }
    destruct (o_words w0 t) as [|n0 ns]; cbn [nonempty negb andb existsb].
    - rewrite andb_true_r, !andb_false_l || rewrite andb_true_r. destruct (str_eqb_spec (p_if_empty B) (s "process")) as [E|E]; cbn [negb orb andb].
      + rewrite Z. cbn [fst snd]. rewrite andb_true_r. auto.
      + rewrite andb_false_r. destruct (str_eqb_spec (p_if_empty B) (s "skip")) as [->|E1]; cbn [negb orb andb].
        * cbn. auto 10.
        * destruct (str_eqb_spec (p_if_empty B) (s "delete")) as [->|E2]; cbn [negb orb andb].
          { cbn [fst snd]. split; auto. assert (X : str_eqb (s "delete") (s "skip_warn") = false) by reflexivity. rewrite X. cbn [orb negb].
            split; auto. split; [|discriminate]. eapply same_touches; eauto. apply root_remove_touches. }
          destruct (str_eqb_spec (p_if_empty B) (s "skip_warn")) as [->|E3]; cbn [negb orb andb].
          { cbn. auto 10. }
          destruct (str_eqb (p_if_empty B) (s "fail")); cbn; auto.
    - rewrite andb_false_r. rewrite Z. cbn [fst snd]. rewrite andb_true_r. auto.
  Qed.
  Lemma visit_tree_spec w0 R RB w t fuel : same w0 (t :: R) RB w -> ~ In t R -> ~ In (o_up w0 t) RB ->
    (forall n, In n (o_words w0 t ++ o_emp w0 t) -> owner n = t) -> length (o_emp w0 t) <= fuel ->
    outcome B w (plan_tree w0 t) (stop_tree w0 t) (visit_tree fuel B t w) /\
    (snd (visit_tree fuel B t w) = Ok tt -> same w0 R RB (fst (visit_tree fuel B t w))).
  Proof.
    intros S N NB O F. unfold visit_tree, plan_tree. pose proof (should_process_spec w0 R RB w t S N NB) as H. cbv zeta in H.
    destruct (should_process B t w) as [w1 r]. cbn [fst snd] in H. destruct H as [C H]. destruct (stop_tree w0 t) as [e|].
    - destruct H as [-> ->]. cbn [bind fst snd]. split; [|discriminate]. left. cbn. rewrite app_nil_r. auto.
    - destruct H as (-> & S1 & W). cbn [bind]. destruct (visited B w0 t); cbn [negb].
      2: { cbn [fst snd]. split; auto. left. cbn. rewrite app_nil_r. auto. }
      rewrite (W eq_refl) in *. clear W C.
      assert (IT : in_tree w0 t R RB w) by (split; auto; intros _; apply (sm_tree _ _ _ _ S); left; auto).
      unfold tree_calls. destruct (m_tree B) as [m|] eqn:Em.
      + destruct T as (_ & Tt & _). pose proof (Tt m Em t (record w (CTree t))) as To. split.
        * apply outcome_invoke; [destruct To; auto|]. exists (record w (CTree t)). eauto.
        * intros _. eapply same_touches'; eauto.
      + assert (On : forall n, In n (o_words w0 t) -> owner n = t) by (intros; apply O; apply in_app_iff; auto).
        assert (Oe : forall n, In n (o_emp w0 t) -> owner n = t) by (intros; apply O; apply in_app_iff; auto).
        destruct (sm_tree _ _ _ _ S t (or_introl eq_refl)) as (_ & Ew & _). rewrite Ew.
        set (p := match m_node B with Some m => each (invoke CNode m) (o_words w0 t) w | None => (w, Ok tt) end).
        assert (P : outcome B w (if is_some (m_node B) then map CNode (o_words w0 t) else []) None p /\ in_tree w0 t R RB (fst p)).
        { unfold p. destruct (m_node B) as [m|] eqn:En; cbn [is_some]; [apply each_nodes; auto|split; auto using outcome_nil]. }
        destruct P as [P1 P2].
        set (q := fun (w : docst) (_ : unit) => match m_empty B with Some m => live fuel (fun w => o_emp w t) (invoke CEmpty m) 0 w | None => (w, Ok tt) end).
        assert (Q : outcome B (fst p) (if is_some (m_empty B) then map CEmpty (o_emp w0 t) else []) None (q (fst p) tt) /\ in_tree w0 t R RB (fst (q (fst p) tt))).
        { unfold q. destruct (m_empty B) as [m|] eqn:En; cbn [is_some].
          - apply (live_empties w0 t R RB m En N NB Oe (o_emp w0 t) [] (fst p) fuel); auto.
          - split; auto using outcome_nil. }
        destruct Q as [Q1 Q2]. split.
        * apply (outcome_seq w _ None _ None p q P1). auto.
        * intros E. destruct p as [w2 [[]| |]]; cbn [bind fst snd] in *; try discriminate E. apply Q2.
  Qed.

  (** plans of lists of trees *)
  Fixpoint plan_trees (w0 : docst) (l : list nat) : list call :=
    match l with [] => [] | t :: l => match stop_tree w0 t with None => plan_tree w0 t ++ plan_trees w0 l | Some _ => plan_tree w0 t end end.
  Fixpoint stop_trees (w0 : docst) (l : list nat) : option exn :=
    match l with [] => None | t :: l => match stop_tree w0 t with None => stop_trees w0 l | Some e => Some e end end.
  Lemma plan_trees_app w0 l l' : plan_trees w0 (l ++ l') = match stop_trees w0 l with None => plan_trees w0 l ++ plan_trees w0 l' | Some _ => plan_trees w0 l end.
  Proof. induction l as [|t l IH]; auto. cbn [plan_trees stop_trees app]. destruct (stop_tree w0 t); auto. rewrite IH. destruct (stop_trees w0 l); auto. now rewrite app_assoc. Qed.
  Lemma stop_trees_app w0 l l' : stop_trees w0 (l ++ l') = match stop_trees w0 l with None => stop_trees w0 l' | Some e => Some e end.
  Proof. induction l as [|t l IH]; auto. cbn [stop_trees app]. destruct (stop_tree w0 t); auto. Qed.
  Lemma plan_trees_eq w0 l : plan_trees w0 l = flat_map (tree_calls B w0) (filter (visited B w0) (before (blocking B w0) l)) /\
    stop_trees w0 l = if existsb (blocking B w0) l then Some (failure B) else None.
  Proof.
    induction l as [|t l [IH1 IH2]]; auto. cbn [plan_trees stop_trees before existsb]. unfold stop_tree, plan_tree in *.
    destruct (blocking B w0 t) eqn:K; cbn [orb].
    - split; auto. assert (V : visited B w0 t = false); [|rewrite V; auto].
      unfold blocking, visited in *. apply andb_true_iff in K as [K1 K2]. rewrite K1. cbn [negb orb]. cbn [existsb] in K2.
      destruct (str_eqb (p_if_empty B) (s "process")); [discriminate|]. apply andb_false_r.
    - split; auto. rewrite IH1. cbn [filter]. destruct (visited B w0 t); auto.
  Qed.

  Lemma live_trees w0 RB R' b obj fuel : b = obj -> obj < o_next w0 -> forall l d w k, o_list w0 obj = d ++ l -> length l <= k ->
    same w0 (l ++ R') RB w -> NoDup (l ++ R') -> (forall t, In t l -> ~ In (o_up w0 t) RB) ->
    (forall t n, In t l -> In n (o_words w0 t ++ o_emp w0 t) -> owner n = t) -> (forall t, In t l -> length (o_emp w0 t) <= fuel) ->
    let p := live k (object obj) (visit_tree fuel B) (length d) w in
    outcome B w (plan_trees w0 l) (stop_trees w0 l) p /\ (snd p = Ok tt -> same w0 R' RB (fst p)).
  Proof.
    intros _ LO. induction l as [|t l IH]; intros d w k E F S ND NB O FE; cbv zeta.
    - assert (Q : nth_error (object obj w) (length d) = None).
      { unfold object. rewrite (sm_list _ _ _ _ S obj LO), E, app_nil_r. apply nth_error_None. lia. }
      destruct k; cbn [live]; rewrite Q; cbn [fst snd plan_trees stop_trees]; split; auto using outcome_nil.
    - assert (Q : nth_error (object obj w) (length d) = Some t).
      { unfold object. rewrite (sm_list _ _ _ _ S obj LO), E, nth_error_app2, Nat.sub_diag by lia. auto. }
      destruct k as [|k]; [cbn in F; lia|]. cbn [live]. rewrite Q. cbn [plan_trees stop_trees].
      cbn [app] in ND, S. inversion ND as [|? ? N ND']. subst.
      destruct (visit_tree_spec w0 (l ++ R') RB w t fuel S N (NB t (or_introl eq_refl))) as [P1 P2]; [intros; apply O with (t := t); auto; left; auto|apply FE; left; auto|].
      split.
      + apply (outcome_seq w _ _ (plan_trees w0 l) (stop_trees w0 l) _ (fun w _ => live k (object obj) (visit_tree fuel B) (Datatypes.S (length d)) w) P1).
        intros St Ok1. destruct (IH (d ++ [t]) (fst (visit_tree fuel B t w)) k) as [I1 I2]; auto; try (intros; first [apply NB|eapply O; eauto|apply FE]; right; auto); [rewrite E, <- app_assoc; auto|cbn in F; lia|].
        rewrite app_length, Nat.add_1_r in I1. exact I1.
      + destruct (visit_tree fuel B t w) as [w1 [[]| |]] eqn:V; cbn [bind fst snd] in *; try discriminate. intros Ok2.
        destruct (IH (d ++ [t]) w1 k) as [I1 I2]; auto; try (intros; first [apply NB|eapply O; eauto|apply FE]; right; auto); [rewrite E, <- app_assoc; auto|cbn in F; lia|].
        rewrite app_length, Nat.add_1_r in I2. apply I2. exact Ok2.
  Qed.

  Lemma live_bundles w0 fuel : m_bundle B = None -> doc_ok w0 owner -> enough fuel w0 ->
    forall l d w k, bundles_of w0 = d ++ l -> length l <= k -> same w0 (flat_map (trees_of w0) l) l w ->
    let p := live k (object (o_doc w0)) (visit_bundle fuel B) (length d) w in
    outcome B w (plan_trees w0 (flat_map (trees_of w0) l)) (stop_trees w0 (flat_map (trees_of w0) l)) p.
  Proof.
    intros Mb OK (F1 & F2 & F3). induction l as [|b l IH]; intros d w k E F S; cbv zeta.
    - assert (Q : nth_error (object (o_doc w0) w) (length d) = None).
      { unfold object. rewrite (sm_list _ _ _ _ S _ (ok_doc _ _ OK)). unfold bundles_of in E. rewrite E, app_nil_r. apply nth_error_None. lia. }
      destruct k; cbn [live]; rewrite Q; apply outcome_nil.
    - assert (Q : nth_error (object (o_doc w0) w) (length d) = Some b).
      { unfold object. rewrite (sm_list _ _ _ _ S _ (ok_doc _ _ OK)). unfold bundles_of in E. rewrite E, nth_error_app2, Nat.sub_diag by lia. auto. }
      destruct k as [|k]; [cbn in F; lia|]. cbn [live]. rewrite Q. cbn [flat_map]. rewrite plan_trees_app, stop_trees_app.
      assert (Hb : In b (bundles_of w0)) by (rewrite E; apply in_app_iff; right; left; auto).
      assert (Hl : forall t, In t (trees_of w0 b) -> In t (all_trees w0)) by (intros t Ht; apply in_flat_map; eauto).
      pose proof (ok_bundles _ _ OK) as NDb. rewrite E in NDb. apply NoDup_remove_2 in NDb as Nb.
      pose proof (ok_trees _ _ OK) as NDt. unfold all_trees in NDt. rewrite E, flat_map_app in NDt. cbn [flat_map] in NDt.
      assert (NDt' : NoDup (trees_of w0 b ++ flat_map (trees_of w0) l)).
      { clear -NDt. induction (flat_map (trees_of w0) d) as [|x y IH]; auto. cbn [app] in NDt. inversion NDt; auto. }
      unfold visit_bundle at 1. rewrite Mb. rewrite (sm_bundle _ _ _ _ S b (or_introl eq_refl)).
      destruct (live_trees w0 l (flat_map (trees_of w0) l) (o_bundle w0 b) (o_bundle w0 b) fuel eq_refl (ok_bundle _ _ OK b Hb) (trees_of w0 b) [] w fuel) as [P1 P2].
      + reflexivity.
      + apply F2; auto.
      + destruct S as [A1 A2 A3 A4 A5]. split; auto. intros c Hc. apply A4. right; auto.
      + exact NDt'.
      + intros t Ht. rewrite (ok_up _ _ OK b t Hb Ht). intros Q'. apply Nb, in_app_iff. auto.
      + intros t n Ht. apply (ok_owner _ _ OK); auto.
      + intros t Ht. apply F3. auto.
      + apply (outcome_seq w _ _ (plan_trees w0 (flat_map (trees_of w0) l)) (stop_trees w0 (flat_map (trees_of w0) l)) _
                 (fun w _ => live k (object (o_doc w0)) (visit_bundle fuel B) (Datatypes.S (length d)) w) P1).
        intros _ Ok1. specialize (IH (d ++ [b]) _ k ltac:(rewrite E, <- app_assoc; auto) ltac:(cbn in F; lia) (P2 Ok1)).
        cbv zeta in IH. rewrite app_length, Nat.add_1_r in IH. exact IH.
  Qed.
  Lemma live_bundle_calls w0 fuel m : m_bundle B = Some m -> o_doc w0 < o_next w0 ->
    forall l d w k, bundles_of w0 = d ++ l -> length l <= k -> (forall o, o < o_next w0 -> o_list w o = o_list w0 o) -> o_next w0 <= o_next w ->
    outcome B w (map CBundle l) None (live k (object (o_doc w0)) (visit_bundle fuel B) (length d) w).
  Proof.
    intros Mb LO. induction l as [|b l IH]; intros d w k E F S Nx.
    - assert (Q : nth_error (object (o_doc w0) w) (length d) = None).
      { unfold object. rewrite S by auto. unfold bundles_of in E. rewrite E, app_nil_r. apply nth_error_None. lia. }
      destruct k; cbn [live]; rewrite Q; apply outcome_nil.
    - assert (Q : nth_error (object (o_doc w0) w) (length d) = Some b).
      { unfold object. rewrite S by auto. unfold bundles_of in E. rewrite E, nth_error_app2, Nat.sub_diag by lia. auto. }
      destruct k as [|k]; [cbn in F; lia|]. cbn [live]. rewrite Q. cbn [map]. unfold visit_bundle at 1. rewrite Mb.
      destruct T as (Tb & _ & _). pose proof (Tb m Mb b (record w (CBundle b))) as K.
      assert (O1 : outcome B w [CBundle b] None (invoke CBundle m b w)).
      { apply outcome_invoke; auto. exists (record w (CBundle b)). eauto. }
      apply (outcome_seq w [CBundle b] None (map CBundle l) None _ (fun w _ => live k (object (o_doc w0)) (visit_bundle fuel B) (Datatypes.S (length d)) w) O1).
      intros _ _. destruct K as (K1 & K2 & _). cbn [record o_list o_next] in K1, K2.
      specialize (IH (d ++ [b]) (fst (invoke CBundle m b w)) k ltac:(rewrite E, <- app_assoc; auto) ltac:(cbn in F; lia)).
      rewrite app_length, Nat.add_1_r in IH. apply IH.
      + intros o Ho. unfold invoke. rewrite K1 by lia. auto.
      + unfold invoke. lia.
  Qed.
  Lemma visits w fuel : m_entity B = None -> m_mention B = None -> (m_bundle B <> None \/ m_tree B <> None \/ m_node B <> None \/ m_empty B <> None) ->
    doc_ok w owner -> enough fuel w -> outcome B w (expected_calls B w) (expected_end B w) (process_document fuel B w).
  Proof.
    intros Me Mm M OK F. unfold process_document. rewrite Me, Mm. cbn [is_some orb].
    assert (Y : is_some (m_bundle B) || is_some (m_tree B) || is_some (m_node B) || is_some (m_empty B) = true).
    { destruct (m_bundle B), (m_tree B), (m_node B), (m_empty B); auto; exfalso; intuition congruence. }
    rewrite Y. cbn [negb bind]. unfold expected_calls, expected_end. destruct (m_bundle B) as [m|] eqn:Mb; cbn [is_some].
    - apply (live_bundle_calls w fuel m Mb (ok_doc _ _ OK) (bundles_of w) [] w fuel); auto. apply F.
    - unfold all_trees. destruct (plan_trees_eq w (flat_map (trees_of w) (bundles_of w))) as [<- <-].
      apply (live_bundles w fuel Mb OK F (bundles_of w) [] w fuel); auto; [apply F|]. split; auto.
  Qed.


  (** ---- what is left of the bundles ---- *)
  Variable KT : keeps_trees B.
  Definition delb (w0 : docst) (t : nat) : bool := str_eqb (p_if_empty B) (s "delete") && tree_empty w0 t.
  Definition okl (w : docst) (c : nat) (l : list nat) : Prop := o_bundle w c < o_next w /\ trees_of w c = l.
  Lemma okl_keeps w w' c l : (forall o, o < o_next w -> o_list w' o = o_list w o) -> o_next w <= o_next w' -> o_bundle w' = o_bundle w -> okl w c l -> okl w' c l.
  Proof. intros A L E [P Q]. split; [rewrite E; lia|]. unfold trees_of in *. rewrite E, A; auto. Qed.
  Lemma each_nodes_lists m c l0 : m_node B = Some m -> forall l w, okl w c l0 -> okl (fst (each (invoke CNode m) l w)) c l0.
  Proof.
    intros Em. induction l as [|n l IH]; intros w O; cbn [each]; auto.
    destruct T as (_ & _ & Tn). destruct (Tn m (or_introl Em) n (record w (CNode n))) as [[(K1 & K2 & _) _] _].
    assert (O1 : okl (fst (invoke CNode m n w)) c l0).
    { apply (okl_keeps w); auto. unfold invoke. rewrite KT by auto. auto. }
    destruct (invoke CNode m n w) as [w1 [[]| |]]; cbn [bind fst] in *; auto.
  Qed.
  Lemma live_empties_lists m t c l0 : m_empty B = Some m -> forall fuel i w, okl w c l0 -> okl (fst (live fuel (fun w => o_emp w t) (invoke CEmpty m) i w)) c l0.
  Proof.
    intros Em. induction fuel as [|fuel IH]; intros i w O; cbn [live]; destruct (nth_error (o_emp w t) i) as [n|]; auto.
    destruct T as (_ & _ & Tn). destruct (Tn m (or_intror Em) n (record w (CEmpty n))) as [[(K1 & K2 & _) _] _].
    assert (O1 : okl (fst (invoke CEmpty m n w)) c l0).
    { apply (okl_keeps w); auto. unfold invoke. rewrite KT by auto. auto. }
    destruct (invoke CEmpty m n w) as [w1 [[]| |]]; cbn [bind fst] in *; auto.
  Qed.
  Lemma visit_tree_lists w0 R RB w t fuel c l0 : same w0 (t :: R) RB w -> okl w c l0 -> okl w (o_up w0 t) (trees_of w (o_up w0 t)) ->
    snd (visit_tree fuel B t w) = Ok tt ->
    okl (fst (visit_tree fuel B t w)) c (if delb w0 t && Nat.eqb c (o_up w0 t) then filter (fun x => negb (Nat.eqb x t)) l0 else l0).
  Proof.
    intros S O Ot. unfold visit_tree.
    destruct (sm_tree _ _ _ _ S t (or_introl eq_refl)) as (_ & Ew & _). pose proof (sm_up _ _ _ _ S) as Eu.
    assert (D : okl (fst (should_process B t w)) c (if delb w0 t && Nat.eqb c (o_up w0 t) then filter (fun x => negb (Nat.eqb x t)) l0 else l0) \/ (exists e, snd (should_process B t w) = Raise e)).
    { unfold should_process, delb, tree_empty. rewrite Ew. destruct (o_words w0 t) as [|n0 ns]; cbn [nonempty negb].
      - destruct (str_eqb_spec (p_if_empty B) (s "process")) as [->|E]; cbn [negb andb].
        + left. destruct (str_eqb _ (s "all")); auto. destruct (o_zone w t); auto.
        + destruct (str_eqb_spec (p_if_empty B) (s "skip")) as [->|E1]; [left; auto|].
          destruct (str_eqb_spec (p_if_empty B) (s "delete")) as [_|E2]; cbn [andb].
          * left. cbn [fst]. unfold okl, trees_of, root_remove. rewrite Eu. cbn [o_bundle o_next o_list]. unfold upd.
            destruct Ot as [Ot _]. destruct O as [P Q]. unfold trees_of in Q. destruct (Nat.eqb_spec c (o_up w0 t)) as [->|N].
            -- rewrite Nat.eqb_refl. rewrite Q. auto.
            -- destruct (Nat.eqb_spec (o_bundle w c) (o_next w)); [lia|]. auto.
          * destruct (str_eqb (p_if_empty B) (s "skip_warn")); [left; auto|].
            destruct (str_eqb (p_if_empty B) (s "fail")); right; cbn; eauto.
      - rewrite !andb_false_r. cbn [andb]. left. destruct (str_eqb _ (s "all")); auto. destruct (o_zone w t); auto. }
    destruct (should_process B t w) as [w1 r] eqn:V. cbn [fst snd] in D. destruct D as [D|[e ->]]; [|discriminate].
    destruct r as [yes| |]; cbn [bind]; try discriminate. destruct yes; cbn [negb]; [|auto].
    destruct (m_tree B) as [m|] eqn:Em.
    - intros _. destruct T as (_ & Tt & _). destruct (Tt m Em t (record w1 (CTree t))) as [(K1 & K2 & _) _].
      apply (okl_keeps w1); auto. unfold invoke. rewrite KT by auto. auto.
    - destruct (m_node B) as [m|] eqn:En.
      + pose proof (each_nodes_lists m c _ En (o_words w1 t) w1 D) as D1. destruct (each (invoke CNode m) (o_words w1 t) w1) as [w2 [[]| |]]; cbn [bind fst snd] in *; try discriminate.
        destruct (m_empty B) as [m'|] eqn:Ep; intros _; auto. apply live_empties_lists; auto.
      + cbn [bind]. destruct (m_empty B) as [m'|] eqn:Ep; intros _; auto. apply live_empties_lists; auto.
  Qed.
  Fixpoint after (w0 : docst) (c : nat) (l : list nat) (l0 : list nat) : list nat :=
    match l with [] => l0 | t :: l => after w0 c l (if delb w0 t && Nat.eqb c (o_up w0 t) then filter (fun x => negb (Nat.eqb x t)) l0 else l0) end.
  Lemma after_app w0 c l l' : forall l0, after w0 c (l ++ l') l0 = after w0 c l' (after w0 c l l0).
  Proof. induction l as [|t l IH]; intros l0; cbn; auto. Qed.
  Lemma after_eq w0 c l : forall l0, after w0 c l l0 = filter (fun x => negb (existsb (fun t => delb w0 t && Nat.eqb c (o_up w0 t) && Nat.eqb x t) l)) l0.
  Proof.
    induction l as [|t l IH]; intros l0; cbn [after existsb]; [symmetry; apply filter_all; auto|]. rewrite IH.
    destruct (delb w0 t && Nat.eqb c (o_up w0 t)); cbn [andb orb]; [|reflexivity].
    induction l0 as [|x l0 IH0]; auto. cbn [filter]. destruct (Nat.eqb_spec x t); cbn [negb orb].
    - exact IH0.
    - cbn [filter]. destruct (negb _); rewrite IH0; auto.
  Qed.
  Lemma live_trees_lists w0 RB R' obj fuel (bs : list nat) : obj < o_next w0 -> forall l d w k L, o_list w0 obj = d ++ l -> length l <= k ->
    same w0 (l ++ R') RB w -> NoDup (l ++ R') -> (forall t, In t l -> ~ In (o_up w0 t) RB /\ In (o_up w0 t) bs) ->
    (forall t n, In t l -> In n (o_words w0 t ++ o_emp w0 t) -> owner n = t) -> (forall t, In t l -> length (o_emp w0 t) <= fuel) ->
    (forall c, In c bs -> okl w c (L c)) ->
    let p := live k (object obj) (visit_tree fuel B) (length d) w in
    snd p = Ok tt -> same w0 R' RB (fst p) /\ forall c, In c bs -> okl (fst p) c (after w0 c l (L c)).
  Proof.
    intros LO. induction l as [|t l IH]; intros d w k L E F S ND NB O FE OL; cbv zeta.
    - assert (Q : nth_error (object obj w) (length d) = None).
      { unfold object. rewrite (sm_list _ _ _ _ S obj LO), E, app_nil_r. apply nth_error_None. lia. }
      destruct k; cbn [live]; rewrite Q; cbn [fst snd after]; auto.
    - assert (Q : nth_error (object obj w) (length d) = Some t).
      { unfold object. rewrite (sm_list _ _ _ _ S obj LO), E, nth_error_app2, Nat.sub_diag by lia. auto. }
      destruct k as [|k]; [cbn in F; lia|]. cbn [live]. rewrite Q. cbn [after].
      cbn [app] in ND, S. inversion ND as [|? ? N ND']. subst. destruct (NB t (or_introl eq_refl)) as [NB1 NB2].
      destruct (visit_tree_spec w0 (l ++ R') RB w t fuel S N NB1) as [_ P2]; [intros; apply O with (t := t); auto; left; auto|apply FE; left; auto|].
      destruct (visit_tree fuel B t w) as [w1 [[]| |]] eqn:V; cbn [bind fst snd] in *; try discriminate. intros Ok2.
      assert (OL1 : forall c, In c bs -> okl w1 c (if delb w0 t && Nat.eqb c (o_up w0 t) then filter (fun x => negb (Nat.eqb x t)) (L c) else L c)).
      { intros c Hc. pose proof (visit_tree_lists w0 (l ++ R') RB w t fuel c (L c) S (OL c Hc)) as W. rewrite V in W. apply W; auto.
        split; [apply (OL _ NB2)|auto]. }
      specialize (IH (d ++ [t]) w1 k _ ltac:(rewrite E, <- app_assoc; auto) ltac:(cbn in F; lia) (P2 eq_refl) ND' ltac:(intros; apply NB; right; auto)
        ltac:(intros; eapply O; eauto; right; auto) ltac:(intros; apply FE; right; auto) OL1).
      cbv zeta in IH. rewrite app_length, Nat.add_1_r in IH. apply IH. exact Ok2.
  Qed.
  Lemma live_bundles_lists w0 fuel : m_bundle B = None -> doc_ok w0 owner -> enough fuel w0 ->
    forall l d w k L, bundles_of w0 = d ++ l -> length l <= k -> same w0 (flat_map (trees_of w0) l) l w ->
    (forall c, In c (bundles_of w0) -> okl w c (L c)) ->
    let p := live k (object (o_doc w0)) (visit_bundle fuel B) (length d) w in
    snd p = Ok tt -> forall c, In c (bundles_of w0) -> okl (fst p) c (after w0 c (flat_map (trees_of w0) l) (L c)).
  Proof.
    intros Mb OK (F1 & F2 & F3). induction l as [|b l IH]; intros d w k L E F S OL; cbv zeta.
    - assert (Q : nth_error (object (o_doc w0) w) (length d) = None).
      { unfold object. rewrite (sm_list _ _ _ _ S _ (ok_doc _ _ OK)). unfold bundles_of in E. rewrite E, app_nil_r. apply nth_error_None. lia. }
      destruct k; cbn [live]; rewrite Q; cbn [flat_map after]; auto.
    - assert (Q : nth_error (object (o_doc w0) w) (length d) = Some b).
      { unfold object. rewrite (sm_list _ _ _ _ S _ (ok_doc _ _ OK)). unfold bundles_of in E. rewrite E, nth_error_app2, Nat.sub_diag by lia. auto. }
      destruct k as [|k]; [cbn in F; lia|]. cbn [live]. rewrite Q. cbn [flat_map].
      assert (Hb : In b (bundles_of w0)) by (rewrite E; apply in_app_iff; right; left; auto).
      assert (Hl : forall t, In t (trees_of w0 b) -> In t (all_trees w0)) by (intros t Ht; apply in_flat_map; eauto).
      pose proof (ok_bundles _ _ OK) as NDb. rewrite E in NDb. apply NoDup_remove_2 in NDb as Nb.
      pose proof (ok_trees _ _ OK) as NDt. unfold all_trees in NDt. rewrite E, flat_map_app in NDt. cbn [flat_map] in NDt.
      assert (NDt' : NoDup (trees_of w0 b ++ flat_map (trees_of w0) l)).
      { clear -NDt. induction (flat_map (trees_of w0) d) as [|x y IH]; auto. cbn [app] in NDt. inversion NDt; auto. }
      unfold visit_bundle at 1 3. rewrite Mb. rewrite (sm_bundle _ _ _ _ S b (or_introl eq_refl)).
      pose proof (live_trees_lists w0 l (flat_map (trees_of w0) l) (o_bundle w0 b) fuel (bundles_of w0) (ok_bundle _ _ OK b Hb) (trees_of w0 b) [] w fuel L) as P.
      cbv zeta in P. cbn [length] in P.
      destruct (live fuel (object (o_bundle w0 b)) (visit_tree fuel B) 0 w) as [w1 [[]| |]]; cbn [bind fst snd] in *; try discriminate.
      intros Ok1. destruct P as [P1 P2]; auto.
      + destruct S as [A1 A2 A3 A4 A5]. split; auto. intros c Hc. apply A4. right; auto.
      + intros t Ht. rewrite (ok_up _ _ OK b t Hb Ht). split; auto. intros Q'. apply Nb, in_app_iff. auto.
      + intros t n Ht. apply (ok_owner _ _ OK); auto.
      + specialize (IH (d ++ [b]) w1 k _ ltac:(rewrite E, <- app_assoc; auto) ltac:(cbn in F; lia) P1 P2).
        cbv zeta in IH. rewrite app_length, Nat.add_1_r in IH. intros c Hc. rewrite after_app. apply IH; auto.
  Qed.
  Lemma trees_left w fuel : m_entity B = None -> m_mention B = None -> m_bundle B = None -> doc_ok w owner -> enough fuel w ->
    snd (process_document fuel B w) = Ok tt -> forall b, In b (bundles_of w) -> trees_of (fst (process_document fuel B w)) b = remaining B w b.
  Proof.
    intros Me Mm Mb OK F. unfold process_document. rewrite Me, Mm, Mb. cbn [is_some orb].
    destruct (is_some (m_tree B) || is_some (m_node B) || is_some (m_empty B)); [|discriminate]. cbn [negb bind]. intros Ok1 b Hb.
    pose proof (live_bundles_lists w fuel Mb OK F (bundles_of w) [] w fuel (trees_of w)) as P. cbv zeta in P. cbn [length] in P.
    assert (P' : okl (fst (live fuel (object (o_doc w)) (visit_bundle fuel B) 0 w)) b (after w b (all_trees w) (trees_of w b))).
    { apply P; auto; [apply F|split; auto|]. intros c Hc. split; auto. apply (ok_bundle _ _ OK c Hc). }
    destruct P' as [_ ->]. rewrite after_eq. unfold remaining. destruct (str_eqb (p_if_empty B) (s "delete")) eqn:D.
    - apply filter_ext_in. intros t Ht. f_equal. destruct (tree_empty w t) eqn:Et.
      + apply existsb_exists. exists t. split; [apply in_flat_map; eauto|]. unfold delb. rewrite D, Et, (ok_up _ _ OK b t Hb Ht), !Nat.eqb_refl. auto.
      + apply not_true_iff_false. intros Q. apply existsb_exists in Q as [x [_ Q]]. rewrite !andb_true_iff, !Nat.eqb_eq in Q. destruct Q as [[Q _] ->].
        unfold delb in Q. rewrite Et, andb_false_r in Q. discriminate.
    - apply filter_all. intros t _. apply negb_true_iff, not_true_iff_false. intros Q. apply existsb_exists in Q as [x [_ Q]].
      unfold delb in Q. rewrite D in Q. discriminate.
  Qed.

  (** ---- coreference ---- *)
  Lemma each_entities m : m_entity B = Some m -> (forall e w, o_calls (fst (m e w)) = o_calls w) -> forall fuel l w,
    outcome B w (map CEntity l) None (each (visit_entity fuel B) l w).
  Proof.
    intros Me K fuel. induction l as [|e l IH]; intros w; cbn [each map]; [apply outcome_nil|].
    assert (O1 : outcome B w [CEntity e] None (visit_entity fuel B e w)).
    { unfold visit_entity. rewrite Me. unfold invoke. pose proof (K e (record w (CEntity e))) as C. cbn [record o_calls] in C.
      assert (A : answered B (CEntity e) (snd (m e (record w (CEntity e))))) by (exists (record w (CEntity e)); eauto).
      destruct (m e (record w (CEntity e))) as [w' [[]| |]]; cbn [fst snd] in *; [left; auto|right|right]; exists [], (CEntity e), []; repeat split; auto; discriminate. }
    apply (outcome_seq w [CEntity e] None (map CEntity l) None _ (fun w _ => each (visit_entity fuel B) l w) O1). auto.
  Qed.
  Lemma live_mentions m e ms : m_mention B = Some m -> (forall x w, o_calls (fst (m x w)) = o_calls w /\ o_ment (fst (m x w)) = o_ment w) ->
    ms e = ms e -> forall l d w k, o_ment w = ms -> ms e = d ++ l -> length l <= k ->
    outcome B w (map CMention l) None (live k (fun w => o_ment w e) (invoke CMention m) (length d) w) /\
    o_ment (fst (live k (fun w => o_ment w e) (invoke CMention m) (length d) w)) = ms.
  Proof.
    intros Mm K _. induction l as [|x l IH]; intros d w k Em E F.
    - assert (Q : nth_error (o_ment w e) (length d) = None) by (rewrite Em, E, app_nil_r; apply nth_error_None; lia).
      destruct k; cbn [live]; rewrite Q; split; auto; apply outcome_nil.
    - assert (Q : nth_error (o_ment w e) (length d) = Some x) by (rewrite Em, E, nth_error_app2, Nat.sub_diag by lia; auto).
      destruct k as [|k]; [cbn in F; lia|]. cbn [live]. rewrite Q. cbn [map].
      destruct (K x (record w (CMention x))) as [C Km]. cbn [record o_calls o_ment] in C, Km.
      assert (O1 : outcome B w [CMention x] None (invoke CMention m x w)).
      { unfold invoke. assert (A : answered B (CMention x) (snd (m x (record w (CMention x))))) by (exists (record w (CMention x)); eauto).
        destruct (m x (record w (CMention x))) as [w' [[]| |]]; cbn [fst snd] in *; [left; auto|right|right]; exists [], (CMention x), []; repeat split; auto; discriminate. }
      destruct (IH (d ++ [x]) (fst (invoke CMention m x w)) k) as [O2 M2]; [unfold invoke; congruence|rewrite E, <- app_assoc; auto|cbn in F; lia|].
      rewrite app_length, Nat.add_1_r in O2, M2. split.
      + apply (outcome_seq w [CMention x] None (map CMention l) None _ (fun w _ => live k (fun w => o_ment w e) (invoke CMention m) (Datatypes.S (length d)) w) O1). auto.
      + destruct (invoke CMention m x w) as [w1 [[]| |]] eqn:V; cbn [bind fst] in *; auto; unfold invoke in V; rewrite V in Km; cbn [fst] in Km; congruence.
  Qed.
  Lemma each_mentions m ms : m_entity B = None -> m_mention B = Some m -> (forall x w, o_calls (fst (m x w)) = o_calls w /\ o_ment (fst (m x w)) = o_ment w) ->
    forall fuel l w, (forall e, In e l -> length (ms e) <= fuel) -> o_ment w = ms ->
    outcome B w (map CMention (flat_map ms l)) None (each (visit_entity fuel B) l w).
  Proof.
    intros Me Mm K fuel. induction l as [|e l IH]; intros w F Em; cbn [each map flat_map]; [apply outcome_nil|].
    rewrite map_app. unfold visit_entity at 1. rewrite Me, Mm.
    destruct (live_mentions m e ms Mm K eq_refl (ms e) [] w fuel Em eq_refl (F e (or_introl eq_refl))) as [O1 M1].
    apply (outcome_seq w _ None (map CMention (flat_map ms l)) None _ (fun w _ => each (visit_entity fuel B) l w) O1).
    intros _ _. apply IH; auto. intros x Hx. apply F. right; auto.
  Qed.
  Lemma coref_visits w fuel : m_bundle B = None -> m_tree B = None -> m_node B = None -> m_empty B = None ->
    (m_entity B <> None \/ m_mention B <> None) ->
    (forall m, m_entity B = Some m -> forall x w, o_calls (fst (m x w)) = o_calls w) ->
    (forall m, m_mention B = Some m -> forall x w, o_calls (fst (m x w)) = o_calls w /\ o_ment (fst (m x w)) = o_ment w) ->
    (forall e, In e (o_ents w) -> length (o_ment w e) <= fuel) ->
    outcome B w (if is_some (m_entity B) then map CEntity (o_ents w) else map CMention (flat_map (o_ment w) (o_ents w))) None (process_document fuel B w).
  Proof.
    intros Mb Mt Mn Mp M Ke Km F. unfold process_document. rewrite Mb, Mt, Mn, Mp. cbn [is_some]. rewrite !orb_false_r.
    assert (Y : is_some (m_entity B) || is_some (m_mention B) = true) by (destruct (m_entity B), (m_mention B); auto; exfalso; intuition congruence).
    rewrite Y. cbn [negb].
    assert (O : outcome B w (if is_some (m_entity B) then map CEntity (o_ents w) else map CMention (flat_map (o_ment w) (o_ents w))) None (each (visit_entity fuel B) (o_ents w) w)).
    { destruct (m_entity B) as [m|] eqn:Me; cbn [is_some].
      - apply (each_entities m Me (Ke m eq_refl)).
      - destruct (m_mention B) as [m|] eqn:Mm; [|discriminate]. apply (each_mentions m (o_ment w) Me Mm (Km m eq_refl)); auto. }
    pose proof (outcome_seq w _ None [] None _ (fun w _ => (w, Ok tt)) O) as Q. cbn beta iota in Q. rewrite app_nil_r in Q. apply Q. intros _ _. apply outcome_nil.
  Qed.
End Block.
