(** steal_nodes moves the chosen words to the end of the other tree. *)
From Coq Require Import String List NArith ZArith Bool Lia Permutation Sorted.
From Verif Require Import PyStr PyList PyListFacts PyExn TreeModel TreeSpec TreeFacts TreeRepr TreeOps TreeCalls
  DualDictModel DocModel StealModel StealSpec.
Import ListNotations.

Lemma sorted_le_unique {A} (key : A -> Z) (m l : list A) :
  StronglySorted (fun a b => Z.leb (key a) (key b) = true) m -> Permutation m l ->
  StronglySorted (key_lt key) l -> m = l.
Proof.
  intros S P L. rewrite <- (sort_on_unique key m l P L). unfold sort_on. symmetry. now apply isort_id.
Qed.
Lemma filter_sort {A} (key : A -> Z) (g : A -> bool) (l l' : list A) :
  Permutation (filter g l) l' -> StronglySorted (key_lt key) l' -> filter g (sort_on key l) = l'.
Proof.
  intros P S. apply (sorted_le_unique key); auto.
  - apply filter_StronglySorted. apply sort_on_sorted.
  - rewrite <- P. clear P S. pose proof (sort_on_perm key l) as P.
    induction P as [|x l1 l2 P IH|x y l1|l1 l2 l3 P1 IH1 P2 IH2]; cbn; auto.
    + destruct (g x); auto.
    + destruct (g x), (g y); auto. constructor.
    + now rewrite IH1.
Qed.

Lemma mem_cons w c l : mem w (c :: l) = Nat.eqb w c || mem w l.
Proof. reflexivity. Qed.
(** leave_children, when x may already have its new ord *)
Lemma leave_ok x : forall l h old V f, x <> old ->
  StronglySorted (key_lt (h_ord h)) V ->
  filter (fun w => negb (Nat.eqb w x)) (h_ch h old) = filter f V ->
  NoDup l -> (forall c, In c l -> In c V /\ f c = false /\ c <> x) ->
  let h' := leave_children h old l in
  h_next h' = h_next h /\ h_kind h' = h_kind h /\ h_ord h' = h_ord h /\ h_root h' = h_root h /\
  h_desc h' = h_desc h /\ h_emp h' = h_emp h /\ h_eord h' = h_eord h /\
  (forall w, h_par h' w = if mem w l then Some old else h_par h w) /\
  (forall y, y <> old -> h_ch h' y = h_ch h y) /\
  filter (fun w => negb (Nat.eqb w x)) (h_ch h' old) = filter (fun w => f w || mem w l) V /\
  (In x (h_ch h' old) -> In x (h_ch h old)).
Proof.
  induction l as [|c l IH]; intros h old V f Hxo SV EF ND HC.
  - cbn. assert (E : filter f V = filter (fun w => f w || false) V) by (apply filter_ext_in'; intros; now rewrite orb_false_r).
    rewrite <- E. repeat split; auto.
  - cbn [leave_children]. set (h1 := put_par h c (Some old)).
    set (h2 := put_ch h1 old (sort_nodes h1 (h_ch h1 old ++ [c]))).
    destruct (HC c (or_introl eq_refl)) as (CV & Cf & Cx). inversion ND as [|? ? Nc ND']; subst.
    assert (NV : NoDup V).
    { clear - SV. induction SV as [|y V SV IH F]; constructor; auto. rewrite Forall_forall in F. intros H.
      specialize (F y H). unfold key_lt in F. lia. }
    assert (EF2 : filter (fun w => negb (Nat.eqb w x)) (h_ch h2 old) = filter (fun w => f w || Nat.eqb w c) V).
    { unfold h2. cbn [h_ch put_ch set_ch]. rewrite upd_same. unfold h1, sort_nodes. cbn [h_ord h_ch put_par set_par].
      apply filter_sort; [|now apply filter_StronglySorted].
      rewrite filter_app. cbn [filter]. destruct (Nat.eqb_spec c x); [congruence|]. cbn [negb]. rewrite EF.
      rewrite <- (filter_eqb_single c V NV CV). apply filter_or_perm.
      intros z _ H1 H2. apply Nat.eqb_eq in H2. subst z. congruence. }
    specialize (IH h2 old V (fun w => f w || Nat.eqb w c) Hxo SV EF2 ND').
    destruct IH as (I1 & I2 & I3 & I4 & I5 & I6 & I7 & I8 & I9 & I10 & I11).
    { intros z Hz. destruct (HC z (or_intror Hz)) as (A1 & A2 & A3). split; [auto|]. split; [|auto].
      rewrite A2. apply Nat.eqb_neq. intros ->. auto. }
    repeat (split; [first [rewrite I1|rewrite I2|rewrite I3|rewrite I4|rewrite I5|rewrite I6|rewrite I7]; reflexivity|]).
    split; [|split; [|split]].
    + intros w. rewrite I8, mem_cons. unfold h2, h1. cbn [h_par put_ch set_ch put_par set_par].
      destruct (mem w l); [now rewrite orb_true_r|]. rewrite orb_false_r.
      destruct (Nat.eqb_spec w c) as [->|Hn]; upds; auto.
    + intros y Hy. rewrite I9 by auto. unfold h2, h1. cbn [h_ch put_ch set_ch put_par set_par]. now upds.
    + rewrite I10. apply filter_ext_in'. intros w _. rewrite mem_cons. now rewrite orb_assoc.
    + intros Hin. apply I11 in Hin. unfold h2, h1, sort_nodes in Hin. cbn [h_ch put_ch set_ch put_par set_par h_ord] in Hin.
      rewrite upd_same in Hin. apply (Permutation_in _ (sort_on_perm _ _)) in Hin. apply in_app_iff in Hin as [Hin|[Hin|[]]]; auto.
      congruence.
Qed.

Lemma mem_snoc w l c : mem w (l ++ [c]) = mem w l || Nat.eqb w c.
Proof. unfold mem. rewrite existsb_app. cbn. now rewrite orb_false_r. Qed.
Lemma mem_filter w f l : mem w (filter f l) = mem w l && f w.
Proof.
  destruct (mem w (filter f l)) eqn:E.
  - apply mem_In, filter_In in E as [E1 E2]. apply mem_In in E1. now rewrite E1, E2.
  - apply mem_false in E. destruct (mem w l) eqn:E1; auto. destruct (f w) eqn:E2; auto.
    exfalso. apply E, filter_In. split; auto. now apply mem_In.
Qed.

Section Steal.
  Variables (h0 : heap) (T T2 : atree) (N : list nat).
  Notation r := (a_root T).
  Notation old := (a_root T2).
  Notation W := (a_words T2).
  Notation par := (a_par T2).
  Hypothesis R1 : Repr h0 T.
  Hypothesis R2 : Repr h0 T2.
  Hypothesis W1 : wf T.
  Hypothesis W2 : wf T2.
  Hypothesis Dis : forall y, node_of T y -> ~ node_of T2 y.
  Hypothesis HN : filter (fun w => mem w N) W = N.
  Let n := length (a_words T).

  Lemma N_W x : In x N -> In x W.
  Proof. rewrite <- HN at 1. intros H. now apply filter_In in H. Qed.
  Lemma N_nodup : NoDup N.
  Proof. rewrite <- HN. apply NoDup_filter. apply (wf_nodup _ W2). Qed.
  Lemma old_N : ~ In old N.
  Proof. intros H. apply N_W in H. now apply (wf_rootfresh _ W2). Qed.
  Lemma r_W : ~ In r W.
  Proof. intros H. apply (Dis r); [left; auto|right; auto]. Qed.
  Lemma r_old : r <> old.
  Proof. intros E. apply (Dis r); [left; auto|left; auto]. Qed.
  Lemma par_r x : In x W -> par x <> r.
  Proof. intros H E. apply (Dis r); [left; auto|]. rewrite <- E. now apply (wf_parent _ W2). Qed.
  Lemma par_self x : In x W -> par x <> x.
  Proof. intros H E. apply (below_irrefl T2 W2 x). rewrite <- E at 2. now constructor. Qed.

  Definition cp (D : list nat) (w : nat) : nat :=
    if mem w D then (if mem (par w) N then par w else r)
    else if mem w N then par w else if mem (par w) D then old else par w.

  Record Inv (D : list nat) (h : heap) : Prop := {
    v_next : h_next h = h_next h0; v_kind : h_kind h = h_kind h0; v_desc : h_desc h = h_desc h0;
    v_emp : h_emp h = h_emp h0; v_eord : h_eord h = h_eord h0;
    v_pos : pos_ok h n D;
    v_ord : forall y, ~ In y D -> h_ord h y = h_ord h0 y;
    v_root : forall y, h_root h y = if mem y D then r else h_root h0 y;
    v_par : forall y, h_par h y = if mem y W then Some (cp D y) else h_par h0 y;
    v_ch : forall y, node_of T2 y -> h_ch h y = filter (fun w => Nat.eqb (cp D w) y) W;
    v_chr : h_ch h r = h_ch h0 r ++ filter (fun w => Nat.eqb (cp D w) r) D;
    v_cho : forall y, y <> r -> ~ node_of T2 y -> h_ch h y = h_ch h0 y }.

  Lemma inv_start : Inv [] h0.
  Proof.
    assert (C : forall w, cp [] w = par w) by (intros w; unfold cp; cbn; destruct (mem w N); auto).
    constructor; auto.
    - apply pos_ok_nil.
    - intros y. destruct (mem y W) eqn:E; auto. rewrite C. apply mem_In in E. now apply (r_par _ _ R2).
    - intros y Hy. rewrite (r_ch _ _ R2 y Hy). apply filter_ext_in'. intros w _. now rewrite C.
    - cbn. now rewrite app_nil_r.
  Qed.

  (** after the children that stay have been given to the old root *)
  Definition cp1 (D : list nat) (x w : nat) : nat := if negb (mem w N) && Nat.eqb (par w) x then old else cp D w.
  Record Mid (D : list nat) (x : nat) (h : heap) : Prop := {
    w_next : h_next h = h_next h0; w_kind : h_kind h = h_kind h0; w_desc : h_desc h = h_desc h0;
    w_emp : h_emp h = h_emp h0; w_eord : h_eord h = h_eord h0;
    w_pos : pos_ok h n (D ++ [x]);
    w_ord : forall y, ~ In y (D ++ [x]) -> h_ord h y = h_ord h0 y;
    w_root : forall y, h_root h y = if mem y (D ++ [x]) then r else h_root h0 y;
    w_par : forall y, h_par h y = if mem y W then Some (cp1 D x y) else h_par h0 y;
    w_ch : forall y, node_of T2 y -> y <> old -> h_ch h y = filter (fun w => Nat.eqb (cp1 D x w) y) W;
    w_chold : filter (fun w => negb (Nat.eqb w x)) (h_ch h old) = filter (fun w => Nat.eqb (cp1 D x w) old && negb (Nat.eqb w x)) W;
    w_chx : In x (h_ch h old) -> par x = old;
    w_chr : h_ch h r = h_ch h0 r ++ filter (fun w => Nat.eqb (cp D w) r) D;
    w_cho : forall y, y <> r -> ~ node_of T2 y -> h_ch h y = h_ch h0 y }.

  Section Step.
    Variables (D R : list nat) (x : nat) (h : heap).
    Hypothesis EN : N = D ++ x :: R.
    Hypothesis I : Inv D h.
    Let h1 := put_root (put_ord h x (Z.of_nat n + Z.of_nat (length D) + 1)) x r.

    Lemma x_N : In x N.
    Proof. rewrite EN. apply in_app_iff. right. now left. Qed.
    Lemma x_W : In x W.
    Proof. apply N_W, x_N. Qed.
    Lemma x_D : ~ In x D.
    Proof. pose proof N_nodup as ND. rewrite EN in ND. apply NoDup_remove_2 in ND. intros H. apply ND, in_app_iff. auto. Qed.
    Lemma D_N w : In w D -> In w N.
    Proof. intros H. rewrite EN. apply in_app_iff. auto. Qed.
    Lemma x_old : x <> old.
    Proof. intros E. apply old_N. rewrite <- E. apply x_N. Qed.
    Lemma cp_x : cp D x = par x.
    Proof. unfold cp. rewrite (proj2 (mem_false x D) x_D), (proj2 (mem_In x N) x_N). auto. Qed.
    Lemma memD_N w : mem w D = true -> mem w N = true.
    Proof. rewrite !mem_In. apply D_N. Qed.

    Lemma mid_h1 : h_next h1 = h_next h0 /\ h_kind h1 = h_kind h0 /\ h_desc h1 = h_desc h0 /\ h_emp h1 = h_emp h0 /\
      h_eord h1 = h_eord h0 /\ pos_ok h1 n (D ++ [x]) /\ (forall y, ~ In y (D ++ [x]) -> h_ord h1 y = h_ord h0 y) /\
      (forall y, h_root h1 y = if mem y (D ++ [x]) then r else h_root h0 y) /\ h_par h1 = h_par h /\ h_ch h1 = h_ch h.
    Proof.
      unfold h1. cbn. repeat (split; [apply I|]). split; [|split; [|split]]; auto.
      - apply pos_ok_app. split.
        + apply (pos_ok_ext h); [|apply (v_pos _ _ I)]. intros y Hy. cbn. apply upd_other. intros ->. now apply x_D.
        + apply pos_ok_cons. split; [|apply pos_ok_nil]. cbn. rewrite upd_same. lia.
      - intros y Hy. rewrite in_app_iff in Hy. cbn in Hy. rewrite upd_other by intuition. apply (v_ord _ _ I). tauto.
      - intros y. rewrite mem_snoc. destruct (Nat.eqb_spec y x) as [->|Hn].
        + rewrite upd_same, orb_true_r. auto.
        + rewrite upd_other by auto. rewrite orb_false_r. apply (v_root _ _ I).
    Qed.

    Lemma cp_not_N w : mem w N = false -> (cp D w = x <-> par w = x).
    Proof.
      intros Hw. unfold cp. destruct (mem w D) eqn:E; [rewrite (memD_N w E) in Hw; discriminate|]. rewrite Hw.
      destruct (mem (par w) D) eqn:E2; [|tauto]. split; intros E3.
      - exfalso. apply x_old. auto.
      - exfalso. apply x_D. apply mem_In. now rewrite <- E3.
    Qed.
    Lemma cp_D_old w : In w W -> mem w D = true -> cp D w <> old.
    Proof.
      intros Hw E. unfold cp. rewrite E. destruct (mem (par w) N) eqn:E2.
      - apply mem_In in E2. intros E3. apply old_N. now rewrite <- E3.
      - apply r_old.
    Qed.

    Lemma mid_whole : (forall w, In w W -> In w N) -> Mid D x h1.
    Proof.
      intros A. assert (C : forall w, In w W -> cp1 D x w = cp D w).
      { intros w Hw. unfold cp1. apply A in Hw. apply mem_In in Hw. rewrite Hw. reflexivity. }
      destruct mid_h1 as (A1 & A2 & A3 & A4 & A5 & A6 & A7 & A8 & A9 & A10). constructor; auto.
      - intros y. rewrite A9, (v_par _ _ I). destruct (mem y W) eqn:E; auto. apply mem_In in E. now rewrite C.
      - intros y Hy _. rewrite A10, (v_ch _ _ I y Hy). apply filter_ext_in'. intros w Hw. now rewrite C.
      - rewrite A10, (v_ch _ _ I) by (left; auto). rewrite filter_filter. apply filter_ext_in'. intros w Hw. rewrite C by auto.
        apply andb_comm || auto.
      - rewrite A10, (v_ch _ _ I) by (left; auto). intros H. apply filter_In in H as [_ H]. apply Nat.eqb_eq in H.
        now rewrite <- cp_x.
      - rewrite A10. apply (v_chr _ _ I).
      - intros y H1 H2. rewrite A10. now apply (v_cho _ _ I).
    Qed.

    Lemma mid_part : let h2 := leave_children h1 old (filter (fun k => negb (mem k N)) (h_ch h1 x)) in
      Mid D x (put_ch h2 x (filter (fun k => mem k N) (h_ch h2 x))).
    Proof.
      destruct mid_h1 as (A1 & A2 & A3 & A4 & A5 & A6 & A7 & A8 & A9 & A10). clearbody h1.
      set (l := filter (fun k => negb (mem k N)) (h_ch h1 x)).
      assert (Nx : node_of T2 x) by (right; apply x_W).
      assert (No : node_of T2 old) by (left; auto).
      assert (Hl : forall w, In w W -> mem w l = negb (mem w N) && Nat.eqb (par w) x).
      { intros w Hw. unfold l. rewrite A10, (v_ch _ _ I x Nx). rewrite !mem_filter, (proj2 (mem_In w W) Hw). cbn.
        destruct (mem w N) eqn:E; cbn; [now rewrite andb_false_r|]. rewrite andb_true_r.
        pose proof (cp_not_N w E) as Q. destruct (Nat.eqb_spec (cp D w) x), (Nat.eqb_spec (par w) x); tauto. }
      assert (Hlo : forall w, ~ In w W -> mem w l = false).
      { intros w Hw. unfold l. rewrite A10, (v_ch _ _ I x Nx), !mem_filter. now rewrite (proj2 (mem_false w W) Hw). }
      set (V := filter (fun w => negb (mem w (D ++ [x]))) W).
      destruct (leave_ok x l h1 old V (fun w => Nat.eqb (cp D w) old)) as (B1 & B2 & B3 & B4 & B5 & B6 & B7 & B8 & B9 & B10 & B11).
      { apply x_old. }
      { unfold V. assert (G : forall L, StronglySorted (key_lt (h_ord h0)) L ->
          StronglySorted (key_lt (h_ord h1)) (filter (fun w => negb (mem w (D ++ [x]))) L)).
        { intros L S. induction S as [|y L S IH F]; cbn [filter]; [constructor|].
          destruct (mem y (D ++ [x])) eqn:E; cbn [negb]; auto. constructor; auto. apply Forall_forall. intros z Hz.
          apply filter_In in Hz as [Hz1 Hz2]. rewrite Forall_forall in F. specialize (F z Hz1). unfold key_lt in *.
          apply negb_true_iff in Hz2. apply mem_false in E, Hz2. now rewrite !A7. }
        apply G. apply (words_sorted h0 T2 R2). }
      { rewrite A10, (v_ch _ _ I old No). unfold V. rewrite !filter_filter. apply filter_ext_in'. intros w Hw.
        rewrite mem_snoc. destruct (mem w D) eqn:E; cbn; [|apply andb_comm].
        destruct (Nat.eqb_spec (cp D w) old) as [E2|]; auto. exfalso; now apply (cp_D_old w Hw E). }
      { unfold l. apply NoDup_filter. rewrite A10, (v_ch _ _ I x Nx). apply NoDup_filter, (wf_nodup _ W2). }
      { intros c Hc. apply mem_In in Hc.
        assert (Hcw : In c W). { destruct (mem c W) eqn:E; [now apply mem_In|]. apply mem_false in E. rewrite Hlo in Hc by auto. discriminate. }
        rewrite (Hl c Hcw) in Hc. apply andb_true_iff in Hc as [C1 C2]. apply negb_true_iff in C1. apply Nat.eqb_eq in C2.
        assert (C3 : c <> x). { intros ->. rewrite (proj2 (mem_In x N) x_N) in C1. discriminate. }
        split; [|split; auto].
        - unfold V. apply filter_In. split; auto. rewrite mem_snoc. destruct (mem c D) eqn:E; [rewrite (memD_N c E) in C1; discriminate|].
          cbn. apply negb_true_iff. now apply Nat.eqb_neq.
        - apply Nat.eqb_neq. intros E. apply (cp_not_N c C1) in C2. rewrite C2 in E. now apply x_old. }
      cbv zeta. set (h2 := leave_children h1 old l) in *. clearbody h2.
      assert (Hx2 : h_ch h2 x = h_ch h x) by (rewrite B9, A10 by apply x_old; auto).
      constructor; cbn; try congruence.
      - apply (pos_ok_ext h1); auto. intros y _. cbn. now rewrite B3.
      - intros y Hy. rewrite B3. auto.
      - intros y. rewrite B4. auto.
      - intros y. rewrite B8, A9, (v_par _ _ I). unfold cp1. destruct (mem y W) eqn:E.
        + apply mem_In in E. rewrite Hl by auto. destruct (negb (mem y N) && Nat.eqb (par y) x); auto.
        + apply mem_false in E. rewrite Hlo by auto. auto.
      - intros y Hy Hyo. destruct (Nat.eq_dec y x) as [->|Hyx]; upds.
        + rewrite Hx2, (v_ch _ _ I x Nx), filter_filter. apply filter_ext_in'. intros w Hw. unfold cp1.
          destruct (mem w N) eqn:E; cbn; [now rewrite ?andb_true_r|]. rewrite ?andb_false_r.
          pose proof (cp_not_N w E) as Q. symmetry. destruct (Nat.eqb_spec (par w) x).
          * apply Nat.eqb_neq. intros E2. apply x_old. auto.
          * apply Nat.eqb_neq. tauto.
        + rewrite B9, A10, (v_ch _ _ I y Hy) by auto. apply filter_ext_in'. intros w Hw. unfold cp1.
          destruct (mem w N) eqn:E; cbn; auto. pose proof (cp_not_N w E) as Q. destruct (Nat.eqb_spec (par w) x); auto.
          rewrite (proj2 Q) by auto. transitivity false; [|symmetry]; apply Nat.eqb_neq; congruence.
      - rewrite upd_other by (intros E; apply x_old; auto). rewrite B10. unfold V. rewrite filter_filter. apply filter_ext_in'.
        intros w Hw. rewrite (Hl w Hw), mem_snoc. unfold cp1. destruct (mem w D) eqn:E; cbn.
        + rewrite (memD_N w E). cbn. destruct (Nat.eqb_spec (cp D w) old) as [E2|]; auto. exfalso; now apply (cp_D_old w Hw E).
        + destruct (mem w N) eqn:E2; cbn; rewrite ?orb_false_r; auto; [apply andb_comm|].
          destruct (Nat.eqb_spec (par w) x); cbn; rewrite ?orb_true_r, ?orb_false_r, ?Nat.eqb_refl; cbn; rewrite ?andb_true_r; auto; apply andb_comm.
      - rewrite upd_other by (intros E; apply x_old; auto). intros H. apply B11 in H. rewrite A10, (v_ch _ _ I old No) in H.
        apply filter_In in H as [_ H]. apply Nat.eqb_eq in H. now rewrite <- cp_x.
      - rewrite upd_other by (intros E; apply r_W; rewrite E; apply x_W). rewrite B9, A10 by apply r_old. apply (v_chr _ _ I).
      - intros y H1 H2. assert (y <> x) by (intros ->; apply H2; auto). rewrite upd_other by auto.
        rewrite B9, A10 by (intros ->; apply H2; auto). now apply (v_cho _ _ I).
    Qed.

    Lemma cp_next w : cp (D ++ [x]) w = if Nat.eqb w x then (if mem (par x) N then par x else r) else cp1 D x w.
    Proof.
      unfold cp, cp1. unfold cp. rewrite !mem_snoc. destruct (Nat.eqb_spec w x) as [->|Hn]; [now rewrite orb_true_r|].
      rewrite orb_false_r. destruct (mem w D) eqn:E.
      - rewrite (memD_N w E). reflexivity.
      - destruct (mem w N); cbn; auto. destruct (Nat.eqb_spec (par w) x) as [E2|]; [now rewrite orb_true_r|now rewrite orb_false_r].
    Qed.
    Lemma cp1_x : cp1 D x x = par x.
    Proof. unfold cp1. rewrite (proj2 (mem_In x N) x_N). cbn. apply cp_x. Qed.

    Lemma mid_moved h2 : Mid D x h2 -> mem (par x) N = false ->
      let h3 := put_ch h2 (par x) (filter (fun k => negb (Nat.eqb k x)) (h_ch h2 (par x))) in
      let h4 := put_par h3 x (Some r) in Inv (D ++ [x]) (put_ch h4 r (h_ch h4 r ++ [x])).
    Proof.
      intros M EP. cbv zeta. pose proof x_W as XW. assert (PR : par x <> r) by (now apply par_r).
      assert (C : forall w, In w W -> cp (D ++ [x]) w = if Nat.eqb w x then r else cp1 D x w).
      { intros w Hw. rewrite cp_next, EP. reflexivity. }
      constructor; cbn; try (destruct M; assumption).
      - intros y. destruct (Nat.eq_dec y x) as [->|Hn]; upds.
        + rewrite (proj2 (mem_In x W) XW), C, Nat.eqb_refl by auto. reflexivity.
        + rewrite (w_par _ _ _ M). destruct (mem y W) eqn:E; auto. apply mem_In in E. rewrite C by auto.
          destruct (Nat.eqb_spec y x); congruence.
      - intros y Hy. assert (Hyr : y <> r) by (intros ->; now apply (Dis r (or_introl eq_refl))).
        rewrite upd_other by auto. destruct (Nat.eq_dec y (par x)) as [->|Hn].
        + rewrite upd_same. destruct (Nat.eq_dec (par x) old) as [E|Hno].
          * rewrite E, (w_chold _ _ _ M). apply filter_ext_in'. intros w Hw. rewrite C by auto.
            destruct (Nat.eqb_spec w x); cbn; [|now rewrite andb_true_r]. rewrite andb_false_r. symmetry. apply Nat.eqb_neq, r_old.
          * rewrite (w_ch _ _ _ M _ Hy Hno), filter_filter. apply filter_ext_in'. intros w Hw. rewrite C by auto.
            destruct (Nat.eqb_spec w x); cbn; [|now rewrite ?andb_true_r]. rewrite ?andb_false_r. symmetry. apply Nat.eqb_neq. auto.
        + rewrite upd_other by auto. destruct (Nat.eq_dec y old) as [->|Hno].
          * assert (NX : ~ In x (h_ch h2 old)) by (intros H; apply (w_chx _ _ _ M) in H; congruence).
            rewrite <- (filter_all (fun w => negb (Nat.eqb w x)) (h_ch h2 old)).
            2:{ intros w Hw. apply negb_true_iff, Nat.eqb_neq. intros ->. auto. }
            rewrite (w_chold _ _ _ M). apply filter_ext_in'. intros w Hw. rewrite C by auto.
            destruct (Nat.eqb_spec w x); cbn; [|now rewrite andb_true_r]. rewrite andb_false_r. symmetry. apply Nat.eqb_neq, r_old.
          * rewrite (w_ch _ _ _ M _ Hy Hno). apply filter_ext_in'. intros w Hw. rewrite C by auto.
            destruct (Nat.eqb_spec w x) as [->|]; auto. rewrite cp1_x. transitivity false; [|symmetry]; apply Nat.eqb_neq; auto.
      - rewrite upd_same, upd_other by auto. rewrite (w_chr _ _ _ M), <- app_assoc. f_equal. rewrite filter_app. f_equal.
        + apply filter_ext_in'. intros w Hw. rewrite cp_next. destruct (Nat.eqb_spec w x) as [->|]; [exfalso; now apply x_D|].
          unfold cp1. rewrite (proj2 (mem_In w N) (D_N w Hw)). reflexivity.
        + cbn. rewrite cp_next, Nat.eqb_refl, EP, Nat.eqb_refl. reflexivity.
      - intros y H1 H2. rewrite !upd_other; auto; [apply M; auto|]. intros ->. apply H2. now apply (wf_parent _ W2).
    Qed.

    Lemma mid_kept h2 : Mid D x h2 -> mem (par x) N = true -> Inv (D ++ [x]) h2.
    Proof.
      intros M EP. pose proof x_W as XW. assert (PR : par x <> r) by (now apply par_r).
      assert (PO : par x <> old) by (apply mem_In in EP; intros E; apply old_N; now rewrite <- E).
      assert (C : forall w, In w W -> cp (D ++ [x]) w = cp1 D x w).
      { intros w Hw. rewrite cp_next, EP. destruct (Nat.eqb_spec w x) as [->|]; auto. now rewrite cp1_x. }
      constructor; cbn; try (destruct M; assumption).
      - intros y. rewrite (w_par _ _ _ M). destruct (mem y W) eqn:E; auto. apply mem_In in E. now rewrite C by auto.
      - intros y Hy. destruct (Nat.eq_dec y old) as [->|Hno].
        + assert (NX : ~ In x (h_ch h2 old)) by (intros H; apply (w_chx _ _ _ M) in H; congruence).
          rewrite <- (filter_all (fun w => negb (Nat.eqb w x)) (h_ch h2 old)).
          2:{ intros w Hw. apply negb_true_iff, Nat.eqb_neq. intros ->. auto. }
          rewrite (w_chold _ _ _ M). apply filter_ext_in'. intros w Hw. rewrite C by auto.
          destruct (Nat.eqb_spec w x) as [->|]; cbn; [|now rewrite andb_true_r]. rewrite andb_false_r. symmetry. apply Nat.eqb_neq. now rewrite cp1_x.
        + rewrite (w_ch _ _ _ M _ Hy Hno). apply filter_ext_in'. intros w Hw. now rewrite C by auto.
      - rewrite (w_chr _ _ _ M), filter_app. cbn. rewrite cp_next, Nat.eqb_refl, EP. destruct (Nat.eqb_spec (par x) r); [congruence|].
        rewrite app_nil_r. f_equal. apply filter_ext_in'. intros w Hw. rewrite cp_next. destruct (Nat.eqb_spec w x) as [->|]; [exfalso; now apply x_D|].
        unfold cp1. rewrite (proj2 (mem_In w N) (D_N w Hw)). reflexivity.
    Qed.
  End Step.

  Lemma steal_loop_ok whole : (whole = true -> forall w, In w W -> In w N) -> forall l D h, N = D ++ l -> Inv D h ->
    exists h', steal_loop h r old whole N (Z.of_nat n + Z.of_nat (length D)) l = (h', Ok tt) /\ Inv N h'.
  Proof.
    intros HW. induction l as [|x l IH]; intros D h EN I.
    - rewrite app_nil_r in EN. subst D. exists h. auto.
    - cbn [steal_loop]. cbv zeta. set (h1 := put_root _ x r).
      assert (M : exists h2, h2 = (if whole then h1
             else let h := leave_children h1 old (filter (fun n => negb (mem n N)) (h_ch h1 x)) in
                  put_ch h x (filter (fun n => mem n N) (h_ch h x))) /\ Mid D x h2).
      { eexists. split; [reflexivity|]. destruct whole; [apply (mid_whole D l x h EN I); auto|apply (mid_part D l x h EN I)]. }
      destruct M as (h2 & E2 & M). cbv zeta in E2. rewrite <- E2. clear E2. clearbody h1. clear h1.
      assert (XW : In x W) by (apply (x_W D l x EN)).
      rewrite (w_par _ _ _ M x), (proj2 (mem_In x W) XW), (cp1_x D l x EN).
      assert (EC : Nat.eqb (par x) old || (negb whole && negb (mem (par x) N)) = negb (mem (par x) N)).
      { destruct (Nat.eqb_spec (par x) old) as [E|E].
        - rewrite E. cbn. symmetry. apply negb_true_iff, mem_false, old_N.
        - cbn. destruct whole; auto. cbn. symmetry. apply negb_false_iff, mem_In, HW; auto.
          destruct (wf_parent _ W2 x XW); [congruence|auto]. }
      rewrite EC. clear EC.
      replace (Z.of_nat n + Z.of_nat (length D) + 1)%Z with (Z.of_nat n + Z.of_nat (length (D ++ [x])))%Z
        by (rewrite app_length; cbn; lia).
      apply IH; [rewrite EN, <- app_assoc; auto|].
      destruct (mem (par x) N) eqn:EP; cbn [negb].
      + eapply mid_kept; eauto.
      + eapply mid_moved; eauto.
  Qed.

  (** ---- the trees at the end ---- *)
  Definition t_to : atree := mkT r (a_words T ++ N)
    (fun x => if mem x N then (if mem (par x) N then par x else r) else a_par T x).
  Definition t_from : atree := mkT old (filter (fun w => negb (mem w N)) W)
    (fun x => if mem (par x) N then old else par x).

  Lemma T_N w : In w (a_words T) -> ~ In w N.
  Proof. intros H1 H2. apply (Dis w); right; auto. now apply N_W. Qed.

  Lemma wf_to : wf t_to.
  Proof.
    constructor; cbn.
    - apply NoDup_app; [apply (wf_nodup _ W1)|apply N_nodup|]. intros x. apply T_N.
    - rewrite in_app_iff. intros [H|H]; [now apply (wf_rootfresh _ W1)|apply r_W, N_W, H].
    - intros x Hx. destruct (mem x N) eqn:E.
      + destruct (mem (par x) N) eqn:E2; [|left; auto]. right. cbn. apply in_app_iff. right. now apply mem_In.
      + apply in_app_iff in Hx as [Hx|Hx]; [|apply mem_In in Hx; congruence].
        destruct (wf_parent _ W1 x Hx) as [H|H]; [left; auto|right; apply in_app_iff; auto].
    - intros x Hx. apply in_app_iff in Hx as [Hx|Hx].
      + apply (below_mono T); [|now apply (wf_reach _ W1)]. cbn. intros y Hy. split; [apply in_app_iff; auto|].
        now rewrite (proj2 (mem_false y N) (T_N y Hy)).
      + pose proof (wf_reach _ W2 x (N_W x Hx)) as B. remember old as a eqn:Ea.
        induction B as [x Hw|x a Hw B IH].
        * assert (E : a_par t_to x = r).
          { cbn. rewrite (proj2 (mem_In x N) Hx), Ea, (proj2 (mem_false old N) old_N). auto. }
          rewrite <- E. constructor. cbn. apply in_app_iff; auto.
        * destruct (mem (par x) N) eqn:E2.
          -- apply below_up; [cbn; apply in_app_iff; auto|]. cbn. rewrite (proj2 (mem_In x N) Hx), E2. apply IH; auto. now apply mem_In.
          -- assert (E : a_par t_to x = r) by (cbn; now rewrite (proj2 (mem_In x N) Hx), E2).
             rewrite <- E. constructor. cbn. apply in_app_iff; auto.
  Qed.
  Lemma wf_from : wf t_from.
  Proof.
    assert (IN : forall x, In x (a_words t_from) <-> In x W /\ ~ In x N).
    { intros x. cbn. rewrite filter_In, negb_true_iff, mem_false. tauto. }
    constructor.
    - cbn. apply NoDup_filter, (wf_nodup _ W2).
    - intros H. apply IN in H. now apply (wf_rootfresh _ W2).
    - intros x Hx. apply IN in Hx as [Hx _]. unfold node_of. rewrite IN. cbn. destruct (mem (par x) N) eqn:E; auto.
      apply mem_false in E. destruct (wf_parent _ W2 x Hx); auto.
    - intros x Hx. cbn. pose proof (proj1 (IN x) Hx) as [Hw _]. pose proof (wf_reach _ W2 x Hw) as B. remember old as a eqn:Ea.
      clear Hw. induction B as [x Hw|x a Hw B IH].
      + assert (E : a_par t_from x = old).
        { cbn. destruct (mem (par x) N); auto. }
        rewrite Ea, <- E. now constructor.
      + destruct (mem (par x) N) eqn:E2.
        * assert (E : a_par t_from x = old) by (cbn; now rewrite E2). rewrite Ea, <- E. now constructor.
        * apply below_up; auto. cbn. rewrite E2. apply IH; auto. apply IN. split; [|now apply mem_false].
          inversion B; auto.
  Qed.

  Variable h' : heap.
  Hypothesis F : Inv N h'.
  Variable L : list nat.
  Hypothesis EL : L = filter (fun w => negb (mem w N)) W.
  Let hF := put_desc (put_desc h' old L) r (a_words T ++ N).

  Lemma cp_N w : In w W -> cp N w = if mem w N then (if mem (par w) N then par w else r) else if mem (par w) N then old else par w.
  Proof. intros Hw. unfold cp. destruct (mem w N); auto. Qed.

  Lemma repr_to : Repr hF t_to.
  Proof.
    pose proof r_old as Hro. pose proof r_W as HrW.
    assert (rN : ~ In r N) by (intros H; apply HrW, N_W, H).
    assert (TW : forall w, In w (a_words T) -> ~ In w W) by (intros w H1 H2; apply (Dis w); right; auto).
    constructor; unfold hF; cbn.
    - now rewrite upd_same.
    - intros i x. destruct (Nat.ltb_spec i (length (a_words T))) as [Hi|Hi].
      + rewrite nth_error_app1 by auto. intros E. rewrite (v_ord _ _ F) by (apply T_N; eapply nth_error_In; eauto).
        now apply (r_ord _ _ R1).
      + rewrite nth_error_app2 by auto. intros E. rewrite (v_pos _ _ F _ _ E). unfold n. lia.
    - rewrite (v_ord _ _ F) by auto. apply (r_ord0 _ _ R1).
    - intros x Hx. rewrite (v_par _ _ F). apply in_app_iff in Hx as [Hx|Hx].
      + rewrite (proj2 (mem_false x W) (TW x Hx)), (proj2 (mem_false x N) (T_N x Hx)). now apply (r_par _ _ R1).
      + rewrite (proj2 (mem_In x W) (N_W x Hx)), cp_N, (proj2 (mem_In x N) Hx) by (now apply N_W). auto.
    - rewrite (v_par _ _ F), (proj2 (mem_false r W) HrW). apply (r_parroot _ _ R1).
    - intros y Hy.
      assert (G1 : forall z, filter (fun c => Nat.eqb (if mem c N then (if mem (par c) N then par c else r) else a_par T c) z) (a_words T) =
                        filter (fun c => Nat.eqb (a_par T c) z) (a_words T)).
      { intros z. apply filter_ext_in'. intros c Hc. now rewrite (proj2 (mem_false c N) (T_N c Hc)). }
      assert (G2 : forall z, filter (fun c => Nat.eqb (if mem c N then (if mem (par c) N then par c else r) else a_par T c) z) N =
                        filter (fun w => Nat.eqb (cp N w) z) N).
      { intros z. apply filter_ext_in'. intros c Hc. rewrite cp_N, (proj2 (mem_In c N) Hc) by (now apply N_W). auto. }
      rewrite filter_app, G1, G2. destruct Hy as [Hy|Hy]; cbn in Hy.
      + subst y. rewrite (v_chr _ _ F), (r_ch _ _ R1) by (left; auto). reflexivity.
      + apply in_app_iff in Hy as [Hy|Hy].
        * rewrite (v_cho _ _ F).
          -- rewrite (r_ch _ _ R1) by (right; auto).
             rewrite (filter_none (fun w => Nat.eqb (cp N w) y) N); [now rewrite app_nil_r|]. intros c Hc.
             rewrite cp_N, (proj2 (mem_In c N) Hc) by (now apply N_W). apply Nat.eqb_neq.
             destruct (mem (par c) N) eqn:E; [|intros <-; now apply (wf_rootfresh _ W1)].
             apply mem_In in E. intros <-. now apply (T_N (par c)).
          -- intros ->. now apply (wf_rootfresh _ W1).
          -- intros Hn. apply (Dis y); auto. now right.
        * rewrite (v_ch _ _ F) by (right; now apply N_W).
          rewrite (filter_none (fun c => Nat.eqb (a_par T c) y) (a_words T)).
          -- cbn [app]. transitivity (filter (fun w => Nat.eqb (cp N w) y) (filter (fun w => mem w N) W)); [|now rewrite HN]. rewrite filter_filter. apply filter_ext_in'. intros w Hw.
             destruct (mem w N) eqn:E; rewrite ?andb_true_r, ?andb_false_r; auto. cbn.
             rewrite cp_N, E by auto. apply Nat.eqb_neq. destruct (mem (par w) N) eqn:E2.
             ++ intros <-. now apply old_N.
             ++ intros <-. apply mem_false in E2. auto.
          -- intros c Hc. apply Nat.eqb_neq. intros E. apply (Dis y); [|right; now apply N_W]. rewrite <- E. now apply (wf_parent _ W1).
    - intros y Hy. rewrite (v_root _ _ F). destruct (mem y N) eqn:E; auto. apply (r_root _ _ R1).
      destruct Hy as [Hy|Hy]; [left; auto|]. cbn in Hy. apply in_app_iff in Hy as [Hy|Hy]; [right; auto|].
      apply mem_In in Hy. congruence.
    - intros x Hx. rewrite (v_kind _ _ F). apply in_app_iff in Hx as [Hx|Hx]; [now apply (r_kind _ _ R1)|apply (r_kind _ _ R2), N_W, Hx].
    - rewrite (v_kind _ _ F). apply (r_kindroot _ _ R1).
    - intros y Hy. rewrite (v_next _ _ F). destruct Hy as [->|Hy]; [apply (r_alloc _ _ R1); left; auto|].
      cbn in Hy. apply in_app_iff in Hy as [Hy|Hy]; [apply (r_alloc _ _ R1); right; auto|apply (r_alloc _ _ R2); right; now apply N_W].
  Qed.

  Lemma repr_from : Repr (renumber hF 1 L) t_from.
  Proof.
    pose proof r_old as Hro. pose proof old_N as HoN.
    destruct (renumber_fields L hF 1) as [[S1 S2 S3 S4] [Ep [Ec [Ed Ee]]]].
    assert (IN : forall x, In x L <-> In x W /\ ~ In x N) by (intros x; rewrite EL, filter_In, negb_true_iff, mem_false; tauto).
    assert (NL : ~ In old L) by (intros H; apply IN in H as [H _]; now apply (wf_rootfresh _ W2)).
    assert (Q : h_desc hF old = L /\ h_par hF = h_par h' /\ h_ch hF = h_ch h' /\ h_root hF = h_root h' /\
                h_kind hF = h_kind h' /\ h_next hF = h_next h' /\ h_ord hF = h_ord h').
    { unfold hF. cbn. upds. repeat split. }
    destruct Q as (Q1 & Q2 & Q3 & Q4 & Q5 & Q6 & Q7). clearbody hF.
    constructor; cbn [t_from a_root a_words a_par]; rewrite <- ?EL, ?Ep, ?Ec, ?Ed, ?S1, ?S2, ?S3, ?Q2, ?Q3, ?Q4, ?Q5, ?Q6.
    - exact Q1.
    - intros i x E. rewrite (renumber_in L hF 1 i x); auto; [lia|]. rewrite EL. apply NoDup_filter, (wf_nodup _ W2).
    - rewrite renumber_out, Q7 by auto. rewrite (v_ord _ _ F) by auto. apply (r_ord0 _ _ R2).
    - intros x Hx. apply IN in Hx as [H1 H2]. rewrite (v_par _ _ F), (proj2 (mem_In x W) H1), cp_N, (proj2 (mem_false x N) H2) by auto. auto.
    - rewrite (v_par _ _ F), (proj2 (mem_false old W)) by apply (wf_rootfresh _ W2). apply (r_parroot _ _ R2).
    - intros y Hy. assert (Hy2 : node_of T2 y /\ ~ In y N).
      { destruct Hy as [->|Hy]; [split; [left; auto|auto]|]. cbn in Hy. rewrite <- EL in Hy. apply IN in Hy as [H1 H2]. split; [right; auto|auto]. }
      destruct Hy2 as [Hy2 HyN]. rewrite (v_ch _ _ F y Hy2), EL, filter_filter. apply filter_ext_in'. intros w Hw.
      rewrite cp_N by auto. destruct (mem w N) eqn:E; rewrite ?andb_true_r, ?andb_false_r; auto. cbn. apply Nat.eqb_neq.
      destruct (mem (par w) N) eqn:E2; [intros <-; apply HyN; now apply mem_In|].
      intros <-. now apply (Dis r (or_introl eq_refl)).
    - intros y Hy. rewrite (v_root _ _ F). destruct Hy as [->|Hy].
      + rewrite (proj2 (mem_false (a_root t_from) N)) by auto. apply (r_root _ _ R2). left; auto.
      + cbn in Hy. rewrite <- EL in Hy. apply IN in Hy as [H1 H2]. rewrite (proj2 (mem_false y N)) by auto. apply (r_root _ _ R2). right; auto.
    - intros x Hx. apply IN in Hx as [H1 H2]. rewrite (v_kind _ _ F). now apply (r_kind _ _ R2).
    - rewrite (v_kind _ _ F). apply (r_kindroot _ _ R2).
    - intros y Hy. rewrite (v_next _ _ F). destruct Hy as [->|Hy]; [apply (r_alloc _ _ R2); left; auto|].
      cbn in Hy. rewrite <- EL in Hy. apply IN in Hy as [H1 H2]. apply (r_alloc _ _ R2). right; auto.
  Qed.

  Lemma gaps_from : consistent_with_gaps hF old.
  Proof.
    pose proof (Repr_consistent _ _ repr_from wf_from) as C. change (a_root t_from) with old in C.
    destruct (renumber_fields L hF 1) as [[S1 S2 S3 S4] [Ep [Ec [Ed Ee]]]].
    assert (EDe : h_desc hF old = L) by (unfold hF; cbn; pose proof r_old; upds; auto).
    assert (U : forall x a, up (renumber hF 1 L) x a -> up hF x a).
    { intros x a H. induction H as [x p E|x p a E H IH]; rewrite Ep in E; [now constructor|eapply up_S; eauto]. }
    destruct C. unfold live, has_parent in *. rewrite ?Ep, ?Ec, ?Ed, ?S1, ?S2, ?S3 in *. constructor; unfold live, has_parent; auto.
    rewrite EDe. assert (IN : forall x, In x L -> In x W /\ ~ In x N) by (intros x; rewrite EL, filter_In, negb_true_iff, mem_false; tauto).
    assert (OL : forall x, In x L -> h_ord hF x = h_ord h0 x).
    { intros x Hx. unfold hF. cbn. apply (v_ord _ _ F). now apply IN. }
    assert (Oo : h_ord hF old = 0%Z).
    { unfold hF. cbn. rewrite (v_ord _ _ F) by apply old_N. apply (r_ord0 _ _ R2). }
    constructor.
    - assert (G : forall K, (forall x, In x K -> In x L) -> StronglySorted (key_lt (h_ord h0)) K ->
          StronglySorted (fun a b => (h_ord hF a < h_ord hF b)%Z) K).
      { intros K HK S. induction S as [|y K S IH FF]; constructor; [apply IH; intros; apply HK; now right|].
        rewrite Forall_forall in *. intros z Hz. specialize (FF z Hz). unfold key_lt in FF.
        rewrite (OL y (HK y (or_introl eq_refl))), (OL z (HK z (or_intror Hz))). auto. }
      apply G; auto. rewrite EL. apply filter_StronglySorted, (words_sorted h0 T2 R2).
    - apply Forall_forall. intros x Hx. rewrite Oo, (OL x Hx). pose proof (word_ord h0 T2 R2 x (proj1 (IN x Hx))). lia.
  Qed.

  (** If the words that stay come first, their ords are still 1, 2, ... *)
  Lemma prefix_from k : W = L ++ k -> consistent hF old.
  Proof.
    intros EK. pose proof (Repr_consistent _ _ repr_from wf_from) as C. change (a_root t_from) with old in C.
    destruct (renumber_fields L hF 1) as [[S1 S2 S3 S4] [Ep [Ec [Ed Ee]]]].
    assert (EDe : h_desc hF old = L) by (unfold hF; cbn; pose proof r_old; upds; auto).
    assert (U : forall x a, up (renumber hF 1 L) x a -> up hF x a).
    { intros x a H. induction H as [x p E|x p a E H IH]; rewrite Ep in E; [now constructor|eapply up_S; eauto]. }
    assert (IN : forall x, In x L -> In x W /\ ~ In x N) by (intros x; rewrite EL, filter_In, negb_true_iff, mem_false; tauto).
    assert (NL : ~ In old L) by (intros H; apply IN in H as [H _]; now apply (wf_rootfresh _ W2)).
    destruct C. unfold live, has_parent in *. rewrite ?Ep, ?Ec, ?Ed, ?S1, ?S2, ?S3 in *. constructor; unfold live, has_parent; auto.
    - rewrite <- c_ords. apply map_ext_in. intros x Hx. rewrite EDe in Hx.
      apply In_nth_error in Hx as [i Hi]. rewrite (renumber_in L hF 1 i x); auto; [|rewrite EL; apply NoDup_filter, (wf_nodup _ W2)].
      change (h_ord hF x) with (h_ord h' x). rewrite (v_ord _ _ F) by (apply IN; eapply nth_error_In; eauto).
      rewrite (r_ord _ _ R2 i x); [lia|]. rewrite EK, nth_error_app1; auto. apply nth_error_Some. congruence.
    - rewrite renumber_out in c_ord0 by auto. auto.
  Qed.
End Steal.
