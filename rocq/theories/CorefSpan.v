(** Proofs about spans of mentions. *)
From Coq Require Import String List NArith ZArith QArith Bool Lia Sorting.Sorted Sorting.Permutation.
From Verif Require Import PyStr PyStrFacts PyList PyListFacts PyExn TreeModel TreeSpec TreeFacts TreeRepr TreeOps TreeCalls TreeProps
  EmptySpec EmptyProofs DepsModel DepsSpec DepsProofs CorefModel CorefSpec.
Import ListNotations.
Local Close Scope Q_scope.
Local Open Scope Z_scope.

(** ---- numbers ---- *)
Lemma id_text_chars t c : 0 <= t -> is_digit c = false -> c <> 46%N -> ~ In c (id_text t).
Proof.
  intros H D N. unfold id_text. destruct (Z.eqb_spec (t mod 10) 0).
  - apply digits_notin; auto. apply Z.div_pos; lia.
  - rewrite !in_app_iff. simpl. intros [I|[[I|[]]|I]].
    + revert I. apply digits_notin; auto. apply Z.div_pos; lia.
    + congruence.
    + revert I. apply digits_notin; auto. apply Z.mod_pos_bound. lia.
Qed.
Lemma strip_nospace x : (forall a, In a x -> is_space a = false) -> strip x = x.
Proof.
  intros H. unfold strip. assert (lstrip x = x) as ->.
  { destruct x as [|a x]; auto. apply lstrip_id. apply H. left; auto. }
  apply rstrip_id. destruct (rev x) as [|a r] eqn:E; auto. apply H. apply in_rev. rewrite E. left; auto.
Qed.
Lemma digit_str t : 0 <= t < 10 -> str_of_Z t = [Z.to_N (t + 48)].
Proof.
  intros H. unfold str_of_Z. destruct (Z.ltb_spec t 0); [lia|]. cbn [nat_digits].
  destruct (Z.ltb_spec t 10); [|lia]. rewrite Z.mod_small by lia. reflexivity.
Qed.
Lemma py_float_id t : 0 <= t -> exists q, py_float (id_text t) = Some q /\ (q == t # 10)%Q.
Proof.
  intros H. unfold py_float. rewrite strip_nospace.
  2:{ intros a I. destruct (is_digit a) eqn:D; [apply is_digit_not_space; auto|].
      destruct (N.eq_dec a 46%N) as [->|N]; [reflexivity|]. exfalso. eapply id_text_chars; eauto. }
  unfold id_text. assert (D0 : 0 <= t / 10) by (apply Z.div_pos; lia).
  destruct (str_of_Z_nonneg _ D0) as (A1 & A2 & A3).
  destruct (Z.eqb_spec (t mod 10) 0) as [E|E].
  - assert (split1 46%N (str_of_Z (t / 10)) = None) as -> by (apply split1_None; apply digits_notin; auto).
    unfold all_digits. rewrite A1. replace (nonempty (str_of_Z (t / 10))) with true by (destruct (str_of_Z (t / 10)); [congruence|reflexivity]). cbn [andb].
    specialize (A3 []). rewrite app_nil_r in A3. rewrite A3. cbn [digits_to_Z option_map]. exists (Qmake (t / 10) 1).
    split; [reflexivity|]. unfold Qeq. cbn [Qnum Qden]. pose proof (Z.div_mod t 10). lia.
  - assert (D1 : 0 <= t mod 10 < 10) by (apply Z.mod_pos_bound; lia).
    change (s "." ++ str_of_Z (t mod 10)) with (46%N :: str_of_Z (t mod 10)).
    rewrite split1_app by (apply digits_notin; auto).
    destruct (str_of_Z_nonneg (t mod 10)) as (B1 & B2 & B3); [lia|].
    unfold all_digits. rewrite A1, B1.
    assert (nonempty (str_of_Z (t mod 10)) = true) as -> by (destruct (str_of_Z (t mod 10)); [congruence|reflexivity]).
    replace (nonempty (str_of_Z (t / 10))) with true by (destruct (str_of_Z (t / 10)); [congruence|reflexivity]). cbn [andb].
    rewrite A3, digit_str by lia. destruct (digit_char _ D1) as [C1 C2]. cbn [digits_to_Z]. rewrite C1, C2.
    cbn [option_map length Pos.of_nat]. eexists. split; [reflexivity|].
    unfold Qeq. cbn [Qnum Qden]. change (10 ^ 1)%positive with 10%positive. pose proof (Z.div_mod t 10). lia.
Qed.

Definition same_range (a : Z * Z) (q : Q * Q) : Prop := (fst q == fst a # 10)%Q /\ (snd q == snd a # 10)%Q.
Lemma parse_range_text a x : 0 <= fst a -> 0 <= snd a -> range_text a x -> exists q, parse_range x = Some q /\ same_range a q.
Proof.
  intros H1 H2 R. unfold parse_range. destruct R as [a|a b]; cbn [fst snd] in *.
  - assert (split1 45%N (id_text a) = None) as -> by (apply split1_None; apply id_text_chars; auto; discriminate).
    destruct (py_float_id a H1) as (q & -> & E). cbn [option_map]. exists (q, q). split; [reflexivity|]. split; exact E.
  - assert (N : forall t, 0 <= t -> ~ In 45%N (id_text t)) by (intros; apply id_text_chars; auto; discriminate).
    change (s "-" ++ id_text b) with (45%N :: id_text b).
    rewrite split1_app by (apply N; auto).
    rewrite split_app by (apply N; auto). rewrite split_nochar by (apply N; auto).
    destruct (py_float_id a H1) as (q & -> & E). destruct (py_float_id b H2) as (q' & -> & E').
    exists (q, q'). split; [reflexivity|]. split; assumption.
Qed.
Lemma range_text_nocomma a x : 0 <= fst a -> 0 <= snd a -> range_text a x -> ~ In 44%N x.
Proof.
  intros H1 H2 R. assert (N : forall t, 0 <= t -> ~ In 44%N (id_text t)) by (intros; apply id_text_chars; auto; discriminate).
  destruct R; cbn [fst snd] in *; [apply N; auto|]. rewrite !in_app_iff. simpl. intros [I|[[I|[]]|I]]; [exact (N a H1 I)|discriminate|exact (N b H2 I)].
Qed.
Lemma parse_ranges_text rs xs : Forall2 range_text rs xs -> (forall a, In a rs -> 0 <= fst a /\ 0 <= snd a) ->
  exists qs, parse_ranges xs = Some qs /\ Forall2 same_range rs qs.
Proof.
  induction 1 as [|a x rs xs R _ IH]; intros N; [exists []; split; [reflexivity|constructor]|].
  destruct (N a) as [N1 N2]; [left; auto|].
  destruct (parse_range_text a x N1 N2 R) as (q & E & S). destruct IH as (qs & E2 & S2); [intros; apply N; right; auto|].
  exists (q :: qs). cbn [parse_ranges]. rewrite E, E2. split; [reflexivity|]. constructor; auto.
Qed.

(** ---- membership in the sorted ranges ---- *)
Lemma range_leb_total a b : range_leb a b = true \/ range_leb b a = true.
Proof.
  unfold range_leb. destruct (Qeq_bool (fst a) (fst b)) eqn:E.
  - apply Qeq_bool_eq in E. assert (Qeq_bool (fst b) (fst a) = true) as -> by (apply Qeq_eq_bool; symmetry; auto).
    rewrite !Qle_bool_iff. destruct (Qlt_le_dec (snd a) (snd b)); [left; apply Qlt_le_weak; auto|right; auto].
  - assert (Qeq_bool (fst b) (fst a) = false) as ->.
    { destruct (Qeq_bool (fst b) (fst a)) eqn:E2; auto. apply Qeq_bool_eq in E2. rewrite Qeq_eq_bool in E; [discriminate|symmetry; auto]. }
    rewrite !Qle_bool_iff. destruct (Qlt_le_dec (fst a) (fst b)); [left; apply Qlt_le_weak; auto|right; auto].
Qed.
Lemma range_leb_lo a b : range_leb a b = true -> (fst a <= fst b)%Q.
Proof.
  unfold range_leb. destruct (Qeq_bool (fst a) (fst b)) eqn:E; [|apply Qle_bool_iff].
  intros _. apply Qeq_bool_eq in E. rewrite E. apply Qle_refl.
Qed.
Lemma range_leb_trans a b d : range_leb a b = true -> range_leb b d = true -> range_leb a d = true.
Proof.
  intros H1 H2. pose proof (range_leb_lo _ _ H1) as L1. pose proof (range_leb_lo _ _ H2) as L2. unfold range_leb in *.
  destruct (Qeq_bool (fst a) (fst d)) eqn:E; [|apply Qle_bool_iff; eapply Qle_trans; eauto].
  apply Qeq_bool_eq in E. assert (fst a == fst b)%Q as E1 by (apply Qle_antisym; auto; rewrite E; auto).
  assert (fst b == fst d)%Q as E2 by (rewrite <- E1; auto). rewrite (Qeq_eq_bool _ _ E1) in H1. rewrite (Qeq_eq_bool _ _ E2) in H2.
  rewrite Qle_bool_iff in *. eapply Qle_trans; eauto.
Qed.
Lemma num_in_ranges_spec l v : StronglySorted (fun a b => range_leb a b = true) l ->
  (num_in_ranges l v = true <-> exists r, In r l /\ (fst r <= v)%Q /\ (v <= snd r)%Q).
Proof.
  induction 1 as [|[lo hi] l S IH F]; cbn [num_in_ranges].
  - split; [discriminate|intros (r & [] & _)].
  - rewrite Forall_forall in F. destruct (Qle_bool lo v) eqn:E; cbn [negb].
    + destruct (Qle_bool v hi) eqn:E2.
      * split; auto. intros _. exists (lo, hi). rewrite Qle_bool_iff in *. split; [left; auto|]. split; auto.
      * rewrite IH. split; intros (r & I & A & B).
        -- exists r. split; [right; auto|auto].
        -- destruct I as [<-|I]; [|exists r; auto]. cbn in B. apply Qle_bool_iff in B. congruence.
    + split; [discriminate|]. intros (r & I & A & B). exfalso.
      assert (lo <= v)%Q; [|apply Qle_bool_iff in H; congruence].
      destruct I as [<-|I]; [exact A|]. specialize (F r I). apply range_leb_lo in F. eapply Qle_trans; eauto.
Qed.

Lemma q_le_tenths a b : ((a # 10) <= (b # 10))%Q <-> a <= b.
Proof. unfold Qle. cbn [Qnum Qden]. lia. Qed.

Lemma okey_position h x : okey h x = position h x.
Proof. unfold okey, position, is_empty. destruct (h_kind h x); reflexivity. Qed.

(** For every span, not only those written by nodes_to_span. *)
Lemma span_to_nodes_spec h r rs xs : rs <> [] -> Forall2 range_text rs xs -> (forall a, In a rs -> 0 <= fst a /\ 0 <= snd a) ->
  exists f, span_to_nodes h r (join (s ",") xs) = Ok (filter f (descendants_and_empty h r)) /\
    forall w, f w = true <-> exists a b, In (a, b) rs /\ a <= position h w <= b.
Proof.
  intros NE R N. unfold span_to_nodes. change (s ",") with [44%N]. rewrite split_join.
  2:{ intros E. destruct R; [congruence|discriminate]. }
  2:{ intros x I. assert (exists a, In a rs /\ range_text a x) as (a & Ia & Ra).
      { clear -R I. induction R as [|a y rs xs Ray _ IH]; [destruct I|]. destruct I as [<-|I]; [exists a; split; auto; left; auto|].
        destruct (IH I) as (b & Hb & Rb). exists b. split; auto. right; auto. }
      destruct (N a Ia). eapply range_text_nocomma; eauto. }
  destruct (parse_ranges_text rs xs R N) as (qs & -> & S). eexists. split; [reflexivity|].
  intros w. cbv beta. rewrite num_in_ranges_spec.
  2:{ apply isort_sorted; [apply range_leb_total|apply range_leb_trans]. }
  unfold ordq. rewrite okey_position. split.
  - intros (q & I & A & B). apply (Permutation_in _ (isort_perm range_leb qs)) in I.
    clear -S I A B. induction S as [|a q' rs qs [S1 S2] _ IH]; [destruct I|]. destruct I as [->|I].
    + destruct a as [a b]. exists a, b. cbn in S1, S2. rewrite S1 in A. rewrite S2 in B. rewrite q_le_tenths in A, B.
      split; [left; reflexivity|auto].
    + destruct (IH I) as (x & y & Ix & Hx). exists x, y. split; [right|]; auto.
  - intros (a & b & I & A & B).
    assert (exists q, In q qs /\ same_range (a, b) q) as (q & Iq & [S1 S2]).
    { clear -S I. induction S as [|a' q' rs qs Sq _ IH]; [destruct I|]. destruct I as [->|I]; [exists q'; split; auto; left; auto|].
      destruct (IH I) as (q & Hq & E). exists q. split; auto. right; auto. }
    exists q. split; [apply (Permutation_in _ (Permutation_sym (isort_perm range_leb qs))); auto|].
    cbn in S1, S2. rewrite S1, S2, !q_le_tenths. auto.
Qed.

(** ---- word order ---- *)
Lemma position_inj h r x y : consistent h r -> good_empties h r -> in_tree h r x -> in_tree h r y -> position h x = position h y -> x = y.
Proof.
  intros C G Hx Hy. unfold position. destruct (c_kinds h r C) as [K _].
  destruct Hx as [Hx|Hx], Hy as [Hy|Hy];
    rewrite ?(K _ Hx), ?(K _ Hy), ?(ge_kind h r G _ Hx), ?(ge_kind h r G _ Hy); intros E.
  - apply (ord_inj h (abs h r) (consistent_Repr h r C)); [right; exact Hx|right; exact Hy|lia].
  - exfalso. apply (ge_frac h r G y Hy). rewrite <- E. rewrite Z.mul_comm. apply Z.mod_mul. lia.
  - exfalso. apply (ge_frac h r G x Hx). rewrite E. rewrite Z.mul_comm. apply Z.mod_mul. lia.
  - apply (sorted_eord_inj h _ (ge_sorted h r G)); auto.
Qed.
Lemma increasing_nodup h l : increasing h l -> NoDup l.
Proof.
  induction 1 as [|x l S IH F]; constructor; auto. rewrite Forall_forall in F. intros I. specialize (F x I). lia.
Qed.
Lemma sorted_increasing h l : NoDup l -> (forall x y, In x l -> In y l -> position h x = position h y -> x = y) ->
  increasing h (sort_on (okey h) l).
Proof.
  intros ND J. unfold increasing. pose proof (sort_on_sorted (okey h) l) as S. pose proof (sort_on_perm (okey h) l) as P.
  assert (ND' : NoDup (sort_on (okey h) l)) by (eapply Permutation_NoDup; [symmetry; exact P|auto]).
  assert (J' : forall x y, In x (sort_on (okey h) l) -> In y (sort_on (okey h) l) -> position h x = position h y -> x = y).
  { intros x y Hx Hy. apply J; eapply Permutation_in; eauto. }
  revert S ND' J'. clear. generalize (sort_on (okey h) l) as k. intros k S ND' J'. induction S as [|x k S IH F]; constructor.
  - apply IH; [inversion ND'; auto|]. intros; apply J'; auto; right; auto.
  - rewrite Forall_forall in *. intros y Hy. specialize (F y Hy). apply Z.leb_le in F. rewrite !okey_position in F.
    destruct (Z.eq_dec (position h x) (position h y)) as [E|]; [|lia].
    apply J' in E; [|left; auto|right; auto]. subst y. inversion ND'. tauto.
Qed.
Lemma tree_nodup h r : consistent h r -> good_empties h r -> NoDup (h_desc h r ++ h_emp h r).
Proof.
  intros C G.
  assert (D : forall x, In x (h_desc h r) -> ~ In x (h_emp h r)).
  { intros x Hx He. destruct (c_kinds h r C) as [K _]. specialize (K x Hx). rewrite (ge_kind h r G x He) in K. discriminate. }
  pose proof (c_once h r C) as N1. pose proof (sorted_eord_nodup h _ (ge_sorted h r G)) as N2.
  revert D N1. generalize (h_desc h r). induction l as [|a l IH]; simpl; intros D N1; auto.
  inversion N1; subst. constructor.
  - rewrite in_app_iff. intros [I|I]; [tauto|]. exact (D a (or_introl eq_refl) I).
  - apply IH; auto.
Qed.
Lemma dae_order h r : consistent h r -> good_empties h r -> word_order h r (descendants_and_empty h r).
Proof.
  intros C G. split.
  - apply sorted_increasing; [apply tree_nodup; auto|]. intros x y. rewrite !in_app_iff. intros Hx Hy.
    apply (position_inj h r x y C G Hx Hy).
  - intros x. unfold descendants_and_empty, in_tree. rewrite <- in_app_iff. split; intros I.
    + exact (Permutation_in _ (sort_on_perm _ _) I).
    + exact (Permutation_in _ (Permutation_sym (sort_on_perm _ _)) I).
Qed.
Lemma word_order_unique h r l l' : consistent h r -> good_empties h r -> word_order h r l -> word_order h r l' -> l = l'.
Proof.
  intros C G [S E] [S' E']. apply (key_sorted_unique (position h)); auto.
  apply NoDup_Permutation; [eapply increasing_nodup; eauto|eapply increasing_nodup; eauto|]. intros x. rewrite E, E'. tauto.
Qed.

(** ---- runs ---- *)
Lemma increasing_app h l1 l2 : increasing h (l1 ++ l2) ->
  increasing h l1 /\ increasing h l2 /\ forall x y, In x l1 -> In y l2 -> position h x < position h y.
Proof.
  unfold increasing. induction l1 as [|a l1 IH]; simpl; intros S.
  - split; [constructor|]. split; [auto|]. intros x y [].
  - inversion S as [|? ? S1 F]; subst. rewrite Forall_forall in F. destruct (IH S1) as (A & B & D). split; [|split; auto].
    + constructor; auto. rewrite Forall_forall. intros y Hy. apply F. apply in_app_iff; auto.
    + intros x y [<-|Hx] Hy; [apply F; apply in_app_iff; auto|auto].
Qed.
Lemma last_In {A} (l : list A) d : l <> [] -> In (last l d) l.
Proof. induction l as [|a l IH]; intros N; [congruence|]. destruct l; [left; auto|]. right. apply IH. discriminate. Qed.
Lemma last_dflt {A} (l : list A) d d' : l <> [] -> last l d = last l d'.
Proof. induction l as [|a l IH]; intros N; [congruence|]. destruct l; auto. cbn [last] in *. apply IH. discriminate. Qed.
Definition bounds (h : heap) (run : list nat) : Z * Z := (position h (hd 0%nat run), position h (last run 0%nat)).
Lemma hd_In (l : list nat) d : l <> [] -> In (hd d l) l.
Proof. destruct l; [congruence|left; auto]. Qed.
Lemma increasing_bounds h run : run <> [] -> increasing h run -> forall x, In x run ->
  position h (hd 0%nat run) <= position h x <= position h (last run 0%nat).
Proof.
  intros NE S. induction S as [|a l S IH F]; [congruence|]. rewrite Forall_forall in F. intros x [<-|Hx].
  - cbn [hd]. split; [lia|]. destruct l as [|b l]; [cbn; lia|]. cbn [last].
    assert (X : b :: l <> []) by discriminate. specialize (F (last (b :: l) 0%nat) (last_In _ _ X)). cbn [last] in F. lia.
  - assert (l <> []) as NE' by (intros ->; destruct Hx). specialize (IH NE' x Hx). cbn [hd]. pose proof (F x Hx).
    split; [lia|]. destruct l; [congruence|]. exact (proj2 IH).
Qed.
Lemma runs_members h P l rs : maximal_runs P l rs -> increasing h l -> forall w, In w l ->
  (P w <-> exists run, In run rs /\ fst (bounds h run) <= position h w <= snd (bounds h run)).
Proof.
  assert (Y : forall rs l, maximal_runs P l rs -> forall run, In run rs -> run <> [] /\ forall x, In x run -> In x l).
  { clear. induction 1 as [|x l rs N _ IH|run NE F|run y l rs NE F N _ IH]; intros r0 I.
    - destruct I.
    - destruct (IH r0 I) as [A B]. split; auto. intros z Hz. right. auto.
    - destruct I as [<-|[]]. auto.
    - destruct I as [<-|I]; [split; auto; intros; apply in_app_iff; auto|].
      destruct (IH r0 I) as [A B]. split; auto. intros z Hz. apply in_app_iff. right. right. auto. }
  induction 1 as [|x l rs N M IH|run NE F|run y l rs NE F N M IH]; intros S w I.
  - destruct I.
  - inversion S as [|? ? S1 F1]; subst. rewrite Forall_forall in F1. destruct I as [<-|I].
    + split; [tauto|]. intros (run & Ir & B & _). exfalso. destruct (Y _ _ M run Ir) as [NE Sub].
      unfold bounds in B. cbn [fst] in B. specialize (F1 _ (Sub _ (hd_In run 0%nat NE))). lia.
    + apply IH; auto.
  - rewrite Forall_forall in F. split; [|auto]. intros _. exists run. split; [left; auto|]. apply increasing_bounds; auto.
  - apply increasing_app in S as (S1 & S2 & S3). inversion S2 as [|? ? S4 F4]; subst. rewrite Forall_forall in F, F4.
    apply in_app_iff in I. destruct I as [I|I].
    + split; auto. intros _. exists run. split; [left; auto|]. apply increasing_bounds; auto.
    + assert (O : ~ (fst (bounds h run) <= position h w <= snd (bounds h run))).
      { unfold bounds. cbn [fst snd]. pose proof (S3 _ w (last_In run 0%nat NE) I). lia. }
      destruct I as [<-|I].
      * split; [tauto|]. intros (r0 & [<-|Ir] & B); [tauto|]. exfalso. destruct (Y _ _ M r0 Ir) as [NE' Sub].
        unfold bounds in B. cbn [fst snd] in B. specialize (F4 _ (Sub _ (hd_In r0 0%nat NE'))). lia.
      * rewrite (IH S4 w I). split; intros (r0 & Ir & B); [exists r0; split; [right|]; auto|].
        destruct Ir as [<-|Ir]; [tauto|]. exists r0. auto.
Qed.

Lemma take_run_spec nodes l run rest : take_run nodes l = (run, rest) -> l = run ++ rest /\ (forall x, In x run -> In x nodes) /\
  match rest with [] => True | y :: _ => ~ In y nodes end.
Proof.
  revert run rest. induction l as [|x l IH]; cbn [take_run]; intros run rest.
  - intros [= <- <-]. split; [reflexivity|]. split; [intros x []|auto].
  - destruct (mem x nodes) eqn:M.
    + destruct (take_run nodes l) as [run' rest'] eqn:E. intros [= <- <-]. destruct (IH _ _ eq_refl) as (A & B & D).
      split; [cbn; congruence|]. split; auto. intros y [<-|Hy]; auto. apply mem_In; auto.
    + intros [= <- <-]. split; [reflexivity|]. split; [intros y []|]. apply mem_false; auto.
Qed.
Lemma filter_app_length nodes (l1 l2 : list nat) : (forall x, In x l1 -> In x nodes) ->
  (length (filter (fun x => mem x nodes) (l1 ++ l2)) = length l1 + length (filter (fun x => mem x nodes) l2))%nat.
Proof.
  intros H. rewrite filter_app, app_length. f_equal. rewrite filter_all; auto. intros x Hx. apply mem_In. auto.
Qed.
Lemma no_members P l : (forall x : nat, In x l -> ~ P x) -> maximal_runs P l [].
Proof. induction l; intros H; constructor; [apply H; left; auto|]. apply IHl. intros; apply H; right; auto. Qed.

Lemma show_run h run x : run <> [] -> increasing h run -> hd x run = x ->
  (forall y, In y run -> id_str h y = id_text (position h y)) ->
  show_range h x (last run x) = run_text h run.
Proof.
  intros NE S Hx ID. unfold show_range. rewrite !okey_position. destruct run as [|a [|b l]]; [congruence| |].
  - cbn in Hx. subst. cbn [last]. rewrite Z.ltb_irrefl. cbn. apply ID. left; auto.
  - cbn in Hx. subst. assert (L : In (last (x :: b :: l) x) (b :: l)).
    { change (last (x :: b :: l) x) with (last (b :: l) x). apply last_In. discriminate. }
    inversion S as [|? ? S1 F]; subst. rewrite Forall_forall in F. specialize (F _ L). apply Z.ltb_lt in F. rewrite F.
    unfold run_text. rewrite !ID by (auto using in_eq, in_cons). reflexivity.
Qed.

Lemma span_loop_spec h nodes : forall fl todo l, (length l <= fl)%nat -> increasing h l ->
  (forall y, In y l -> id_str h y = id_text (position h y)) ->
  Z.of_nat (length (filter (fun x => mem x nodes) l)) <= todo ->
  exists rs, maximal_runs (fun x => In x nodes) l rs /\ span_loop fl h nodes todo l = Ok (map (run_text h) rs).
Proof.
  induction fl as [|fl IH]; intros todo l L S ID T; (destruct l as [|x l]; [exists []; split; [constructor|reflexivity]|]); [cbn in L; lia|].
  cbn [span_loop]. destruct (Z.leb_spec todo 0) as [Z0|Z0].
  - exists []. split; [|reflexivity]. apply no_members. intros y Hy Hn.
    assert (In y (filter (fun x => mem x nodes) (x :: l))) as I by (apply filter_In; split; auto; apply mem_In; auto).
    destruct (filter (fun x => mem x nodes) (x :: l)); [destruct I|cbn [length] in T; lia].
  - destruct (mem x nodes) eqn:M.
    + destruct (take_run nodes (x :: l)) as [run rest] eqn:E. destruct (take_run_spec _ _ _ _ E) as (A & B & D).
      assert (NE : run <> []).
      { intros ->. cbn in A. subst rest. apply D. apply mem_In. auto. }
      assert (Hx : hd x run = x) by (destruct run; [congruence|]; cbn in A; injection A; auto).
      assert (LR : (length (tl rest) <= fl)%nat).
      { cbn [length] in L. assert (length (x :: l) = length run + length rest)%nat by (rewrite A; apply app_length).
        destruct run; [congruence|]. destruct rest; cbn [tl length] in *; lia. }
      rewrite A in S, T, ID. apply increasing_app in S as (S1 & S2 & _).
      rewrite filter_app_length in T by auto.
      destruct (IH (todo - Z.of_nat (length run)) (tl rest) LR) as (rs & R1 & R2).
      * destruct rest; [constructor|]. inversion S2; auto.
      * intros y Hy. apply ID. apply in_app_iff. right. destruct rest; [destruct Hy|right; exact Hy].
      * destruct rest as [|y rest]; [cbn in *; lia|]. apply mem_false in D. cbn [filter tl] in *. rewrite D in T. lia.
      * rewrite R2. cbn [rbind]. exists (run :: rs). split.
        -- rewrite A. destruct rest as [|y rest].
           ++ cbn [tl] in R1. inversion R1; subst.
              ** rewrite app_nil_r. apply runs_last; auto. apply Forall_forall; auto.
              ** congruence.
              ** destruct run0; discriminate.
           ++ cbn [tl] in R1. apply runs_more; auto. apply Forall_forall; auto.
        -- cbn [map]. rewrite (show_run h run x); auto. intros y Hy. apply ID. apply in_app_iff. auto.
    + destruct (IH todo l) as (rs & R1 & R2).
      * cbn [length] in L. lia.
      * inversion S; auto.
      * intros; apply ID; right; auto.
      * cbn [filter] in T. rewrite M in T. exact T.
      * exists rs. split; auto. apply runs_skip; auto. apply mem_false; auto.
Qed.

Lemma id_str_text h r x : consistent h r -> good_empties h r -> in_tree h r x -> id_str h x = id_text (position h x).
Proof.
  intros C G [I|I]; unfold id_str, id_text, position.
  - rewrite (not_empty h r x C) by (right; auto). destruct (c_kinds h r C) as [K _]. rewrite (K x I).
    replace (10 * h_ord h x) with (h_ord h x * 10) by lia. rewrite Z.mod_mul, Z.div_mul by lia. reflexivity.
  - rewrite (emp_is_empty h r x G I), (ge_kind h r G x I). pose proof (ge_frac h r G x I) as F.
    destruct (Z.eqb_spec (h_eord h x mod 10) 0); [contradiction|reflexivity].
Qed.

Lemma in_tree_root h r x : consistent h r -> good_empties h r -> in_tree h r x -> h_root h x = r.
Proof. intros C G [I|I]; [apply (c_roots h r C); right; auto|apply (ge_root h r G); auto]. Qed.

Lemma nodes_to_span_runs h r nodes l : consistent h r -> good_empties h r -> nodes <> [] ->
  (forall x, In x nodes -> in_tree h r x) -> word_order h r l ->
  exists rs, maximal_runs (fun x => In x nodes) l rs /\ nodes_to_span h nodes = Ok (join (s ",") (map (run_text h) rs)).
Proof.
  intros C G NE IT W. rewrite (word_order_unique h r l _ C G W (dae_order h r C G)). clear l W.
  unfold nodes_to_span. destruct nodes as [|x nodes]; [congruence|].
  rewrite (in_tree_root h r x C G (IT x (or_introl eq_refl))).
  pose proof (dae_order h r C G) as [S E]. set (l := descendants_and_empty h r) in *.
  destruct (span_loop_spec h (x :: nodes) (length l) (Z.of_nat (length (x :: nodes))) l) as (rs & R1 & R2); auto.
  - intros y Hy. apply (id_str_text h r); auto. apply E; auto.
  - apply inj_le. apply NoDup_incl_length; [apply NoDup_filter; eapply increasing_nodup; eauto|].
    intros y Hy. apply filter_In in Hy as [_ Hy]. apply mem_In; auto.
  - exists rs. split; auto. rewrite R2. reflexivity.
Qed.

Lemma position_nonneg h r x : consistent h r -> good_empties h r -> in_tree h r x -> 0 <= position h x.
Proof.
  intros C G [I|I]; unfold position.
  - destruct (c_kinds h r C) as [K _]. rewrite (K x I). pose proof (ord_nonneg h r x C (or_intror I)). lia.
  - rewrite (ge_kind h r G x I). pose proof (ge_range h r G x I). lia.
Qed.
Lemma runs_sub P l rs : maximal_runs P l rs -> forall run, In run rs -> run <> [] /\ forall x, In x run -> In x l /\ P x.
Proof.
  induction 1 as [|x l rs N _ IH|run NE F|run y l rs NE F N _ IH]; intros r0 I.
  - destruct I.
  - destruct (IH r0 I) as [A B]. split; auto. intros z Hz. destruct (B z Hz). split; auto. right. auto.
  - destruct I as [<-|[]]. rewrite Forall_forall in F. auto.
  - rewrite Forall_forall in F. destruct I as [<-|I]; [split; auto; intros; split; auto; apply in_app_iff; auto|].
    destruct (IH r0 I) as [A B]. split; auto. intros z Hz. destruct (B z Hz). split; auto. apply in_app_iff. right. right. auto.
Qed.
Lemma runs_increasing h P l rs : maximal_runs P l rs -> increasing h l -> forall run, In run rs -> increasing h run.
Proof.
  induction 1 as [|x l rs N _ IH|run NE F|run y l rs NE F N _ IH]; intros S r0 I.
  - destruct I.
  - apply IH; auto. inversion S; auto.
  - destruct I as [<-|[]]. auto.
  - apply increasing_app in S as (S1 & S2 & _). destruct I as [<-|I]; auto. apply IH; auto. inversion S2; auto.
Qed.

Lemma span_round_trip h r nodes : consistent h r -> good_empties h r -> nodes <> [] -> (forall x, In x nodes -> in_tree h r x) ->
  exists span l, nodes_to_span h nodes = Ok span /\ span_to_nodes h r span = Ok l /\
    increasing h l /\ forall x, In x l <-> In x nodes.
Proof.
  intros C G NE IT. pose proof (dae_order h r C G) as W.
  destruct (nodes_to_span_runs h r nodes _ C G NE IT W) as (rs & R & E). destruct W as [S IN].
  pose proof (runs_sub _ _ _ R) as Sub. pose proof (runs_members h _ _ _ R S) as Mem.
  eexists. rewrite E.
  destruct (span_to_nodes_spec h r (map (bounds h) rs) (map (run_text h) rs)) as (f & F1 & F2).
  - destruct nodes as [|x nodes]; [congruence|]. intros X. apply map_eq_nil in X. subst rs.
    destruct (proj1 (Mem x (proj2 (IN x) (IT x (or_introl eq_refl)))) (or_introl eq_refl)) as (run & [] & _).
  - clear - R Sub S. assert (forall run, In run rs -> range_text (bounds h run) (run_text h run)) as X.
    { intros run I. destruct (Sub run I) as [NE _]. unfold bounds, run_text. destruct run as [|a [|b run]]; [congruence|cbn; constructor|].
      cbn [hd]. rewrite (last_dflt _ a 0%nat) by discriminate. constructor. }
    clear - X. induction rs; constructor; [apply X; left; auto|]. apply IHrs. intros; apply X; right; auto.
  - intros a I. apply in_map_iff in I as (run & <- & I). destruct (Sub run I) as [NE' B].
    assert (forall x, In x run -> 0 <= position h x) by (intros x Hx; apply (position_nonneg h r); auto; apply IT, (B x Hx)).
    split; cbn [bounds fst snd]; auto using hd_In, last_In.
  - eexists. split; [reflexivity|]. split; [exact F1|]. split; [apply filter_StronglySorted; exact S|].
    intros x. rewrite filter_In. rewrite F2. split.
    + intros (Ix & a & b & Iab & B). apply in_map_iff in Iab as (run & Eb & Ir). apply Mem; auto. exists run. rewrite Eb. auto.
    + intros Ix. assert (In x (descendants_and_empty h r)) as Il by (apply IN, IT; auto). split; auto.
      destruct (proj1 (Mem x Il) Ix) as (run & Ir & B). exists (fst (bounds h run)), (snd (bounds h run)). split; auto.
      rewrite <- surjective_pairing. apply in_map. auto.
Qed.

Lemma span_to_nodes_order h r rs xs : consistent h r -> good_empties h r -> rs <> [] -> Forall2 range_text rs xs ->
  (forall a, In a rs -> 0 <= fst a /\ 0 <= snd a) ->
  exists l, span_to_nodes h r (join (s ",") xs) = Ok l /\ increasing h l /\
    forall x, In x l <-> in_tree h r x /\ exists a b, In (a, b) rs /\ a <= position h x <= b.
Proof.
  intros C G NE R N. destruct (span_to_nodes_spec h r rs xs NE R N) as (f & E & F). pose proof (dae_order h r C G) as [S IN].
  eexists. split; [exact E|]. split; [apply filter_StronglySorted; exact S|].
  intros x. rewrite filter_In, IN, F. tauto.
Qed.
