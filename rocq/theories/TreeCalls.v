(** The editing calls on consistent trees; worlds of trees. *)
From Coq Require Import String List NArith ZArith Bool Lia Permutation Sorted.
From Verif Require Import PyStr PyList PyListFacts PyExn TreeModel TreeSpec TreeFacts TreeRepr TreeOps TreeRemove TreeShift.
Import ListNotations.

Lemma nth_error_seq n : forall st i, i < n -> nth_error (seq st n) i = Some (st + i).
Proof.
  induction n as [|n IH]; intros st j Hj; [lia|]. destruct j; cbn; [f_equal; lia|].
  rewrite IH by lia. f_equal; lia.
Qed.
Lemma nth_error_ext {A} (l1 l2 : list A) : (forall i, nth_error l1 i = nth_error l2 i) -> l1 = l2.
Proof.
  revert l2; induction l1 as [|x l1 IH]; intros [|y l2] H; auto.
  - specialize (H 0). discriminate.
  - specialize (H 0). discriminate.
  - f_equal; [specialize (H 0); now injection H|]. apply IH. intros i. apply (H (S i)).
Qed.

(** ---- Abstract trees and the observable consistency ---- *)
Definition abs (h : heap) (r : nat) : atree :=
  mkT r (h_desc h r) (fun x => match h_par h x with Some p => p | None => r end).

Lemma up_below h r : (forall x, In x (h_desc h r) -> exists p, h_par h x = Some p /\ live h r p) ->
  h_par h r = None ->
  forall x a, live h r x -> up h x a -> below (abs h r) x a.
Proof.
  intros HP HT x a Hx HU. induction HU as [x p E|x p a E HU IH].
  - destruct Hx as [->|Hx]; [congruence|].
    pose proof (below_par (abs h r) x Hx) as B. simpl in B. now rewrite E in B.
  - destruct Hx as [->|Hx]; [congruence|]. apply below_up; auto. simpl. rewrite E. apply IH.
    destruct (HP x Hx) as [q [E2 L]]. congruence.
Qed.
Lemma consistent_wf h r : consistent h r -> wf (abs h r).
Proof.
  intros []. constructor; simpl; auto.
  - intros x Hx. destruct (c_parents x Hx) as [p [-> L]]. exact L.
  - intros x Hx. apply up_below; auto. now right.
Qed.
Lemma consistent_Repr h r : consistent h r -> Repr h (abs h r).
Proof.
  intros []. constructor; simpl; auto.
  - intros i x Hi. apply (map_nth_error (h_ord h)) in Hi. rewrite c_ords in Hi.
    assert (i < length (seq 1 (length (h_desc h r)))).
    { rewrite seq_length. rewrite <- (map_length (h_ord h)), c_ords.
      apply nth_error_Some. congruence. }
    rewrite seq_length in H.
    rewrite (map_nth_error Z.of_nat i _ (nth_error_seq _ 1 i H)) in Hi. injection Hi as <-; lia.
  - intros x Hx. destruct (c_parents x Hx) as [p [-> L]]. auto.
  - intros y Hy. rewrite c_children by auto. apply filter_ext_in'. intros c Hc. unfold has_parent.
    destruct (c_parents c Hc) as [p [-> L]]. auto.
  - intros x Hx. now apply c_kinds.
  - apply c_kinds.
Qed.
Lemma below_up_rel h T : Repr h T -> forall x a, below T x a -> up h x a.
Proof.
  intros HR x a HB. induction HB as [x Hx|x a Hx HB IH].
  - constructor. now apply (r_par h T HR).
  - eapply up_S; eauto. now apply (r_par h T HR).
Qed.
Lemma up_below_rel h T : Repr h T -> wf T -> forall x a, node_of T x -> up h x a -> below T x a.
Proof.
  intros HR W x a Hx HU. induction HU as [x p E|x p a E HU IH].
  - destruct Hx as [->|Hx]; [rewrite (r_parroot h T HR) in E; discriminate|].
    rewrite (r_par h T HR x Hx) in E. injection E as <-. now constructor.
  - destruct Hx as [->|Hx]; [rewrite (r_parroot h T HR) in E; discriminate|].
    rewrite (r_par h T HR x Hx) in E. injection E as <-. apply below_up; auto. apply IH. now apply (wf_parent T W).
Qed.
Lemma up_iff h T : Repr h T -> wf T -> forall x a, node_of T x -> (up h x a <-> below T x a).
Proof. intros. split; [now apply up_below_rel|now apply below_up_rel]. Qed.

Lemma Repr_consistent h T : Repr h T -> wf T -> consistent h (a_root T).
Proof.
  intros HR W.
  assert (HL : forall y, live h (a_root T) y <-> node_of T y).
  { intros y. unfold live, node_of. now rewrite (r_desc h T HR). }
  constructor; rewrite ?(r_desc h T HR).
  - apply (wf_nodup T W).
  - apply (wf_rootfresh T W).
  - apply nth_error_ext. intros i. destruct (nth_error (a_words T) i) as [x|] eqn:E.
    + rewrite (map_nth_error _ _ _ E), (r_ord h T HR i x E).
      assert (i < length (a_words T)) by (apply nth_error_Some; congruence).
      rewrite (map_nth_error Z.of_nat i _ (nth_error_seq _ 1 i H)). f_equal; lia.
    + apply nth_error_None in E. rewrite !(proj2 (nth_error_None _ _)); auto; rewrite map_length, ?seq_length; auto.
  - apply (r_ord0 h T HR).
  - intros x Hx. exists (a_par T x). split; [now apply (r_par h T HR)|]. apply HL. now apply (wf_parent T W).
  - apply (r_parroot h T HR).
  - intros y Hy. rewrite (r_ch h T HR y) by (now apply HL). apply filter_ext_in'. intros c Hc. unfold has_parent.
    now rewrite (r_par h T HR c Hc).
  - intros x Hx. apply (below_up_rel h T HR). now apply (wf_reach T W).
  - intros y Hy. apply (r_root h T HR). now apply HL.
  - split; [apply (r_kind h T HR)|apply (r_kindroot h T HR)].
  - intros y Hy. apply (r_alloc h T HR). now apply HL.
Qed.

(** ---- shift_* ---- *)
Lemma firstn_filter_ord h l : forall st k, pos_ok h st l ->
  firstn k l = filter (fun w => Z.leb (h_ord h w) (Z.of_nat (st + k))) l /\
  skipn k l = filter (fun w => negb (Z.leb (h_ord h w) (Z.of_nat (st + k)))) l.
Proof.
  induction l as [|x l IH]; intros st k HP; [destruct k; auto|].
  apply pos_ok_cons in HP as [E HP]. destruct k as [|k]; cbn [firstn skipn filter].
  - destruct (Z.leb_spec (h_ord h x) (Z.of_nat (st + 0))); [lia|]. cbn [negb].
    split.
    + symmetry. apply filter_none. intros w Hw. destruct (pos_ok_In _ _ _ _ HP Hw) as [i [_ Ei]].
      destruct (Z.leb_spec (h_ord h w) (Z.of_nat (st + 0))); auto; lia.
    + f_equal. symmetry. apply filter_all. intros w Hw. destruct (pos_ok_In _ _ _ _ HP Hw) as [i [_ Ei]].
      destruct (Z.leb_spec (h_ord h w) (Z.of_nat (st + 0))); auto; lia.
  - destruct (Z.leb_spec (h_ord h x) (Z.of_nat (st + S k))); [|lia]. cbn [negb].
    destruct (IH (S st) k HP) as [I1 I2]. replace (st + S k) with (S st + k) by lia.
    split; [f_equal; auto|auto].
Qed.

Definition max_step (h : heap) (self : nat) := fun m x => if Z.ltb m (h_ord h x) && negb (Nat.eqb x self) then h_ord h x else m.
Definition min_step (h : heap) (self : nat) := fun m x => if Z.ltb (h_ord h x) m && negb (Nat.eqb x self) then h_ord h x else m.
Lemma fold_max h self l : forall m, let M := fold_left (max_step h self) l m in
  (m <= M)%Z /\ (forall v, In v l -> v <> self -> (h_ord h v <= M)%Z) /\
  (M = m \/ exists v, In v l /\ v <> self /\ h_ord h v = M).
Proof.
  induction l as [|a l IH]; intros m; cbn [fold_left].
  - repeat split; [lia|intros v []|auto].
  - destruct (IH (max_step h self m a)) as [I1 [I2 I3]].
    set (M := fold_left _ _ _) in *. cbv zeta in *.
    assert (S1 : (m <= max_step h self m a)%Z) by (unfold max_step; destruct (Z.ltb_spec m (h_ord h a)), (Nat.eqb a self); cbn; lia).
    split; [lia|]. split.
    + intros v [->|Hv] Hn; auto. unfold max_step in I1.
      destruct (Z.ltb_spec m (h_ord h v)); destruct (Nat.eqb_spec v self); cbn in I1; try congruence; lia.
    + destruct I3 as [I3|[v [H1 [H2 H3]]]]; [|right; exists v; simpl; auto].
      rewrite I3. unfold max_step. destruct (Z.ltb_spec m (h_ord h a)); destruct (Nat.eqb_spec a self); cbn; auto.
      right. exists a. simpl; auto.
Qed.
Lemma fold_min h self l : forall m, let M := fold_left (min_step h self) l m in
  (M <= m)%Z /\ (forall v, In v l -> v <> self -> (M <= h_ord h v)%Z) /\
  (M = m \/ exists v, In v l /\ v <> self /\ h_ord h v = M).
Proof.
  induction l as [|a l IH]; intros m; cbn [fold_left].
  - repeat split; [lia|intros v []|auto].
  - destruct (IH (min_step h self m a)) as [I1 [I2 I3]].
    set (M := fold_left _ _ _) in *. cbv zeta in *.
    assert (S1 : (min_step h self m a <= m)%Z) by (unfold min_step; destruct (Z.ltb_spec (h_ord h a) m), (Nat.eqb a self); cbn; lia).
    split; [lia|]. split.
    + intros v [->|Hv] Hn; auto. unfold min_step in I1.
      destruct (Z.ltb_spec (h_ord h v) m); destruct (Nat.eqb_spec v self); cbn in I1; try congruence; lia.
    + destruct I3 as [I3|[v [H1 [H2 H3]]]]; [|right; exists v; simpl; auto].
      rewrite I3. unfold min_step. destruct (Z.ltb_spec (h_ord h a) m); destruct (Nat.eqb_spec a self); cbn; auto.
      right. exists a. simpl; auto.
Qed.

(** Result of a successful call. *)
Definition moved_to (h h' : heap) (T : atree) (x : nat) (wc : bool) (ref : Z) : Prop :=
  (1 <= ref <= Z.of_nat (length (a_words T)) + 1)%Z /\
  Repr h' (t_move T (mvset T x wc) (Z.to_nat (ref - 1))) /\ framed h h' (touched h T) /\ same_static h h' /\
    (wc || negb (nonempty (chs T x)) = true -> NoDup (h_emp h (a_root T)) ->
       forall e, In e (h_emp h (a_root T)) -> h_eord h' e = single_eord (h_ord h x) ref (h_eord h e)) /\
    (wc || negb (nonempty (chs T x)) = false -> h_eord h' = h_eord h).

Section Shifts.
Variables (h : heap) (T : atree).
Hypothesis W : wf T.
Hypothesis HR : Repr h T.
Notation root := (a_root T).
Notation words := (a_words T).
Notation par := (a_par T).
Let N0 : node_of T root := or_introl eq_refl.
Let NW : forall x, In x words -> node_of T x := fun x H => or_intror H.

Lemma moved_to_reordered h' x wc ref (pre : nat -> Prop) : In x words ->
  (1 <= ref <= Z.of_nat (length words) + 1)%Z -> moved_to h h' T x wc ref ->
  (forall w, In w words -> ((h_ord h w < ref)%Z <-> pre w)) -> reordered h h' root x wc pre.
Proof.
  intros Hx Href [_ [R1 _]] Hpre. exists (mvset T x wc), (fun w => Z.leb (h_ord h w) (ref - 1)).
  rewrite (r_desc h T HR). split; [|split].
  - intros w Hw. unfold moves, mvset. destruct wc.
    + rewrite Nat.eqb_eq. intuition congruence.
    + rewrite (insubb_spec T W), (up_iff h T HR W w x (NW w Hw)). intuition congruence.
  - intros w Hw. rewrite Z.leb_le, <- Hpre by auto. lia.
  - pose proof (r_desc _ _ R1) as E. cbn [a_root a_words t_move] in E. rewrite E.
    destruct (firstn_filter_ord h words 0 (Z.to_nat (ref - 1)) (words_pos h T HR)) as [-> ->].
    cbn [Nat.add]. rewrite Z2Nat.id by lia. rewrite !filter_filter. f_equal; [|f_equal];
    apply filter_ext_in'; intros w Hw; apply andb_comm.
Qed.

Lemma allowed_ok x y wc sk : node_of T x -> node_of T y ->
  shift_allowed h x y wc sk =
    if negb wc && belowb T y x then (if sk then Ok false else Raise ValueError) else Ok true.
Proof.
  intros Hx Hy. unfold shift_allowed. destruct wc; auto.
  rewrite (is_descendant_ok h T W HR y x Hy Hx). cbn. destruct (belowb T y x); auto.
Qed.

Definition refused (x y : nat) (wc : bool) : bool := negb wc && belowb T y x.
Definition refusal (sk : bool) : res unit := if sk then Ok tt else Raise ValueError.

Lemma after_node_ok x y wc sk : In x words -> node_of T y ->
  (refused x y wc = true -> shift_after_node h x y wc sk = (h, refusal sk)) /\
  (refused x y wc = false -> exists h', shift_after_node h x y wc sk = (h', Ok tt) /\
     moved_to h h' T x wc (h_ord h y + 1)%Z /\ reordered h h' root x wc (fun w => (h_ord h w <= h_ord h y)%Z)).
Proof.
  intros Hx Hy. pose proof (node_ord h T HR y Hy) as Ho.
  unfold shift_after_node. rewrite (allowed_ok x y wc sk (NW x Hx) Hy). fold (refused x y wc).
  split; intros ->; [destruct sk; auto|]. cbn [if_allowed].
  destruct (shift_before_ord_ok h T W HR x (h_ord h y + 1) wc Hx) as [h' [E M]]; [lia|].
  exists h'. split; auto. assert (MT : moved_to h h' T x wc _) by (split; [|exact M]; lia). split; [exact MT|]. eapply moved_to_reordered; eauto; [lia|]. intros; lia.
Qed.
Lemma before_node_ok x y wc sk : In x words -> In y words ->
  (refused x y wc = true -> shift_before_node h x y wc sk = (h, refusal sk)) /\
  (refused x y wc = false -> exists h', shift_before_node h x y wc sk = (h', Ok tt) /\
     moved_to h h' T x wc (h_ord h y) /\ reordered h h' root x wc (fun w => (h_ord h w < h_ord h y)%Z)).
Proof.
  intros Hx Hy. pose proof (word_ord h T HR y Hy) as Ho.
  unfold shift_before_node. rewrite (is_root_iff h T W HR y (NW y Hy)).
  destruct (Nat.eqb_spec y root) as [->|_]; [exfalso; now apply (wf_rootfresh T W)|].
  rewrite (allowed_ok x y wc sk (NW x Hx) (NW y Hy)). fold (refused x y wc).
  split; intros ->; [destruct sk; auto|]. cbn [if_allowed].
  destruct (shift_before_ord_ok h T W HR x (h_ord h y) wc Hx) as [h' [E M]]; [lia|].
  exists h'. split; auto. assert (MT : moved_to h h' T x wc _) by (split; [|exact M]; lia). split; [exact MT|]. eapply moved_to_reordered; eauto; [lia|]. intros; lia.
Qed.
Lemma before_root_ok x wc sk :
  shift_before_node h x root wc sk = (h, Raise ValueError) /\
  shift_before_subtree h x root wc sk = (h, Raise ValueError).
Proof. unfold shift_before_node, shift_before_subtree. rewrite (is_root_iff h T W HR root N0), Nat.eqb_refl. auto. Qed.

Definition ref_word_T (x y v : nat) : Prop := v = y \/ (below T v y /\ v <> x).
Lemma ref_word_iff x y v : node_of T y -> (node_of T v -> (ref_word h x y v <-> ref_word_T x y v)).
Proof. intros Hy Hv. unfold ref_word, ref_word_T. rewrite (up_iff h T HR W v y Hv). tauto. Qed.

Lemma up_node v y : up h v y -> node_of T y -> v < h_next h -> True.
Proof. auto. Qed.

Lemma after_subtree_ok x y wc sk : In x words -> node_of T y ->
  (refused x y wc = true -> shift_after_subtree h x y wc sk = (h, refusal sk)) /\
  (refused x y wc = false -> exists h' ref, shift_after_subtree h x y wc sk = (h', Ok tt) /\
     moved_to h h' T x wc ref /\
     reordered h h' root x wc (fun w => exists v, node_of T v /\ ref_word_T x y v /\ (h_ord h w <= h_ord h v)%Z)).
Proof.
  intros Hx Hy. unfold shift_after_subtree. rewrite (allowed_ok x y wc sk (NW x Hx) Hy). fold (refused x y wc).
  split; intros ->; [destruct sk; auto|]. cbn [if_allowed].
  destruct (unordered_ok h T W HR y Hy) as [l [-> PL]].
  assert (Hl : forall v, In v l <-> below T v y).
  { intros v. rewrite <- (subs_In T W). split; apply Permutation_in; auto. now symmetry. }
  destruct (fold_max h x l (h_ord h y)) as [F1 [F2 F3]]. fold (max_step h x).
  set (M := fold_left (max_step h x) l (h_ord h y)) in *.
  assert (HM : exists v, node_of T v /\ ref_word_T x y v /\ h_ord h v = M).
  { destruct F3 as [->|[v [V1 [V2 V3]]]]; [exists y; unfold ref_word_T; auto|].
    exists v. apply Hl in V1. unfold ref_word_T. split; [right; eapply below_word; eauto|auto]. }
  assert (HM2 : forall v, ref_word_T x y v -> (h_ord h v <= M)%Z).
  { intros v [->|[V1 V2]]; auto. apply F2; auto. now apply Hl. }
  destruct HM as [v0 [V1 [V2 V3]]]. pose proof (node_ord h T HR v0 V1) as Ho. rewrite V3 in Ho.
  destruct (shift_before_ord_ok h T W HR x (M + 1) wc Hx) as [h' [E MT]]; [lia|].
  exists h', (M + 1)%Z. split; auto. assert (MT1 : moved_to h h' T x wc (M + 1)%Z) by (split; [|exact MT]; lia). split; [exact MT1|]. eapply moved_to_reordered; eauto; [lia|].
  intros w Hw. split.
  - intros Hlt. exists v0. split; auto. split; auto. lia.
  - intros [v [A1 [A2 A3]]]. specialize (HM2 v A2). lia.
Qed.
Lemma before_subtree_ok x y wc sk : In x words -> In y words ->
  (refused x y wc = true -> shift_before_subtree h x y wc sk = (h, refusal sk)) /\
  (refused x y wc = false -> exists h' ref, shift_before_subtree h x y wc sk = (h', Ok tt) /\
     moved_to h h' T x wc ref /\
     reordered h h' root x wc (fun w => forall v, node_of T v -> ref_word_T x y v -> (h_ord h w < h_ord h v)%Z)).
Proof.
  intros Hx Hy. unfold shift_before_subtree. rewrite (is_root_iff h T W HR y (NW y Hy)).
  destruct (Nat.eqb_spec y root) as [->|_]; [exfalso; now apply (wf_rootfresh T W)|].
  rewrite (allowed_ok x y wc sk (NW x Hx) (NW y Hy)). fold (refused x y wc).
  split; intros ->; [destruct sk; auto|]. cbn [if_allowed].
  destruct (unordered_ok h T W HR y (NW y Hy)) as [l [-> PL]].
  assert (Hl : forall v, In v l <-> below T v y).
  { intros v. rewrite <- (subs_In T W). split; apply Permutation_in; auto. now symmetry. }
  destruct (fold_min h x l (h_ord h y)) as [F1 [F2 F3]]. fold (min_step h x).
  set (M := fold_left (min_step h x) l (h_ord h y)) in *.
  assert (HM : exists v, In v words /\ ref_word_T x y v /\ h_ord h v = M).
  { destruct F3 as [->|[v [V1 [V2 V3]]]]; [exists y; unfold ref_word_T; auto|].
    exists v. apply Hl in V1. unfold ref_word_T. split; [eapply below_word; eauto|auto]. }
  assert (HM2 : forall v, ref_word_T x y v -> (M <= h_ord h v)%Z).
  { intros v [->|[V1 V2]]; auto. apply F2; auto. now apply Hl. }
  destruct HM as [v0 [V1 [V2 V3]]]. pose proof (word_ord h T HR v0 V1) as Ho. rewrite V3 in Ho.
  destruct (shift_before_ord_ok h T W HR x M wc Hx) as [h' [E MT]]; [lia|].
  exists h', M. split; auto. assert (MT1 : moved_to h h' T x wc M) by (split; [|exact MT]; lia). split; [exact MT1|]. eapply moved_to_reordered; eauto; [lia|].
  intros w Hw. split.
  - intros Hlt v A1 A2. specialize (HM2 v A2). lia.
  - intros H. specialize (H v0 (NW v0 V1) V2). lia.
Qed.
End Shifts.

(** ---- create_empty_child ---- *)
Lemma create_empty_fields h r x after : h_root h x = r -> r < h_next h ->
  let h' := fst (create_empty_child h x after) in
  h_next h' = S (h_next h) /\
  (forall y, y <> h_next h -> h_kind h' y = h_kind h y /\ h_ord h' y = h_ord h y /\ h_par h' y = h_par h y /\
    h_ch h' y = h_ch h y /\ h_root h' y = h_root h y /\ h_desc h' y = h_desc h y /\ h_eord h' y = h_eord h y /\
    (y <> r -> h_emp h' y = h_emp h y)) /\
  h_kind h' (h_next h) = KEmpty /\ h_root h' (h_next h) = r /\
  (snd (create_empty_child h x after) = Ok (h_next h) /\ Permutation (h_emp h' r) (h_next h :: h_emp h r) \/
   snd (create_empty_child h x after) = Raise TypeError /\ h_emp h' r = h_emp h r).
Proof.
  intros Er Hr. unfold create_empty_child. rewrite Er.
  unfold alloc. set (h1 := mkHeap _ _ _ _ _ _ _ _ _).
  assert (E1 : h_emp h1 r = h_emp h r) by (unfold h1; cbn; upds; auto).
  assert (G : forall y, y <> h_next h -> h_kind h1 y = h_kind h y /\ h_ord h1 y = h_ord h y /\ h_par h1 y = h_par h y /\
    h_ch h1 y = h_ch h y /\ h_root h1 y = h_root h y /\ h_desc h1 y = h_desc h y /\ h_eord h1 y = h_eord h y /\
    (y <> r -> h_emp h1 y = h_emp h y)).
  { intros y Hy. unfold h1. cbn. upds. repeat split; auto. }
  assert (K1 : h_kind h1 (h_next h) = KEmpty) by (unfold h1; cbn; upds; auto).
  assert (R1 : h_root h1 (h_next h) = r) by (unfold h1; cbn; upds; auto).
  assert (X1 : h_next h1 = S (h_next h)) by reflexivity.
  clearbody h1. cbv zeta.
  destruct (empty_slot h1 _ _ _) as [o|]; cbn [fst snd].
  2:{ repeat split; auto; try (intros; now apply G). }
  destruct (last_opt (h_emp (put_eord h1 (h_next h) o) r)) as [z|]; [destruct (Z.ltb _ _)|]; cbn [fst snd];
  (split; [auto|]; split; [|split; [auto|]; split; [auto|]]).
  all: try (intros y Hy; destruct (G y Hy) as [? [? [? [? [? [? [? ?]]]]]]]; cbn; upds; repeat split; auto;
    intros; upds; auto).
  all: left; split; auto; cbn; upds; rewrite E1.
  all: unfold sort_on; rewrite ?isort_perm.
  all: symmetry; apply Permutation_cons_append.
Qed.

Ltac conjs := repeat match goal with |- _ /\ _ => split end; auto.

(** ---- Every call keeps the trees ---- *)
(** The empty nodes of tree r. *)
Record emps_ok (h : heap) (r : nat) : Prop := {
  e_once : NoDup (h_emp h r);
  e_kind : forall e, In e (h_emp h r) -> h_kind h e = KEmpty;
  e_alloc : forall e, In e (h_emp h r) -> e < h_next h;
  e_root : forall e, In e (h_emp h r) -> h_root h e = r
}.
Lemma emps_static h h' r : same_static h h' -> emps_ok h r -> emps_ok h' r.
Proof. intros [S1 S2 S3 S4] []. constructor; rewrite S4; intros; rewrite ?S1, ?S2, ?S3; auto. Qed.
Lemma emps_framed h h' Z0 r : framed h h' Z0 -> ~ Z0 r -> r < h_next h -> (forall e, In e (h_emp h r) -> ~ Z0 e) ->
  emps_ok h r -> emps_ok h' r.
Proof.
  intros F Hr Hl He []. assert (E : h_emp h' r = h_emp h r) by (apply (fr_emp _ _ _ F); auto).
  constructor; rewrite E; auto; intros e H.
  - rewrite (fr_kind _ _ _ F); auto.
  - pose proof (fr_next _ _ _ F). specialize (e_alloc0 e H). lia.
  - rewrite (fr_root _ _ _ F); auto.
Qed.

Lemma t_removed_wf T (W : wf T) x m : In x (a_words T) -> wf (t_removed T x m).
Proof. intros. unfold t_removed. destruct (_ && _); [now apply wf_rehang|now apply wf_remove]. Qed.
Lemma t_removed_root T x m : a_root (t_removed T x m) = a_root T.
Proof. unfold t_removed. now destruct (_ && _). Qed.

Definition stepped (h : heap) (T : atree) (m : heap * res unit) : Prop :=
  exists h' res T', m = (h', res) /\ Repr h' T' /\ wf T' /\ a_root T' = a_root T /\
    framed h h' (touched h T) /\ emps_ok h' (a_root T) /\ res <> Diverge.

Section Step.
Variables (h : heap) (T : atree).
Hypothesis W : wf T.
Hypothesis HR : Repr h T.
Hypothesis HE : emps_ok h (a_root T).
Notation root := (a_root T).

Lemma stepped_same res : res <> Diverge -> stepped h T (h, res).
Proof. intros. exists h, res, T. conjs. apply framed_refl. Qed.
Lemma stepped_moved h' x wc ref : moved_to h h' T x wc ref -> stepped h T (h', Ok tt).
Proof.
  intros [_ [R [F [S _]]]]. exists h', (Ok tt), (t_move T (mvset T x wc) (Z.to_nat (ref - 1))).
  conjs; try discriminate; [apply wf_move; auto|eapply emps_static; eauto].
Qed.
Lemma refusal_nd sk : refusal sk <> Diverge.
Proof. destruct sk; discriminate. Qed.

Lemma step_ok o : op_args_live h root o -> stepped h T (tree_step h o).
Proof.
  assert (HL : forall y, live h root y -> node_of T y).
  { intros y. unfold live, node_of. now rewrite (r_desc h T HR). }
  assert (NW : forall y, In y (h_desc h root) -> In y (a_words T)) by (now rewrite (r_desc h T HR)).
  destruct o as [x|x p|x m|x y wc sk|x y wc sk|x y wc sk|x y wc sk|x|x after]; cbn [op_args_live tree_step].
  - intros Hx. apply HL in Hx. destruct (create_child_ok h T W HR x Hx) as [h' [E [R [F [E1 [E2 E3]]]]]].
    rewrite E. exists h', (Ok tt), (t_create T x (h_next h)). conjs; try discriminate.
    + eapply wf_create; eauto.
    + assert (NR : root <> h_next h) by (pose proof (r_alloc h T HR root (or_introl eq_refl)); lia).
      assert (EE : h_emp h' root = h_emp h root).
      { rewrite E2. destruct (Nat.eqb_spec root (h_next h)); auto; contradiction. }
      destruct HE. unfold create_child, alloc in E. cbn in E. injection E as E.
      constructor; rewrite EE; auto; intros e Hin; specialize (e_alloc0 e Hin); try lia; rewrite <- E; cbn; upds; auto.
  - intros HA. assert (Hx : live h root x) by (destruct p; intuition).
    apply HL in Hx. destruct Hx as [->|Hx].
    { unfold set_parent. rewrite (r_kindroot h T HR). apply stepped_same; discriminate. }
    destruct p as [p|].
    2:{ unfold set_parent. rewrite (r_kind h T HR x Hx), (r_par h T HR x Hx). apply stepped_same; discriminate. }
    destruct HA as [_ [Hp|[Hk _]]].
    + apply HL in Hp. destruct (set_parent_ok h T W HR x p Hx Hp) as [_ [H2 H3]].
      destruct (Nat.eqb_spec p x) as [->|Hne]; [rewrite H2 by auto; apply stepped_same; discriminate|].
      destruct (belowb T p x) eqn:B.
      * rewrite H2; [apply stepped_same; discriminate|]. right. now apply (belowb_spec T W).
      * destruct H3 as [h' [-> [R [F [S _]]]]]; auto; [now apply (belowb_false T W)|].
        exists h', (Ok tt), (t_reattach T x p). conjs; try discriminate.
        -- apply wf_reattach; auto. now apply (belowb_false T W).
        -- eapply framed_weaken; [|exact F]. intros ? ?; left; auto.
        -- eapply emps_static; eauto.
    + unfold set_parent. rewrite (r_kind h T HR x Hx), (r_par h T HR x Hx). unfold is_empty. rewrite Hk.
      destruct (Nat.eqb _ _); apply stepped_same; discriminate.
  - intros Hx. apply NW in Hx. destruct (remove_ok h T W HR x Hx m) as [h' [res [-> [R [F [S HO]]]]]].
    exists h', res, (t_removed T x m). conjs.
    + now apply t_removed_wf.
    + apply t_removed_root.
    + eapply emps_static; eauto.
    + rewrite HO; [discriminate|]. intros e He. split; [now apply (e_kind _ _ HE)|now apply (e_alloc _ _ HE)].
  - intros [Hx Hy]. apply NW in Hx. apply HL in Hy.
    destruct (after_node_ok h T W HR x y wc sk Hx Hy) as [H1 H2].
    destruct (refused T x y wc) eqn:B.
    + rewrite H1 by auto. apply stepped_same, refusal_nd.
    + destruct H2 as [h' [-> [M _]]]; auto. eapply stepped_moved; eauto.
  - intros [Hx Hy]. apply NW in Hx. apply HL in Hy.
    destruct Hy as [->|Hy]; [rewrite (proj1 (before_root_ok h T W HR x wc sk)); apply stepped_same; discriminate|].
    destruct (before_node_ok h T W HR x y wc sk Hx Hy) as [H1 H2].
    destruct (refused T x y wc) eqn:B.
    + rewrite H1 by auto. apply stepped_same, refusal_nd.
    + destruct H2 as [h' [-> [M _]]]; auto. eapply stepped_moved; eauto.
  - intros [Hx Hy]. apply NW in Hx. apply HL in Hy.
    destruct (after_subtree_ok h T W HR x y wc sk Hx Hy) as [H1 H2].
    destruct (refused T x y wc) eqn:B.
    + rewrite H1 by auto. apply stepped_same, refusal_nd.
    + destruct H2 as [h' [ref [-> [M _]]]]; auto. eapply stepped_moved; eauto.
  - intros [Hx Hy]. apply NW in Hx. apply HL in Hy.
    destruct Hy as [->|Hy]; [rewrite (proj2 (before_root_ok h T W HR x wc sk)); apply stepped_same; discriminate|].
    destruct (before_subtree_ok h T W HR x y wc sk Hx Hy) as [H1 H2].
    destruct (refused T x y wc) eqn:B.
    + rewrite H1 by auto. apply stepped_same, refusal_nd.
    + destruct H2 as [h' [ref [-> [M _]]]]; auto. eapply stepped_moved; eauto.
  - intros ->. destruct (flatten_ok h T W HR) as [R [F [S _]]].
    exists (flatten h root), (Ok tt), (t_flatten T). conjs; try discriminate.
    + now apply wf_flatten.
    + eapply framed_weaken; [|exact F]. intros ? ?; left; auto.
    + eapply emps_static; eauto.
  - intros Hx. apply NW in Hx.
    pose proof (r_alloc h T HR root (or_introl eq_refl)) as Hr.
    destruct (create_empty_fields h root x after (r_root h T HR x (or_intror Hx)) Hr) as [E1 [E2 [E3 [E4 E5]]]].
    destruct (create_empty_child h x after) as [h' res] eqn:E. cbn [fst snd] in *.
    assert (FR : framed h h' (fun y => y = root)).
    { constructor; [lia|..]; intros y Hn Hy; destruct (E2 y) as [? [? [? [? [? [? [? ?]]]]]]]; try lia; auto. }
    assert (R' : Repr h' T).
    { pose proof (r_alloc h T HR) as HA.
      assert (GG : forall y, node_of T y -> h_kind h' y = h_kind h y /\ h_ord h' y = h_ord h y /\ h_par h' y = h_par h y /\
        h_ch h' y = h_ch h y /\ h_root h' y = h_root h y /\ h_desc h' y = h_desc h y).
      { intros y Hy. specialize (HA y Hy). destruct (E2 y) as [? [? [? [? [? [? ?]]]]]]; [lia|]. conjs. }
      assert (N0 : node_of T root) by (left; auto).
      assert (NWW : forall y, In y (a_words T) -> node_of T y) by (right; auto).
      destruct HR. constructor; intros.
      - destruct (GG root N0) as [? [? [? [? [? ->]]]]]. auto.
      - destruct (GG x0) as [? [-> ?]]; eauto. apply NWW. eapply nth_error_In; eauto.
      - destruct (GG root N0) as [? [-> ?]]. auto.
      - destruct (GG x0 (NWW x0 H)) as [? [? [-> ?]]]. auto.
      - destruct (GG root N0) as [? [? [-> ?]]]. auto.
      - destruct (GG y H) as [? [? [? [-> ?]]]]. auto.
      - destruct (GG y H) as [? [? [? [? [-> ?]]]]]. auto.
      - destruct (GG x0 (NWW x0 H)) as [-> ?]. auto.
      - destruct (GG root N0) as [-> ?]. auto.
      - specialize (HA y H). lia. }
    assert (EI : emps_ok h' root).
    { destruct HE. assert (OLD : forall e, In e (h_emp h root) -> h_kind h' e = KEmpty /\ e < h_next h' /\ h_root h' e = root).
      { intros e He. specialize (e_alloc0 e He). destruct (E2 e) as [-> [? [? [? [-> ?]]]]]; [lia|]. repeat split; auto; lia. }
      destruct E5 as [[_ P]|[_ P]].
      - assert (NEW : forall e, In e (h_emp h' root) -> e = h_next h \/ In e (h_emp h root)).
        { intros e He. apply (Permutation_in _ P) in He. destruct He; auto. }
        constructor.
        + apply (Permutation_NoDup (Permutation_sym P)). constructor; auto. intros Hin. specialize (e_alloc0 _ Hin). lia.
        + intros e He. destruct (NEW e He) as [->|Ho]; auto. now apply OLD.
        + intros e He. destruct (NEW e He) as [->|Ho]; [lia|]. now apply OLD.
        + intros e He. destruct (NEW e He) as [->|Ho]; auto. now apply OLD.
      - constructor; rewrite P; auto; intros e He; now apply OLD. }
    exists h', (snd (void (h', res))), T. split; [now destruct res|].
    conjs.
    + eapply framed_weaken; [|exact FR]. intros y ->. left; left; auto.
    + destruct E5 as [[-> _]|[-> _]]; discriminate.
Qed.
End Step.

Record forest (rs : list nat) (h : heap) : Prop := {
  f_once : NoDup rs;
  f_alloc : forall r, In r rs -> r < h_next h;
  f_tree : forall r, In r rs -> consistent h r;
  f_emp : forall r, In r rs -> emps_ok h r
}.

Lemma touched_root h T y : wf T -> Repr h T -> emps_ok h (a_root T) -> touched h T y -> h_root h y = a_root T.
Proof. intros W HR HE [Hn|Hn]; [now apply (r_root h T HR)|now apply (e_root _ _ HE)]. Qed.

Lemma forest_step rs h r o : forest rs h -> In r rs -> op_args_live h r o ->
  forest rs (fst (tree_step h o)) /\ snd (tree_step h o) <> Diverge.
Proof.
  intros [F1 F2 F3 F4] Hr Ho.
  pose proof (consistent_wf h r (F3 r Hr)) as W. pose proof (consistent_Repr h r (F3 r Hr)) as HR.
  destruct (step_ok h (abs h r) W HR (F4 r Hr) o Ho) as [h' [res [T' [E [R [W' [ER [FR [EE ND]]]]]]]]].
  rewrite E. cbn [fst snd]. split; auto. cbn in ER. subst r.
  assert (HO : forall q, In q rs -> q <> a_root T' -> forall y, h_root h y = q -> ~ touched h (abs h (a_root T')) y).
  { intros q Hq Hne y Ey Ht. apply Hne. rewrite <- Ey.
    apply (touched_root h (abs h (a_root T'))) in Ht; auto. }
  constructor; auto.
  - intros q Hq. specialize (F2 q Hq). pose proof (fr_next _ _ _ FR). lia.
  - intros q Hq. destruct (Nat.eq_dec q (a_root T')) as [->|Hne]; [now apply Repr_consistent|].
    pose proof (consistent_wf h q (F3 q Hq)) as Wq. pose proof (consistent_Repr h q (F3 q Hq)) as HRq.
    change q with (a_root (abs h q)). apply Repr_consistent; auto.
    eapply Repr_framed; eauto. intros y Hy. eapply HO; eauto. now apply (r_root _ _ HRq).
  - intros q Hq. destruct (Nat.eq_dec q (a_root T')) as [->|Hne]; [exact EE|].
    eapply emps_framed; eauto.
    + eapply HO; eauto. apply (c_roots _ _ (F3 q Hq)). now left.
    + intros e He. eapply HO; eauto. now apply (e_root _ _ (F4 q Hq)).
Qed.

Lemma forest_new rs h : forest rs h -> forest (snd (new_root h) :: rs) (fst (new_root h)).
Proof.
  intros [F1 F2 F3 F4]. unfold new_root, alloc. cbn [fst snd].
  set (h' := mkHeap _ _ _ _ _ _ _ _ _).
  assert (FR : framed h h' (fun y => False)).
  { constructor; [cbn; lia|..]; intros y _ Hy; unfold h'; cbn; upds; auto. }
  constructor.
  - constructor; auto. intros Hin. specialize (F2 _ Hin). lia.
  - intros r [<-|Hin]; [cbn; lia|]. specialize (F2 _ Hin). cbn; lia.
  - intros r [<-|Hin].
    + constructor; unfold h', live; cbn; upds; auto; try (intros x [->|[]]; upds; auto); try (intros x []); try constructor; auto.
      intros x [].
    + change r with (a_root (abs h r)). apply Repr_consistent; [|apply consistent_wf; auto].
      eapply Repr_framed; eauto. apply consistent_Repr; auto.
  - intros r [<-|Hin].
    + constructor; unfold h'; cbn; upds; auto; try (intros ? []). constructor.
    + eapply emps_framed; eauto.
Qed.

Lemma world_forest rs h : world rs h -> forest rs h.
Proof.
  induction 1 as [|rs h _ IH|rs h r o _ IH Hr Ho].
  - constructor; try (intros r []). constructor.
  - now apply forest_new.
  - now apply (forest_step rs h r o).
Qed.
