From Coq Require Import List ZArith Bool Lia Permutation Sorted.
From Verif Require Import PyList.
Import ListNotations.

Section Sorting.
  Context {A : Type} (leb : A -> A -> bool).

  Lemma insert_perm x l : Permutation (insert leb x l) (x :: l).
  Proof.
    induction l as [|y l IH]; simpl; auto.
    destruct (leb x y); auto.
    eapply perm_trans; [apply perm_skip, IH|apply perm_swap].
  Qed.
  Lemma isort_perm l : Permutation (isort leb l) l.
  Proof.
    induction l as [|x l IH]; simpl; auto.
    eapply perm_trans; [apply insert_perm|apply perm_skip, IH].
  Qed.

  Lemma insert_sorted_in x l :
    (forall a b, In a (x :: l) -> In b (x :: l) -> leb a b = true \/ leb b a = true) ->
    (forall a b c, In a (x :: l) -> In b (x :: l) -> In c (x :: l) ->
                   leb a b = true -> leb b c = true -> leb a c = true) ->
    StronglySorted (fun a b => leb a b = true) l ->
    StronglySorted (fun a b => leb a b = true) (insert leb x l).
  Proof.
    intros Tot Tr S. induction S as [|y l S IH F]; simpl.
    - repeat constructor.
    - destruct (leb x y) eqn:E.
      + constructor; [constructor; auto|]. constructor; auto.
        rewrite Forall_forall in *. intros z Hz. apply Tr with y; simpl; auto.
      + constructor.
        * apply IH.
          -- intros a b Ha Hb; apply Tot; simpl in *; tauto.
          -- intros a b d Ha Hb Hd; apply Tr; simpl in *; tauto.
        * rewrite Forall_forall in *. intros z Hz.
          apply (Permutation_in _ (insert_perm x l)) in Hz. destruct Hz as [<-|Hz]; auto.
          destruct (Tot x y); simpl; auto. congruence.
  Qed.
  Lemma isort_sorted_in l :
    (forall a b, In a l -> In b l -> leb a b = true \/ leb b a = true) ->
    (forall a b c, In a l -> In b l -> In c l -> leb a b = true -> leb b c = true -> leb a c = true) ->
    StronglySorted (fun a b => leb a b = true) (isort leb l).
  Proof.
    induction l as [|x l IH]; simpl; intros Tot Tr.
    - constructor.
    - assert (forall z, In z (x :: isort leb l) -> In z (x :: l)) as H.
      { intros z [<-|Hz]; simpl; auto. right; eapply Permutation_in; try apply isort_perm; auto. }
      apply insert_sorted_in.
      + intros a b Ha Hb; apply Tot; apply H; auto.
      + intros a b d Ha Hb Hd. apply Tr; apply H; auto.
      + apply IH.
        * intros; apply Tot; simpl; auto.
        * intros a b d Ha Hb Hd; apply (Tr a b d); simpl; auto.
  Qed.
  Lemma isort_sorted l :
    (forall a b, leb a b = true \/ leb b a = true) ->
    (forall a b c, leb a b = true -> leb b c = true -> leb a c = true) ->
    StronglySorted (fun a b => leb a b = true) (isort leb l).
  Proof. intros H1 H2; apply isort_sorted_in; [intros; apply H1|intros a b d _ _ _; apply H2]. Qed.

  Lemma isort_id l : StronglySorted (fun a b => leb a b = true) l -> isort leb l = l.
  Proof.
    induction 1 as [|x l S IH F]; simpl; auto. rewrite IH.
    destruct l as [|y l]; simpl; auto.
    inversion F as [|? ? H]; subst. rewrite H; auto.
  Qed.
End Sorting.

(** A list sorted by a strict order is determined by its elements. *)
Lemma sorted_unique {A} (lt : A -> A -> Prop) (l1 l2 : list A) :
  (forall a, In a l1 -> ~ lt a a) ->
  (forall a b, In a l1 -> In b l1 -> lt a b -> ~ lt b a) ->
  StronglySorted lt l1 -> StronglySorted lt l2 -> Permutation l1 l2 -> l1 = l2.
Proof.
  revert l2; induction l1 as [|x l1 IH]; intros l2 Irr Asym S1 S2 P.
  - apply Permutation_nil in P; auto.
  - destruct l2 as [|y l2]; [symmetry in P; apply Permutation_nil in P; discriminate|].
    inversion S1 as [|? ? S1' F1]; subst. inversion S2 as [|? ? S2' F2]; subst.
    rewrite Forall_forall in F1, F2.
    assert (x = y) as <-.
    { assert (Hy : In y (x :: l1)) by (eapply Permutation_in; [symmetry; apply P|simpl; auto]).
      assert (Hx : In x (y :: l2)) by (eapply Permutation_in; [apply P|simpl; auto]).
      destruct Hy as [Hy|Hy]; auto. destruct Hx as [Hx|Hx]; auto.
      exfalso. apply (Asym x y); simpl; auto. }
    f_equal. apply IH; auto.
    + intros a Ha; apply Irr; simpl; auto.
    + intros a b Ha Hb; apply Asym; simpl; auto.
    + eapply Permutation_cons_inv; eauto.
Qed.

Definition key_lt {A} (key : A -> Z) (a b : A) : Prop := (key a < key b)%Z.

Lemma key_sorted_unique {A} (key : A -> Z) (l1 l2 : list A) :
  StronglySorted (key_lt key) l1 -> StronglySorted (key_lt key) l2 -> Permutation l1 l2 -> l1 = l2.
Proof. intros; eapply sorted_unique; eauto; unfold key_lt; intros; lia. Qed.

Lemma strongly_sorted_impl {A} (P Q : A -> A -> Prop) l :
  (forall a b, In a l -> In b l -> P a b -> Q a b) -> StronglySorted P l -> StronglySorted Q l.
Proof.
  intros H S; induction S as [|x l S IH F]; constructor.
  - apply IH; intros a b Ha Hb; apply H; simpl; auto.
  - rewrite Forall_forall in *. intros y Hy; apply H; simpl; auto.
Qed.

(** Sorting a list of elements with pairwise different keys. *)
Lemma sort_on_sorted {A} (key : A -> Z) (l : list A) :
  StronglySorted (fun a b => Z.leb (key a) (key b) = true) (sort_on key l).
Proof. apply isort_sorted; intros; rewrite ?Z.leb_le in *; lia. Qed.
Lemma sort_on_perm {A} (key : A -> Z) (l : list A) : Permutation (sort_on key l) l.
Proof. apply isort_perm. Qed.

Lemma sort_on_unique {A} (key : A -> Z) (l l' : list A) :
  Permutation l l' -> StronglySorted (key_lt key) l' -> sort_on key l = l'.
Proof.
  intros P S.
  apply key_sorted_unique with key; auto.
  2:{ eapply perm_trans; [apply sort_on_perm|auto]. }
  assert (ND : forall a b, In a l' -> In b l' -> key a = key b -> a = b).
  { clear P. induction S as [|x l' S IH F]; simpl; [tauto|].
    rewrite Forall_forall in F. unfold key_lt in F.
    intros a b [<-|Ha] [<-|Hb] E; auto.
    - specialize (F b Hb); lia.
    - specialize (F a Ha); lia. }
  assert (NDl : NoDup l').
  { clear P ND. induction S as [|x l' S IH F]; constructor; auto.
    rewrite Forall_forall in F. intros H; specialize (F x H). unfold key_lt in F; lia. }
  assert (P2 : Permutation (sort_on key l) l') by (eapply perm_trans; [apply sort_on_perm|auto]).
  pose proof (sort_on_sorted key l) as Ss.
  assert (ND2 : NoDup (sort_on key l)).
  { eapply Permutation_NoDup; [symmetry; apply P2|auto]. }
  assert (ND3 : forall a b, In a (sort_on key l) -> In b (sort_on key l) -> key a = key b -> a = b).
  { intros a b Ha Hb; apply ND; eapply Permutation_in; eauto. }
  clear - Ss ND2 ND3. induction Ss as [|x m S IH F]; constructor.
  - apply IH; [inversion ND2; auto|]. intros; apply ND3; simpl; auto.
  - rewrite Forall_forall in *. intros y Hy. specialize (F y Hy). apply Z.leb_le in F.
    unfold key_lt. destruct (Z.eq_dec (key x) (key y)) as [E|]; [|lia].
    apply ND3 in E; simpl; auto. subst y. inversion ND2; tauto.
Qed.

Lemma filter_all {A} (f : A -> bool) l : (forall x, In x l -> f x = true) -> filter f l = l.
Proof.
  induction l as [|x l IH]; simpl; intros H; auto.
  rewrite (H x) by auto. rewrite IH; auto.
Qed.
Lemma filter_none {A} (f : A -> bool) l : (forall x, In x l -> f x = false) -> filter f l = [].
Proof.
  induction l as [|x l IH]; simpl; intros H; auto.
  rewrite (H x) by auto. rewrite IH; auto.
Qed.

Lemma mem_In x l : mem x l = true <-> In x l.
Proof.
  unfold mem. rewrite existsb_exists. split.
  - intros [y [H1 H2]]. apply Nat.eqb_eq in H2; subst; auto.
  - intros H; exists x; split; auto. apply Nat.eqb_refl.
Qed.
Lemma mem_false x l : mem x l = false <-> ~ In x l.
Proof. rewrite <- mem_In. destruct (mem x l); split; congruence. Qed.

Lemma list_remove_In x l : In x l -> exists r, list_remove x l = Some r.
Proof.
  induction l as [|y l IH]; simpl; [tauto|]. destruct (Nat.eqb_spec y x); eauto.
  intros [H|H]; [congruence|]. destruct (IH H) as [r ->]; eauto.
Qed.
Lemma list_remove_None x l : list_remove x l = None <-> ~ In x l.
Proof.
  induction l as [|y l IH]; simpl; [tauto|]. destruct (Nat.eqb_spec y x) as [->|].
  - split; [discriminate|]. tauto.
  - destruct (list_remove x l).
    + split; [discriminate|]. intros H. exfalso.
      assert (Some l0 = None) by (apply IH; auto). discriminate.
    + split; auto. intros _ [H|H]; auto. now apply IH.
Qed.
Lemma list_remove_filter x l : NoDup l -> In x l ->
  list_remove x l = Some (filter (fun y => negb (Nat.eqb y x)) l).
Proof.
  induction l as [|y l IH]; simpl; intros ND H; [tauto|].
  inversion ND as [|? ? N1 N2]; subst.
  destruct (Nat.eqb_spec y x) as [->|Hn]; simpl.
  - f_equal. symmetry. apply filter_all. intros z Hz. destruct (Nat.eqb_spec z x); auto. subst; tauto.
  - destruct H as [H|H]; [congruence|]. rewrite IH; auto.
Qed.

Lemma filter_StronglySorted {A} (R : A -> A -> Prop) f l :
  StronglySorted R l -> StronglySorted R (filter f l).
Proof.
  induction 1 as [|x l S IH F]; simpl; [constructor|].
  destruct (f x); auto. constructor; auto.
  rewrite Forall_forall in *. intros y Hy. apply filter_In in Hy as [Hy _]. auto.
Qed.

Lemma filter_ext_in' {A} (f g : A -> bool) l :
  (forall x, In x l -> f x = g x) -> filter f l = filter g l.
Proof. apply filter_ext_in. Qed.

Lemma filter_filter {A} (f g : A -> bool) l :
  filter f (filter g l) = filter (fun x => g x && f x) l.
Proof.
  induction l as [|x l IH]; simpl; auto.
  destruct (g x); simpl; rewrite IH; auto.
Qed.

Lemma filter_partition_perm {A} (f : A -> bool) l :
  Permutation l (filter f l ++ filter (fun x => negb (f x)) l).
Proof.
  induction l as [|x l IH]; simpl; auto.
  destruct (f x); simpl; auto.
  eapply perm_trans; [apply perm_skip, IH|]. apply Permutation_middle.
Qed.

Lemma length_set_nth {A} k (v : A) l : length (set_nth k v l) = length l.
Proof. revert k; induction l; intros [|k]; simpl; auto. Qed.
Lemma nth_error_set_nth {A} k (v : A) l j :
  nth_error (set_nth k v l) j =
  if Nat.eqb j k then (if Nat.ltb k (length l) then Some v else None) else nth_error l j.
Proof.
  revert k j; induction l as [|x l IH]; intros k j; simpl.
  - destruct k as [|k], j as [|j]; simpl; auto. destruct (Nat.eqb j k); auto.
  - destruct k as [|k], j as [|j]; simpl; auto. rewrite IH. reflexivity.
Qed.
Lemma set_nth_app {A} (l1 l2 : list A) x v :
  set_nth (length l1) v (l1 ++ x :: l2) = l1 ++ v :: l2.
Proof. induction l1; simpl; congruence. Qed.

Lemma py_index_nonneg {A} (l : list A) i :
  (0 <= i)%Z -> (i < Z.of_nat (length l))%Z -> py_index l i = Some (Z.to_nat i).
Proof.
  intros H1 H2. unfold py_index.
  destruct (Z.leb_spec 0 i); [|lia]. destruct (Z.ltb_spec i (Z.of_nat (length l))); auto; lia.
Qed.
Lemma py_nth_nonneg {A} (l : list A) i : (0 <= i)%Z -> py_nth l i = nth_error l (Z.to_nat i).
Proof.
  intros H. unfold py_nth, py_index.
  destruct (Z.leb_spec 0 i); [|lia]. destruct (Z.ltb_spec i (Z.of_nat (length l))); auto.
  symmetry; apply nth_error_None; lia.
Qed.
Lemma py_bound_nonneg {A} (l : list A) i :
  (0 <= i)%Z -> (i <= Z.of_nat (length l))%Z -> py_bound l i = Z.to_nat i.
Proof. intros. unfold py_bound. destruct (Z.leb_spec 0 i); lia. Qed.

Lemma last_opt_app {A} (l : list A) x : last_opt (l ++ [x]) = Some x.
Proof.
  induction l as [|y l IH]; simpl; auto. destruct (l ++ [x]) eqn:E; auto.
  destruct l; discriminate.
Qed.
Lemma last_opt_In {A} (l : list A) x : last_opt l = Some x -> In x l.
Proof.
  induction l as [|y l IH]; simpl; [discriminate|].
  destruct l; [intros [= ->]; auto|]. intros H; right; auto.
Qed.
Lemma last_opt_None {A} (l : list A) : last_opt l = None -> l = [].
Proof.
  induction l as [|y l IH]; simpl; auto. destruct l; [discriminate|].
  intros H; apply IH in H; discriminate.
Qed.

Lemma enumerate_map {A} st (l : list A) : map snd (enumerate st l) = l.
Proof. revert st; induction l; simpl; intros; f_equal; auto. Qed.
