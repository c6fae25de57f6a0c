(** Facts about abstract trees. *)
From Coq Require Import String List NArith ZArith Bool Lia Permutation Sorted.
From Verif Require Import PyStr PyList PyListFacts PyExn TreeModel TreeSpec.
Import ListNotations.

Section Facts.
Variable T : atree.
Hypothesis W : wf T.

Notation root := (a_root T).
Notation words := (a_words T).
Notation par := (a_par T).

Lemma below_word x a : below T x a -> In x words.
Proof. destruct 1; auto. Qed.
Lemma below_node x a : below T x a -> node_of T a.
Proof. induction 1; auto. now apply (wf_parent T W). Qed.
Lemma below_trans x y z : below T x y -> below T y z -> below T x z.
Proof.
  induction 1 as [x Hx|x a Hx H IH]; intros Hz.
  - now apply below_up.
  - apply below_up; auto.
Qed.
Lemma below_parent x y : below T x y -> In y words -> below T x (par y).
Proof. intros H Hy. eapply below_trans; eauto. now constructor. Qed.
Lemma below_cases x a : below T x a <-> In x words /\ (par x = a \/ below T (par x) a).
Proof.
  split.
  - destruct 1; auto.
  - intros [Hx [<-|H]]; [now constructor|now apply below_up].
Qed.
Lemma root_not_below a : ~ below T root a.
Proof. intros H. apply below_word in H. now apply (wf_rootfresh T W). Qed.

(** Path to the root. *)
Inductive path : nat -> list nat -> Prop :=
| path_root : path root []
| path_word x l : In x words -> path (par x) l -> path x (par x :: l).

Lemma path_fun x l1 l2 : path x l1 -> path x l2 -> l1 = l2.
Proof.
  intros H; revert l2; induction H as [|x l Hx H IH]; intros l2 H2; inversion H2; subst; auto.
  - exfalso; now apply (wf_rootfresh T W).
  - exfalso; now apply (wf_rootfresh T W).
  - f_equal; auto.
Qed.
Lemma path_below x l a : path x l -> (In a l <-> below T x a).
Proof.
  intros H; revert a; induction H as [|x l Hx H IH]; intros a; simpl.
  - split; [tauto|intros HB; now apply root_not_below in HB].
  - rewrite below_cases, IH. tauto.
Qed.
Lemma path_exists_below x : below T x root -> exists l, path x l.
Proof.
  intros H. remember root as r eqn:E. induction H as [x Hx|x a Hx H IH].
  - exists [root]. rewrite <- E. constructor; auto. rewrite E. constructor.
  - destruct (IH E) as [l Hl]. exists (par x :: l). constructor; auto.
Qed.
Lemma path_exists x : node_of T x -> exists l, path x l.
Proof.
  intros [->|H].
  - exists []; constructor.
  - apply path_exists_below. now apply (wf_reach T W).
Qed.
Lemma path_node x l : path x l -> node_of T x.
Proof. destruct 1; [left|right]; auto. Qed.
Lemma path_sub x l a : path x l -> In a l -> exists l', path a l' /\ length l' < length l.
Proof.
  induction 1 as [|x l Hx H IH]; simpl; [tauto|].
  intros [<-|Ha].
  - exists l; split; auto with arith.
  - destruct (IH Ha) as [l' [H1 H2]]. exists l'; split; auto with arith.
Qed.
Lemma below_irrefl x : ~ below T x x.
Proof.
  intros H. destruct (path_exists x (or_intror (below_word _ _ H))) as [l Hl].
  apply (path_below x l x Hl) in H.
  destruct (path_sub x l x Hl H) as [l' [H1 H2]].
  rewrite (path_fun _ _ _ H1 Hl) in H2. lia.
Qed.
Lemma below_asym x y : below T x y -> ~ below T y x.
Proof. intros H1 H2. apply (below_irrefl x). eapply below_trans; eauto. Qed.
Lemma path_NoDup x l : path x l -> NoDup (x :: l).
Proof.
  induction 1 as [|x l Hx H IH].
  - repeat constructor; auto.
  - constructor; auto. intros Hin.
    apply (below_irrefl x). apply below_cases. split; auto.
    simpl in Hin. destruct Hin as [E|Hin]; auto.
    right. now apply (path_below (par x) l x H).
Qed.
Lemma path_incl x l : path x l -> incl l (root :: words).
Proof.
  intros H a Ha. apply (path_below x l a H) in Ha. apply below_node in Ha as [->|]; simpl; auto.
Qed.
Lemma path_length x l : path x l -> length l <= length words.
Proof.
  intros H. destruct H as [|x l Hx H]; [simpl; lia|].
  assert (HI : incl (x :: par x :: l) (root :: words)).
  { intros a [<-|Ha]; simpl; auto. apply (path_incl x (par x :: l)); auto. now constructor. }
  assert (ND : NoDup (x :: par x :: l)) by (apply path_NoDup; now constructor).
  apply NoDup_incl_length in HI; auto. simpl in *. lia.
Qed.
Lemma anc_path x l n : path x l -> length l <= n -> anc T n x = l.
Proof.
  intros H; revert n; induction H as [|x l Hx H IH]; intros n Hn.
  - destruct n; simpl; auto. now rewrite Nat.eqb_refl.
  - destruct n; simpl in *; [lia|].
    destruct (Nat.eqb_spec x root) as [->|].
    + exfalso; now apply (wf_rootfresh T W).
    + rewrite IH; auto. lia.
Qed.

Lemma belowb_spec x a : belowb T x a = true <-> below T x a.
Proof.
  unfold belowb. rewrite andb_true_iff, mem_In. split.
  - intros [Hx Ha]. apply mem_In in Ha.
    destruct (path_exists x (or_intror Hx)) as [l Hl].
    rewrite (anc_path x l) in Ha by (auto; eapply path_length; eauto).
    now apply (path_below x l a Hl).
  - intros H. pose proof (below_word _ _ H) as Hx. split; auto.
    destruct (path_exists x (or_intror Hx)) as [l Hl].
    rewrite (anc_path x l) by (auto; eapply path_length; eauto).
    apply mem_In. now apply (path_below x l a Hl).
Qed.
Lemma belowb_false x a : belowb T x a = false <-> ~ below T x a.
Proof. rewrite <- belowb_spec. destruct (belowb T x a); split; congruence || tauto. Qed.
Lemma below_dec x a : {below T x a} + {~ below T x a}.
Proof.
  destruct (belowb T x a) eqn:E; [left; now apply belowb_spec|right; now apply belowb_false].
Qed.
Lemma insubb_spec x a : insubb T x a = true <-> x = a \/ below T x a.
Proof. unfold insubb. rewrite orb_true_iff, Nat.eqb_eq, belowb_spec. tauto. Qed.

(** Two ancestors of the same node are comparable. *)
Lemma below_comparable x a b : below T x a -> below T x b -> a = b \/ below T a b \/ below T b a.
Proof.
  induction 1 as [x Hx|x a Hx H IH]; intros Hb; apply below_cases in Hb as [_ [Hb|Hb]].
  - auto.
  - auto.
  - subst b. auto.
  - auto.
Qed.

Definition chs (y : nat) : list nat := filter (fun c => Nat.eqb (par c) y) words.
Definition subs (y : nat) : list nat := filter (fun c => belowb T c y) words.

Lemma chs_In c y : In c (chs y) <-> In c words /\ par c = y.
Proof. unfold chs. rewrite filter_In, Nat.eqb_eq. tauto. Qed.
Lemma subs_In c y : In c (subs y) <-> below T c y.
Proof.
  unfold subs. rewrite filter_In, belowb_spec. split; [tauto|].
  intros H; split; auto. now apply below_word in H.
Qed.
Lemma chs_NoDup y : NoDup (chs y).
Proof. apply NoDup_filter. apply (wf_nodup T W). Qed.
Lemma subs_NoDup y : NoDup (subs y).
Proof. apply NoDup_filter. apply (wf_nodup T W). Qed.

Lemma child_of_below c x y : In c words -> par c = y -> below T x c -> below T x y.
Proof. intros Hc <- H. now apply below_parent. Qed.

(** y is below x iff it is a child of x or below a child of x. *)
Lemma below_via_child y x : below T y x <-> (In y words /\ par y = x) \/
  exists c, In c (chs x) /\ below T y c.
Proof.
  split.
  - intros H. induction H as [y Hy|y x Hy H IH]; auto.
    right. destruct IH as [[Hp1 Hp2]|[c [Hc1 Hc2]]].
    + exists (par y). split; [now apply chs_In|now constructor].
    + exists c; split; auto. now apply below_up.
  - intros [[H1 <-]|[c [H1 H2]]]; [now constructor|].
    apply chs_In in H1 as [H1 H3]. eapply child_of_below; eauto.
Qed.

Lemma flat_map_NoDup {A B} (f : A -> list B) l :
  NoDup l -> (forall x, In x l -> NoDup (f x)) ->
  (forall x y z, In x l -> In y l -> In z (f x) -> In z (f y) -> x = y) ->
  NoDup (flat_map f l).
Proof.
  induction l as [|x l IH]; simpl; intros ND H1 H2; [constructor|].
  inversion ND as [|? ? N1 N2]; subst.
  assert (NoDup (flat_map f l)) as ND2 by (apply IH; auto; intros; eapply H2; eauto).
  specialize (H1 x (or_introl eq_refl)).
  assert (forall z, In z (f x) -> ~ In z (flat_map f l)) as D.
  { intros z Hz Hz'. apply in_flat_map in Hz' as [y [Hy1 Hy2]].
    assert (x = y) by (eapply H2; eauto). subst; auto. }
  clear - ND2 H1 D. induction (f x) as [|z r IHr]; simpl; auto.
  inversion H1; subst. constructor.
  - rewrite in_app_iff. intros [Hz|Hz]; auto. apply (D z); simpl; auto.
  - apply IHr; auto. intros; apply D; simpl; auto.
Qed.
Lemma NoDup_app {A} (l1 l2 : list A) :
  NoDup l1 -> NoDup l2 -> (forall x, In x l1 -> ~ In x l2) -> NoDup (l1 ++ l2).
Proof.
  induction l1 as [|x l IH]; simpl; intros H1 H2 H; auto.
  inversion H1; subst. constructor; auto. rewrite in_app_iff.
  intros [Hx|Hx]; auto. apply (H x); auto.
Qed.

Lemma subs_unfold x : Permutation (subs x) (chs x ++ flat_map subs (chs x)).
Proof.
  apply NoDup_Permutation.
  - apply subs_NoDup.
  - apply NoDup_app.
    + apply chs_NoDup.
    + apply flat_map_NoDup.
      * apply chs_NoDup.
      * intros; apply subs_NoDup.
      * intros a b z Ha Hb Hza Hzb.
        apply subs_In in Hza, Hzb. apply chs_In in Ha as [Ha1 Ha2]. apply chs_In in Hb as [Hb1 Hb2].
        destruct (below_comparable z a b Hza Hzb) as [E|[E|E]]; auto.
        -- apply below_cases in E as [_ [E|E]].
           ++ exfalso. rewrite Ha2 in E. subst b. apply (below_irrefl x).
              rewrite <- Hb2 at 2. now constructor.
           ++ exfalso. rewrite Ha2 in E. apply (below_irrefl x).
              eapply child_of_below; [exact Hb1|exact Hb2|exact E].
        -- apply below_cases in E as [_ [E|E]].
           ++ exfalso. rewrite Hb2 in E. subst a. apply (below_irrefl x).
              rewrite <- Ha2 at 2. now constructor.
           ++ exfalso. rewrite Hb2 in E. apply (below_irrefl x).
              eapply child_of_below; [exact Ha1|exact Ha2|exact E].
    + intros c Hc Hf. apply in_flat_map in Hf as [d [Hd Hf]].
      apply subs_In in Hf. apply chs_In in Hc as [Hc1 Hc2]. apply chs_In in Hd as [Hd1 Hd2].
      apply below_cases in Hf as [_ [Hf|Hf]].
      * rewrite Hc2 in Hf. subst d. apply (below_irrefl x). rewrite <- Hd2 at 2. now constructor.
      * rewrite Hc2 in Hf. apply (below_irrefl x). eapply child_of_below; eauto.
  - intros y. rewrite subs_In, in_app_iff, in_flat_map, below_via_child.
    rewrite chs_In. apply or_iff_compat_l. split; intros [c [H1 H2]]; exists c.
    + rewrite subs_In; auto.
    + rewrite subs_In in H2; auto.
Qed.

Lemma subs_root : subs root = words.
Proof.
  apply filter_all. intros x Hx. apply belowb_spec. now apply (wf_reach T W).
Qed.
Lemma chs_nil_subs y : chs y = [] -> subs y = [].
Proof.
  intros H. pose proof (subs_unfold y) as P. rewrite H in P. simpl in P.
  symmetry in P. now apply Permutation_nil in P.
Qed.
End Facts.
