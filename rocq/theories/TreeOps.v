(** Editing calls on represented trees: create_child, parent setter, flatten, remove. *)
From Coq Require Import String List NArith ZArith Bool Lia Permutation Sorted.
From Verif Require Import PyStr PyList PyListFacts PyExn TreeModel TreeSpec TreeFacts TreeRepr.
Import ListNotations.

Lemma upd_same {A} (f : nat -> A) k v : upd f k v k = v.
Proof. unfold upd. now rewrite Nat.eqb_refl. Qed.
Lemma upd_other {A} (f : nat -> A) k v x : x <> k -> upd f k v x = f x.
Proof. unfold upd. intros H. destruct (Nat.eqb_spec x k); congruence. Qed.

Global Arguments upd : simpl never.

Ltac upds := repeat match goal with
  | |- context [upd ?f ?k ?v ?k] => rewrite (upd_same f k v)
  | |- context [upd ?f ?k ?v ?x] => rewrite (upd_other f k v x) by (solve [auto | congruence | lia])
  end.

Lemma NoDup_app_inv {A} (l1 l2 : list A) : NoDup (l1 ++ l2) ->
  NoDup l1 /\ NoDup l2 /\ forall x, In x l1 -> ~ In x l2.
Proof.
  induction l1 as [|a l1 IH]; simpl; intros H; [repeat split; auto; constructor|].
  inversion H as [|? ? H1 H2]; subst. destruct (IH H2) as [I1 [I2 I3]].
  split; [constructor; auto; intros Ha; apply H1, in_app_iff; auto|]. split; auto.
  intros x [->|Hx]; auto. intros Hx; apply H1, in_app_iff; auto.
Qed.

(** What a call on tree T may touch: its nodes and its empty nodes. *)
Definition touched (h : heap) (T : atree) (y : nat) : Prop :=
  node_of T y \/ In y (h_emp h (a_root T)).
Record framed (h h' : heap) (S : nat -> Prop) : Prop := {
  fr_next : h_next h <= h_next h';
  fr_kind : forall y, ~ S y -> y < h_next h -> h_kind h' y = h_kind h y;
  fr_ord : forall y, ~ S y -> y < h_next h -> h_ord h' y = h_ord h y;
  fr_par : forall y, ~ S y -> y < h_next h -> h_par h' y = h_par h y;
  fr_ch : forall y, ~ S y -> y < h_next h -> h_ch h' y = h_ch h y;
  fr_root : forall y, ~ S y -> y < h_next h -> h_root h' y = h_root h y;
  fr_desc : forall y, ~ S y -> y < h_next h -> h_desc h' y = h_desc h y;
  fr_emp : forall y, ~ S y -> y < h_next h -> h_emp h' y = h_emp h y;
  fr_eord : forall y, ~ S y -> y < h_next h -> h_eord h' y = h_eord h y
}.
Lemma framed_refl h S : framed h h S.
Proof. constructor; auto. Qed.
Lemma framed_trans h1 h2 h3 S : framed h1 h2 S -> framed h2 h3 S -> framed h1 h3 S.
Proof.
  intros F1 F2. pose proof (fr_next _ _ _ F1). pose proof (fr_next _ _ _ F2).
  constructor; intros; try lia.
  - rewrite (fr_kind _ _ _ F2) by (auto; lia). now apply (fr_kind _ _ _ F1).
  - rewrite (fr_ord _ _ _ F2) by (auto; lia). now apply (fr_ord _ _ _ F1).
  - rewrite (fr_par _ _ _ F2) by (auto; lia). now apply (fr_par _ _ _ F1).
  - rewrite (fr_ch _ _ _ F2) by (auto; lia). now apply (fr_ch _ _ _ F1).
  - rewrite (fr_root _ _ _ F2) by (auto; lia). now apply (fr_root _ _ _ F1).
  - rewrite (fr_desc _ _ _ F2) by (auto; lia). now apply (fr_desc _ _ _ F1).
  - rewrite (fr_emp _ _ _ F2) by (auto; lia). now apply (fr_emp _ _ _ F1).
  - rewrite (fr_eord _ _ _ F2) by (auto; lia). now apply (fr_eord _ _ _ F1).
Qed.
Lemma framed_weaken h h' (S S' : nat -> Prop) : (forall y, S y -> S' y) -> framed h h' S -> framed h h' S'.
Proof. intros H []. constructor; intros; auto. Qed.

Lemma Repr_framed h h' Z0 T : framed h h' Z0 -> (forall y, node_of T y -> ~ Z0 y) -> Repr h T -> Repr h' T.
Proof.
  intros F D HR. destruct F, HR.
  assert (N0 : node_of T (a_root T)) by (left; auto).
  assert (NW : forall x, In x (a_words T) -> node_of T x) by (right; auto).
  constructor; intros.
  - rewrite fr_desc0; auto.
  - pose proof (NW _ (nth_error_In _ _ H)). rewrite fr_ord0; auto.
  - rewrite fr_ord0; auto.
  - rewrite fr_par0; auto.
  - rewrite fr_par0; auto.
  - rewrite fr_ch0; auto.
  - rewrite fr_root0; auto.
  - rewrite fr_kind0; auto.
  - rewrite fr_kind0; auto.
  - specialize (r_alloc y H). lia.
Qed.

(** Moving [below] between trees. *)
Lemma below_mono T T' : (forall x, In x (a_words T) -> In x (a_words T') /\ a_par T' x = a_par T x) ->
  forall x a, below T x a -> below T' x a.
Proof.
  intros H x a HB. induction HB as [x Hx|x a Hx HB IH]; destruct (H x Hx) as [H1 H2].
  - rewrite <- H2. now constructor.
  - apply below_up; auto. now rewrite H2.
Qed.
Lemma path_avoid T T' x : a_root T' = a_root T ->
  (forall y, In y (a_words T) -> y <> x -> In y (a_words T') /\ a_par T' y = a_par T y) ->
  forall y l, path T y l -> ~ In x (y :: l) -> y = a_root T \/ below T' y (a_root T).
Proof.
  intros Er H y l HP. induction HP as [|y l Hy HP IH]; intros Hn; auto.
  right. simpl in Hn. destruct (H y Hy) as [H1 H2]; [intuition|].
  destruct IH as [IH|IH]; [simpl; intuition| |].
  - rewrite <- IH, <- H2. now constructor.
  - apply below_up; auto. now rewrite H2.
Qed.

Lemma framed_ord h x v S : (S x : Prop) -> framed h (put_ord h x v) S.
Proof. intros Hx. constructor; cbn; intros; auto. rewrite upd_other; congruence. Qed.
Lemma framed_par h x v S : (S x : Prop) -> framed h (put_par h x v) S.
Proof. intros Hx. constructor; cbn; intros; auto. rewrite upd_other; congruence. Qed.
Lemma framed_ch h x v S : (S x : Prop) -> framed h (put_ch h x v) S.
Proof. intros Hx. constructor; cbn; intros; auto. rewrite upd_other; congruence. Qed.
Lemma framed_desc h x v S : (S x : Prop) -> framed h (put_desc h x v) S.
Proof. intros Hx. constructor; cbn; intros; auto. rewrite upd_other; congruence. Qed.
Lemma framed_emp h x v S : (S x : Prop) -> framed h (put_emp h x v) S.
Proof. intros Hx. constructor; cbn; intros; auto. rewrite upd_other; congruence. Qed.
Lemma framed_eord h x v S : (S x : Prop) -> framed h (put_eord h x v) S.
Proof. intros Hx. constructor; cbn; intros; auto. rewrite upd_other; congruence. Qed.

(** Fields that most calls leave alone. *)
Record same_static (h h' : heap) : Prop := {
  ss_next : h_next h' = h_next h;
  ss_kind : h_kind h' = h_kind h;
  ss_root : h_root h' = h_root h;
  ss_emp : h_emp h' = h_emp h
}.
Lemma same_static_refl h : same_static h h.
Proof. now constructor. Qed.
Lemma same_static_trans h1 h2 h3 : same_static h1 h2 -> same_static h2 h3 -> same_static h1 h3.
Proof. intros [] []. constructor; congruence. Qed.

(** Renumbering loops. *)
Lemma renumber_fields l : forall h st, same_static h (renumber h st l) /\
  h_par (renumber h st l) = h_par h /\ h_ch (renumber h st l) = h_ch h /\
  h_desc (renumber h st l) = h_desc h /\ h_eord (renumber h st l) = h_eord h.
Proof.
  induction l as [|x l IH]; intros h st; simpl.
  - split; auto using same_static_refl.
  - destruct (IH (put_ord h x st) (st + 1)%Z) as [[] [? [? [? ?]]]]. split; [constructor|]; auto.
Qed.
Lemma renumber_out l : forall h st y, ~ In y l -> h_ord (renumber h st l) y = h_ord h y.
Proof.
  induction l as [|x l IH]; intros h st y Hy; simpl in *; auto.
  rewrite IH by tauto. cbn. upds. auto.
Qed.
Lemma renumber_in l : forall h st i x, NoDup l -> nth_error l i = Some x ->
  h_ord (renumber h st l) x = (st + Z.of_nat i)%Z.
Proof.
  induction l as [|z l IH]; intros h st i x ND Hi; [destruct i; discriminate|].
  inversion ND; subst. destruct i as [|i]; simpl in *.
  - injection Hi as ->. rewrite renumber_out by auto. cbn. upds. lia.
  - rewrite (IH _ _ i) by auto. lia.
Qed.
Lemma renumber_framed l (S : nat -> Prop) : forall h st, (forall y, In y l -> S y) -> framed h (renumber h st l) S.
Proof.
  induction l as [|x l IH]; intros h st Hl; simpl; [apply framed_refl|].
  eapply framed_trans; [|apply IH; intros; apply Hl; simpl; auto].
  apply framed_ord. apply Hl; simpl; auto.
Qed.
Lemma renumber_pos l : forall h k, NoDup l -> pos_ok (renumber h (Z.of_nat k + 1) l) k l.
Proof. intros h k ND i x Hi. rewrite (renumber_in l h _ i x ND Hi). lia. Qed.

(** Changing nothing but the ords of some empty nodes. *)
Record only_eord (h h' : heap) (l : list nat) : Prop := {
  oe_next : h_next h' = h_next h; oe_kind : h_kind h' = h_kind h; oe_ord : h_ord h' = h_ord h;
  oe_par : h_par h' = h_par h; oe_ch : h_ch h' = h_ch h; oe_root : h_root h' = h_root h;
  oe_desc : h_desc h' = h_desc h; oe_emp : h_emp h' = h_emp h;
  oe_eord : forall y, ~ In y l -> h_eord h' y = h_eord h y
}.
Lemma only_eord_refl h l : only_eord h h l.
Proof. now constructor. Qed.
Lemma only_eord_put h e v l : In e l -> only_eord h (put_eord h e v) l.
Proof. intros He. constructor; auto. intros y Hy. cbn. upds. auto. Qed.
Lemma only_eord_trans h1 h2 h3 l : only_eord h1 h2 l -> only_eord h2 h3 l -> only_eord h1 h3 l.
Proof.
  intros F1 F2. destruct F1, F2. constructor; try congruence.
  intros y Hy. rewrite oe_eord1 by auto. auto.
Qed.
Lemma only_eord_weaken h1 h2 l l' : incl l l' -> only_eord h1 h2 l -> only_eord h1 h2 l'.
Proof. intros I []. constructor; auto. Qed.
Lemma only_eord_framed h h' l (S : nat -> Prop) : (forall y, In y l -> S y) -> only_eord h h' l -> framed h h' S.
Proof. intros I []. constructor; intros; try congruence; auto. lia. Qed.
Lemma only_eord_static h h' l : only_eord h h' l -> same_static h h'.
Proof. intros []. constructor; auto. Qed.
Lemma only_eord_Repr h h' l T : only_eord h h' l -> Repr h T -> Repr h' T.
Proof.
  intros [] []. constructor; intros; try congruence.
  - rewrite oe_ord0. eauto.
  - rewrite oe_par0. auto.
  - rewrite oe_ch0. auto.
  - rewrite oe_root0. auto.
  - rewrite oe_kind0. auto.
  - rewrite oe_next0. auto.
Qed.
Lemma renumber_emp_leaf_only l : forall h my last, only_eord h (renumber_emp_leaf h my last l) l.
Proof.
  induction l as [|e l IH]; intros h my last; simpl; [apply only_eord_refl|].
  destruct (Z.ltb _ _).
  - eapply only_eord_trans; [|eapply only_eord_weaken; [|apply IH]; red; simpl; auto].
    apply only_eord_put; simpl; auto.
  - eapply only_eord_weaken; [|apply IH]; red; simpl; auto.
Qed.
Lemma renumber_emp_only fm l : forall h last, only_eord h (fst (renumber_emp h fm last l)) l.
Proof.
  induction l as [|e l IH]; intros h last; simpl; [apply only_eord_refl|].
  destruct (assoc fm e); [|apply only_eord_refl].
  eapply only_eord_trans; [apply only_eord_put; simpl; auto|].
  eapply only_eord_weaken; [|apply IH]; red; simpl; auto.
Qed.
Lemma shift_emp_only lo hi d l : forall h, only_eord h (shift_emp h lo hi d l) l.
Proof.
  induction l as [|e l IH]; intros h; simpl; [apply only_eord_refl|].
  destruct (_ && _).
  - eapply only_eord_trans; [apply only_eord_put; simpl; auto|].
    eapply only_eord_weaken; [|apply IH]; red; simpl; auto.
  - eapply only_eord_weaken; [|apply IH]; red; simpl; auto.
Qed.

(** Sorted lists *)
Lemma sorted_last {A} (R : A -> A -> Prop) l z y : StronglySorted R l -> last_opt l = Some z -> In y l ->
  y = z \/ R y z.
Proof.
  induction 1 as [|a l HS IH HF]; simpl; [discriminate|].
  destruct l as [|b l].
  - intros H [->|[]]. injection H as ->; auto.
  - intros H [->|Hy]; [|now apply IH].
    right. rewrite Forall_forall in HF. apply HF. now apply last_opt_In in H.
Qed.
Lemma sorted_snoc {A} (R : A -> A -> Prop) l x : StronglySorted R l -> (forall y, In y l -> R y x) ->
  StronglySorted R (l ++ [x]).
Proof.
  induction 1 as [|a l HS IH HF]; simpl; intros H.
  - constructor; constructor.
  - constructor; [apply IH; auto|]. rewrite Forall_forall in *. intros y Hy.
    apply in_app_iff in Hy as [Hy|[<-|[]]]; auto.
Qed.

Section Ops.
Variables (h : heap) (T : atree).
Hypothesis W : wf T.
Hypothesis HR : Repr h T.
Notation root := (a_root T).
Notation words := (a_words T).
Notation par := (a_par T).
Let N0 : node_of T root := or_introl eq_refl.
Let NW : forall x, In x words -> node_of T x := fun x H => or_intror H.

Lemma fresh_not_node : ~ node_of T (h_next h).
Proof. intros H. apply (r_alloc h T HR) in H. lia. Qed.

(** create_child *)
Lemma wf_create p : node_of T p -> wf (t_create T p (h_next h)).
Proof.
  intros Hp. pose proof fresh_not_node as Hf.
  assert (Hmono : forall x a, below T x a -> below (t_create T p (h_next h)) x a).
  { apply below_mono. intros x Hx. simpl. split; [apply in_app_iff; auto|].
    unfold set_fun. destruct (Nat.eqb_spec x (h_next h)); auto. subst. exfalso; auto. }
  assert (Hsame : forall x, In x words -> set_fun par (h_next h) p x = par x).
  { intros x Hx. unfold set_fun. destruct (Nat.eqb_spec x (h_next h)); auto. subst. exfalso; auto. }
  assert (Hnew : set_fun par (h_next h) p (h_next h) = p).
  { unfold set_fun. now rewrite Nat.eqb_refl. }
  constructor; simpl.
  - apply (Permutation_NoDup (l := h_next h :: words)); [apply Permutation_cons_append|].
    constructor; [|apply (wf_nodup T W)]. intros H; apply Hf; auto.
  - rewrite in_app_iff. intros [H|[H|[]]]; [now apply (wf_rootfresh T W)|]. apply Hf. now left.
  - intros x Hx. apply in_app_iff in Hx as [Hx|[<-|[]]].
    + rewrite Hsame by auto. destruct (wf_parent T W x Hx) as [E|E]; [left; auto|right; simpl; apply in_app_iff; auto].
    + rewrite Hnew. destruct Hp as [->|Hp]; [left|right]; simpl; auto. apply in_app_iff; auto.
  - intros x Hx. apply in_app_iff in Hx as [Hx|[<-|[]]].
    + apply Hmono. now apply (wf_reach T W).
    + assert (In (h_next h) (a_words (t_create T p (h_next h)))) as Hi by (simpl; apply in_app_iff; simpl; auto).
      assert (a_par (t_create T p (h_next h)) (h_next h) = p) as Ha by exact Hnew.
      destruct Hp as [->|Hp].
      * rewrite <- Ha at 2. now constructor.
      * apply below_up; auto. rewrite Ha. apply Hmono. now apply (wf_reach T W).
Qed.

Lemma create_child_ok p : node_of T p ->
  exists h', create_child h p = (h', h_next h) /\ Repr h' (t_create T p (h_next h)) /\
    framed h h' (touched h T) /\ h_next h' = S (h_next h) /\
    (forall y, h_emp h' y = if Nat.eqb y (h_next h) then [] else h_emp h y) /\
    (forall y, y <> h_next h -> h_eord h' y = h_eord h y).
Proof.
  intros Hp. pose proof fresh_not_node as Hf.
  assert (HneP : p <> h_next h) by (intros ->; auto).
  assert (Hner : root <> h_next h) by (intros E; apply Hf; left; auto).
  assert (HneW : forall x, In x words -> x <> h_next h) by (intros x Hx ->; apply Hf; auto).
  unfold create_child, alloc. cbn.
  rewrite !(upd_other _ _ _ p HneP), (r_root h T HR p Hp), !(upd_other _ _ _ root Hner), (r_desc h T HR).
  eexists. split; [reflexivity|]. split; [|split; [|split; [|split]]].
  - constructor; cbn.
    + upds. auto.
    + intros i x Hx. destruct (Nat.eq_dec x (h_next h)) as [->|Hn].
      * upds. destruct (lt_dec i (length words)) as [Hi|Hi].
        -- rewrite nth_error_app1 in Hx by auto. apply nth_error_In in Hx. exfalso; apply Hf; auto.
        -- rewrite nth_error_app2 in Hx by lia.
           destruct (i - length words) as [|k] eqn:Ek; [|destruct k; discriminate].
           replace i with (length words) by lia. auto.
      * upds. destruct (lt_dec i (length words)) as [Hi|Hi].
        -- rewrite nth_error_app1 in Hx by auto. now apply (r_ord h T HR).
        -- rewrite nth_error_app2 in Hx by lia.
           destruct (i - length words) as [|k]; [|destruct k; discriminate].
           injection Hx as Hx; congruence.
    + upds. apply (r_ord0 h T HR).
    + intros x Hx. apply in_app_iff in Hx as [Hx|[<-|[]]].
      * upds. unfold set_fun.
        destruct (Nat.eqb_spec x (h_next h)); [exfalso; eapply HneW; eauto|]. now apply (r_par h T HR).
      * upds. unfold set_fun. now rewrite Nat.eqb_refl.
    + upds. apply (r_parroot h T HR).
    + intros y Hy. rewrite filter_app. cbn [filter].
      assert (E1 : filter (fun c => Nat.eqb (set_fun par (h_next h) p c) y) words =
                   filter (fun c => Nat.eqb (par c) y) words).
      { apply filter_ext_in'. intros c Hc. unfold set_fun.
        destruct (Nat.eqb_spec c (h_next h)); auto. exfalso; eapply HneW; eauto. }
      rewrite E1. assert (E2 : set_fun par (h_next h) p (h_next h) = p) by (unfold set_fun; now rewrite Nat.eqb_refl).
      rewrite E2. destruct (Nat.eqb_spec p y) as [<-|Hn].
      * upds. upds. now rewrite (r_ch h T HR).
      * upds. rewrite app_nil_r.
        destruct (Nat.eq_dec y (h_next h)) as [->|Hn2].
        -- upds. symmetry. apply filter_none. intros c Hc. apply Nat.eqb_neq. intros E.
           apply Hf. rewrite <- E. now apply (wf_parent T W).
        -- upds. apply (r_ch h T HR).
           destruct Hy as [Hy|Hy]; [left; auto|]. simpl in Hy. apply in_app_iff in Hy as [Hy|[Hy|[]]]; [right; auto|congruence].
    + intros y Hy. destruct (Nat.eq_dec y (h_next h)) as [->|Hn].
      * upds; auto.
      * upds. apply (r_root h T HR).
        destruct Hy as [Hy|Hy]; [left; auto|]. simpl in Hy. apply in_app_iff in Hy as [Hy|[Hy|[]]]; [right; auto|congruence].
    + intros x Hx. apply in_app_iff in Hx as [Hx|[<-|[]]].
      * upds. now apply (r_kind h T HR).
      * upds; auto.
    + upds. apply (r_kindroot h T HR).
    + intros y Hy. destruct Hy as [Hy|Hy].
      * simpl in Hy. subst. pose proof (r_alloc h T HR root N0). lia.
      * simpl in Hy. apply in_app_iff in Hy as [Hy|[<-|[]]]; [|lia].
        pose proof (r_alloc h T HR y (NW y Hy)). lia.
  - assert (HS : forall y, ~ touched h T y -> y <> root /\ y <> p).
    { intros y Hy. split; intros ->; apply Hy; left; auto. }
    constructor; cbn; intros; try lia;
    try (match goal with H : ~ touched h T _ |- _ => destruct (HS _ H) end);
    upds; auto.
  - reflexivity.
  - intros y. cbn. unfold upd. destruct (Nat.eqb y (h_next h)); auto.
  - intros y Hy. cbn. upds. auto.
Qed.

(** parent setter *)
Lemma wf_reattach x p : In x words -> node_of T p -> p <> x -> ~ below T p x -> wf (t_reattach T x p).
Proof.
  intros Hx Hp Hn Hb. constructor; simpl.
  - apply (wf_nodup T W).
  - apply (wf_rootfresh T W).
  - intros y Hy. unfold set_fun. destruct (Nat.eqb_spec y x); auto. now apply (wf_parent T W).
  - assert (Hs : forall y, In y words -> y <> x -> In y words /\ set_fun par x p y = par y).
    { intros y Hy Hyx. split; auto. unfold set_fun. destruct (Nat.eqb_spec y x); congruence. }
    assert (Hxx : below (t_reattach T x p) x root).
    { assert (a_par (t_reattach T x p) x = p) as E by (simpl; unfold set_fun; now rewrite Nat.eqb_refl).
      destruct (path_exists T W p Hp) as [l Hl].
      destruct (path_avoid T (t_reattach T x p) x eq_refl Hs p l Hl) as [H|H].
      - intros [H|H]; [congruence|]. apply Hb. now apply (path_below T W p l x Hl).
      - subst p. rewrite <- E at 2. now constructor.
      - apply below_up; auto. now rewrite E. }
    intros y Hy. destruct (path_exists T W y (NW y Hy)) as [l Hl].
    assert (y <> root) as Hyr by (intros ->; now apply (wf_rootfresh T W)). clear Hy.
    assert (G : y = root \/ below (t_reattach T x p) y root); [|destruct G; [contradiction|auto]].
    { clear Hyr. induction Hl as [|y l Hy Hl IH]; auto. right.
      destruct (Nat.eq_dec y x) as [->|Hyx]; auto.
      destruct (Hs y Hy Hyx) as [_ E].
      destruct IH as [IH|IH].
      - rewrite <- IH. change (set_fun par x p y) with (a_par (t_reattach T x p) y) in E.
        rewrite <- E. now constructor.
      - apply below_up; auto. simpl. now rewrite E. }
Qed.

Lemma chs_reattach_new x p : In x words -> par x <> p ->
  Permutation (filter (fun c => Nat.eqb (par c) p) words ++ [x])
              (filter (fun c => Nat.eqb (set_fun par x p c) p) words).
Proof.
  intros Hx Hp. rewrite <- (filter_eqb_single x words (wf_nodup T W) Hx).
  rewrite filter_or_perm.
  - erewrite filter_ext_in'; [reflexivity|]. intros c Hc. unfold set_fun.
    destruct (Nat.eqb_spec c x) as [->|]; rewrite ?Nat.eqb_refl, ?orb_true_r, ?orb_false_r; auto.
  - intros c Hc H1 H2. apply Nat.eqb_eq in H1, H2. congruence.
Qed.

Lemma set_parent_ok x p : In x words -> node_of T p ->
  (par x = p -> set_parent h x (Some p) = (h, Ok tt)) /\
  (p = x \/ below T p x -> set_parent h x (Some p) = (h, Raise CycleError)) /\
  (p <> x -> ~ below T p x -> exists h', set_parent h x (Some p) = (h', Ok tt) /\
     Repr h' (t_reattach T x p) /\ framed h h' (node_of T) /\ same_static h h' /\
     h_eord h' = h_eord h).
Proof.
  intros Hx Hp.
  assert (Hsame : par x = p -> set_parent h x (Some p) = (h, Ok tt)).
  { intros E. unfold set_parent. rewrite (r_kind h T HR x Hx), (par_word h T HR x Hx), E, Nat.eqb_refl. auto. }
  assert (HD : par x <> p ->
    (if nonempty (h_ch h x) then is_descendant_of h p x else Ok false) = Ok (belowb T p x)).
  { intros _. destruct (nonempty (h_ch h x)) eqn:E; [now apply is_descendant_ok; auto|].
    f_equal. symmetry. apply belowb_false; auto. intros HB. apply (below_via_child T) in HB.
    assert (C : exists c, In c words /\ par c = x).
    { destruct HB as [[? ?]|[c [Hc _]]]; [eauto|]. apply (chs_In T) in Hc as [? ?]; eauto. }
    apply (ch_nonempty h T HR x (NW x Hx)) in C. congruence. }
  split; [auto|split].
  - intros HB. assert (Hpar : par x <> p).
    { intros E. destruct HB as [->|HB].
      - apply (below_irrefl T W x). rewrite <- E at 2. now constructor.
      - apply (below_irrefl T W x). apply (below_cases T x x). split; auto. right. now rewrite E. }
    specialize (HD Hpar). unfold set_parent.
    rewrite (r_kind h T HR x Hx), (par_word h T HR x Hx).
    destruct (Nat.eqb_spec (par x) p); [congruence|].
    rewrite (not_empty h T HR p Hp). destruct (Nat.eqb_spec x p) as [|Hn]; auto.
    destruct HB as [HB|HB]; [congruence|]. rewrite HD.
    apply (belowb_spec T W) in HB. now rewrite HB.
  - intros Hn HB. destruct (Nat.eq_dec (par x) p) as [E|Hpar].
    { exists h. rewrite Hsame by auto. split; auto. split; [|auto using framed_refl, same_static_refl].
      assert (EF : forall y, set_fun par x p y = par y).
      { intros y. unfold set_fun. destruct (Nat.eqb_spec y x); congruence. }
      destruct HR. constructor; simpl; auto.
      - intros y Hy. rewrite EF; auto.
      - intros y Hy. rewrite r_ch; auto. apply filter_ext_in'. intros c Hc. now rewrite EF. }
    specialize (HD Hpar). unfold set_parent.
    rewrite (r_kind h T HR x Hx), (par_word h T HR x Hx).
    destruct (Nat.eqb_spec (par x) p); [congruence|].
    rewrite (not_empty h T HR p Hp). destruct (Nat.eqb_spec x p) as [|_]; [congruence|].
    rewrite HD. rewrite (proj2 (belowb_false T W p x) HB).
    assert (Hq : node_of T (par x)) by (now apply (wf_parent T W)).
    rewrite (r_ch h T HR (par x) Hq).
    rewrite (list_remove_filter x) by (try apply NoDup_filter; try apply (wf_nodup T W);
      apply filter_In; split; auto using Nat.eqb_refl).
    rewrite filter_filter. set (l1 := filter _ words).
    cbn [h_root put_ch set_ch]. rewrite (r_root h T HR p Hp), (r_root h T HR _ Hq), Nat.eqb_refl.
    unfold bind. cbn [h_ch h_ord put_par put_ch set_par set_ch].
    rewrite (upd_other (h_ch h) (par x) l1 p) by congruence.
    pose proof (chs_reattach_new x p Hx Hpar) as P.
    rewrite (r_ch h T HR p Hp). set (l2 := filter (fun c => Nat.eqb (par c) p) words) in *.
    set (F := filter (fun c => Nat.eqb (set_fun par x p c) p) words) in *.
    assert (ES : sort_nodes h (l2 ++ [x]) = F) by (now apply (sort_filter h T HR)).
    assert (EA : forall z, last_opt l2 = Some z -> (h_ord h z < h_ord h x)%Z -> l2 ++ [x] = F).
    { intros z Hz Hl. apply (key_sorted_unique (h_ord h)); auto.
      - apply sorted_snoc.
        + apply filter_StronglySorted. now apply (words_sorted h T HR).
        + intros y Hy. assert (SS : StronglySorted (key_lt (h_ord h)) l2)
            by (apply filter_StronglySorted; now apply (words_sorted h T HR)).
          destruct (sorted_last _ _ z y SS Hz Hy) as [->|HL]; unfold key_lt in *; lia.
      - apply filter_StronglySorted. now apply (words_sorted h T HR). }
    assert (EN : last_opt l2 = None -> l2 ++ [x] = F).
    { intros E. apply last_opt_None in E. rewrite E in *. simpl in *.
      now apply Permutation_length_1_inv in P. }
    assert (G : forall L, L = F -> exists h' : heap,
      (put_ch (put_par (put_ch h (par x) l1) x (Some p)) p L, Ok tt) = (h', Ok tt) /\
       Repr h' (t_reattach T x p) /\ framed h h' (node_of T) /\ same_static h h' /\
     h_eord h' = h_eord h).
    { intros L ->. eexists. split; [reflexivity|]. split; [|split; [|split]]; auto.
      - destruct HR. constructor; cbn; auto.
        + intros y Hy. unfold set_fun. destruct (Nat.eqb_spec y x) as [->|]; upds; auto.
        + rewrite upd_other; auto. intros E. apply (wf_rootfresh T W). rewrite E. auto.
        + intros y Hy. destruct (Nat.eq_dec y p) as [->|Hyp]; upds; auto.
          destruct (Nat.eq_dec y (par x)) as [->|Hyx]; upds.
          * unfold l1. apply filter_ext_in'. intros c Hc. unfold set_fun.
            destruct (Nat.eqb_spec c x) as [->|]; simpl; rewrite ?andb_false_r, ?andb_true_r; auto.
            symmetry; apply Nat.eqb_neq; congruence.
          * rewrite r_ch by auto. apply filter_ext_in'. intros c Hc. unfold set_fun.
            destruct (Nat.eqb_spec c x) as [->|]; auto.
            destruct (Nat.eqb_spec (par x) y); [congruence|]. symmetry; apply Nat.eqb_neq; congruence.
      - eapply framed_trans; [eapply framed_trans; [apply framed_ch|apply framed_par]|apply framed_ch]; auto.
      - constructor; auto. }
    destruct (last_opt l2) as [z|] eqn:EL; auto.
    destruct (Z.ltb_spec (h_ord h z) (h_ord h x)); eauto.
Qed.

(** flatten *)
Lemma flatten_loop_fields r l : forall h0, let h1 := flatten_loop h0 r l in
  same_static h0 h1 /\ h_ord h1 = h_ord h0 /\ h_desc h1 = h_desc h0 /\ h_eord h1 = h_eord h0 /\
  (forall y, h_par h1 y = if mem y l then Some r else h_par h0 y) /\
  (forall y, h_ch h1 y = if mem y l then [] else h_ch h0 y).
Proof.
  induction l as [|x l IH]; intros h0; cbn [flatten_loop].
  - simpl. repeat split; auto.
  - destruct (IH (put_ch (put_par h0 x (Some r)) x [])) as [[] [? [? [? [Hp Hc]]]]].
    repeat split; auto.
    + intros y. rewrite Hp. cbn. unfold mem. cbn. unfold upd.
      destruct (Nat.eqb y x), (existsb (Nat.eqb y) l); auto.
    + intros y. rewrite Hc. cbn. unfold mem. cbn. unfold upd.
      destruct (Nat.eqb y x), (existsb (Nat.eqb y) l); auto.
Qed.
Lemma wf_flatten : wf (t_flatten T).
Proof.
  destruct W. constructor; simpl; auto; try (intros; left; auto; fail).
Qed.
Lemma flatten_ok : Repr (flatten h root) (t_flatten T) /\ framed h (flatten h root) (node_of T) /\
  same_static h (flatten h root) /\ h_eord (flatten h root) = h_eord h.
Proof.
  unfold flatten. cbn [h_ch put_ch set_ch]. rewrite upd_same.
  destruct (flatten_loop_fields root (h_desc h root) (put_ch h root (h_desc h root)))
    as [[S1 S2 S3 S4] [H1 [H2 [H3 [H4 H5]]]]].
  set (h1 := flatten_loop _ _ _) in *. cbn in *.
  assert (Er : mem root (h_desc h root) = false).
  { rewrite (r_desc h T HR). apply mem_false. apply (wf_rootfresh T W). }
  split; [|split; [|split]]; auto.
  - destruct HR. constructor; cbn.
    + congruence.
    + intros i x Hi. rewrite H1. auto.
    + congruence.
    + intros x Hx. rewrite H4. rewrite r_desc. rewrite (proj2 (mem_In x words) Hx); auto.
    + rewrite H4, Er. auto.
    + intros y Hy. rewrite H5. destruct Hy as [->|Hy]; cbn in *.
      * rewrite Er. upds. rewrite Nat.eqb_refl. rewrite r_desc. symmetry. now apply filter_all.
      * rewrite r_desc. rewrite (proj2 (mem_In y words) Hy). symmetry. apply filter_none.
        intros c Hc. apply Nat.eqb_neq. intros E. apply (wf_rootfresh T W). rewrite E. auto.
    + intros y Hy. rewrite S3. auto.
    + intros y Hy. rewrite S2. auto.
    + congruence.
    + rewrite S1. auto.
  - assert (HM : forall y, ~ node_of T y -> mem y (h_desc h root) = false /\ y <> root).
    { intros y Hy. split; [|intros E; apply Hy; left; auto]. apply mem_false. rewrite (r_desc h T HR). auto. }
    constructor; intros; try congruence; try lia.
    + rewrite H4. now rewrite (proj1 (HM y H)).
    + rewrite H5. rewrite (proj1 (HM y H)). rewrite upd_other; auto. now apply HM.
  - constructor; auto.
Qed.
End Ops.
