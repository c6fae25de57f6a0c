(** Brackets in the order in which they are written: which ones have been read before a given one. *)
From Coq Require Import List Arith Bool Lia Sorting.Sorted Sorting.Permutation.
From Verif Require Import PyList PyListFacts.
Import ListNotations.

(** ---- lists ---- *)
Lemma sorted_app_iff {A} (R : A -> A -> Prop) l1 l2 : StronglySorted R (l1 ++ l2) <->
  StronglySorted R l1 /\ StronglySorted R l2 /\ forall a b, In a l1 -> In b l2 -> R a b.
Proof.
  induction l1 as [|x l1 IH]; cbn [app].
  - split; [intros S; split; [constructor|]; split; [auto|intros a b []]|tauto].
  - split.
    + intros S. inversion S as [|? ? S1 F]; subst. apply IH in S1. destruct S1 as (A1 & A2 & A3). rewrite Forall_app in F. destruct F as [F1 F2].
      split; [constructor; auto|]. split; auto. intros a b [<-|Ha] Hb; [rewrite Forall_forall in F2; auto|auto].
    + intros (A1 & A2 & A3). inversion A1 as [|? ? S1 F]; subst. constructor.
      * apply IH. split; auto. split; auto. intros; apply A3; auto. right; auto.
      * rewrite Forall_app. split; auto. rewrite Forall_forall. intros; apply A3; auto. left; auto.
Qed.
Lemma sorted_flat_map {A B} (R : B -> B -> Prop) (f : A -> list B) l :
  (forall a, In a l -> StronglySorted R (f a)) ->
  StronglySorted (fun a b => forall x y, In x (f a) -> In y (f b) -> R x y) l -> StronglySorted R (flat_map f l).
Proof.
  intros H S. induction S as [|a l S IH F]; cbn [flat_map]; [constructor|]. rewrite sorted_app_iff. split; [apply H; left; auto|].
  split; [apply IH; intros; apply H; right; auto|]. intros x y Hx Hy. apply in_flat_map in Hy. destruct Hy as (b & Hb & Hy).
  rewrite Forall_forall in F. eapply F; eauto.
Qed.
Lemma nodup_app {A} (l k : list A) : NoDup l -> NoDup k -> (forall x, In x l -> ~ In x k) -> NoDup (l ++ k).
Proof.
  induction 1 as [|x l N ND IH]; intros K D; cbn [app]; auto. constructor; [rewrite in_app_iff; intros [?|H]; [tauto|]; apply (D x); auto; left; auto|].
  apply IH; auto. intros y Hy. apply D. right; auto.
Qed.
(** the index of x in l *)
Fixpoint ix (l : list nat) (x : nat) : nat :=
  match l with
  | [] => 0
  | y :: l => if Nat.eqb y x then 0 else S (ix l x)
  end.
Lemma ix_lt l x : In x l -> ix l x < length l.
Proof. induction l as [|y l IH]; cbn; [tauto|]. destruct (Nat.eqb_spec y x); [lia|]. intros [?|H]; [congruence|]. apply IH in H. lia. Qed.
Lemma ix_nth l x : In x l -> nth_error l (ix l x) = Some x.
Proof. induction l as [|y l IH]; cbn; [tauto|]. destruct (Nat.eqb_spec y x); [subst; reflexivity|]. intros [?|H]; [congruence|]. auto. Qed.
Lemma ix_inj l x y : In x l -> In y l -> ix l x = ix l y -> x = y.
Proof. intros Hx Hy E. apply ix_nth in Hx, Hy. rewrite E in Hx. congruence. Qed.
Lemma ix_app l k x : In x l -> ix (l ++ k) x = ix l x.
Proof. induction l as [|y l IH]; cbn; [tauto|]. destruct (Nat.eqb_spec y x); auto. intros [?|H]; [congruence|]. auto. Qed.
Lemma ix_mid l k x : ~ In x l -> ix (l ++ x :: k) x = length l.
Proof.
  induction l as [|y l IH]; cbn; [rewrite Nat.eqb_refl; auto|]. intros H. destruct (Nat.eqb_spec y x); [exfalso; apply H; left; auto|].
  rewrite IH; auto.
Qed.
Lemma sorted_ix l : NoDup l -> StronglySorted (fun a b => ix l a < ix l b) l.
Proof.
  intros ND. assert (G : forall k l', l = k ++ l' -> StronglySorted (fun a b => ix l a < ix l b) l').
  { intros k l'. revert k. induction l' as [|x l' IH]; intros k E; constructor.
    - apply (IH (k ++ [x])). rewrite <- app_assoc. exact E.
    - rewrite Forall_forall. intros y Hy. rewrite E in *. apply NoDup_remove in ND. destruct ND as [ND NI].
      rewrite ix_mid by (rewrite in_app_iff in NI; tauto). change (k ++ x :: l') with (k ++ [x] ++ l'). rewrite app_assoc.
      assert (~ In y (k ++ [x])) as NY.
      { rewrite in_app_iff. cbn [In]. intros [H|[H|[]]]; [|subst; rewrite in_app_iff in NI; tauto].
        apply in_split in H. destruct H as (k1 & k2 & ->). rewrite <- app_assoc in ND. cbn [app] in ND. apply NoDup_remove_2 in ND.
        apply ND. rewrite !in_app_iff. auto. }
      assert (G : forall u v, ~ In y u -> length u <= ix (u ++ v) y).
      { clear. induction u as [|w u IH]; cbn; intros v N; [lia|]. destruct (Nat.eqb_spec w y); [exfalso; apply N; left; auto|].
        specialize (IH v). assert (N' : ~ In y u) by tauto. specialize (IH N'). lia. }
      specialize (G (k ++ [x]) l' NY). rewrite app_length in G. cbn in G. lia. }
  apply (G []). reflexivity.
Qed.

(** ---- brackets ---- *)
(** The opening and the closing bracket of the item q (a continuous mention or a piece of one), or both for a single word *)
Inductive ev := Op (q : nat) | Cl (q : nat) | Si (q : nat).
Definition ev_dec (a b : ev) : {a = b} + {a <> b}.
Proof. decide equality; apply Nat.eq_dec. Defined.
Definition ev_item (e : ev) : nat := match e with Op q | Cl q | Si q => q end.
Definition ops (l : list ev) : list nat := flat_map (fun e => match e with Op q => [q] | _ => [] end) l.
Definition is_cl (q : nat) (e : ev) : bool := match e with Cl p => Nat.eqb p q | _ => false end.
Definition closed (l : list ev) (q : nat) : bool := existsb (is_cl q) l.
Lemma closed_In l q : closed l q = true <-> In (Cl q) l.
Proof.
  unfold closed. rewrite existsb_exists. split.
  - intros (e & He & E). destruct e; try discriminate. cbn in E. apply Nat.eqb_eq in E. subst. auto.
  - intros H. exists (Cl q). split; auto. cbn. apply Nat.eqb_refl.
Qed.
Lemma closed_app l k q : closed (l ++ k) q = closed l q || closed k q.
Proof. apply existsb_app. Qed.
Lemma ops_In l q : In q (ops l) <-> In (Op q) l.
Proof.
  unfold ops. rewrite in_flat_map. split.
  - intros (e & He & H). destruct e; cbn in H; try tauto. destruct H as [<-|[]]. auto.
  - intros H. exists (Op q). split; auto. left; auto.
Qed.
Lemma ops_app l k : ops (l ++ k) = ops l ++ ops k.
Proof. apply flat_map_app. Qed.
(** the order of the brackets at one node *)
Definition rev_ord (e e' : ev) : Prop :=
  match e, e' with
  | Op a, Op b => a < b
  | Cl a, Cl b => b < a
  | Op _, Cl _ => False
  | _, _ => True
  end.

Section Events.
Variables (nodes : list nat) (evs : nat -> list ev) (P : nat) (fi la : nat -> nat) (multi : nat -> bool).
Hypothesis NDn : NoDup nodes.
Hypothesis NDe : forall n, NoDup (evs n).
Hypothesis mem_op : forall n q, In (Op q) (evs n) <-> q < P /\ multi q = true /\ fi q = n.
Hypothesis mem_cl : forall n q, In (Cl q) (evs n) <-> q < P /\ multi q = true /\ la q = n.
Hypothesis mem_si : forall n q, In (Si q) (evs n) <-> q < P /\ multi q = false /\ fi q = n.
Hypothesis ord : forall n, StronglySorted rev_ord (evs n).
Hypothesis fi_in : forall q, q < P -> In (fi q) nodes.
Hypothesis la_in : forall q, q < P -> In (la q) nodes.
Notation pos := (ix nodes).
Hypothesis single : forall q, q < P -> multi q = false -> la q = fi q.
Hypothesis several : forall q, q < P -> multi q = true -> pos (fi q) < pos (la q).
(** The items are sorted: by the first word, and longer ones first. *)
Hypothesis items_sorted : forall p q, p < q -> q < P -> pos (fi p) < pos (fi q) \/ (fi p = fi q /\ pos (la q) <= pos (la p)).

Definition all : list ev := flat_map evs nodes.
Definition node_of (e : ev) : nat := match e with Op q => fi q | Cl q => la q | Si q => fi q end.
Definition before (e e' : ev) : Prop := pos (node_of e) < pos (node_of e') \/ (node_of e = node_of e' /\ rev_ord e e').

Lemma ev_node e n : In e (evs n) -> node_of e = n /\ ev_item e < P.
Proof. destruct e; rewrite ?mem_op, ?mem_cl, ?mem_si; cbn; tauto. Qed.
Lemma all_In e : In e all <-> ev_item e < P /\ match e with Op q | Cl q => multi q = true | Si q => multi q = false end.
Proof.
  unfold all. rewrite in_flat_map. split.
  - intros (n & Hn & H). destruct e; rewrite ?mem_op, ?mem_cl, ?mem_si in H; cbn; tauto.
  - intros (H1 & H2). exists (node_of e). destruct e; cbn in *; rewrite ?mem_op, ?mem_cl, ?mem_si; auto 6.
Qed.
Lemma all_sorted : StronglySorted before all.
Proof.
  apply sorted_flat_map.
  - intros n Hn. eapply strongly_sorted_impl; [|apply ord]. intros a b Ha Hb R. right. split; auto.
    apply ev_node in Ha, Hb. destruct Ha, Hb. congruence.
  - eapply strongly_sorted_impl; [|apply (sorted_ix nodes NDn)]. intros a b Ha Hb L x y Hx Hy. left.
    apply ev_node in Hx, Hy. destruct Hx as [-> _], Hy as [-> _]. auto.
Qed.
Lemma all_nodup : NoDup all.
Proof.
  unfold all. clear -NDn NDe mem_op mem_cl mem_si. revert NDn. induction nodes as [|n l IH]; intros ND; cbn [flat_map]; [constructor|].
  inversion ND as [|? ? N1 N2]; subst. apply nodup_app; auto. intros e H1 H2. apply in_flat_map in H2. destruct H2 as (n' & H2 & H3).
  apply ev_node in H1. apply ev_node in H3. destruct H1, H3. congruence.
Qed.

Section Split.
Variables (done : list ev) (e : ev) (todo : list ev).
Hypothesis E : all = done ++ e :: todo.
Lemma done_before e' : In e' done -> before e' e.
Proof. intros H. pose proof all_sorted as S. rewrite E in S. apply sorted_app_iff in S. destruct S as (_ & _ & S). apply S; auto. left; auto. Qed.
Lemma todo_after e' : In e' todo -> before e e'.
Proof.
  intros H. pose proof all_sorted as S. rewrite E in S. apply sorted_app_iff in S. destruct S as (_ & S & _).
  inversion S as [|? ? _ F]; subst. rewrite Forall_forall in F. auto.
Qed.
Lemma not_done_after e' : In e' all -> ~ In e' done -> e' = e \/ before e e'.
Proof. rewrite E. rewrite in_app_iff. cbn [In]. intros [?|[?|?]] N; [tauto|auto|right; apply todo_after; auto]. Qed.
Lemma e_not_done : ~ In e done.
Proof. pose proof all_nodup as N. rewrite E in N. apply NoDup_remove_2 in N. rewrite in_app_iff in N. tauto. Qed.
Lemma e_all : In e all.
Proof. rewrite E, in_app_iff. right. left. auto. Qed.
(** everything at an earlier node has been read, nothing at a later one *)
Lemma earlier_done e' : In e' all -> pos (node_of e') < pos (node_of e) -> In e' done.
Proof.
  intros H L. destruct (in_dec ev_dec e' done) as [D|D]; auto.
  destruct (not_done_after e' H D) as [->|[B|[B _]]]; [lia|lia|rewrite B in L; lia].
Qed.
Lemma done_le e' : In e' done -> pos (node_of e') <= pos (node_of e).
Proof. intros H. apply done_before in H. destruct H as [?|[-> _]]; lia. Qed.
Lemma todo_ge e' : In e' all -> ~ In e' done -> pos (node_of e) <= pos (node_of e').
Proof. intros H D. destruct (not_done_after e' H D) as [->|[?|[-> _]]]; lia. Qed.
End Split.

Lemma pos_inj x y : In x nodes -> In y nodes -> pos x = pos y -> x = y.
Proof. apply ix_inj. Qed.
Lemma items_le p q : p < q -> q < P -> pos (fi p) <= pos (fi q).
Proof. intros H1 H2. destruct (items_sorted p q H1 H2) as [?|[-> _]]; lia. Qed.

(** opening brackets are read in the order of the items *)
Lemma ops_sorted : StronglySorted lt (ops all).
Proof.
  assert (G : forall l, StronglySorted before l -> (forall e, In e l -> In e all) -> StronglySorted lt (ops l)).
  { induction l as [|e l IH]; intros S Hl; [constructor|]. inversion S as [|? ? S1 F]; subst. rewrite Forall_forall in F.
    assert (StronglySorted lt (ops l)) by (apply IH; auto; intros; apply Hl; right; auto).
    destruct e as [q| |]; cbn [ops flat_map app]; auto. constructor; auto. rewrite Forall_forall. intros p Hp. fold (ops l) in Hp.
    apply ops_In in Hp. pose proof (F _ Hp) as B. assert (Q : q < P) by (apply (proj1 (all_In (Op q))); apply Hl; left; auto).
    destruct B as [B|[_ B]]; [|exact B]. cbn in B. destruct (lt_eq_lt_dec q p) as [[?|?]|L]; auto; [subst; lia|].
    pose proof (items_le p q L Q). lia. }
  apply G; auto using all_sorted.
Qed.

Variable ent : nat -> nat.       (* entities of the items *)
(** Items of one entity do not cross. *)
Hypothesis nested : forall p q, p < P -> q < P -> ent p = ent q -> pos (fi p) < pos (fi q) -> pos (fi q) < pos (la p) -> pos (la p) < pos (la q) -> False.
(** the items of entity a that are open *)
Definition open_of (a : nat) (l : list ev) : list nat := filter (fun q => Nat.eqb (ent q) a && negb (closed l q)) (ops l).

Lemma last_open done q todo : all = done ++ Cl q :: todo -> In (Op q) done /\
  open_of (ent q) done = open_of (ent q) (done ++ [Cl q]) ++ [q].
Proof.
  intros E. assert (A : In (Cl q) all) by (eapply e_all; eauto). apply all_In in A. cbn in A. destruct A as [Q M].
  assert (OD : In (Op q) done).
  { apply (earlier_done done (Cl q) todo E); [apply all_In; auto|]. cbn. auto. }
  split; auto.
  assert (S : StronglySorted lt (ops done)).
  { pose proof ops_sorted as S. rewrite E, ops_app in S. apply sorted_app_iff in S. tauto. }
  assert (MX : forall p, In p (ops done) -> ent p = ent q -> closed done p = false -> p <= q).
  { intros p Hp Ep Cp. destruct (le_lt_dec p q) as [?|L]; auto. exfalso. apply ops_In in Hp.
    assert (Ap : In (Op p) all) by (rewrite E, in_app_iff; auto). apply all_In in Ap. cbn in Ap. destruct Ap as [Lp Mp].
    assert (D : before (Op p) (Cl q)) by (eapply done_before; eauto). destruct D as [D|[_ []]]. cbn in D.
    assert (Cp' : ~ In (Cl p) done) by (rewrite <- closed_In; congruence).
    assert (Ac : In (Cl p) all) by (apply all_In; auto).
    destruct (not_done_after done (Cl q) todo E (Cl p) Ac Cp') as [X|[X|[X Y]]].
    - inversion X. lia.
    - cbn in X. destruct (items_sorted q p L Lp) as [B|[B B']]; [|lia]. apply (nested q p); auto.
    - cbn in Y. lia. }
  assert (NC : closed done q = false).
  { destruct (closed done q) eqn:C; auto. apply closed_In in C. exfalso. eapply e_not_done; eauto. }
  unfold open_of. rewrite ops_app. change (ops [Cl q]) with (@nil nat). rewrite app_nil_r.
  apply ops_In in OD. apply in_split in OD. destruct OD as (a & b & OD). rewrite OD in *.
  apply sorted_app_iff in S. destruct S as (S1 & S2 & S3). inversion S2 as [|? ? S4 F]; subst. rewrite Forall_forall in F.
  rewrite !filter_app. cbn [filter]. rewrite Nat.eqb_refl, NC. cbn [andb negb].
  assert (closed (done ++ [Cl q]) q = true) as -> by (apply closed_In; rewrite in_app_iff; right; left; auto). cbn [negb andb].
  rewrite (filter_none (fun q0 => (ent q0 =? ent q) && negb (closed done q0)) b).
  2:{ intros p Hp. destruct (Nat.eqb_spec (ent p) (ent q)) as [Ep|]; auto. cbn [andb].
      destruct (closed done p) eqn:C; auto. exfalso. specialize (F p Hp). assert (p <= q); [|lia].
      apply MX; auto. rewrite in_app_iff. right. right. auto. }
  rewrite (filter_none _ b), app_nil_r.
  2:{ intros p Hp. destruct (Nat.eqb_spec (ent p) (ent q)) as [Ep|]; auto. cbn [andb]. rewrite closed_app.
      destruct (closed done p) eqn:C; auto. exfalso. specialize (F p Hp). assert (p <= q); [|lia].
      apply MX; auto. rewrite in_app_iff. right. right. auto. }
  f_equal. apply filter_ext_in'. intros p Hp. rewrite closed_app. cbn. rewrite orb_false_r.
  specialize (S3 p q Hp (or_introl eq_refl)). destruct (Nat.eqb_spec q p); [lia|]. rewrite orb_false_r. reflexivity.
Qed.

(** ---- the brackets of one mention ---- *)
Variable own : nat -> nat.       (* the mention of the item *)
(** Pieces of a mention come one after another. *)
Hypothesis pieces_apart : forall p q, p < q -> q < P -> own p = own q -> pos (la p) < pos (fi q).
Definition of_mention (m : nat) (e : ev) : bool := Nat.eqb (own (ev_item e)) m.
Definition items_of (m : nat) : list nat := filter (fun q => Nat.eqb (own q) m) (seq 0 P).
Definition item_evs (q : nat) : list ev := if multi q then [Op q; Cl q] else [Si q].
Lemma fi_la q : q < P -> pos (fi q) <= pos (la q).
Proof. intros H. destruct (multi q) eqn:M; [apply several in M; auto; lia|rewrite single; auto]. Qed.
Lemma item_evs_sorted m : StronglySorted (fun e e' => pos (node_of e) < pos (node_of e')) (flat_map item_evs (items_of m)).
Proof.
  apply sorted_flat_map.
  - intros q Hq. apply filter_In in Hq. destruct Hq as [Hq _]. apply in_seq in Hq. unfold item_evs. destruct (multi q) eqn:M.
    + repeat constructor. cbn. apply several; auto. lia.
    + repeat constructor.
  - eapply strongly_sorted_impl with (P := lt).
    + intros p q Hp Hq L x y Hx Hy. apply filter_In in Hp, Hq. destruct Hp as [Hp Op'], Hq as [Hq Oq]. apply in_seq in Hp, Hq.
      apply Nat.eqb_eq in Op', Oq. assert (A : pos (la p) < pos (fi q)) by (apply pieces_apart; auto; [lia|congruence]).
      pose proof (fi_la p) as B. pose proof (fi_la q) as C. 
      assert (pos (node_of x) <= pos (la p)) by (unfold item_evs in Hx; destruct (multi p); cbn in Hx; repeat (destruct Hx as [Hx|Hx]; [subst x; cbn; lia|]); destruct Hx).
      assert (pos (fi q) <= pos (node_of y)) by (unfold item_evs in Hy; destruct (multi q); cbn in Hy; repeat (destruct Hy as [Hy|Hy]; [subst y; cbn; lia|]); destruct Hy).
      lia.
    + apply filter_StronglySorted. clear. generalize 0. induction P as [|k IH]; intros st; cbn [seq]; constructor; auto.
      rewrite Forall_forall. intros x Hx. apply in_seq in Hx. lia.
Qed.
Lemma sorted_nodup {A} (f : A -> nat) l : StronglySorted (fun a b => f a < f b) l -> NoDup l.
Proof. induction 1 as [|a l S IH F]; constructor; auto. rewrite Forall_forall in F. intros H. specialize (F a H). lia. Qed.
Lemma item_evs_In m e : In e (flat_map item_evs (items_of m)) <-> In e all /\ of_mention m e = true.
Proof.
  rewrite in_flat_map, all_In. unfold of_mention, items_of. split.
  - intros (q & Hq & He). apply filter_In in Hq. destruct Hq as [Hq Oq]. apply in_seq in Hq. unfold item_evs in He.
    destruct (multi q) eqn:M; cbn in He; repeat (destruct He as [He|He]; [subst e; cbn; split; [split; [lia|auto]|auto]|]); destruct He.
  - intros ((H1 & H2) & H3). exists (ev_item e). split; [apply filter_In; split; auto; apply in_seq; lia|].
    unfold item_evs. destruct e; cbn in *; rewrite H2; cbn; auto.
Qed.
Lemma mention_evs m : filter (of_mention m) all = flat_map item_evs (items_of m).
Proof.
  pose proof (item_evs_sorted m) as S.
  apply (sorted_unique (fun e e' => pos (node_of e) < pos (node_of e'))); try (intros; lia); auto.
  - assert (DS : forall a b, In a (filter (of_mention m) all) -> In b (filter (of_mention m) all) -> pos (node_of a) = pos (node_of b) -> a = b).
    { intros a b Ha Hb. apply filter_In in Ha, Hb. rewrite <- item_evs_In in Ha, Hb. revert Ha Hb. generalize S.
      generalize (flat_map item_evs (items_of m)). clear. induction 1 as [|x l S IH F]; [intros []|]. rewrite Forall_forall in F.
      intros [<-|Ha] [<-|Hb] X; auto; [specialize (F b Hb); lia|specialize (F a Ha); lia]. }
    pose proof (filter_StronglySorted before (of_mention m) all all_sorted) as B. pose proof (NoDup_filter (of_mention m) all_nodup) as N.
    revert DS B N. generalize (filter (of_mention m) all). intros l DS B N. induction B as [|x l B IH F]; constructor.
    + apply IH; [intros; apply DS; auto; right; auto|inversion N; auto].
    + rewrite Forall_forall in *. intros y Hy. destruct (F y Hy) as [?|[X _]]; auto.
      exfalso. inversion N as [|? ? N1 _]; subst. apply N1. assert (x = y) as -> by (apply DS; [left; auto|right; auto|congruence]). exact Hy.
  - apply NoDup_Permutation.
    + apply NoDup_filter. apply all_nodup.
    + apply (sorted_nodup (fun e => pos (node_of e))). exact S.
    + intros e. rewrite item_evs_In, filter_In. tauto.
Qed.
(** What has been read of a mention before the bracket e of its item q: all its earlier items, and the opening bracket of q if e
    is the closing one. *)
Lemma mention_split done e todo : all = done ++ e :: todo ->
  exists I1 I2, items_of (own (ev_item e)) = I1 ++ ev_item e :: I2 /\
    filter (of_mention (own (ev_item e))) done = flat_map item_evs I1 ++ match e with Cl q => [Op q] | _ => [] end.
Proof.
  intros E. set (m := own (ev_item e)). pose proof (mention_evs m) as M. rewrite E, filter_app in M. cbn [filter] in M.
  assert (O : of_mention m e = true) by (unfold of_mention, m; apply Nat.eqb_refl). rewrite O in M.
  assert (K : match e with Op q | Cl q => multi q = true | Si q => multi q = false end) by (apply all_In; eapply e_all; eauto).
  assert (ND : NoDup (items_of m)) by (apply NoDup_filter; apply seq_NoDup).
  revert M. generalize (filter (of_mention m) done) as D. generalize (filter (of_mention m) todo) as T. revert ND. generalize (items_of m). clear -K.
  intros l ND T D M. symmetry in M. revert D T M. induction l as [|q l IH]; intros D T M; cbn [flat_map] in M.
  - destruct D; discriminate.
  - inversion ND as [|? ? N1 N2]; subst. specialize (IH N2). unfold item_evs at 1 in M. destruct (multi q) eqn:Mq; cbn [app] in M.
    + destruct D as [|x [|y D]]; cbn [app] in M.
      * inversion M; subst. cbn in *. exists [], l. split; auto.
      * inversion M; subst. cbn in *. exists [], l. split; auto.
      * inversion M as [[M1 M2 M3]]; subst. destruct (IH D T M3) as (I1 & I2 & -> & ->). exists (q :: I1), I2. split; auto.
        cbn [flat_map]. unfold item_evs at 2. rewrite Mq. reflexivity.
    + destruct D as [|x D]; cbn [app] in M.
      * inversion M; subst. cbn in *. exists [], l. split; auto.
      * inversion M as [[M1 M3]]; subst. destruct (IH D T M3) as (I1 & I2 & -> & ->). exists (q :: I1), I2. split; auto.
        cbn [flat_map]. unfold item_evs at 2. rewrite Mq. reflexivity.
Qed.
End Events.
