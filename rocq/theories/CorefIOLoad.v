(** Loading the brackets of a list of items: what has been loaded after each bracket. *)
From Coq Require Import String List NArith ZArith Bool Lia Sorting.Sorted Sorting.Permutation.
From Verif Require Import PyStr PyStrFacts PyList PyListFacts PyExn TreeModel TreeSpec TreeOps EmptySpec DualDictModel BundleModel BundleSpec
  CorefModel CorefSpec CorefSpan CorefOrder CorefIOModel CorefIOSpec CorefIOEvents CorefIOText CorefIOSort.
Import ListNotations.
Local Open Scope list_scope.

(** ---- lists and tables ---- *)
Definition firsts (l : list nat) : list nat := fold_left (fun a x => if mem x a then a else a ++ [x]) l [].
Lemma firsts_snoc l x : firsts (l ++ [x]) = if mem x (firsts l) then firsts l else firsts l ++ [x].
Proof. unfold firsts. rewrite fold_left_app. reflexivity. Qed.
Lemma firsts_In l x : In x (firsts l) <-> In x l.
Proof.
  induction l as [|y l IH] using rev_ind; [cbn; tauto|]. rewrite firsts_snoc, in_app_iff. cbn [In].
  destruct (mem y (firsts l)) eqn:E.
  - apply mem_In in E. rewrite IH. split; [tauto|]. intros [?|[<-|[]]]; auto. apply IH; auto.
  - rewrite in_app_iff, IH. cbn. tauto.
Qed.
Lemma firsts_nodup l : NoDup (firsts l).
Proof.
  induction l as [|y l IH] using rev_ind; [constructor|]. rewrite firsts_snoc. destruct (mem y (firsts l)) eqn:E; auto.
  apply mem_false in E. apply nodup_app; auto; [repeat constructor; auto|]. intros x Hx [<-|[]]. auto.
Qed.
Lemma firsts_prefix l k : exists r, firsts (l ++ k) = firsts l ++ r.
Proof.
  induction k as [|x k (r & IH)] using rev_ind; [exists []; rewrite !app_nil_r; auto|]. rewrite app_assoc, firsts_snoc, IH.
  destruct (mem x (firsts l ++ r)); [exists r; auto|exists (r ++ [x])]. rewrite app_assoc. reflexivity.
Qed.
Lemma dl_get_put {A} (l : list (str * list A)) k v k' : dl_get (dl_put l k v) k' = if str_eqb k' k then v else dl_get l k'.
Proof.
  induction l as [|[k1 v1] l IH]; cbn [dl_put dl_get]; [destruct (str_eqb k' k); auto|].
  destruct (str_eqb_spec k k1) as [<-|N]; cbn [dl_get].
  - destruct (str_eqb_spec k' k); auto.
  - destruct (str_eqb_spec k' k1) as [->|]; auto. destruct (str_eqb_spec k1 k) as [->|]; auto. congruence.
Qed.
Lemma dl_put_keys {A} (l : list (str * list A)) k v : forall x, In x (map fst (dl_put l k v)) <-> x = k \/ In x (map fst l).
Proof.
  intros x. induction l as [|[k1 v1] l IH]; cbn [dl_put map fst In]; [intuition|].
  destruct (str_eqb_spec k k1) as [<-|N]; cbn [map fst In]; [intuition|]. rewrite IH. intuition.
Qed.
Lemma dl_put_nodup {A} (l : list (str * list A)) k v : NoDup (map fst l) -> NoDup (map fst (dl_put l k v)).
Proof.
  induction l as [|[k1 v1] l IH]; cbn [dl_put map fst]; intros ND; [repeat constructor; auto|]. inversion ND as [|? ? N1 N2]; subst.
  destruct (str_eqb_spec k k1) as [<-|N]; cbn [map fst]; constructor; auto. rewrite dl_put_keys. intros [?|?]; [congruence|auto].
Qed.
Lemma dl_has_In {A} (l : list (str * list A)) k : dl_has l k = true <-> In k (map fst l).
Proof.
  induction l as [|[k1 v1] l IH]; cbn; [split; [discriminate|tauto]|]. rewrite orb_true_iff, IH, str_eqb_eq. intuition.
Qed.
Lemma dl_get_has {A} (l : list (str * list A)) k : dl_get l k <> [] -> dl_has l k = true.
Proof. induction l as [|[k1 v1] l IH]; cbn; [congruence|]. destruct (str_eqb k k1); auto. Qed.
Lemma dl_get_val {A} (l : list (str * list A)) k v : NoDup (map fst l) -> In (k, v) l -> dl_get l k = v.
Proof.
  induction l as [|[k1 v1] l IH]; cbn; [tauto|]. intros ND [E|H]; inversion ND as [|? ? N1 N2]; subst.
  - inversion E; subst. rewrite str_eqb_refl. auto.
  - destruct (str_eqb_spec k k1) as [->|]; auto. exfalso. apply N1. apply in_map_iff. exists (k1, v). auto.
Qed.
Lemma find_eid_map (eid : nat -> str) (f : nat -> nat) l e : In e l -> (forall a, In a l -> eid a = eid e -> a = e) ->
  find_eid (map (fun e => (eid e, f e)) l) (eid e) = Some (f e).
Proof.
  induction l as [|a l IH]; cbn; [tauto|]. intros H I. destruct (str_eqb_spec (eid a) (eid e)) as [E|N].
  - f_equal. f_equal. apply I; auto.
  - destruct H as [->|H]; [congruence|]. apply IH; auto.
Qed.
Lemma find_eid_none (eid : nat -> str) (f : nat -> nat) l x : (forall a, In a l -> eid a <> x) -> find_eid (map (fun e => (eid e, f e)) l) x = None.
Proof.
  induction l as [|a l IH]; cbn; auto. intros H. destruct (str_eqb_spec (eid a) x) as [E|N]; [exfalso; eapply H; eauto|]. apply IH. auto.
Qed.

(** ---- extending a mention ---- *)
Definition grow (c : coref) (m : nat) (t : list nat) : coref :=
  fold_left (fun c w => put_nments (put_words c m (m_words c m ++ [w])) w (n_ments c w ++ [m])) t c.
Definition same_but_grown (c c' : coref) : Prop :=
  co_doc c' = co_doc c /\ co_h c' = co_h c /\ co_tree c' = co_tree c /\ m_next c' = m_next c /\ e_next c' = e_next c /\
  m_head c' = m_head c /\ m_ent c' = m_ent c /\ e_eid c' = e_eid c /\ e_type c' = e_type c /\ e_ments c' = e_ments c /\ eids c' = eids c.
Lemma grow_spec m t : forall c, NoDup t -> same_but_grown c (grow c m t) /\
  (forall k, m_words (grow c m t) k = if Nat.eqb k m then m_words c m ++ t else m_words c k) /\
  (forall w, n_ments (grow c m t) w = if mem w t then n_ments c w ++ [m] else n_ments c w).
Proof.
  induction t as [|x t IH]; intros c ND; cbn [grow fold_left].
  - split; [unfold same_but_grown; auto 20|]. split; [intros k; rewrite app_nil_r; destruct (Nat.eqb_spec k m); subst; auto|]. intros w. reflexivity.
  - inversion ND as [|? ? N1 N2]; subst. fold (grow (put_nments (put_words c m (m_words c m ++ [x])) x (n_ments c x ++ [m])) m t).
    destruct (IH (put_nments (put_words c m (m_words c m ++ [x])) x (n_ments c x ++ [m])) N2) as (A & B & D). split; [|split].
    + unfold same_but_grown in *. cbn in A. tauto.
    + intros k. rewrite B. cbn. unfold upd. rewrite Nat.eqb_refl. destruct (Nat.eqb_spec k m); auto. rewrite <- app_assoc. reflexivity.
    + intros w. rewrite D. cbn. unfold upd. rewrite (Nat.eqb_sym w x). destruct (Nat.eqb_spec x w) as [->|N].
      * assert (mem w t = false) as -> by (apply mem_false; auto). reflexivity.
      * fold (mem w t). destruct (mem w t); reflexivity.
Qed.
Lemma extend_grow c m f node : forall t v, (forall w, In w (t ++ [node]) -> node_precedes c f w = Ok true) -> NoDup (t ++ [node]) ->
  extend_mention c m f node ((t ++ [node]) ++ v) = (grow c m (t ++ [node]), Ok tt).
Proof.
  intros t. revert c. induction t as [|x t IH]; intros c v H ND; cbn [app extend_mention bind].
  - rewrite H by (left; auto). cbn [bind]. rewrite Nat.eqb_refl. reflexivity.
  - rewrite H by (left; auto). cbn [bind]. inversion ND as [|? ? N1 N2]; subst.
    destruct (Nat.eqb_spec x node) as [->|]; [exfalso; apply N1; rewrite in_app_iff; right; left; auto|].
    rewrite IH; auto. intros w Hw. apply H. right. auto.
Qed.
Lemma extend_skip c m f node u l : (forall w, In w u -> node_precedes c f w = Ok false) ->
  extend_mention c m f node (u ++ l) = extend_mention c m f node l.
Proof.
  induction u as [|x u IH]; intros H; cbn [app extend_mention bind]; auto. rewrite H by (left; auto). cbn [bind]. apply IH. intros; apply H; right; auto.
Qed.

Definition isnil {A} (l : list A) : bool := match l with [] => true | _ => false end.
Lemma isnil_true {A} (l : list A) : isnil l = true <-> l = [].
Proof. destruct l; cbn; split; congruence. Qed.
Lemma nodup_split {A} (l1 l2 k1 k2 : list A) x : NoDup (l1 ++ x :: l2) -> l1 ++ x :: l2 = k1 ++ x :: k2 -> l1 = k1 /\ l2 = k2.
Proof.
  revert k1. induction l1 as [|a l1 IH]; intros [|b k1] ND E; cbn [app] in *.
  - inversion E; auto.
  - inversion E; subst. inversion ND as [|? ? N _]; subst. exfalso. apply N. rewrite in_app_iff. right. left. auto.
  - inversion E; subst. inversion ND as [|? ? N _]; subst. exfalso. apply N. rewrite in_app_iff. right. left. auto.
  - inversion E; subst. inversion ND; subst. destruct (IH k1) as [-> ->]; auto.
Qed.

Lemma nodup_snoc {A} (l : list A) x : NoDup l -> ~ In x l -> NoDup (l ++ [x]).
Proof. intros H N. apply nodup_app; auto; [repeat constructor; auto|]. intros y Hy [<-|[]]. auto. Qed.
Lemma nodup_map {A B} (f : A -> B) l : (forall x y, In x l -> In y l -> f x = f y -> x = y) -> NoDup l -> NoDup (map f l).
Proof.
  intros J ND. induction ND as [|x l N ND IH]; cbn; constructor.
  - intros H. apply in_map_iff in H. destruct H as (y & E & Hy). apply N. rewrite (J x y); auto; [left; auto|right; auto].
  - apply IH. intros a b Ha Hb. apply J; right; auto.
Qed.
Lemma filter_one {A} (f : A -> bool) (l : list A) x : NoDup l -> In x l -> (forall y, In y l -> f y = true -> y = x) -> filter f l = if f x then [x] else [].
Proof.
  induction l as [|y l IH]; [intros _ []|]. intros ND Hx U. inversion ND as [|? ? N1 N2]; subst. cbn [filter]. destruct Hx as [->|Hx].
  - assert (X : filter f l = []).
    { apply filter_none. intros z Hz. destruct (f z) eqn:F; auto. assert (z = x) by (apply U; [right|]; auto). subst. tauto. }
    rewrite X. destruct (f x); reflexivity.
  - destruct (f y) eqn:F; [assert (y = x) by (apply U; auto; left; auto); subst; tauto|]. apply IH; auto. intros z Hz. apply U. right; auto.
Qed.

Section Load.
Variables (c0 : coref) (roots : list nat).
Notation h := (co_h c0).
Let nodes := flat_map (descendants_and_empty h) roots.
(** the items: mention, number of the piece and of all pieces, words *)
Variables (P : nat) (own : nat -> nat) (sub : nat -> option (nat * nat)) (wds : nat -> list nat).
(** the mentions: entity, head (and its number among the words), text of the attribute other; the entities: id, type *)
Variables (ent : nat -> nat) (eid ety : nat -> str) (hidx : nat -> Z) (hm : nat -> nat) (osr : nat -> str).
Variables (evs : nat -> list ev) (misc : nat -> str).
Definition multi (q : nat) : bool := Nat.ltb 1 (length (wds q)).
Definition fi (q : nat) : nat := hd 0 (wds q).
Definition la (q : nat) : nat := last (wds q) 0.
Definition firsti (q : nat) : bool := match sub q with None => true | Some (k, _) => Nat.eqb k 1 end.
Definition lasti (q : nat) : bool := match sub q with None => true | Some (k, n) => Nat.eqb k n end.
Definition ieid (q : nat) : str :=
  match sub q with None => eid (ent (own q)) | Some (k, n) => piece_id (eid (ent (own q))) (Z.of_nat k) (Z.of_nat n) end.
Definition body (q : nat) : str := item_body (ieid q) (ety (ent (own q))) (str_of_Z (hidx (own q))) (osr (own q)).
Notation pos := (ix nodes).
Notation items := (items_of P own).
Definition wm (m : nat) : list nat := flat_map wds (items m).

Hypothesis NDn : NoDup nodes.
Hypothesis NDe : forall n, NoDup (evs n).
Hypothesis mem_op : forall n q, In (Op q) (evs n) <-> q < P /\ multi q = true /\ fi q = n.
Hypothesis mem_cl : forall n q, In (Cl q) (evs n) <-> q < P /\ multi q = true /\ la q = n.
Hypothesis mem_si : forall n q, In (Si q) (evs n) <-> q < P /\ multi q = false /\ fi q = n.
Hypothesis ord : forall n, StronglySorted rev_ord (evs n).
Hypothesis Hgood : forall r, In r roots -> good_tree h r.
Hypothesis Hrun : forall q, q < P -> wds q <> [] /\ exists r u v, In r roots /\ descendants_and_empty h r = u ++ wds q ++ v.
Hypothesis items_sorted : forall p q, p < q -> q < P -> pos (fi p) < pos (fi q) \/ (fi p = fi q /\ pos (la q) <= pos (la p)).
Hypothesis nested : forall p q, p < P -> q < P -> ent (own p) = ent (own q) -> pos (fi p) < pos (fi q) -> pos (fi q) < pos (la p) -> pos (la p) < pos (la q) -> False.
Hypothesis pieces_apart : forall p q, p < q -> q < P -> own p = own q -> pos (la p) < pos (fi q).
Hypothesis Hsub : forall q I1 I2, items (own q) = I1 ++ q :: I2 ->
  sub q = if isnil (I1 ++ I2) then None else Some (S (length I1), S (length (I1 ++ I2))).
Hypothesis Hwm : forall q, q < P -> increasing h (wm (own q)).
Hypothesis Hhead : forall q, q < P -> (1 <= hidx (own q))%Z /\ nth_error (wm (own q)) (Z.to_nat (hidx (own q) - 1)) = Some (hm (own q)).
Hypothesis Hid : forall q, q < P -> good_id (eid (ent (own q))).
Hypothesis Hty : forall q, q < P -> without (s "-()") (ety (ent (own q))).
Hypothesis Hos : forall q, q < P -> without (s "-()") (osr (own q)).
Hypothesis Hinj : forall p q, p < P -> q < P -> eid (ent (own p)) = eid (ent (own q)) -> ent (own p) = ent (own q).
Hypothesis Hdisc : forall p q, p < P -> q < P -> ent (own p) = ent (own q) -> own p <> own q -> sub p <> None -> sub q <> None ->
  (forall a b, In a (wm (own p)) -> In b (wm (own q)) -> pos a < pos b) \/ (forall a b, In a (wm (own p)) -> In b (wm (own q)) -> pos b < pos a).
Hypothesis Hmisc : forall n, In n nodes -> misc n = flat_map (ev_text body ieid) (evs n).

Notation all' := (all nodes evs).
Lemma run_infix q : q < P -> exists a b, nodes = a ++ wds q ++ b.
Proof.
  intros H. destruct (Hrun q H) as (_ & r & u & v & Hr & E). apply in_split in Hr. destruct Hr as (r1 & r2 & ER).
  unfold nodes. rewrite ER, flat_map_app. cbn [flat_map]. rewrite E. exists (flat_map (descendants_and_empty h) r1 ++ u), (v ++ flat_map (descendants_and_empty h) r2).
  rewrite <- !app_assoc. reflexivity.
Qed.
Lemma wds_in q x : q < P -> In x (wds q) -> In x nodes.
Proof. intros H Hx. destruct (run_infix q H) as (a & b & ->). rewrite !in_app_iff. auto. Qed.
Lemma wds_sorted q : q < P -> StronglySorted (fun a b => pos a < pos b) (wds q).
Proof.
  intros H. destruct (run_infix q H) as (a & b & E). assert (S : StronglySorted (fun a b => pos a < pos b) (a ++ wds q ++ b)) by (rewrite <- E; exact (sorted_ix nodes NDn)). apply sorted_app_iff in S.
  destruct S as (_ & S & _). apply sorted_app_iff in S. tauto.
Qed.
Lemma wds_ne q : q < P -> wds q <> [].
Proof. intros H. apply (Hrun q H). Qed.
Lemma fi_wds q : q < P -> In (fi q) (wds q).
Proof. intros H. apply hd_In. apply wds_ne; auto. Qed.
Lemma la_wds q : q < P -> In (la q) (wds q).
Proof. intros H. apply last_In. apply wds_ne; auto. Qed.
Lemma fi_in q : q < P -> In (fi q) nodes.
Proof. intros H. apply (wds_in q); auto using fi_wds. Qed.
Lemma la_in q : q < P -> In (la q) nodes.
Proof. intros H. apply (wds_in q); auto using la_wds. Qed.
Lemma single q : q < P -> multi q = false -> wds q = [fi q] /\ la q = fi q.
Proof.
  intros H M. apply Nat.ltb_ge in M. pose proof (wds_ne q H) as N. unfold fi, la. destruct (wds q) as [|a [|b l]]; [congruence|auto|cbn in M; lia].
Qed.
Lemma multi_shape q : q < P -> multi q = true -> exists t, wds q = fi q :: t ++ [la q] /\ tl (wds q) = t ++ [la q].
Proof.
  intros H M. apply Nat.ltb_lt in M. unfold fi, la. destruct (wds q) as [|a l]; [cbn in M; lia|]. destruct l as [|b l]; [cbn in M; lia|].
  assert (N : b :: l <> []) by discriminate. destruct (exists_last N) as (t & z & E). exists t. rewrite E. cbn [hd tl].
  change (a :: t ++ [z]) with ((a :: t) ++ [z]). rewrite last_app_one. auto.
Qed.
Lemma several q : q < P -> multi q = true -> pos (fi q) < pos (la q).
Proof.
  intros H M. destruct (multi_shape q H M) as (t & E & _). pose proof (wds_sorted q H) as S. rewrite E in S. inversion S as [|? ? _ F]; subst.
  rewrite Forall_forall in F. apply F. rewrite in_app_iff. right. left. auto.
Qed.
Lemma single' q : q < P -> multi q = false -> la q = fi q.
Proof. intros H M. apply single; auto. Qed.

Definition ev_kind (e : ev) : Prop := match e with Op q | Cl q => multi q = true | Si q => multi q = false end.
Lemma ev_all e : In e all' <-> ev_item e < P /\ ev_kind e.
Proof. apply (all_In nodes evs P fi la multi); auto using fi_in, la_in. Qed.
Lemma ev_split done e todo : all' = done ++ e :: todo ->
  exists I1 I2, items (own (ev_item e)) = I1 ++ ev_item e :: I2 /\
    filter (of_mention own (own (ev_item e))) done = flat_map (item_evs multi) I1 ++ match e with Cl q => [Op q] | _ => [] end.
Proof. apply (mention_split nodes evs P fi la multi); auto using fi_in, la_in, single', several. Qed.
Definition ient (q : nat) : nat := ent (own q).
Lemma ev_last_open done q todo : all' = done ++ Cl q :: todo -> open_of ient (ient q) done = open_of ient (ient q) (done ++ [Cl q]) ++ [q].
Proof. intros E. apply (last_open nodes evs P fi la multi) with (todo := todo); auto using fi_in, la_in, several. Qed.
Lemma ev_not_done done e todo : all' = done ++ e :: todo -> ~ In e done.
Proof. apply (e_not_done nodes evs P fi la multi); auto. Qed.
Lemma ev_done_le done e todo e' : all' = done ++ e :: todo -> In e' done -> pos (node_of fi la e') <= pos (node_of fi la e).
Proof. intros E. apply (done_le nodes evs P fi la multi NDn mem_op mem_cl mem_si ord done e todo E). Qed.
Lemma ev_todo_ge done e todo e' : all' = done ++ e :: todo -> In e' all' -> ~ In e' done -> pos (node_of fi la e) <= pos (node_of fi la e').
Proof. intros E. apply (todo_ge nodes evs P fi la multi NDn mem_op mem_cl mem_si ord done e todo E). Qed.
Lemma items_nodup m : NoDup (items m).
Proof. apply NoDup_filter. apply seq_NoDup. Qed.
Lemma items_In m q : In q (items m) <-> q < P /\ own q = m.
Proof. unfold items_of. rewrite filter_In, in_seq, Nat.eqb_eq. split; intros [A B]; split; auto; lia. Qed.
Lemma item_split q : q < P -> exists I1 I2, items (own q) = I1 ++ q :: I2.
Proof. intros H. apply in_split. apply items_In. auto. Qed.
Lemma first_last q I1 I2 : items (own q) = I1 ++ q :: I2 ->
  firsti q = isnil I1 /\ lasti q = isnil I2 /\ (sub q = None <-> I1 = [] /\ I2 = []).
Proof.
  intros E. unfold firsti, lasti. rewrite (Hsub q I1 I2 E). destruct I1 as [|a I1], I2 as [|b I2]; cbn [isnil app length Nat.eqb]; repeat split; auto;
    try congruence; try (intros [? ?]; congruence); try discriminate.
  - rewrite app_nil_r. apply Nat.eqb_refl.
  - apply Nat.eqb_neq. rewrite app_length. cbn. lia.
Qed.

(** ---- what has been read ---- *)
Definition start (e : ev) : list nat := match e with Op q | Si q => if firsti q then [own q] else [] | Cl _ => [] end.
Definition starts_of (l : list ev) : list nat := flat_map start l.
Definition ents_of (l : list ev) : list nat := firsts (map ent (starts_of l)).
Definition ev_words (e : ev) : list nat := match e with Op q => [fi q] | Cl q => tl (wds q) | Si q => wds q end.
Definition read_words (l : list ev) (m : nat) : list nat := flat_map ev_words (filter (of_mention own m) l).
Definition finishes (m : nat) (e : ev) : bool := match e with Cl q | Si q => Nat.eqb (own q) m && lasti q | Op _ => false end.
Definition finished (l : list ev) (m : nat) : bool := existsb (finishes m) l.
Definition disc (m : nat) : bool := Nat.ltb 1 (length (items m)).
Definition active (l : list ev) (m : nat) : bool := disc m && negb (finished l m).
Definition read_head (l : list ev) (m : nat) : nat := if finished l m then hm m else hd 0 (wm m).
Definition mu (m : nat) : nat := ix (starts_of all') m.
Definition eps (e : nat) : nat := ix (ents_of all') e.

Lemma starts_app l k : starts_of (l ++ k) = starts_of l ++ starts_of k.
Proof. apply flat_map_app. Qed.
Lemma starts_one e : starts_of [e] = start e.
Proof. cbn. apply app_nil_r. Qed.
Lemma read_app l e m : read_words (l ++ [e]) m = read_words l m ++ if of_mention own m e then ev_words e else [].
Proof. unfold read_words. rewrite filter_app, flat_map_app. cbn [filter]. destruct (of_mention own m e); cbn; rewrite ?app_nil_r; auto. Qed.
Lemma finished_app l e m : finished (l ++ [e]) m = finished l m || finishes m e.
Proof. unfold finished. rewrite existsb_app. cbn. rewrite orb_false_r. reflexivity. Qed.
Lemma disc_sub q : q < P -> (disc (own q) = true <-> sub q <> None).
Proof.
  intros H. destruct (item_split q H) as (I1 & I2 & E). destruct (first_last q I1 I2 E) as (_ & _ & S). unfold disc. rewrite E, S, app_length, Nat.ltb_lt. cbn [length].
  destruct I1, I2; cbn; split; intros; try lia; try (intros [? ?]; discriminate); exfalso; auto.
Qed.
Lemma item_words q : q < P -> flat_map ev_words (item_evs multi q) = wds q.
Proof.
  intros H. unfold item_evs. destruct (multi q) eqn:M; cbn; rewrite app_nil_r; auto.
  destruct (multi_shape q H M) as (t & E & ET). rewrite ET. symmetry. exact E.
Qed.
Lemma items_words I : (forall q, In q I -> q < P) -> flat_map ev_words (flat_map (item_evs multi) I) = flat_map wds I.
Proof.
  induction I as [|q I IH]; intros H; cbn [flat_map]; auto. rewrite flat_map_app, item_words, IH; auto; [intros; apply H; right; auto|apply H; left; auto].
Qed.

Section Step.
Variables (done : list ev) (e : ev) (todo : list ev).
Hypothesis E : all' = done ++ e :: todo.
Notation q := (ev_item e).
Notation m := (own q).
Lemma st_P : q < P.
Proof. apply (proj1 (ev_all e)). rewrite E, in_app_iff. right; left; auto. Qed.
Lemma st_kind : ev_kind e.
Proof. apply (proj1 (ev_all e)). rewrite E, in_app_iff. right; left; auto. Qed.
Lemma done_P e' : In e' done -> ev_item e' < P /\ ev_kind e'.
Proof. intros H. apply ev_all. rewrite E, in_app_iff. auto. Qed.
Lemma st_split : exists I1 I2, items m = I1 ++ q :: I2 /\
  filter (of_mention own m) done = flat_map (item_evs multi) I1 ++ match e with Cl q => [Op q] | _ => [] end.
Proof. eapply ev_split; eauto. Qed.
(** the words read so far *)
Lemma st_words : exists I1 I2, items m = I1 ++ q :: I2 /\
  read_words done m = flat_map wds I1 ++ match e with Cl q => [fi q] | _ => [] end.
Proof.
  destruct st_split as (I1 & I2 & EI & EF). exists I1, I2. split; auto. unfold read_words. rewrite EF, flat_map_app, items_words.
  - destruct e; reflexivity.
  - intros p Hp. assert (In p (items m)) as H by (rewrite EI, in_app_iff; auto). apply items_In in H. tauto.
Qed.
(** not finished yet *)
Lemma st_unfinished : finished done m = false.
Proof.
  destruct (finished done m) eqn:F; auto. exfalso. unfold finished in F. apply existsb_exists in F. destruct F as (e' & He' & F).
  assert (O : own (ev_item e') = m /\ lasti (ev_item e') = true /\ e' <> Op (ev_item e')).
  { destruct e'; cbn in F |- *; try discriminate; apply andb_true_iff in F; rewrite Nat.eqb_eq in F; split; try tauto; split; try tauto; discriminate. }
  destruct O as (O1 & O2 & O3). destruct st_split as (I1 & I2 & EI & EF).
  assert (IF : In e' (filter (of_mention own m) done)) by (apply filter_In; split; auto; unfold of_mention; apply Nat.eqb_eq; auto).
  rewrite EF, in_app_iff in IF. destruct IF as [IF|IF].
  - apply in_flat_map in IF. destruct IF as (p & Hp & IF). assert (EP : ev_item e' = p) by (unfold item_evs in IF; destruct (multi p); cbn in IF; intuition (subst; auto)).
    subst p. apply in_split in Hp. destruct Hp as (A & B & ->). rewrite <- O1, <- app_assoc in EI. cbn [app] in EI.
    destruct (first_last _ _ _ EI) as (_ & L & _). rewrite L in O2. destruct B; discriminate.
  - destruct e; cbn in IF; try tauto. destruct IF as [<-|[]]. apply O3. reflexivity.
Qed.
Lemma started_item m' : In m' (starts_of done) <-> exists e', In e' done /\ In m' (start e').
Proof. unfold starts_of. apply in_flat_map. Qed.
Lemma start_own e' m' : In m' (start e') -> own (ev_item e') = m' /\ firsti (ev_item e') = true.
Proof. destruct e' as [a|a|a]; cbn; try tauto; destruct (firsti a) eqn:F; cbn; intuition. Qed.
(** a first bracket: the mention has not been started *)
Lemma st_first : (match e with Cl _ => False | _ => True end) -> firsti q = true ->
  ~ In m (starts_of done) /\ read_words done m = [] /\ start e = [m].
Proof.
  intros K F. destruct st_split as (I1 & I2 & EI & EF). destruct (first_last _ _ _ EI) as (F1 & _ & _). rewrite F1 in F. apply isnil_true in F. subst I1.
  assert (EF' : filter (of_mention own m) done = []) by (rewrite EF; destruct e; [auto|tauto|auto]).
  split; [|split].
  - intros H. apply started_item in H. destruct H as (e' & He' & Hs). apply start_own in Hs.
    assert (X : In e' (filter (of_mention own m) done)) by (apply filter_In; split; auto; unfold of_mention; apply Nat.eqb_eq; tauto).
    rewrite EF' in X. destruct X.
  - unfold read_words. rewrite EF'. reflexivity.
  - destruct e; cbn in *; rewrite ?F1; tauto.
Qed.
Lemma firsti_start p : p < P -> firsti p = true -> exists e', In e' (item_evs multi p) /\ start e' = [own p].
Proof.
  intros H F. unfold item_evs. destruct (multi p); [exists (Op p)|exists (Si p)]; cbn; rewrite F; auto.
Qed.
(** a later bracket: the mention has been started *)
Lemma st_later : (match e with Cl _ => True | _ => firsti q = false end) -> In m (starts_of done) /\ start e = [].
Proof.
  intros K. destruct st_split as (I1 & I2 & EI & EF). destruct (first_last _ _ _ EI) as (F1 & _ & _). split; [|destruct e; cbn in *; rewrite ?K; auto].
  assert (exists e', In e' (filter (of_mention own m) done) /\ start e' = [m]) as (e' & He' & Hs).
  { destruct I1 as [|p I1].
    - destruct e as [a|a|a]; cbn in K; try (cbn in F1; congruence). exists (Op a). rewrite EF. cbn [flat_map app]. split; [left; auto|]. cbn. cbn in F1. rewrite F1. reflexivity.
    - assert (Hp : In p (items m)) by (rewrite EI; left; auto). apply items_In in Hp. destruct Hp as [Hp Op'].
      assert (Fp : firsti p = true).
      { rewrite <- Op' in EI. cbn [app] in EI. destruct (first_last p [] _ EI) as (X & _). exact X. }
      destruct (firsti_start p Hp Fp) as (e' & H1 & H2). exists e'. rewrite EF. split; [|congruence]. rewrite in_app_iff. left. cbn [flat_map]. rewrite in_app_iff. auto. }
  apply started_item. exists e'. apply filter_In in He'. split; [tauto|]. rewrite Hs. left; auto.
Qed.
(** numbers of the new mention and entity *)
Lemma starts_split : starts_of all' = starts_of done ++ start e ++ starts_of todo.
Proof. rewrite E, starts_app. cbn. reflexivity. Qed.
Lemma st_mu : start e = [m] -> ~ In m (starts_of done) -> mu m = length (starts_of done).
Proof. intros S N. unfold mu. rewrite starts_split, S. cbn [app]. apply ix_mid. auto. Qed.
Lemma mu_in m' : In m' (starts_of done) -> mu m' < length (starts_of done).
Proof. intros H. unfold mu. rewrite starts_split, ix_app by auto. apply ix_lt. auto. Qed.
Lemma mu_inj m' m'' : In m' (starts_of all') -> In m'' (starts_of all') -> mu m' = mu m'' -> m' = m''.
Proof. apply ix_inj. Qed.
Lemma starts_sub m' : In m' (starts_of done) -> In m' (starts_of all').
Proof. intros H. rewrite starts_split, in_app_iff. auto. Qed.
Lemma ents_prefix : exists r, ents_of all' = ents_of done ++ r.
Proof. unfold ents_of. rewrite starts_split, map_app. apply firsts_prefix. Qed.
Lemma st_eps : start e = [m] -> ~ In (ent m) (ents_of done) -> eps (ent m) = length (ents_of done) /\ ents_of (done ++ [e]) = ents_of done ++ [ent m].
Proof.
  intros S N. assert (A : ents_of (done ++ [e]) = ents_of done ++ [ent m]).
  { unfold ents_of. rewrite starts_app, starts_one, S, map_app. cbn [map]. rewrite firsts_snoc. fold (ents_of done). apply mem_false in N. rewrite N. reflexivity. }
  split; auto. unfold eps, ents_of. rewrite starts_split, S. cbn [app]. rewrite map_app. cbn [map].
  change (map ent (starts_of done) ++ ent m :: map ent (starts_of todo)) with (map ent (starts_of done) ++ [ent m] ++ map ent (starts_of todo)).
  rewrite app_assoc. destruct (firsts_prefix (map ent (starts_of done) ++ [ent m]) (map ent (starts_of todo))) as (r & ->).
  rewrite firsts_snoc. fold (ents_of done). apply mem_false in N. rewrite N. rewrite <- app_assoc. cbn [app]. apply ix_mid. apply mem_false. exact N.
Qed.
Lemma ents_same : (start e = [] \/ start e = [m] /\ In (ent m) (ents_of done)) -> ents_of (done ++ [e]) = ents_of done.
Proof.
  intros H. unfold ents_of. rewrite starts_app, starts_one. destruct H as [->|[-> H]]; [rewrite app_nil_r; auto|]. rewrite map_app. cbn [map].
  rewrite firsts_snoc. fold (ents_of done). apply mem_In in H. rewrite H. reflexivity.
Qed.
Lemma eps_in a : In a (ents_of done) -> eps a < length (ents_of done).
Proof. intros H. unfold eps. destruct ents_prefix as (r & ->). rewrite ix_app by auto. apply ix_lt. auto. Qed.
Lemma eps_inj a b : In a (ents_of all') -> In b (ents_of all') -> eps a = eps b -> a = b.
Proof. apply ix_inj. Qed.
Lemma ents_sub a : In a (ents_of done) -> In a (ents_of all').
Proof. intros H. destruct ents_prefix as (r & ->). rewrite in_app_iff. auto. Qed.
Lemma ents_In a l : In a (ents_of l) <-> exists m', In m' (starts_of l) /\ ent m' = a.
Proof. unfold ents_of. rewrite firsts_In, in_map_iff. split; intros (x & A & B); exists x; auto. Qed.
Lemma started_P m' : In m' (starts_of done) -> exists p, p < P /\ own p = m'.
Proof. intros H. apply started_item in H. destruct H as (e' & He' & Hs). apply start_own in Hs. apply done_P in He'. exists (ev_item e'). tauto. Qed.

(** the open items of the mention *)
Lemma open_own p : In p (open_of ient (ient q) done) -> own p = m -> e = Cl p.
Proof.
  intros H O. unfold open_of in H. apply filter_In in H. destruct H as [H1 H2]. apply andb_true_iff in H2. destruct H2 as [_ H2].
  apply negb_true_iff in H2. apply ops_In in H1. destruct st_split as (I1 & I2 & EI & EF).
  assert (IF : In (Op p) (filter (of_mention own m) done)) by (apply filter_In; split; auto; unfold of_mention; apply Nat.eqb_eq; auto).
  rewrite EF, in_app_iff in IF. destruct IF as [IF|IF].
  - apply in_flat_map in IF. destruct IF as (p' & Hp & IF). exfalso. assert (p' = p /\ multi p = true) as [-> M].
    { unfold item_evs in IF. destruct (multi p') eqn:M; cbn in IF; [destruct IF as [IF|[IF|[]]]; inversion IF; subst; auto|destruct IF as [IF|[]]; discriminate]. }
    assert (In (Cl p) (filter (of_mention own m) done)).
    { rewrite EF, in_app_iff. left. apply in_flat_map. exists p. split; auto. unfold item_evs. rewrite M. right; left; auto. }
    apply filter_In in H. assert (closed done p = true) by (apply closed_In; tauto). congruence.
  - destruct e as [a|a|a]; cbn in IF; try tauto. destruct IF as [IF|[]]. inversion IF. reflexivity.
Qed.
(** only one discontinuous mention of the entity is being read *)
Lemma st_active m' : sub q <> None -> In m' (starts_of done) -> ent m' = ent m -> active done m' = true -> m' = m.
Proof.
  intros SQ H1 H2 H3. unfold active in H3. apply andb_true_iff in H3. destruct H3 as [D F]. apply negb_true_iff in F.
  apply started_item in H1. destruct H1 as (e' & He' & Hs). apply start_own in Hs. destruct Hs as [Ho Hf]. pose proof (done_P e' He') as [P' K'].
  destruct (Nat.eq_dec m' m) as [|N]; auto. exfalso.
  assert (SP : sub (ev_item e') <> None) by (apply disc_sub; auto; rewrite Ho; auto).
  (* the last bracket of m' is still to be read *)
  assert (exists p, p < P /\ own p = m' /\ lasti p = true) as (p & Hp & Op' & Lp).
  { assert (NE : items m' <> []) by (intros X; unfold disc in D; rewrite X in D; discriminate).
    destruct (exists_last NE) as (I & p & EI). exists p. assert (X : In p (items m')) by (rewrite EI, in_app_iff; right; left; auto). apply items_In in X. destruct X as [X1 X2].
    split; auto. split; auto. rewrite <- X2 in EI. destruct (first_last _ _ _ EI) as (_ & L & _). exact L. }
  set (ef := if multi p then Cl p else Si p). 
  assert (AF : In ef all') by (apply ev_all; unfold ef; destruct (multi p) eqn:M; cbn; auto).
  assert (NF : ~ In ef done).
  { intros X. assert (finished done m' = true); [|congruence]. unfold finished. apply existsb_exists. exists ef. split; auto.
    unfold ef. destruct (multi p); cbn; rewrite Op', Nat.eqb_refl, Lp; reflexivity. }
  pose proof (ev_todo_ge done e todo ef E AF NF) as G1. pose proof (ev_done_le done e todo e' E He') as G2.
  assert (W1 : In (node_of fi la ef) (wm m')).
  { unfold wm. apply in_flat_map. exists p. split; [apply items_In; auto|]. unfold ef. destruct (multi p); cbn; auto using fi_wds, la_wds. }
  assert (W2 : In (node_of fi la e') (wm m')).
  { unfold wm. apply in_flat_map. exists (ev_item e'). split; [apply items_In; auto|]. destruct e'; cbn; auto using fi_wds, la_wds. }
  assert (W3 : In (node_of fi la e) (wm m)).
  { unfold wm. apply in_flat_map. exists q. split; [apply items_In; auto using st_P|]. pose proof st_P. destruct e; cbn; auto using fi_wds, la_wds. }
  rewrite <- Ho in *. destruct (Hdisc (ev_item e') q P' st_P H2 N SP SQ) as [B|B].
  - specialize (B _ _ W1 W3). lia.
  - specialize (B _ _ W2 W3). lia.
Qed.
End Step.

(** ---- reading the fields ---- *)
Lemma good_chars x a : good_id x -> In a x -> a <> 91%N /\ a <> DASH /\ is_paren a = false.
Proof.
  intros (_ & F & W & _) H. split; [intros ->; apply (W _ H); left; auto|]. split.
  - intros ->. apply F. exists DASH. split; auto. left; auto.
  - unfold is_paren. apply orb_false_iff. split; apply N.eqb_neq; intros ->; apply F; eexists; split; eauto; cbn; auto 10.
Qed.
Lemma sub_bounds q : q < P -> match sub q with None => True | Some (k, n) => 1 <= k <= n /\ 1 < n end.
Proof.
  intros H. destruct (item_split q H) as (I1 & I2 & E). rewrite (Hsub q I1 I2 E). destruct (isnil (I1 ++ I2)) eqn:N; auto.
  assert (I1 ++ I2 <> []) by (intros X; rewrite X in N; discriminate). rewrite app_length. destruct I1, I2; cbn in *; try congruence; lia.
Qed.
Lemma ieid_chars q a : q < P -> In a (ieid q) -> a <> DASH /\ is_paren a = false.
Proof.
  intros H Ha. unfold ieid in Ha. pose proof (sub_bounds q H) as B. destruct (sub q) as [[k n]|].
  - unfold piece_id in Ha. rewrite !in_app_iff in Ha.
    assert (D : forall z, (0 <= z)%Z -> In a (str_of_Z z) -> a <> DASH /\ is_paren a = false).
    { intros z Hz Hin. destruct (str_of_Z_nonneg z Hz) as (D & _). rewrite forallb_forall in D. apply D in Hin. unfold is_digit in Hin.
      apply andb_true_iff in Hin. destruct Hin as [H1 H2]. apply N.leb_le in H1, H2. unfold DASH, is_paren, LP, RP. split; [lia|].
      apply orb_false_iff. rewrite !N.eqb_neq. lia. }
    destruct Ha as [Ha|[Ha|[Ha|[Ha|[Ha|Ha]]]]].
    + apply (good_chars _ _ (Hid q H)) in Ha. tauto.
    + destruct Ha as [<-|[]]. split; [discriminate|reflexivity].
    + eapply D; [|exact Ha]. lia.
    + destruct Ha as [<-|[]]. split; [discriminate|reflexivity].
    + eapply D; [|exact Ha]. lia.
    + destruct Ha as [<-|[]]. split; [discriminate|reflexivity].
  - apply (good_chars _ _ (Hid q H)) in Ha. tauto.
Qed.
Lemma ieid_ne q : q < P -> ieid q <> [].
Proof.
  intros H. destruct (Hid q H) as (N & _). unfold ieid. destruct (sub q) as [[k n]|]; auto. unfold piece_id. destruct (eid (ent (own q))); [congruence|discriminate].
Qed.
Lemma without_chars x a : without (s "-()") x -> In a x -> a <> DASH /\ is_paren a = false.
Proof.
  intros W H. apply W in H. cbn in H. unfold DASH, is_paren, LP, RP. split; [intros ->; tauto|]. apply orb_false_iff. rewrite !N.eqb_neq. split; intros ->; tauto.
Qed.
Lemma digits_chars z a : (0 <= z)%Z -> In a (str_of_Z z) -> a <> DASH /\ is_paren a = false.
Proof.
  intros Hz Hin. destruct (str_of_Z_nonneg z Hz) as (D & _). rewrite forallb_forall in D. apply D in Hin. unfold is_digit in Hin.
  apply andb_true_iff in Hin. destruct Hin as [H1 H2]. apply N.leb_le in H1, H2. unfold DASH, is_paren, LP, RP. split; [lia|].
  apply orb_false_iff. rewrite !N.eqb_neq. lia.
Qed.
Lemma plain_item q : q < P -> plain (body q) /\ plain (ieid q).
Proof.
  intros H. destruct (Hhead q H) as [H1 _]. assert (Hz : (0 <= hidx (own q))%Z) by lia. split.
  - apply item_body_plain; [apply ieid_ne; auto|apply str_of_Z_nonneg; auto|]. intros a. rewrite !in_app_iff.
    intros [Ha|[Ha|[Ha|Ha]]].
    + eapply ieid_chars; eauto.
    + exact (proj2 (without_chars _ _ (Hty q H) Ha)).
    + eapply digits_chars; eauto.
    + exact (proj2 (without_chars _ _ (Hos q H) Ha)).
  - split; [apply ieid_ne; auto|]. intros a Ha. eapply ieid_chars; eauto.
Qed.
Lemma count_eqb a b : (0 <= a)%Z -> (0 <= b)%Z -> str_eqb (str_of_Z a) (str_of_Z b) = Z.eqb a b.
Proof.
  intros Ha Hb. destruct (str_eqb_spec (str_of_Z a) (str_of_Z b)) as [E|N]; symmetry.
  - apply Z.eqb_eq. apply str_of_Z_inj; auto.
  - apply Z.eqb_neq. congruence.
Qed.
Lemma nat_eqb_Z a b : Z.eqb (Z.of_nat a) (Z.of_nat b) = Nat.eqb a b.
Proof. destruct (Nat.eqb_spec a b) as [->|N]; [apply Z.eqb_refl|apply Z.eqb_neq; lia]. Qed.
Definition pflags (q : nat) : option (bool * bool) := match sub q with None => None | Some _ => Some (firsti q, lasti q) end.
Lemma parse_body q : q < P ->
  parse_opening (body q) = Ok (eid (ent (own q)), pflags q, Some (ety (ent (own q))), Some (hidx (own q)), parse_other (osr (own q))).
Proof.
  intros H. destruct (Hhead q H) as [H1 _]. assert (Hz : (0 <= hidx (own q))%Z) by lia. destruct (Hid q H) as (IN & IF & IB & IE).
  unfold parse_opening, body. change 45%N with DASH. rewrite item_body_split.
  2: apply ieid_ne; auto.
  2: apply str_of_Z_nonneg; auto.
  2: intros X; apply (ieid_chars q) in X; tauto.
  2: intros X; apply (without_chars _ _ (Hty q H)) in X; tauto.
  2: intros X; apply digits_chars in X; tauto.
  2: intros X; apply (without_chars _ _ (Hos q H)) in X; tauto.
  assert (EO : parse_other (osr (own q)) = match nth_error (match osr (own q) with [] => [ieid q; ety (ent (own q)); str_of_Z (hidx (own q))]
     | _ => [ieid q; ety (ent (own q)); str_of_Z (hidx (own q)); osr (own q)] end) 3 with None => [] | Some v => parse_other v end).
  { destruct (osr (own q)); reflexivity. }
  rewrite EO. set (v := match osr (own q) with [] => _ | _ => _ end).
  assert (EV : hd [] v = ieid q /\ nth_error v 1 = Some (ety (ent (own q))) /\ nth_error v 2 = Some (str_of_Z (hidx (own q)))) by (unfold v; destruct (osr (own q)); auto).
  destruct EV as (-> & -> & ->). rewrite py_int_str_of_Z by auto. cbn [rbind].
  unfold ieid, pflags, firsti, lasti. pose proof (sub_bounds q H) as B. destruct (sub q) as [[k n]|].
  - rewrite piece_last. change (N.eqb 93 93) with true. cbv iota. rewrite match_piece; auto; try lia.
    + cbn [rbind fst snd]. change (s "1") with (str_of_Z (Z.of_nat 1)). rewrite !count_eqb, !nat_eqb_Z by lia. reflexivity.
    + intros X. apply (IB _ X). left. auto.
  - destruct (last_opt (eid (ent (own q)))) as [a|] eqn:EL.
    + destruct (N.eqb_spec a 93) as [->|N]; [|reflexivity]. exfalso. destruct (exists_last IN) as (y & b & EY). rewrite EY, last_opt_app in EL. inversion EL; subst b.
      apply (IE y). exact EY.
    + exfalso. destruct (exists_last IN) as (y & b & EY). rewrite EY, last_opt_app in EL. discriminate.
Qed.
Lemma id_no_bracket q : q < P -> ~ In 91%N (eid (ent (own q))).
Proof. intros H X. apply (good_chars _ _ (Hid q H)) in X. tauto. Qed.

(** ---- what the tables hold after the events l, with the entities E ---- *)
Definition act_list (a : nat) (l : list ev) : list nat := filter (fun m => Nat.eqb (ent m) a && active l m) (starts_of l).
Record R (l : list ev) (E : list nat) (L : loader) : Prop := {
  r_doc : co_doc (ld_c L) = co_doc c0;
  r_h : co_h (ld_c L) = h;
  r_tree : co_tree (ld_c L) = co_tree c0;
  r_eids : eids (ld_c L) = [];
  r_misc : cs_misc (ld_x L) = misc;
  r_starts : NoDup (starts_of l);
  r_mnext : m_next (ld_c L) = length (starts_of l);
  r_enext : e_next (ld_c L) = length E;
  r_words : forall m, In m (starts_of l) -> m_words (ld_c L) (mu m) = read_words l m;
  r_head : forall m, In m (starts_of l) -> m_head (ld_c L) (mu m) = read_head l m;
  r_ent : forall m, In m (starts_of l) -> m_ent (ld_c L) (mu m) = eps (ent m);
  r_other : forall m, In m (starts_of l) -> cs_other (ld_x L) (mu m) = parse_other (osr m);
  r_eid : forall a, In a E -> e_eid (ld_c L) (eps a) = eid a;
  r_type : forall a, In a E -> e_type (ld_c L) (eps a) = Some (ety a);
  r_ements : forall a, In a E -> e_ments (ld_c L) (eps a) = map mu (filter (fun m => Nat.eqb (ent m) a) (starts_of l));
  r_enone : forall j, length E <= j -> e_ments (ld_c L) j = [];
  r_ents : ld_ents L = map (fun a => (eid a, eps a)) E;
  r_keys : NoDup (map fst (ld_open L));
  r_keyid : forall k, In k (map fst (ld_open L)) -> exists p, p < P /\ k = eid (ient p);
  r_open : forall p, p < P -> dl_get (ld_open L) (eid (ient p)) = map (fun q => (mu (own q), Some (hidx (own q)))) (open_of ient (ient p) l);
  r_disc : forall p, p < P -> dl_get (ld_disc L) (eid (ient p)) = map mu (act_list (ient p) l);
  r_back : forall w, NoDup (n_ments (ld_c L) w);
  r_back_in : forall w k, In k (n_ments (ld_c L) w) <-> exists m, In m (starts_of l) /\ k = mu m /\ In w (read_words l m)
}.
Lemma own_started p : p < P -> In (own p) (starts_of all').
Proof.
  intros H. destruct (item_split p H) as (I1 & I2 & EI).
  assert (exists p0, p0 < P /\ own p0 = own p /\ firsti p0 = true) as (p0 & H0 & O & F).
  { destruct I1 as [|a I1].
    - exists p. split; auto. split; auto. destruct (first_last _ _ _ EI) as (X & _). exact X.
    - assert (X : In a (items (own p))) by (rewrite EI; left; auto). apply items_In in X. destruct X as [X1 X2]. exists a. split; auto. split; auto.
      cbn [app] in EI. rewrite <- X2 in EI. destruct (first_last a [] _ EI) as (Y & _). exact Y. }
  destruct (firsti_start p0 H0 F) as (e & He & Hs). rewrite <- O. unfold starts_of. apply in_flat_map. exists e. split.
  - apply ev_all. unfold item_evs in He. destruct (multi p0) eqn:M; cbn in He; intuition (subst; cbn; auto).
  - rewrite Hs. left; auto.
Qed.

Section Step2.
Variables (done : list ev) (e : ev) (todo : list ev).
Hypothesis E : all' = done ++ e :: todo.
Notation q := (ev_item e).
Notation m := (own q).
Lemma st_q : q < P.
Proof. exact (st_P done e todo E). Qed.
Lemma closed_snoc p : closed (done ++ [e]) p = closed done p || is_cl p e.
Proof. rewrite closed_app. unfold closed at 2. cbn [existsb]. rewrite orb_false_r. reflexivity. Qed.
Lemma is_cl_item p : is_cl p e = true -> e = Cl p.
Proof. destruct e as [a|a|a]; cbn; try discriminate. intros H. apply Nat.eqb_eq in H. congruence. Qed.
Lemma open_other a' : a' <> ient q -> open_of ient a' (done ++ [e]) = open_of ient a' done.
Proof.
  intros N. unfold open_of. rewrite ops_app, filter_app.
  assert (X : filter (fun p => Nat.eqb (ient p) a' && negb (closed (done ++ [e]) p)) (ops [e]) = []).
  { apply filter_none. intros p Hp. assert (p = q) by (destruct e as [b|b|b]; cbn in Hp; intuition). subst p.
    destruct (Nat.eqb_spec (ient q) a'); [congruence|reflexivity]. }
  rewrite X, app_nil_r. apply filter_ext_in'. intros p Hp. rewrite closed_snoc. destruct (is_cl p e) eqn:C; [|rewrite orb_false_r; auto].
  apply is_cl_item in C. assert (ient p <> a') by (rewrite C in N; cbn in N; congruence). destruct (Nat.eqb_spec (ient p) a'); [congruence|reflexivity].
Qed.
Lemma open_op : e = Op q -> open_of ient (ient q) (done ++ [e]) = open_of ient (ient q) done ++ [q].
Proof.
  intros K. assert (NC : closed done q = false).
  { destruct (closed done q) eqn:C; auto. apply closed_In in C. exfalso. destruct (st_split done e todo E) as (I1 & I2 & EI & EF).
    assert (X : In (Cl q) (filter (of_mention own m) done)) by (apply filter_In; split; auto; unfold of_mention; apply Nat.eqb_refl).
    rewrite EF, in_app_iff in X. destruct X as [X|X]; [|rewrite K in X; destruct X].
    apply in_flat_map in X. destruct X as (p & Hp & X). assert (p = q) by (unfold item_evs in X; destruct (multi p); cbn in X; destruct X as [X|X]; try destruct X as [X|X]; inversion X; auto).
    subst p. pose proof (items_nodup m) as ND. rewrite EI in ND. apply NoDup_remove_2 in ND. apply ND. rewrite in_app_iff. auto. }
  unfold open_of. rewrite ops_app, filter_app. f_equal.
  - apply filter_ext_in'. intros p Hp. rewrite closed_snoc. destruct (is_cl p e) eqn:C; [|rewrite orb_false_r; auto]. apply is_cl_item in C. congruence.
  - assert (O : ops [e] = [q]) by (rewrite K; reflexivity). rewrite O. cbn [filter]. rewrite Nat.eqb_refl, closed_snoc, NC.
    assert (C : is_cl q e = false) by (rewrite K; reflexivity). rewrite C. reflexivity.
Qed.
Lemma open_si : e = Si q -> open_of ient (ient q) (done ++ [e]) = open_of ient (ient q) done.
Proof.
  intros K. unfold open_of. rewrite ops_app, filter_app. assert (O : ops [e] = []) by (rewrite K; reflexivity). rewrite O. cbn [filter]. rewrite app_nil_r.
  apply filter_ext_in'. intros p Hp. rewrite closed_snoc. destruct (is_cl p e) eqn:C; [|rewrite orb_false_r; auto]. apply is_cl_item in C. congruence.
Qed.
Lemma finishes_other m' : m' <> m -> finishes m' e = false.
Proof. intros N. destruct e as [b|b|b]; cbn in *; auto; destruct (Nat.eqb_spec (own b) m'); auto; congruence. Qed.
Lemma finished_other m' : m' <> m -> finished (done ++ [e]) m' = finished done m'.
Proof. intros N. rewrite finished_app, finishes_other, orb_false_r; auto. Qed.
Lemma finished_own : finished (done ++ [e]) m = finishes m e.
Proof. rewrite finished_app, (st_unfinished done e todo E). reflexivity. Qed.
Lemma active_other m' : m' <> m -> active (done ++ [e]) m' = active done m'.
Proof. intros N. unfold active. rewrite finished_other; auto. Qed.
Lemma active_own : active (done ++ [e]) m = disc m && negb (finishes m e) /\ active done m = disc m.
Proof. unfold active. rewrite finished_own, (st_unfinished done e todo E), andb_true_r. auto. Qed.
Lemma read_other m' : m' <> m -> read_words (done ++ [e]) m' = read_words done m'.
Proof. intros N. rewrite read_app. unfold of_mention. destruct (Nat.eqb_spec m m'); [congruence|]. apply app_nil_r. Qed.
Lemma read_own : read_words (done ++ [e]) m = read_words done m ++ ev_words e.
Proof. rewrite read_app. unfold of_mention. rewrite Nat.eqb_refl. reflexivity. Qed.
Lemma head_other m' : m' <> m -> read_head (done ++ [e]) m' = read_head done m'.
Proof. intros N. unfold read_head. rewrite finished_other; auto. Qed.
Lemma start_or : start e = [] \/ start e = [m].
Proof. destruct e as [b|b|b]; cbn; auto; destruct (firsti b); auto. Qed.
Lemma starts_snoc : starts_of (done ++ [e]) = starts_of done ++ start e.
Proof. rewrite starts_app, starts_one. reflexivity. Qed.
Lemma act_other a' : a' <> ent m -> act_list a' (done ++ [e]) = act_list a' done.
Proof.
  intros N. unfold act_list. rewrite starts_snoc, filter_app.
  assert (X : filter (fun m' => Nat.eqb (ent m') a' && active (done ++ [e]) m') (start e) = []).
  { apply filter_none. intros m' Hm. assert (m' = m) by (destruct start_or as [S|S]; rewrite S in Hm; cbn in Hm; intuition). subst m'.
    destruct (Nat.eqb_spec (ent m) a'); [congruence|reflexivity]. }
  rewrite X, app_nil_r. apply filter_ext_in'. intros m' Hm'. destruct (Nat.eq_dec m' m) as [->|D]; [|rewrite active_other; auto].
  destruct (Nat.eqb_spec (ent m) a'); [congruence|reflexivity].
Qed.
Lemma act_first : start e = [m] -> ~ In m (starts_of done) ->
  act_list (ent m) (done ++ [e]) = act_list (ent m) done ++ if disc m && negb (finishes m e) then [m] else [].
Proof.
  intros S N. unfold act_list. rewrite starts_snoc, S, filter_app. f_equal.
  - apply filter_ext_in'. intros m' Hm'. rewrite active_other; auto. intros ->. auto.
  - cbn [filter]. destruct active_own as [-> _]. rewrite Nat.eqb_refl. cbn. reflexivity.
Qed.
Lemma act_later : NoDup (starts_of done) -> start e = [] -> In m (starts_of done) -> sub q <> None ->
  act_list (ent m) done = [m] /\ act_list (ent m) (done ++ [e]) = if finishes m e then [] else [m].
Proof.
  intros ND S I SQ. assert (D : disc m = true) by (apply disc_sub; auto using st_q).
  assert (U : forall y, In y (starts_of done) -> Nat.eqb (ent y) (ent m) && active done y = true -> y = m).
  { intros y Hy F. apply andb_true_iff in F. rewrite Nat.eqb_eq in F. apply (st_active done e todo E); tauto. }
  destruct active_own as [A1 A2]. split.
  - unfold act_list. rewrite (filter_one _ _ m ND I U), Nat.eqb_refl, A2, D. reflexivity.
  - unfold act_list. rewrite starts_snoc, S, app_nil_r. rewrite (filter_one _ _ m ND I), Nat.eqb_refl, A1, D.
    + destruct (finishes m e); reflexivity.
    + intros y Hy F. destruct (Nat.eq_dec y m) as [|N]; auto. apply U; auto. rewrite active_other in F; auto.
Qed.
Lemma act_cont : start e = [] -> sub q = None -> act_list (ent m) (done ++ [e]) = act_list (ent m) done.
Proof.
  intros S SQ. unfold act_list. rewrite starts_snoc, S, app_nil_r. apply filter_ext_in'. intros m' Hm'.
  destruct (Nat.eq_dec m' m) as [->|D]; [|rewrite active_other; auto]. destruct active_own as [-> ->]. 
  assert (disc m = false) as ->; [|reflexivity]. destruct (disc m) eqn:X; auto. apply disc_sub in X; auto using st_q. tauto.
Qed.
(** what has been read, and all *)
Lemma st_wm : exists I2, wm m = read_words (done ++ [e]) m ++ match e with Op q => tl (wds q) | _ => [] end ++ flat_map wds I2 /\ (lasti q = true <-> I2 = []).
Proof.
  destruct (st_words done e todo E) as (I1 & I2 & EI & ER). destruct (first_last q I1 I2 EI) as (_ & L & _). exists I2.
  split; [|rewrite L; apply isnil_true]. rewrite read_own, ER. unfold wm. rewrite EI, flat_map_app. cbn [flat_map].
  pose proof (st_q) as HQ. pose proof (st_kind done e todo E) as K. destruct e as [b|b|b]; cbn [ev_item ev_words ev_kind] in *.
  - destruct (multi_shape b HQ K) as (t & EW & _). rewrite !app_nil_r, <- !app_assoc. f_equal. rewrite app_assoc. f_equal. unfold fi in *. destruct (wds b); [discriminate|reflexivity].
  - destruct (multi_shape b HQ K) as (t & EW & ET). rewrite <- !app_assoc. f_equal. rewrite ET, EW. cbn [app]. rewrite <- app_assoc. reflexivity.
  - rewrite app_nil_r, <- !app_assoc. reflexivity.
Qed.
Lemma wm_nodup : NoDup (wm m).
Proof. apply (increasing_nodup h). apply Hwm. apply st_q. Qed.
Lemma read_sorted : increasing h (read_words (done ++ [e]) m) /\ increasing h (read_words done m).
Proof.
  destruct st_wm as (I2 & EW & _). pose proof (Hwm q st_q) as S. rewrite EW in S. unfold increasing in *. apply sorted_app_iff in S. destruct S as (S & _ & _). split; auto.
  rewrite read_own in S. apply sorted_app_iff in S. tauto.
Qed.
Lemma node_new : forall w, In w (ev_words e) -> ~ In w (read_words done m).
Proof.
  intros w H1 H2. destruct read_sorted as [S _]. apply increasing_nodup in S. rewrite read_own in S.
  apply in_split in H1. destruct H1 as (u & v & EW). rewrite EW in S. rewrite app_assoc in S. apply NoDup_remove_2 in S. apply S. rewrite !in_app_iff. auto.
Qed.
Lemma finishes_all : finishes m e = true -> wm m = read_words (done ++ [e]) m.
Proof.
  intros F. destruct st_wm as (I2 & EW & L). assert (lasti q = true /\ match e with Op _ => False | _ => True end) as [LQ K].
  { destruct e as [b|b|b]; cbn in *; try discriminate; apply andb_true_iff in F; tauto. }
  apply L in LQ. subst I2. rewrite EW. destruct e; [tauto|cbn; rewrite app_nil_r; auto|cbn; rewrite app_nil_r; auto].
Qed.

Lemma ents_items a : In a (ents_of done) -> exists p, p < P /\ ient p = a.
Proof. intros H. apply ents_In in H. destruct H as (m' & Hm & <-). apply (started_P done e todo E) in Hm. destruct Hm as (p & Hp & <-). exists p. auto. Qed.
Lemma eid_ents a : In a (ents_of done) -> eid a = eid (ent m) -> a = ent m.
Proof. intros H X. apply ents_items in H. destruct H as (p & Hp & <-). apply Hinj; auto using st_q. Qed.
Lemma entity_step L o : (match e with Cl _ => False | _ => True end) -> R done (ents_of done) L ->
  exists L', load_entity L (eid (ent m)) (Some (ety (ent m))) o (negb (firsti q)) = (L', Ok (eps (ent m), o)) /\
    R done (ents_of (done ++ [e])) L' /\ In (ent m) (ents_of (done ++ [e])).
Proof.
  intros K HR. unfold load_entity. rewrite (r_ents _ _ _ HR). destruct (in_dec Nat.eq_dec (ent m) (ents_of done)) as [I|N].
  - rewrite find_eid_map; auto using eid_ents. rewrite (r_type _ _ _ HR) by auto. exists L.
    assert (ES : ents_of (done ++ [e]) = ents_of done).
    { apply (ents_same done e). destruct start_or as [S|S]; auto. }
    rewrite ES. split; auto. destruct (ety (ent m)) as [|c t]; auto. rewrite str_eqb_refl. reflexivity.
  - rewrite find_eid_none by (intros a Ha X; apply N; rewrite <- (eid_ents a Ha X); auto).
    assert (F : firsti q = true).
    { destruct (firsti q) eqn:F; auto. exfalso. apply N. apply ents_In. exists m. split; auto. apply (st_later done e todo E). destruct e; auto; tauto. }
    rewrite F. cbn [negb].
    assert (FB : forbidden_in_id (eid (ent m)) = false).
    { destruct (forbidden_in_id (eid (ent m))) eqn:X; auto. exfalso. unfold forbidden_in_id in X. apply existsb_exists in X. destruct X as (a & Ha & X).
      destruct (Hid q st_q) as (_ & NF & _). apply NF. exists a. split; auto. apply has_char_In. exact X. }
    rewrite FB. destruct (st_first done e todo E K F) as (NS & _ & S). destruct (st_eps done e todo E S N) as (EE & ES).
    rewrite (r_enext _ _ _ HR), <- EE. eexists. split; [reflexivity|]. rewrite ES. split; [|rewrite in_app_iff; right; left; auto].
    assert (U : forall A (f : nat -> A) v a, In a (ents_of done) -> upd f (eps (ent m)) v (eps a) = f (eps a)).
    { intros A f v a Ha. apply upd_other. pose proof (eps_in done e todo E a Ha). lia. }
    destruct HR. constructor; cbn; auto.
    + rewrite app_length, EE. cbn. lia.
    + intros a Ha. apply in_app_iff in Ha. destruct Ha as [Ha|[<-|[]]]; [rewrite U; auto|apply upd_same].
    + intros a Ha. apply in_app_iff in Ha. destruct Ha as [Ha|[<-|[]]]; [rewrite U; auto|apply upd_same].
    + intros a Ha. apply in_app_iff in Ha. destruct Ha as [Ha|[<-|[]]]; [rewrite U; auto|]. rewrite upd_same.
      rewrite filter_none; auto. intros m' Hm'. apply Nat.eqb_neq. intros X. apply N. apply ents_In. exists m'. auto.
    + intros j Hj. rewrite app_length in Hj. cbn in Hj. rewrite upd_other by lia. apply r_enone0. lia.
    + rewrite map_app. cbn [map]. congruence.
Qed.

Lemma all_started_sub m' : In m' (starts_of done) -> In m' (starts_of all').
Proof. apply (starts_sub done e todo E). Qed.
Lemma m_all : In m (starts_of all').
Proof. apply own_started. apply st_q. Qed.
Lemma mu_other m' : In m' (starts_of done) -> m' <> m -> mu m' <> mu m.
Proof. intros H N X. apply N. apply mu_inj; auto using all_started_sub, m_all. Qed.
Lemma ent_started : In (ent m) (ents_of (done ++ [e])) -> forall a, In a (ents_of (done ++ [e])) -> a <> ent m -> eps a <> eps (ent m).
Proof.
  intros H a Ha N X. apply N. apply ix_inj with (l := ents_of all').
  - destruct (firsts_prefix (map ent (starts_of (done ++ [e]))) (map ent (starts_of todo))) as (r & EP).
    unfold ents_of. assert (S : starts_of all' = starts_of (done ++ [e]) ++ starts_of todo) by (rewrite (starts_split done e todo E), starts_snoc, <- app_assoc; reflexivity).
    rewrite S, map_app, EP, in_app_iff. left. exact Ha.
  - destruct (firsts_prefix (map ent (starts_of (done ++ [e]))) (map ent (starts_of todo))) as (r & EP).
    unfold ents_of. assert (S : starts_of all' = starts_of (done ++ [e]) ++ starts_of todo) by (rewrite (starts_split done e todo E), starts_snoc, <- app_assoc; reflexivity).
    rewrite S, map_app, EP, in_app_iff. left. exact H.
  - exact X.
Qed.
Lemma R_update L L' : R done (ents_of (done ++ [e])) L -> In (ent m) (ents_of (done ++ [e])) ->
  (start e = [m] /\ ~ In m (starts_of done) /\ read_words done m = [] \/ start e = [] /\ In m (starts_of done)) ->
  co_doc (ld_c L') = co_doc (ld_c L) -> co_h (ld_c L') = co_h (ld_c L) -> co_tree (ld_c L') = co_tree (ld_c L) -> eids (ld_c L') = eids (ld_c L) ->
  cs_misc (ld_x L') = cs_misc (ld_x L) -> ld_ents L' = ld_ents L -> e_next (ld_c L') = e_next (ld_c L) ->
  e_eid (ld_c L') = e_eid (ld_c L) -> e_type (ld_c L') = e_type (ld_c L) ->
  m_next (ld_c L') = length (starts_of (done ++ [e])) ->
  (forall k, m_words (ld_c L') k = if Nat.eqb k (mu m) then read_words (done ++ [e]) m else m_words (ld_c L) k) ->
  (forall k, m_head (ld_c L') k = if Nat.eqb k (mu m) then read_head (done ++ [e]) m else m_head (ld_c L) k) ->
  (forall k, m_ent (ld_c L') k = if Nat.eqb k (mu m) then eps (ent m) else m_ent (ld_c L) k) ->
  (forall k, cs_other (ld_x L') k = if Nat.eqb k (mu m) then parse_other (osr m) else cs_other (ld_x L) k) ->
  (forall j, e_ments (ld_c L') j = if Nat.eqb j (eps (ent m)) then e_ments (ld_c L) j ++ map mu (start e) else e_ments (ld_c L) j) ->
  (forall w, n_ments (ld_c L') w = if mem w (ev_words e) then n_ments (ld_c L) w ++ [mu m] else n_ments (ld_c L) w) ->
  (NoDup (map fst (ld_open L')) /\ forall k, In k (map fst (ld_open L')) -> k = eid (ent m) \/ In k (map fst (ld_open L))) ->
  (forall k, dl_get (ld_open L') k = if str_eqb k (eid (ent m)) then map (fun q => (mu (own q), Some (hidx (own q)))) (open_of ient (ent m) (done ++ [e])) else dl_get (ld_open L) k) ->
  (forall k, dl_get (ld_disc L') k = if str_eqb k (eid (ent m)) then map mu (act_list (ent m) (done ++ [e])) else dl_get (ld_disc L) k) ->
  R (done ++ [e]) (ents_of (done ++ [e])) L'.
Proof.
  intros HR HE HS A1 A2 A3 A4 A5 A6 A7 A8 A9 A10 W H T O EM NM K OP DI. pose proof (ent_started HE) as ENT.
  assert (IS : forall m', In m' (starts_of (done ++ [e])) -> m' = m \/ m' <> m /\ In m' (starts_of done)).
  { intros m' X. rewrite starts_snoc, in_app_iff in X. destruct (Nat.eq_dec m' m) as [|N]; auto. right. split; auto. destruct X as [X|X]; auto.
    destruct start_or as [Y|Y]; rewrite Y in X; cbn in X; intuition congruence. }
  assert (IM : In m (starts_of (done ++ [e]))) by (rewrite starts_snoc, in_app_iff; destruct HS as [[-> _]|[_ ?]]; cbn; auto).
  assert (MU : forall m', m' <> m -> In m' (starts_of done) -> Nat.eqb (mu m') (mu m) = false) by (intros m' X1 X2; apply Nat.eqb_neq; apply mu_other; auto).
  assert (EID : forall p, p < P -> ient p <> ent m -> str_eqb (eid (ient p)) (eid (ent m)) = false).
  { intros p Hp N. apply str_eqb_neq. intros X. apply N. apply Hinj; auto using st_q. }
  destruct HR. constructor; try congruence; auto.
  - rewrite starts_snoc. destruct HS as [(-> & N & _)|[-> _]]; [apply nodup_snoc; auto|rewrite app_nil_r; auto].
  - intros m' X. rewrite W. destruct (IS m' X) as [->|[N I]]; [rewrite Nat.eqb_refl; auto|]. rewrite MU by auto. rewrite read_other; auto.
  - intros m' X. rewrite H. destruct (IS m' X) as [->|[N I]]; [rewrite Nat.eqb_refl; auto|]. rewrite MU by auto. rewrite head_other; auto.
  - intros m' X. rewrite T. destruct (IS m' X) as [->|[N I]]; [rewrite Nat.eqb_refl; auto|]. rewrite MU; auto.
  - intros m' X. rewrite O. destruct (IS m' X) as [->|[N I]]; [rewrite Nat.eqb_refl; auto|]. rewrite MU; auto.
  - intros a Ha. rewrite A8. auto.
  - intros a Ha. rewrite A9. auto.
  - intros a Ha. rewrite EM, starts_snoc, filter_app, map_app. destruct (Nat.eq_dec a (ent m)) as [->|N].
    + rewrite Nat.eqb_refl, r_ements0 by auto. f_equal. destruct start_or as [->| ->]; auto. cbn. rewrite Nat.eqb_refl. reflexivity.
    + assert (X : Nat.eqb (eps a) (eps (ent m)) = false) by (apply Nat.eqb_neq; auto). rewrite X, r_ements0 by auto.
      assert (Y : filter (fun m' => Nat.eqb (ent m') a) (start e) = []).
      { destruct start_or as [->| ->]; auto. cbn. destruct (Nat.eqb_spec (ent m) a); [congruence|reflexivity]. }
      rewrite Y, app_nil_r. reflexivity.
  - intros j Hj. rewrite EM. destruct (Nat.eqb_spec j (eps (ent m))) as [->|]; auto. exfalso.
    assert (eps (ent m) < length (ents_of (done ++ [e]))); [|lia].
    unfold eps. destruct (firsts_prefix (map ent (starts_of (done ++ [e]))) (map ent (starts_of todo))) as (r & EP).
    assert (EA : ents_of all' = ents_of (done ++ [e]) ++ r).
    { unfold ents_of. rewrite <- EP, <- map_app. f_equal. f_equal. rewrite (starts_split done e todo E), starts_snoc, <- app_assoc. reflexivity. }
    rewrite EA, ix_app by auto. apply ix_lt. auto.
  - apply K.
  - intros k X. apply K in X. destruct X as [->|X]; auto. exists q. split; auto using st_q.
  - intros p Hp. rewrite OP. destruct (Nat.eq_dec (ient p) (ent m)) as [X|N].
    + rewrite X, str_eqb_refl. reflexivity.
    + rewrite EID by auto. rewrite r_open0 by auto. rewrite open_other; auto.
  - intros p Hp. rewrite DI. destruct (Nat.eq_dec (ient p) (ent m)) as [X|N].
    + rewrite X, str_eqb_refl. reflexivity.
    + rewrite EID by auto. rewrite r_disc0 by auto. rewrite act_other; auto.
  - intros w. rewrite NM. destruct (mem w (ev_words e)) eqn:X; auto. apply mem_In in X. apply nodup_snoc; auto.
    intros Y. apply r_back_in0 in Y. destruct Y as (m' & I & EQ & IW).
    destruct (Nat.eq_dec m' m) as [->|N]; [apply (node_new w X); auto|]. apply (mu_other m' I N). auto.
  - intros w k. rewrite NM. split.
    + intros X. assert (Y : In k (n_ments (ld_c L) w) \/ k = mu m /\ In w (ev_words e)).
      { destruct (mem w (ev_words e)) eqn:Z; auto. apply mem_In in Z. apply in_app_iff in X. destruct X as [X|[<-|[]]]; auto. }
      destruct Y as [Y|[-> Y]].
      * apply r_back_in0 in Y. destruct Y as (m' & I & EQ & IW). exists m'. rewrite starts_snoc, in_app_iff. split; auto. split; auto.
        rewrite read_app, in_app_iff. auto.
      * exists m. split; auto. split; auto. rewrite read_own, in_app_iff. auto.
    + intros (m' & I & -> & IW). destruct (IS m' I) as [->|[N I']].
      * rewrite read_own, in_app_iff in IW. destruct (mem w (ev_words e)) eqn:X.
        -- rewrite in_app_iff. right; left; auto.
        -- apply mem_false in X. destruct IW as [IW|IW]; [|tauto]. apply r_back_in0. exists m. split; auto.
           destruct HS as [(_ & _ & NS)|[_ ?]]; auto. rewrite NS in IW. destruct IW.
      * rewrite read_other in IW by auto. assert (Y : In (mu m') (n_ments (ld_c L) w)) by (apply r_back_in0; exists m'; auto).
        destruct (mem w (ev_words e)); auto. rewrite in_app_iff. auto.
Qed.

Definition not_cl : Prop := match e with Cl _ => False | _ => True end.
Definition closing : bool := match e with Si _ => true | _ => false end.
Lemma ev_one : not_cl -> ev_words e = [fi q].
Proof.
  unfold not_cl. intros K. pose proof (st_kind done e todo E) as K2. pose proof st_q as HQ. destruct e as [b|b|b]; cbn in *; auto; [tauto|]. apply (single b); auto.
Qed.
Lemma finishes_open : not_cl -> finishes m e = closing && lasti q.
Proof. unfold not_cl, closing. intros K. destruct e as [b|b|b]; cbn in *; auto; [tauto|]. rewrite Nat.eqb_refl. reflexivity. Qed.
Lemma head_first : not_cl -> firsti q = true -> read_head (done ++ [e]) m = fi q.
Proof.
  intros K F. destruct (st_first done e todo E K F) as (_ & RW & _). unfold read_head. rewrite finished_own. destruct (finishes m e) eqn:FI.
  - apply finishes_all in FI. rewrite read_own, RW, ev_one in FI by auto. cbn in FI. destruct (Hhead q st_q) as [_ X]. rewrite FI in X.
    destruct (Z.to_nat (hidx m - 1)) as [|n]; cbn in X; [congruence|destruct n; discriminate].
  - destruct st_wm as (I2 & EW & _). rewrite EW, read_own, RW, ev_one by auto. reflexivity.
Qed.
Definition open_after (o : list (str * list (nat * option Z))) : list (str * list (nat * option Z)) :=
  if closing then o else dl_put o (eid (ent m)) (dl_get o (eid (ent m)) ++ [(mu m, Some (hidx m))]).
Lemma open_tab L E' o : not_cl -> R done E' L -> (forall k, dl_get o k = dl_get (ld_open L) k) ->
  NoDup (map fst o) -> (forall k, In k (map fst o) -> k = eid (ent m) \/ In k (map fst (ld_open L))) ->
  (NoDup (map fst (open_after o)) /\ forall k, In k (map fst (open_after o)) -> k = eid (ent m) \/ In k (map fst (ld_open L))) /\
  (forall k, dl_get (open_after o) k = if str_eqb k (eid (ent m)) then map (fun q => (mu (own q), Some (hidx (own q)))) (open_of ient (ent m) (done ++ [e])) else dl_get (ld_open L) k).
Proof.
  intros K HR G ND KS. pose proof (r_open _ _ _ HR q st_q) as RO. unfold open_after, closing. assert (KE : e = Op q \/ e = Si q) by (unfold not_cl in K; destruct e; cbn; auto; tauto).
  destruct KE as [KE|KE].
  - assert (C : match e with Si _ => true | _ => false end = false) by (rewrite KE; reflexivity). rewrite C. split; [split|].
    + apply dl_put_nodup. auto.
    + intros k X. apply dl_put_keys in X. destruct X as [X|X]; auto.
    + intros k. rewrite dl_get_put. destruct (str_eqb k (eid (ent m))); auto. rewrite G. change (ent m) with (ient q). rewrite RO, (open_op KE), map_app. reflexivity.
  - assert (C : match e with Si _ => true | _ => false end = true) by (rewrite KE; reflexivity). rewrite C. split; [split; auto|].
    intros k. rewrite G. destruct (str_eqb_spec k (eid (ent m))) as [->|]; auto. change (ent m) with (ient q). rewrite RO, (open_si KE). reflexivity.
Qed.
Lemma mem_one w x : mem w [x] = Nat.eqb w x.
Proof. cbn. apply orb_false_r. Qed.
Lemma disc_flag : firsti q = true -> disc m && negb (finishes m e) = match sub q with None => false | Some _ => true end.
Proof.
  intros F. pose proof (disc_sub q st_q) as D. pose proof (sub_bounds q st_q) as B. destruct (sub q) as [[k n]|] eqn:S.
  - assert (X : disc m = true) by (apply D; discriminate). rewrite X. cbn [andb].
    assert (LQ : lasti q = false). { unfold lasti. unfold firsti in F. rewrite S in *. apply Nat.eqb_eq in F. apply Nat.eqb_neq. lia. }
    destruct e as [b|b|b]; cbn in *; auto; rewrite LQ, andb_false_r; reflexivity.
  - destruct (disc m); auto. exfalso. assert (@None (nat*nat) <> None); [tauto|]. congruence.
Qed.
Lemma load_opening_first L : not_cl -> firsti q = true -> R done (ents_of done) L ->
  exists L', load_opening L (fi q) closing (body q) = (L', Ok tt) /\ R (done ++ [e]) (ents_of (done ++ [e])) L'.
Proof.
  intros K F HR0. unfold load_opening. rewrite parse_body by apply st_q. cbn [bind].
  assert (LF : match pflags q with Some (false, _) => true | _ => false end = negb (firsti q)) by (unfold pflags; rewrite F; destruct (sub q); reflexivity).
  rewrite LF. destruct (entity_step L (parse_other (osr m)) K HR0) as (L1 & -> & HR & HE). cbn [bind].
  destruct (st_first done e todo E K F) as (NS & RW & SE).
  pose proof (st_mu done e todo E SE NS) as MU. pose proof (r_mnext _ _ _ HR) as MN.
  set (fl := match pflags q with Some _ => true | None => false end).
  assert (EF : match pflags q with
        | Some (false, last_piece) => load_later L1 (fi q) closing (eid (ent m)) last_piece (Some (hidx m))
        | _ => let (l, m) := load_first L1 (fi q) (eps (ent m)) (eid (ent m)) fl (parse_other (osr m)) in (l, Ok m)
        end = let (l, m) := load_first L1 (fi q) (eps (ent m)) (eid (ent m)) fl (parse_other (osr m)) in (l, Ok m)).
  { unfold pflags. rewrite F. destruct (sub q); reflexivity. }
  rewrite EF. unfold load_first, load_mention. fold (ld_c L1). rewrite MN, <- MU. cbn [bind].
  set (L2 := if fl then _ else _).
  set (L3 := ld_with_c L2 _). cbn [bind].
  assert (EO : (if closing then (L3, Ok tt) else (ld_put_open L3 (eid (ent m)) (dl_get (ld_open L3) (eid (ent m)) ++ [(mu m, Some (hidx m))]), Ok tt)) =
    (mkLd (ld_x L3) (ld_ents L3) (open_after (ld_open L3)) (ld_disc L3), Ok tt)).
  { unfold open_after. destruct closing; [destruct L3|]; reflexivity. }
  rewrite EO. eexists. split; [reflexivity|].
  assert (X2 : ld_x L2 = put_other (with_c (ld_x L1) (mkCo (co_doc (ld_c L1)) (co_h (ld_c L1)) (co_tree (ld_c L1)) (S (mu m)) (e_next (ld_c L1)) (upd (m_words (ld_c L1)) (mu m) [fi q])
     (upd (m_head (ld_c L1)) (mu m) (fi q)) (upd (m_ent (ld_c L1)) (mu m) (eps (ent m))) (e_eid (ld_c L1)) (e_type (ld_c L1))
     (upd (e_ments (ld_c L1)) (eps (ent m)) (e_ments (ld_c L1) (eps (ent m)) ++ [mu m])) (n_ments (ld_c L1)) (eids (ld_c L1)))) (mu m) (parse_other (osr m)) /\
     ld_ents L2 = ld_ents L1 /\ ld_open L2 = ld_open L1 /\ ld_disc L2 = if fl then dl_put (ld_disc L1) (eid (ent m)) (dl_get (ld_disc L1) (eid (ent m)) ++ [mu m]) else ld_disc L1).
  { unfold L2. destruct fl; cbn; auto. }
  destruct X2 as (X2 & XE & XO & XD).
  destruct (open_tab L1 _ (ld_open L3) K HR) as [OK OG].
  { intros k. unfold L3. cbn. rewrite XO. reflexivity. }
  { unfold L3. cbn. rewrite XO. apply (r_keys _ _ _ HR). }
  { unfold L3. cbn. rewrite XO. auto. }
  eapply R_update; [exact HR|exact HE|left; auto|..]; cbn [ld_x ld_ents ld_open ld_disc]; unfold ld_c; cbn [ld_x]; unfold L3; cbn; unfold ld_c; rewrite ?X2; cbn; auto.
  - rewrite starts_snoc, SE, app_length, MU. cbn. lia.
  - intros k. unfold upd. rewrite read_own, RW, ev_one by auto. reflexivity.
  - intros k. unfold upd. rewrite head_first by auto. reflexivity.
  - intros j. unfold upd. rewrite SE. destruct (Nat.eqb_spec j (eps (ent m))) as [->|]; reflexivity.
  - intros w. unfold upd. rewrite ev_one, mem_one by auto. destruct (Nat.eqb_spec w (fi q)) as [->|]; reflexivity.
  - intros k. rewrite XD. pose proof (r_disc _ _ _ HR q st_q) as RD. change (ient q) with (ent m) in RD. rewrite act_first, map_app, disc_flag, <- RD by auto.
    unfold fl, pflags. destruct (sub q).
    + rewrite dl_get_put. destruct (str_eqb k (eid (ent m))); reflexivity.
    + cbn [map]. rewrite app_nil_r. destruct (str_eqb_spec k (eid (ent m))) as [->|]; reflexivity.
Qed.

Lemma head_kept L E' : R done E' L -> In m (starts_of done) -> finishes m e = false -> m_head (ld_c L) (mu m) = read_head (done ++ [e]) m.
Proof.
  intros HR I F. rewrite (r_head _ _ _ HR) by auto. unfold read_head. rewrite finished_own, F, (st_unfinished done e todo E). reflexivity.
Qed.
Lemma head_word : finishes m e = true ->
  py_nth (read_words (done ++ [e]) m) (hidx m - 1) = Some (hm m) /\ mem (hm m) (read_words (done ++ [e]) m) = true /\ read_head (done ++ [e]) m = hm m.
Proof.
  intros F. pose proof (finishes_all F) as W. destruct (Hhead q st_q) as [H1 H2]. rewrite W in H2. split; [|split].
  - rewrite py_nth_nonneg by lia. exact H2.
  - apply mem_In. eapply nth_error_In. exact H2.
  - unfold read_head. rewrite finished_own, F. reflexivity.
Qed.
Lemma not_opened L E' : not_cl -> R done E' L -> mem (mu m) (map fst (dl_get (ld_open L) (eid (ent m)))) = false.
Proof.
  intros K HR. pose proof (r_open _ _ _ HR q st_q) as RO. change (ient q) with (ent m) in RO. rewrite RO, map_map. cbn [fst]. apply mem_false. intros X.
  apply in_map_iff in X. destruct X as (p & EQ & Hp). assert (PP : p < P).
  { unfold open_of in Hp. apply filter_In in Hp. destruct Hp as [Hp _]. apply ops_In in Hp. apply (done_P done e todo E) in Hp. cbn in Hp. tauto. }
  assert (O : own p = m) by (apply mu_inj; auto using own_started, m_all). apply (open_own done e todo E) in Hp; auto. unfold not_cl in K. rewrite Hp in K. destruct K.
Qed.
Lemma load_opening_later L : not_cl -> firsti q = false -> R done (ents_of done) L ->
  exists L', load_opening L (fi q) closing (body q) = (L', Ok tt) /\ R (done ++ [e]) (ents_of (done ++ [e])) L'.
Proof.
  intros K F HR0. unfold load_opening. rewrite parse_body by apply st_q. cbn [bind].
  assert (SQ : sub q <> None) by (unfold firsti in F; destruct (sub q); congruence).
  assert (PF : pflags q = Some (false, lasti q)) by (unfold pflags; rewrite F; destruct (sub q); congruence). rewrite PF.
  destruct (entity_step L (parse_other (osr m)) K HR0) as (L1 & EE & HR & HE). rewrite F in EE. cbn [negb] in EE. rewrite EE. cbn [bind].
  assert (KL : match e with Cl _ => True | _ => firsti q = false end) by (unfold not_cl in K; destruct e; auto).
  destruct (st_later done e todo E KL) as [IS SE]. destruct (act_later (r_starts _ _ _ HR) SE IS SQ) as [AD AA].
  pose proof (r_disc _ _ _ HR q st_q) as RD. change (ient q) with (ent m) in RD. rewrite AD in RD. cbn [map] in RD.
  unfold load_later. cbn [ld_disc ld_put_open]. rewrite RD. cbn [find]. rewrite (not_opened L1 _ K HR). cbn [negb].
  set (o := dl_put (ld_open L1) (eid (ent m)) (dl_get (ld_open L1) (eid (ent m)))).
  assert (GO : forall k, dl_get o k = dl_get (ld_open L1) k) by (intros k; unfold o; rewrite dl_get_put; destruct (str_eqb_spec k (eid (ent m))) as [->|]; reflexivity).
  destruct (open_tab L1 _ o K HR GO) as [OK OG].
  { apply dl_put_nodup. apply (r_keys _ _ _ HR). }
  { intros k X. apply dl_put_keys in X. auto. }
  rewrite <- finishes_open by auto.
  set (L2 := ld_with_c (ld_put_open L1 (eid (ent m)) (dl_get (ld_open L1) (eid (ent m)))) _).
  assert (W2 : m_words (ld_c L2) (mu m) = read_words (done ++ [e]) m).
  { unfold L2. unfold ld_c. cbn. rewrite upd_same. fold (ld_c L1). rewrite (r_words _ _ _ HR) by auto. rewrite read_own, ev_one by auto. reflexivity. }
  assert (D2 : dl_get (ld_disc L2) (eid (ent m)) = [mu m]) by exact RD.
  set (L3 := if finishes m e then ld_with_c (ld_put_disc L2 (eid (ent m)) []) (put_head (ld_c L2) (mu m) (hm m)) else L2).
  assert (E3 : (if finishes m e then bind (pop_disc L2 (eid (ent m)) (mu m)) (fun l _ =>
      match py_nth (m_words (ld_c l) (mu m)) (hidx m - 1) with
                  | None => (l, Raise ValueError)
                  | Some w => bind (on_c l (set_head (ld_c l) (mu m) w)) (fun l _ => (l, Ok (mu m)))
      end) else (L2, Ok (mu m))) = (L3, Ok (mu m))).
  { unfold L3. destruct (finishes m e) eqn:FI; auto. unfold pop_disc. rewrite D2. cbn [rev app]. rewrite Nat.eqb_refl. cbn [bind].
    destruct (head_word FI) as (H1 & H2 & H3). change (ld_c (ld_put_disc L2 (eid (ent m)) [])) with (ld_c L2). rewrite W2, H1.
    unfold set_head. rewrite W2, H2, andb_false_r. reflexivity. }
  rewrite E3. cbn [bind]. clear E3.
  set (L4 := ld_with_c L3 _).
  assert (EO : (if closing then (L4, Ok tt) else (ld_put_open L4 (eid (ent m)) (dl_get (ld_open L4) (eid (ent m)) ++ [(mu m, Some (hidx m))]), Ok tt)) =
    (mkLd (ld_x L4) (ld_ents L4) (open_after (ld_open L4)) (ld_disc L4), Ok tt)).
  { unfold open_after. destruct closing; [destruct L4|]; reflexivity. }
  rewrite EO. eexists. split; [reflexivity|].
  assert (LO : ld_open L4 = o) by (unfold L4, L3; destruct (finishes m e); reflexivity). rewrite LO.
  assert (FC : forall A (f : coref -> A), (forall c v, f (put_nments c (fi q) v) = f c) -> (forall c v, f (put_head c (mu m) v) = f c) ->
     f (ld_c L4) = f (put_words (ld_c L1) (mu m) (m_words (ld_c L1) (mu m) ++ [fi q]))).
  { intros A f X1 X2. unfold L4, L3. unfold ld_c. destruct (finishes m e); cbn; rewrite X1, ?X2; reflexivity. }
  eapply R_update; [exact HR|exact HE|right; auto|..]; cbn [ld_x ld_ents ld_open ld_disc]; unfold ld_c; cbn [ld_x]; fold (ld_c L4);
    try (rewrite FC by reflexivity; reflexivity); auto.
  - unfold L4, L3; destruct (finishes m e); reflexivity.
  - unfold L4, L3; destruct (finishes m e); reflexivity.
  - rewrite FC by reflexivity. rewrite starts_snoc, SE, app_nil_r. apply (r_mnext _ _ _ HR).
  - intros k. rewrite (FC _ (fun c => m_words c k)) by reflexivity. cbn. unfold upd. rewrite (r_words _ _ _ HR) by auto. rewrite read_own, ev_one by auto. reflexivity.
  - intros k. unfold L4, L3. destruct (finishes m e) eqn:FI; unfold ld_c; cbn.
    + unfold upd. destruct (head_word FI) as (_ & _ & ->). reflexivity.
    + destruct (Nat.eqb_spec k (mu m)) as [->|]; auto. apply (head_kept L1 _ HR IS FI).
  - intros k. rewrite (FC _ (fun c => m_ent c k)) by reflexivity. cbn. destruct (Nat.eqb_spec k (mu m)) as [->|]; auto. apply (r_ent _ _ _ HR). auto.
  - intros k. assert (X : cs_other (ld_x L4) k = cs_other (ld_x L1) k) by (unfold L4, L3; destruct (finishes m e); reflexivity). rewrite X.
    destruct (Nat.eqb_spec k (mu m)) as [->|]; auto. apply (r_other _ _ _ HR). auto.
  - intros j. rewrite (FC _ (fun c => e_ments c j)) by reflexivity. cbn. rewrite SE, app_nil_r. destruct (Nat.eqb j (eps (ent m))); reflexivity.
  - intros w. assert (X : n_ments (ld_c L4) w = upd (n_ments (ld_c L1)) (fi q) (n_ments (ld_c L1) (fi q) ++ [mu m]) w) by (unfold L4, L3; destruct (finishes m e); reflexivity).
    rewrite X. unfold upd. rewrite ev_one, mem_one by auto. destruct (Nat.eqb_spec w (fi q)) as [->|]; reflexivity.
  - intros k. rewrite AA. unfold L4, L3. destruct (finishes m e); cbn [ld_disc ld_with_c ld_put_disc L2 ld_put_open map].
    + rewrite dl_get_put. reflexivity.
    + destruct (str_eqb_spec k (eid (ent m))) as [->|]; auto.
Qed.

Lemma words_sorted c k l : co_h c = h -> increasing h l -> m_words c k = l -> words c k = (put_words c k l, l).
Proof.
  intros EH S EW. unfold words. rewrite EH, EW. assert (sort_on (okey h) l = l) as ->; auto. apply sort_on_unique; auto.
  unfold increasing in S. eapply strongly_sorted_impl; [|exact S]. intros a b _ _ X. unfold key_lt. rewrite !okey_position. exact X.
Qed.
Lemma same_root : exists r u v, In r roots /\ descendants_and_empty h r = u ++ wds q ++ v /\ forall w, In w (u ++ wds q ++ v) -> h_root h w = r.
Proof.
  destruct (Hrun q st_q) as (_ & r & u & v & Hr & EQ). exists r, u, v. split; auto. split; auto. intros w Hw. rewrite <- EQ in Hw.
  destruct (Hgood r Hr) as [G1 G2]. apply in_tree_root; auto. apply (dae_order h r G1 G2). auto.
Qed.
Lemma extend_read c k : co_h c = h -> co_tree c = co_tree c0 -> e = Cl q ->
  extend_mention c k (fi q) (la q) (descendants_and_empty h (h_root h (la q))) = (grow c k (tl (wds q)), Ok tt) /\ NoDup (tl (wds q)).
Proof.
  intros EH ET K. pose proof (st_kind done e todo E) as KK. rewrite K in KK. cbn in KK. destruct (multi_shape q st_q KK) as (t & EW & EL).
  destruct same_root as (r & u & v & Hr & EQ & SR). assert (RL : h_root h (la q) = r) by (apply SR; rewrite !in_app_iff; right; left; apply la_wds; apply st_q).
  rewrite RL, EQ. destruct (Hgood r Hr) as [G1 G2]. destruct (dae_order h r G1 G2) as [INC _]. rewrite EQ in INC.
  assert (NP : forall w, In w (u ++ wds q ++ v) -> node_precedes c (fi q) w = Ok (position h (fi q) <? position h w)%Z).
  { intros w Hw. unfold node_precedes, precedes. rewrite EH, ET. cbn [fst snd]. rewrite (SR w Hw), (SR (fi q)), Nat.eqb_refl, !okey_position; auto.
    rewrite !in_app_iff. right; left. apply fi_wds. apply st_q. }
  rewrite EL. rewrite EW in INC, NP. rewrite EW. unfold increasing in INC. cbn [app] in *.
  pose proof INC as INC2. apply sorted_app_iff in INC2. destruct INC2 as (_ & I2 & I3). inversion I2 as [|? ? I4 I5]; subst. rewrite Forall_forall in I5.
  assert (ND : NoDup (t ++ [la q])). { apply sorted_app_iff in I4. destruct I4 as (I4 & _). apply (increasing_nodup h). exact I4. }
  split; auto. change (fi q :: (t ++ [la q]) ++ v) with ([fi q] ++ (t ++ [la q]) ++ v). rewrite app_assoc, extend_skip.
  - apply extend_grow; auto. intros w Hw. rewrite NP.
    + f_equal. apply Z.ltb_lt. apply I5. apply in_app_iff. auto.
    + rewrite in_app_iff. right. right. rewrite in_app_iff. auto.
  - intros w Hw. rewrite NP by (rewrite in_app_iff in *; cbn in *; intuition). f_equal. apply Z.ltb_ge. apply in_app_iff in Hw. destruct Hw as [Hw|[<-|[]]]; [|lia].
    assert (position h w < position h (fi q))%Z; [|lia]. apply I3; auto. left; auto.
Qed.
Lemma load_closing_step L : e = Cl q -> R done (ents_of done) L ->
  exists L', load_closing L (la q) (ieid q) = (L', Ok tt) /\ R (done ++ [e]) (ents_of (done ++ [e])) L'.
Proof.
  intros K HR0. assert (KL : match e with Cl _ => True | _ => firsti q = false end) by (rewrite K; exact I).
  destruct (st_later done e todo E KL) as [IS SE]. assert (ES : ents_of (done ++ [e]) = ents_of done) by (apply (ents_same done e); auto).
  pose proof HR0 as HR. rewrite <- ES in HR.
  assert (HE : In (ent m) (ents_of (done ++ [e]))) by (rewrite ES; apply ents_In; exists m; auto).
  pose proof (r_open _ _ _ HR q st_q) as RO. pose proof E as E2. rewrite K in E2. apply ev_last_open in E2. rewrite <- K in E2. rewrite E2, map_app in RO. cbn [map] in RO. clear E2.
  change (ient q) with (ent m) in RO. set (oo := map (fun q => (mu (own q), Some (hidx (own q)))) (open_of ient (ent m) (done ++ [e]))) in *.
  pose proof (id_no_bracket q st_q) as NB. destruct (Hid q st_q) as (IN & _).
  set (sb := match sub q with None => None | Some _ => Some (lasti q) end).
  assert (FO : (if dl_has (ld_open L) (ieid q) then Some (ieid q, None)
               else match match_disc (ieid q) with
                    | None => None
                    | Some (eid, idx, total) => Some (eid, Some (str_eqb idx total))
                    end) = Some (eid (ent m), sb)).
  { unfold sb, ieid, lasti. pose proof (sub_bounds q st_q) as B. destruct (sub q) as [[k n]|].
    - destruct (dl_has (ld_open L) (piece_id (eid (ent m)) (Z.of_nat k) (Z.of_nat n))) eqn:DH.
      + apply dl_has_In in DH. apply (r_keyid _ _ _ HR) in DH. destruct DH as (p & Hp & EQ). exfalso. apply (id_no_bracket p Hp). fold (ient p). rewrite <- EQ.
        unfold piece_id. rewrite !in_app_iff. right. left. left. auto.
      + rewrite match_piece by (auto; lia). rewrite count_eqb, nat_eqb_Z by lia. reflexivity.
    - rewrite (dl_get_has (ld_open L)); auto. rewrite RO. destruct oo; discriminate. }
  unfold load_closing. rewrite FO, RO, rev_app_distr. cbn [rev app]. rewrite rev_involutive.
  set (L1 := ld_put_open L (eid (ent m)) oo).
  destruct (st_words done e todo E) as (I1 & I2 & EI & ER). assert (ER2 : read_words done m = flat_map wds I1 ++ [fi q]) by (rewrite ER; rewrite K; reflexivity). clear ER.
  destruct read_sorted as [S2 S1].
  rewrite (words_sorted (ld_c L1) (mu m) (read_words done m)); auto; [|apply (r_h _ _ _ HR)|apply (r_words _ _ _ HR); auto].
  set (c1 := put_words (ld_c L1) (mu m) (read_words done m)).
  assert (LO : last_opt (read_words done m) = Some (fi q)) by (rewrite ER2; apply last_opt_app). rewrite LO.
  assert (H1 : co_h c1 = h) by apply (r_h _ _ _ HR). assert (T1 : co_tree c1 = co_tree c0) by apply (r_tree _ _ _ HR). rewrite H1.
  assert (RT : h_root h (la q) = h_root h (fi q)).
  { destruct same_root as (r & u & v & _ & _ & SR). rewrite !SR; auto; rewrite !in_app_iff; right; left; [apply fi_wds|apply la_wds]; apply st_q. }
  rewrite <- RT, Nat.eqb_refl. cbn [negb]. destruct (extend_read c1 (mu m) H1 T1 K) as [EX ND]. rewrite EX.
  set (c2 := grow c1 (mu m) (tl (wds q))). unfold on_c at 1. cbn [fst snd bind].
  destruct (grow_spec (mu m) (tl (wds q)) c1 ND) as ((G1 & G2 & G3 & G4 & G5 & G6 & G7 & G8 & G9 & G10 & G11) & GW & GN). fold c2 in G1, G2, G3, G4, G5, G6, G7, G8, G9, G10, G11, GW, GN.
  assert (EVW : ev_words e = tl (wds q)) by (rewrite K; reflexivity).
  assert (W2 : m_words c2 (mu m) = read_words (done ++ [e]) m).
  { rewrite GW, Nat.eqb_refl. unfold c1. cbn. rewrite upd_same, read_own, EVW. reflexivity. }
  set (L2 := ld_with_c (ld_with_c L1 c1) c2).
  assert (FI : finishes m e = lasti q) by (rewrite K; cbn; rewrite Nat.eqb_refl; reflexivity).
  set (c3 := if lasti q then put_head (put_words c2 (mu m) (read_words (done ++ [e]) m)) (mu m) (hm m) else c2).
  assert (SB : sb = Some false \/ sb = None /\ sub q = None /\ lasti q = true \/ sb = Some true /\ lasti q = true).
  { unfold sb, lasti. destruct (sub q) as [[k n]|]; auto. destruct (Nat.eqb k n); auto. }
  assert (SB0 : sb = Some false -> lasti q = false) by (unfold sb; destruct (sub q) as [[k n]|]; congruence).
  assert (E3 : (match sb with Some false => (L2, Ok tt) | _ => on_c L2 (load_head (ld_c L2) (mu m) (Some (hidx m))) end) = (ld_with_c L2 c3, Ok tt)).
  { unfold c3. destruct SB as [SB|SB].
    - rewrite SB, (SB0 SB). unfold L2. reflexivity.
    - assert (LQ : lasti q = true) by tauto. rewrite LQ. assert (X : match sb with Some false => (L2, Ok tt) | _ => on_c L2 (load_head (ld_c L2) (mu m) (Some (hidx m))) end = on_c L2 (load_head (ld_c L2) (mu m) (Some (hidx m)))).
      { destruct SB as [(-> & _)|(-> & _)]; reflexivity. }
      rewrite X. clear X. assert (LH : load_head (ld_c L2) (mu m) (Some (hidx m)) = (put_head (put_words c2 (mu m) (read_words (done ++ [e]) m)) (mu m) (hm m), Ok tt)).
      { rewrite <- FI in LQ. destruct (head_word LQ) as (N1 & N2 & N3). destruct (Hhead q st_q) as [HP _]. unfold load_head. change (ld_c L2) with c2.
        rewrite (words_sorted c2 (mu m) (read_words (done ++ [e]) m)); auto; [|congruence]. rewrite N1.
        assert (SH : set_head (put_words c2 (mu m) (read_words (done ++ [e]) m)) (mu m) (hm m) = (put_head (put_words c2 (mu m) (read_words (done ++ [e]) m)) (mu m) (hm m), Ok tt)).
        { unfold set_head. cbn [m_words put_words]. rewrite upd_same, N2, andb_false_r. reflexivity. }
        rewrite SH. destruct (hidx m) as [|p|p]; [lia|reflexivity|lia]. }
      rewrite LH. reflexivity. }
  fold L2. rewrite E3. cbn [bind]. clear E3.
  set (L3 := ld_with_c L2 c3).
  pose proof (r_disc _ _ _ HR q st_q) as RD. change (ient q) with (ent m) in RD.
  set (L4 := match sb with Some true => ld_put_disc L3 (eid (ent m)) [] | _ => L3 end).
  assert (DI : sub q <> None -> dl_get (ld_disc L3) (eid (ent m)) = [mu m] /\ act_list (ent m) (done ++ [e]) = if lasti q then [] else [m]).
  { intros SQ. destruct (act_later (r_starts _ _ _ HR) SE IS SQ) as [AD AA]. rewrite AD in RD. rewrite FI in AA. auto. }
  assert (E4 : (match sb with Some true => pop_disc L3 (eid (ent m)) (mu m) | _ => (L3, Ok tt) end) = (L4, Ok tt)).
  { unfold L4. destruct sb as [[|]|] eqn:ESB; auto. unfold pop_disc. destruct DI as [-> _]; [unfold sb in ESB; destruct (sub q); congruence|].
    cbn [rev app]. rewrite Nat.eqb_refl. reflexivity. }
  rewrite E4. clear E4. exists L4. split; auto.
  assert (X4 : ld_x L4 = with_c (ld_x L) c3 /\ ld_ents L4 = ld_ents L /\ ld_open L4 = dl_put (ld_open L) (eid (ent m)) oo) by (unfold L4; destruct sb as [[|]|]; cbn; auto).
  destruct X4 as (X4 & X5 & X6).
  assert (C4 : ld_c L4 = c3) by (unfold ld_c; rewrite X4; reflexivity).
  assert (FC : forall A (f : coref -> A), (forall c v, f (put_words c (mu m) v) = f c) -> (forall c v, f (put_head c (mu m) v) = f c) -> f c3 = f c2).
  { intros A f Y1 Y2. unfold c3. destruct (lasti q); rewrite ?Y2, ?Y1; reflexivity. }
  eapply R_update; [exact HR|exact HE|right; auto|..]; rewrite ?C4, ?X4, ?X5, ?X6; cbn; auto.
  - rewrite (FC _ co_doc) by reflexivity. rewrite G1. reflexivity.
  - rewrite (FC _ co_h) by reflexivity. rewrite G2. reflexivity.
  - rewrite (FC _ co_tree) by reflexivity. rewrite G3. reflexivity.
  - rewrite (FC _ eids) by reflexivity. rewrite G11. reflexivity.
  - rewrite (FC _ e_next) by reflexivity. rewrite G5. reflexivity.
  - rewrite (FC _ e_eid) by reflexivity. rewrite G8. reflexivity.
  - rewrite (FC _ e_type) by reflexivity. rewrite G9. reflexivity.
  - rewrite (FC _ m_next) by reflexivity. rewrite G4, starts_snoc, SE, app_nil_r. apply (r_mnext _ _ _ HR).
  - intros k. destruct (Nat.eqb_spec k (mu m)) as [->|N].
    + unfold c3. destruct (lasti q); auto. cbn. apply upd_same.
    + assert (Y : m_words c3 k = m_words c2 k) by (unfold c3; destruct (lasti q); auto; cbn; apply upd_other; auto). rewrite Y, GW. apply Nat.eqb_neq in N. rewrite N.
      unfold c1. cbn. apply Nat.eqb_neq in N. rewrite upd_other by auto. reflexivity.
  - intros k. unfold c3. destruct (lasti q) eqn:LQ.
    + cbn. unfold upd. assert (FI2 : finishes m e = true) by congruence. destruct (head_word FI2) as (_ & _ & ->). rewrite G6. reflexivity.
    + rewrite G6. destruct (Nat.eqb_spec k (mu m)) as [->|]; auto. apply (head_kept L _ HR IS). congruence.
  - intros k. rewrite (FC _ (fun c => m_ent c k)) by reflexivity. rewrite G7. destruct (Nat.eqb_spec k (mu m)) as [->|]; auto. apply (r_ent _ _ _ HR). auto.
  - intros k. destruct (Nat.eqb_spec k (mu m)) as [->|]; auto. apply (r_other _ _ _ HR). auto.
  - intros j. rewrite (FC _ (fun c => e_ments c j)) by reflexivity. rewrite G10, SE. cbn [map]. rewrite app_nil_r. destruct (Nat.eqb j (eps (ent m))); reflexivity.
  - intros w. rewrite (FC _ (fun c => n_ments c w)) by reflexivity. rewrite GN, EVW. reflexivity.
  - split; [apply dl_put_nodup; apply (r_keys _ _ _ HR)|]. intros k Y. apply dl_put_keys in Y. auto.
  - intros k. rewrite dl_get_put. reflexivity.
  - intros k. unfold L4, sb. destruct (sub q) as [[a b]|] eqn:SQ.
    + destruct DI as [D1 D2]; [discriminate|]. rewrite D2. destruct (lasti q); cbn [ld_disc ld_put_disc map].
      * rewrite dl_get_put. reflexivity.
      * destruct (str_eqb_spec k (eid (ent m))) as [->|]; auto.
    + rewrite act_cont by auto. change (ld_disc L3) with (ld_disc L). destruct (str_eqb_spec k (eid (ent m))) as [->|]; auto.
Qed.

Lemma chunk_step L : R done (ents_of done) L ->
  exists L', load_chunk L (node_of fi la e) (ev_text body ieid e) = (L', Ok tt) /\ R (done ++ [e]) (ents_of (done ++ [e])) L'.
Proof.
  intros HR. unfold load_chunk. destruct (ev_text_parts body ieid e (plain_item q st_q)) as (-> & -> & ->).
  assert (KE : e = Op q \/ e = Si q \/ e = Cl q) by (destruct e; cbn; auto). destruct KE as [KE|[KE|KE]].
  - assert (K : not_cl) by (unfold not_cl; rewrite KE; exact I). assert (C : closing = false) by (unfold closing; rewrite KE; reflexivity).
    assert (X : exists L', load_opening L (fi q) closing (body q) = (L', Ok tt) /\ R (done ++ [e]) (ents_of (done ++ [e])) L').
    { destruct (firsti q) eqn:F; [apply load_opening_first; auto|apply load_opening_later; auto]. }
    destruct X as (L' & X & HR'). exists L'. split; auto. rewrite C in X. rewrite KE. cbn [node_of]. exact X.
  - assert (K : not_cl) by (unfold not_cl; rewrite KE; exact I). assert (C : closing = true) by (unfold closing; rewrite KE; reflexivity).
    assert (X : exists L', load_opening L (fi q) closing (body q) = (L', Ok tt) /\ R (done ++ [e]) (ents_of (done ++ [e])) L').
    { destruct (firsti q) eqn:F; [apply load_opening_first; auto|apply load_opening_later; auto]. }
    destruct X as (L' & X & HR'). exists L'. split; auto. rewrite C in X. rewrite KE. cbn [node_of]. exact X.
  - destruct (load_closing_step L KE HR) as (L' & X & HR'). exists L'. split; auto. rewrite KE. cbn [node_of]. exact X.
Qed.
End Step2.

Lemma chunks_step n : forall es done todo L, all' = done ++ es ++ todo -> (forall e, In e es -> node_of fi la e = n) -> R done (ents_of done) L ->
  exists L', load_chunks L n (map (ev_text body ieid) es) = (L', Ok tt) /\ R (done ++ es) (ents_of (done ++ es)) L'.
Proof.
  induction es as [|e es IH]; intros done todo L EA EN HR; cbn [map load_chunks].
  - exists L. rewrite app_nil_r. auto.
  - destruct (chunk_step done e (es ++ todo) EA L HR) as (L1 & E1 & HR1). rewrite (EN e) in E1 by (left; auto). rewrite E1. cbn [bind].
    destruct (IH (done ++ [e]) todo L1) as (L2 & E2 & HR2); auto.
    + rewrite EA, <- app_assoc. reflexivity.
    + intros e' H. apply EN. right; auto.
    + exists L2. split; auto. rewrite <- app_assoc in HR2. exact HR2.
Qed.
Lemma nodes_step : forall ns pre L, nodes = pre ++ ns -> R (flat_map evs pre) (ents_of (flat_map evs pre)) L ->
  exists L', load_nodes L ns = (L', Ok tt) /\ R all' (ents_of all') L'.
Proof.
  induction ns as [|n ns IH]; intros pre L EN HR; cbn [load_nodes].
  - exists L. rewrite app_nil_r in EN. unfold all. rewrite EN. auto.
  - assert (IN : In n nodes) by (rewrite EN, in_app_iff; right; left; auto).
    rewrite (r_misc _ _ _ HR), Hmisc by auto. unfold chunks. rewrite chunks_evs.
    + destruct (chunks_step n (evs n) (flat_map evs pre) (flat_map evs ns) L) as (L1 & E1 & HR1); auto.
      * unfold all. rewrite EN, flat_map_app. reflexivity.
      * intros e He. apply (ev_node evs P fi la multi mem_op mem_cl mem_si) in He. tauto.
      * rewrite E1. cbn [bind]. apply (IH (pre ++ [n])).
        -- rewrite EN, <- app_assoc. reflexivity.
        -- rewrite flat_map_app. cbn [flat_map]. rewrite app_nil_r. exact HR1.
    + intros e He. apply plain_item. apply (ev_node evs P fi la multi mem_op mem_cl mem_si) in He. tauto.
    + apply ord.
    + auto.
Qed.
Variable x0 : corefs.
Hypothesis Hx : co_doc (cs_c x0) = co_doc c0 /\ co_h (cs_c x0) = h /\ co_tree (cs_c x0) = co_tree c0 /\ eids (cs_c x0) = [] /\ m_next (cs_c x0) = 0 /\
  e_next (cs_c x0) = 0 /\ (forall j, e_ments (cs_c x0) j = []) /\ (forall w, n_ments (cs_c x0) w = []) /\ cs_misc x0 = misc.
Lemma start_R : R [] (ents_of []) (mkLd x0 [] [] []).
Proof.
  destruct Hx as (A1 & A2 & A3 & A4 & A5 & A6 & A7 & A8 & A9). constructor; unfold ld_c; cbn; auto; try (intros; tauto); try (constructor; fail).
  - intros w. rewrite A8. constructor.
  - intros w k. rewrite A8. split; [intros []|intros (m & [] & _)].
Qed.
Lemma all_loaded : exists L, load_nodes (mkLd x0 [] [] []) nodes = (L, Ok tt) /\ R all' (ents_of all') L.
Proof. apply (nodes_step nodes []); auto using start_R. Qed.

(** ---- everything has been read ---- *)
Lemma all_starts m : In m (starts_of all') <-> exists p, p < P /\ own p = m.
Proof.
  split; [|intros (p & Hp & <-); apply own_started; auto]. intros H. unfold starts_of in H. apply in_flat_map in H. destruct H as (e & He & Hs).
  apply start_own in Hs. apply ev_all in He. exists (ev_item e). tauto.
Qed.
Lemma all_ents a : In a (ents_of all') <-> exists p, p < P /\ ient p = a.
Proof.
  rewrite ents_In. split.
  - intros (m & Hm & <-). apply all_starts in Hm. destruct Hm as (p & Hp & <-). exists p. auto.
  - intros (p & Hp & <-). exists (own p). split; auto. apply own_started. auto.
Qed.
Lemma all_read m : read_words all' m = wm m.
Proof.
  unfold read_words. rewrite (mention_evs nodes evs P fi la multi); auto using fi_in, la_in, single', several. unfold wm. apply items_words.
  intros q Hq. apply items_In in Hq. tauto.
Qed.
Lemma all_finished p : p < P -> finished all' (own p) = true.
Proof.
  intros H. assert (NE : items (own p) <> []) by (intros X; assert (Y : In p (items (own p))) by (apply items_In; auto); rewrite X in Y; destruct Y).
  destruct (exists_last NE) as (J & q & EJ). assert (X : In q (items (own p))) by (rewrite EJ, in_app_iff; right; left; auto). apply items_In in X. destruct X as [X1 X2].
  assert (LQ : lasti q = true) by (rewrite <- X2 in EJ; destruct (first_last _ _ _ EJ) as (_ & L & _); exact L).
  unfold finished. apply existsb_exists. destruct (multi q) eqn:M.
  - exists (Cl q). split; [apply ev_all; cbn; auto|]. cbn. rewrite X2, Nat.eqb_refl, LQ. reflexivity.
  - exists (Si q). split; [apply ev_all; cbn; auto|]. cbn. rewrite X2, Nat.eqb_refl, LQ. reflexivity.
Qed.
Lemma all_closed a : open_of ient a all' = [].
Proof.
  unfold open_of. apply filter_none. intros q Hq. apply ops_In in Hq. apply ev_all in Hq. cbn in Hq.
  assert (X : closed all' q = true) by (apply closed_In; apply ev_all; cbn; auto). rewrite X. apply andb_false_r.
Qed.
Lemma drop_nothing l o : (forall k v, In (k, v) o -> v = []) -> drop_all_unfinished l o = (l, Ok tt).
Proof.
  induction o as [|[k v] o IH]; intros H; cbn [drop_all_unfinished]; auto. rewrite (H k v (or_introl eq_refl)). cbn [drop_unfinished bind].
  apply IH. intros k' v' X. apply (H k'). right; auto.
Qed.

Variables (d : nat) (z : str).
Hypothesis Hdoc : trees_of_document c0.
Hypothesis Hplaced : forall q w, q < P -> In w (wds q) -> placed_node c0 d z w /\ w < h_next h.
Hypothesis Hroot : forall q x y, q < P -> In x (wm (own q)) -> In y (wm (own q)) -> h_root h x = h_root h y.
Hypothesis Hsame : forall p q, p < P -> q < P -> ient p = ient q -> hd 0 (wm (own p)) = hd 0 (wm (own q)) -> last (wm (own p)) 0 = last (wm (own q)) 0 ->
  length (wm (own p)) = length (wm (own q)) -> own p = own q.

Record loaded (c : coref) (ot : nat -> dict) : Prop := {
  l_doc : co_doc c = co_doc c0 /\ co_h c = h /\ co_tree c = co_tree c0;
  l_mnext : m_next c = length (starts_of all');
  l_enext : e_next c = length (ents_of all');
  l_words : forall p, p < P -> m_words c (mu (own p)) = wm (own p);
  l_head : forall p, p < P -> m_head c (mu (own p)) = hm (own p);
  l_ent : forall p, p < P -> m_ent c (mu (own p)) = eps (ient p);
  l_other : forall p, p < P -> ot (mu (own p)) = parse_other (osr (own p));
  l_eid : forall p, p < P -> e_eid c (eps (ient p)) = eid (ient p) /\ e_type c (eps (ient p)) = Some (ety (ient p));
  l_ements : forall p, p < P -> Permutation (e_ments c (eps (ient p))) (map mu (filter (fun m => Nat.eqb (ent m) (ient p)) (starts_of all')));
  l_enone : forall j, length (ents_of all') <= j -> e_ments c j = [];
  l_back : forall w, NoDup (n_ments c w);
  l_back_in : forall w k, In k (n_ments c w) <-> exists p, p < P /\ k = mu (own p) /\ In w (wm (own p))
}.
Lemma R_loaded L : R all' (ents_of all') L -> NoDup (starts_of all') /\ loaded (ld_c L) (cs_other (ld_x L)).
Proof.
  intros HR. destruct HR. split; auto. constructor; auto.
  - intros p Hp. rewrite r_words0 by (apply own_started; auto). apply all_read.
  - intros p Hp. rewrite r_head0 by (apply own_started; auto). unfold read_head. rewrite all_finished; auto.
  - intros p Hp. apply r_ent0. apply own_started; auto.
  - intros p Hp. apply r_other0. apply own_started; auto.
  - intros p Hp. split; [apply r_eid0|apply r_type0]; apply all_ents; eauto.
  - intros p Hp. rewrite r_ements0; auto. apply all_ents; eauto.
  - intros w k. rewrite r_back_in0. split.
    + intros (m & Hm & -> & Hw). apply all_starts in Hm. destruct Hm as (p & Hp & <-). exists p. rewrite all_read in Hw. auto.
    + intros (p & Hp & -> & Hw). exists (own p). rewrite all_read. split; auto. apply own_started; auto.
Qed.
Lemma loaded_reordered c c' ot : reordered c c' -> loaded c ot -> loaded c' ot.
Proof.
  intros ((A1 & A2 & A3 & A4 & A5) & (A6 & A7 & A8 & A9 & A10) & A11 & A12 & A13) []. constructor; intros.
  - rewrite A1, A2, A3. auto.
  - rewrite A4. auto.
  - rewrite A5. auto.
  - rewrite A11. auto.
  - rewrite A6. auto.
  - rewrite A7. auto.
  - auto.
  - rewrite A8, A9. auto.
  - rewrite A12. auto.
  - specialize (A12 j). rewrite l_enone0 in A12 by auto. apply Permutation_sym, Permutation_nil in A12. auto.
  - eapply Permutation_NoDup; [symmetry; apply A13|auto].
  - rewrite <- l_back_in0. split; apply Permutation_in; [|symmetry]; apply A13.
Qed.
Section Loaded.
Variables (c : coref) (ot : nat -> dict).
Hypothesis ST : NoDup (starts_of all').
Hypothesis HL : loaded c ot.
Lemma eps_eq p q : p < P -> q < P -> eps (ient p) = eps (ient q) -> ient p = ient q.
Proof. intros Hp Hq. apply ix_inj; apply all_ents; eauto. Qed.
Lemma mu_eq p q : p < P -> q < P -> mu (own p) = mu (own q) -> own p = own q.
Proof. intros Hp Hq. apply ix_inj; apply own_started; auto. Qed.
Lemma ements_in j k : In k (e_ments c j) <-> exists p, p < P /\ k = mu (own p) /\ j = eps (ient p).
Proof.
  split.
  - intros H. destruct (Nat.ltb_spec j (length (ents_of all'))) as [J|J]; [|rewrite (l_enone _ _ HL j J) in H; destruct H].
    destruct (nth_error (ents_of all') j) as [a|] eqn:N; [|apply nth_error_None in N; lia].
    assert (Ia : In a (ents_of all')) by (eapply nth_error_In; eauto).
    assert (EJ : j = eps a).
    { pose proof (ix_nth (ents_of all') a Ia) as X. assert (NDE : NoDup (ents_of all')) by apply firsts_nodup.
      rewrite NoDup_nth_error in NDE. apply NDE; auto. rewrite N. symmetry. exact X. }
    apply all_ents in Ia. destruct Ia as (p & Hp & <-). subst j. apply (Permutation_in _ (l_ements _ _ HL p Hp)) in H.
    apply in_map_iff in H. destruct H as (m & <- & Hm). apply filter_In in Hm. destruct Hm as [Hm EM]. apply Nat.eqb_eq in EM.
    apply all_starts in Hm. destruct Hm as (q & Hq & <-). exists q. split; [auto|]. split; [auto|]. unfold ient in *. rewrite EM. reflexivity.
  - intros (p & Hp & -> & ->). eapply Permutation_in; [symmetry; apply (l_ements _ _ HL p Hp)|]. apply in_map. apply filter_In. split; [apply own_started; auto|apply Nat.eqb_refl].
Qed.
Lemma ements_nodup j : NoDup (e_ments c j).
Proof.
  destruct (Nat.ltb_spec j (length (ents_of all'))) as [J|J]; [|rewrite (l_enone _ _ HL j J); constructor].
  destruct (nth_error (ents_of all') j) as [a|] eqn:N; [|apply nth_error_None in N; lia].
  assert (Ia : In a (ents_of all')) by (eapply nth_error_In; eauto).
  assert (EJ : j = eps a).
  { pose proof (ix_nth (ents_of all') a Ia) as X. assert (NDE : NoDup (ents_of all')) by apply firsts_nodup.
    rewrite NoDup_nth_error in NDE. apply NDE; auto. rewrite N. symmetry. exact X. }
  apply all_ents in Ia. destruct Ia as (p & Hp & <-). subst j. eapply Permutation_NoDup; [symmetry; apply (l_ements _ _ HL p Hp)|].
  apply nodup_map; [|apply NoDup_filter; auto].
  intros m n Hm Hn X. apply filter_In in Hm, Hn. apply (ix_inj (starts_of all')); tauto.
Qed.
Lemma wm_in q w : In w (wm (own q)) -> exists p, p < P /\ own p = own q /\ In w (wds p).
Proof. unfold wm. intros H. apply in_flat_map in H. destruct H as (p & Hp & Hw). apply items_In in Hp. exists p. tauto. Qed.
Lemma wm_ne q : q < P -> wm (own q) <> [].
Proof.
  intros H X. assert (Y : In (fi q) (wm (own q))). { unfold wm. apply in_flat_map. exists q. split; [apply items_In; auto|apply fi_wds; auto]. }
  rewrite X in Y. destruct Y.
Qed.
Lemma placed_loaded p : p < P -> placed_mention c d z (mu (own p)).
Proof.
  intros H. unfold placed_mention. rewrite (l_words _ _ HL p H). split; [apply wm_ne; auto|]. intros w Hw. apply wm_in in Hw. destruct Hw as (q & Hq & _ & Hw).
  destruct (Hplaced q w Hq Hw) as [X _]. unfold placed_node in *. destruct (l_doc _ _ HL) as (-> & -> & ->). exact X.
Qed.
Lemma place_loaded p q : p < P -> q < P -> same_place c (mu (own p)) (mu (own q)) -> mu (own p) = mu (own q).
Proof.
  intros Hp Hq (f & l & (u & A1) & (v & A2) & (u' & A3) & (v' & A4) & A5 & A6). rewrite (l_ent _ _ HL p Hp), (l_ent _ _ HL q Hq) in A6.
  destruct (l_eid _ _ HL p Hp) as [-> _] in A6. destruct (l_eid _ _ HL q Hq) as [-> _] in A6.
  rewrite (l_words _ _ HL p Hp) in *. rewrite (l_words _ _ HL q Hq) in *. f_equal. apply Hsame; auto.
  - apply Hinj; auto.
  - rewrite A1, A2. reflexivity.
  - rewrite A3, A4, !last_app_one. reflexivity.
Qed.
Lemma linked_loaded : linked c.
Proof.
  assert (LI : forall k, listed c k <-> exists p, p < P /\ k = mu (own p)).
  { intros k. unfold listed. rewrite ements_in. split; [intros (p & Hp & E & _); eauto|]. intros (p & Hp & ->). exists p. rewrite (l_ent _ _ HL p Hp). auto. }
  destruct (l_doc _ _ HL) as (D1 & D2 & D3). constructor.
  - intros j k H. apply ements_in in H. destruct H as (p & Hp & -> & ->). apply (l_ent _ _ HL). auto.
  - apply ements_nodup.
  - intros w k. rewrite (l_back_in _ _ HL), LI. split.
    + intros (p & Hp & -> & Hw). split; [eauto|]. rewrite (l_words _ _ HL p Hp). auto.
    + intros ((p & Hp & ->) & Hw). exists p. rewrite (l_words _ _ HL p Hp) in Hw. auto.
  - apply (l_back _ _ HL).
  - intros k H. apply LI in H. destruct H as (p & Hp & ->). rewrite (l_words _ _ HL p Hp), (l_head _ _ HL p Hp), D2.
    destruct (Hhead p Hp) as [_ X]. apply nth_error_In in X. split; [apply wm_ne; auto|]. split; [apply (increasing_nodup h); apply Hwm; auto|]. split; auto.
    intros w Hw. apply (Hroot p); auto.
  - intros j k H. apply ements_in in H. destruct H as (p & Hp & -> & ->). rewrite (l_enext _ _ HL), (l_mnext _ _ HL). split; [apply ix_lt; apply all_ents; eauto|].
    split; [apply ix_lt; apply own_started; auto|]. intros w Hw. rewrite (l_words _ _ HL p Hp) in Hw. apply wm_in in Hw. destruct Hw as (q & Hq & _ & Hw). rewrite D2.
    apply (Hplaced q); auto.
Qed.
End Loaded.
Lemma load_result : exists x, load_coref x0 roots = (x, Ok tt) /\ loaded (cs_c x) (cs_other x) /\ linked (cs_c x) /\ ids_unique (cs_c x) /\
  (forall p, p < P -> sorted_mentions (cs_c x) d (e_ments (cs_c x) (eps (ient p)))) /\
  Permutation (eids (cs_c x)) (map (fun a => (eid a, eps a)) (ents_of all')).
Proof.
  destruct all_loaded as (L & EL & HR). destruct (R_loaded L HR) as [ST HL]. unfold load_coref.
  assert (EN : nodes_and_empty (cs_c x0) roots = nodes) by (unfold nodes_and_empty, nodes; destruct Hx as (_ & -> & _); reflexivity).
  rewrite EN, EL. cbn [bind]. rewrite drop_nothing.
  2:{ intros k v H. assert (X : In k (map fst (ld_open L))) by (apply in_map_iff; exists (k, v); auto). apply (r_keyid _ _ _ HR) in X. destruct X as (p & Hp & ->).
      apply (dl_get_val _ _ _ (r_keys _ _ _ HR)) in H. rewrite (r_open _ _ _ HR p Hp), all_closed in H. auto. }
  cbn [bind]. set (M := fun k => exists p, p < P /\ k = mu (own p)).
  assert (TD : trees_of_document (ld_c L)) by (unfold trees_of_document; destruct (l_doc _ _ HL) as (-> & _ & ->); exact Hdoc).
  assert (PMM : forall m, M m -> placed_mention (ld_c L) d z m) by (intros m (p & Hp & ->); apply (placed_loaded _ _ HL); auto).
  assert (INJ : forall m n, M m -> M n -> same_place (ld_c L) m n -> m = n) by (intros m n (p & Hp & ->) (q & Hq & ->); apply (place_loaded _ _ HL); auto).
  assert (EMM : forall e m, In m (e_ments (ld_c L) e) -> M m) by (intros e m H; apply (ements_in _ _ HL) in H; destruct H as (p & Hp & -> & _); exists p; auto).
  assert (WMM : forall w m, In m (n_ments (ld_c L) w) -> M m) by (intros w m H; apply (l_back_in _ _ HL) in H; destruct H as (p & Hp & -> & _); exists p; auto).
  assert (EPS : forall a, In a (ents_of all') -> exists p, p < P /\ ient p = a) by (intros a Ha; apply all_ents; auto).
  destruct (sort_entities_ok (ld_c L) d z M TD PMM INJ (ements_nodup _ _ ST HL) EMM (l_back _ _ HL) WMM (ld_ents L) (ld_c L) (reordered_refl _)) as (c1 & E1 & R1 & S1).
  { intros k e H. rewrite (r_ents _ _ _ HR) in H. apply in_map_iff in H. destruct H as (a & EQ & Ha). inversion EQ; subst. apply EPS in Ha. destruct Ha as (p & Hp & <-).
    intros X. assert (Y : In (mu (own p)) (e_ments (ld_c L) (eps (ient p)))) by (apply (ements_in _ _ HL); exists p; auto). rewrite X in Y. destruct Y. }
  unfold on_c. rewrite E1. cbn [fst snd bind]. set (L1 := ld_with_c L c1).
  destruct (sort_table_ok (ld_c L) d z M TD PMM EMM c1 (map snd (ld_ents L)) R1) as (es & E2 & PE).
  change (ld_c L1) with c1. change (ld_ents L1) with (ld_ents L). rewrite E2. cbn [bind].
  set (v := map (fun e => (e_eid c1 e, e)) es). eexists. split; [reflexivity|]. change (cs_c (ld_x (ld_with_c L1 (put_eids c1 v)))) with (put_eids c1 v).
  change (cs_other (ld_x (ld_with_c L1 (put_eids c1 v)))) with (cs_other (ld_x L)).
  pose proof (loaded_reordered _ _ _ R1 HL) as HL1.
  assert (HL2 : loaded (put_eids c1 v) (cs_other (ld_x L))) by (destruct HL1; constructor; auto).
  assert (PV : Permutation v (map (fun a => (eid a, eps a)) (ents_of all'))).
  { unfold v. rewrite PE, (r_ents _ _ _ HR), !map_map. cbn [snd]. erewrite map_ext_in; [reflexivity|]. intros a Ha. cbn. f_equal. apply EPS in Ha. destruct Ha as (p & Hp & <-).
    apply (l_eid _ _ HL1 p Hp). }
  split; auto. split; [apply (linked_loaded _ _ ST HL2)|]. split; [|split; [|exact PV]].
  - split.
    + cbn [eids put_eids]. eapply Permutation_NoDup; [apply Permutation_map; symmetry; exact PV|]. rewrite map_map. cbn [fst].
      apply nodup_map; [|apply firsts_nodup]. intros a b Ha Hb X. apply EPS in Ha, Hb. destruct Ha as (p & Hp & <-), Hb as (q & Hq & <-). apply Hinj; auto.
    + intros k e H. cbn [eids put_eids] in H. apply (Permutation_in _ PV) in H. apply in_map_iff in H. destruct H as (a & EQ & Ha). inversion EQ; subst.
      pose proof Ha as Hb. apply EPS in Ha. destruct Ha as (p & Hp & <-). split; [apply (l_eid _ _ HL2 p Hp)|]. rewrite (l_enext _ _ HL2). apply ix_lt. exact Hb.
  - intros p Hp. assert (S2 : sorted_mentions (ld_c L) d (e_ments c1 (eps (ient p)))).
    { apply S1. left. rewrite (r_ents _ _ _ HR), map_map. cbn [snd]. apply in_map. apply all_ents. eauto. }
    apply (sorted_same _ _ d _ R1) in S2. exact S2.
Qed.
Lemma starts_once : NoDup (starts_of all').
Proof. destruct all_loaded as (L & _ & HR). apply (R_loaded L HR). Qed.
Lemma load_summary : exists x f g, load_coref x0 roots = (x, Ok tt) /\ linked (cs_c x) /\ ids_unique (cs_c x) /\
  (co_doc (cs_c x) = co_doc c0 /\ co_h (cs_c x) = h /\ co_tree (cs_c x) = co_tree c0) /\
  (forall p, p < P -> m_words (cs_c x) (f (own p)) = wm (own p) /\ m_head (cs_c x) (f (own p)) = hm (own p) /\
     cs_other x (f (own p)) = parse_other (osr (own p)) /\ e_type (cs_c x) (g (ent (own p))) = Some (ety (ent (own p))) /\
     sorted_mentions (cs_c x) d (e_ments (cs_c x) (g (ent (own p)))) /\
     exists l, NoDup l /\ (forall m, In m l <-> (exists q, q < P /\ own q = m) /\ ent m = ent (own p)) /\ e_ments (cs_c x) (g (ent (own p))) = map f l) /\
  exists es, NoDup es /\ (forall a, In a es <-> exists p, p < P /\ ent (own p) = a) /\ Permutation (eids (cs_c x)) (map (fun a => (eid a, g a)) es).
Proof.
  destruct load_result as (x & E & HL & LK & IU & SM & PE). exists x, mu, eps. split; auto. split; auto. split; auto. split; [apply (l_doc _ _ HL)|]. split.
  - intros p Hp. split; [apply (l_words _ _ HL p Hp)|]. split; [apply (l_head _ _ HL p Hp)|]. split; [apply (l_other _ _ HL p Hp)|]. split; [apply (l_eid _ _ HL p Hp)|].
    split; [apply (SM p Hp)|]. pose proof (l_ements _ _ HL p Hp) as PM. apply Permutation_sym in PM. apply Permutation_sym, Permutation_map_inv in PM. destruct PM as (l & El & Pl).
    exists l. split; [eapply Permutation_NoDup; [exact Pl|]; apply NoDup_filter; apply starts_once|]. split; [|exact El].
    intros m. transitivity (In m (filter (fun m => Nat.eqb (ent m) (ient p)) (starts_of all'))).
    + split; intros H; eapply Permutation_in; try exact H; [symmetry; exact Pl|exact Pl].
    + rewrite filter_In, all_starts, Nat.eqb_eq. reflexivity.
  - exists (ents_of all'). split; [apply firsts_nodup|]. split; [apply all_ents|exact PE].
Qed.
End Load.
