(** Proofs about ud.FixMultiSubjects. *)
From Coq Require Import String List NArith ZArith Bool Lia Sorting.Sorted.
From Verif Require Import PyStr PyStrFacts PyList PyListFacts PyExn TreeModel TreeSpec RehangModel RehangProofs SubjModel SubjSpec.
Import ListNotations.

Lemma at_end_nil x : ~ In LF x -> (at_end x = true <-> x = []).
Proof.
  intros N. destruct x as [|c [|b x]]; cbn; try (split; [discriminate|discriminate]); [tauto|]. split; [|discriminate].
  intros E. apply N.eqb_eq in E. subst. elim N. simpl; auto.
Qed.
Lemma starts_skip p x : starts_with p x = true -> x = p ++ skipn (length p) x.
Proof. intros H. apply starts_with_spec in H as [r ->]. rewrite skipn_app, skipn_all, Nat.sub_diag. reflexivity. Qed.
Lemma in_skip {A} (a : A) n l : In a (skipn n l) -> In a l.
Proof. revert l. induction n as [|n IH]; intros [|b l] I; auto. simpl. right. apply IH, I. Qed.
Lemma outer_iff d : ~ In LF d -> (search_outer d = true <-> outer d).
Proof.
  induction d as [|c d IH]; intros N.
  - cbn. split; [discriminate|]. intros [t E]. destruct t; discriminate.
  - change (search_outer (c :: d)) with ((starts_with (s ":outer") (c :: d) && at_end (skipn 6 (c :: d))) || search_outer d).
    rewrite orb_true_iff, andb_true_iff, IH by (intros I; apply N; simpl; auto). rewrite at_end_nil by (intros I; apply N; eapply in_skip, I). split.
    + intros [[A B]|[t ->]]; [|exists (c :: t); reflexivity]. exists []. apply starts_skip in A. change (length (s ":outer")) with 6 in A. rewrite A, B. apply app_nil_r.
    + intros [[|a t] E].
      * left. rewrite E. split; reflexivity.
      * right. injection E as _ ->. exists t. reflexivity.
Qed.
Lemma subj_iff d : ~ In LF d -> (match_subj d = true <-> subject d).
Proof.
  intros N. destruct d as [|c d].
  - split; [discriminate|]. intros [H|[H|[t [H|H]]]]; discriminate.
  - cbn [match_subj]. cbv zeta. rewrite !andb_true_iff, !orb_true_iff, !N.eqb_eq, at_end_nil by (intros I; apply N; right; eapply in_skip, I). split.
    + intros [[C S] T]. apply starts_skip in S. change (length (s "subj")) with 4 in S.
      destruct T as [T|T].
      * apply starts_with_spec in T as [u T]. rewrite T in S. rewrite S. right. right. exists u. destruct C as [->| ->]; [left|right]; reflexivity.
      * rewrite T in S. rewrite S. destruct C as [->| ->]; [left|right; left]; reflexivity.
    + intros [H|[H|[t [H|H]]]]; injection H as -> ->; (split; [split; [auto|reflexivity]|]); cbn; auto.
Qed.
Lemma is_subject_iff d : ~ In LF d -> (is_subject d = true <-> subject d /\ ~ outer d).
Proof.
  intros N. unfold is_subject. rewrite andb_true_iff, negb_true_iff, subj_iff by auto. rewrite <- outer_iff by auto.
  destruct (search_outer d); split; intros [A B]; split; auto; try discriminate. elim B; auto.
Qed.

(** the words of a list that are subjects *)
Definition isub (st : lst) (x : nat) : bool := match l_dep st x with Some d => is_subject d | None => false end.
Lemma subjects_ok st l : (forall x, In x l -> l_dep st x <> None) -> subjects st l = Ok (filter (isub st) l).
Proof.
  induction l as [|x l IH]; intros H; auto. cbn [subjects filter]. unfold isub at 1. destruct (l_dep st x) as [d|] eqn:E; [|elim (H x); simpl; auto].
  rewrite IH by (intros; apply H; simpl; auto). cbn [rbind]. destruct (is_subject d); reflexivity.
Qed.
Lemma subjects_error st l x : In x l -> l_dep st x = None -> subjects st l = Raise TypeError.
Proof.
  induction l as [|y l IH]; intros I E; [contradiction|]. cbn [subjects]. destruct (l_dep st y) eqn:Y; auto. destruct I as [->|I]; [congruence|].
  rewrite (IH I E). reflexivity.
Qed.
Lemma relabel_ok : forall l st, NoDup l -> let st' := relabel st l in
  l_heap st' = l_heap st /\ l_upos st' = l_upos st /\ l_pproj st' = l_pproj st /\
  forall x, l_dep st' x = if mem x l then Some (new_label (l_dep st x)) else l_dep st x.
Proof.
  unfold relabel. induction l as [|y l IH]; intros st ND; cbn [fold_left]; [auto|]. inversion ND as [|? ? N ND']; subst.
  destruct (IH (set_dep st y (Some (new_label (l_dep st y)))) ND') as (A & B & C & D). split; [exact A|]. split; [exact B|]. split; [exact C|].
  intros x. etransitivity; [exact (D x)|]. cbn [l_dep set_dep]. unfold upd.
  assert (M : mem x (y :: l) = Nat.eqb x y || mem x l).
  { destruct (mem x (y :: l)) eqn:E.
    - apply mem_In in E as [->|E]; [rewrite Nat.eqb_refl; auto|]. apply mem_In in E. rewrite E. symmetry. apply orb_true_r.
    - apply mem_false in E. destruct (Nat.eqb_spec x y) as [->|Q]; [elim E; simpl; auto|]. symmetry. apply mem_false. intros I. apply E. simpl; auto. }
  rewrite M. destruct (Nat.eqb_spec x y) as [Q|Q]; cbn [orb]; [rewrite Q|reflexivity].
  assert (mem y l = false) as -> by (apply mem_false; auto). reflexivity.
Qed.

Section Tree.
Variable r : nat.
Variable st0 : lst.
Hypothesis CO : consistent (l_heap st0) r.
Let W := h_desc (l_heap st0) r.
(** the words relabelled at p *)
Definition changed_at (p : nat) : list nat := tl (filter (isub st0) (h_ch (l_heap st0) p)).
Definition changed (done : list nat) (x : nat) : bool := existsb (fun p => mem x (changed_at p)) done.
Lemma child_iff p x : In p W -> (In x (h_ch (l_heap st0) p) <-> In x W /\ h_par (l_heap st0) x = Some p).
Proof.
  intros P. rewrite (c_children _ _ CO p) by (right; exact P). rewrite filter_In. unfold has_parent. fold W. destruct (h_par (l_heap st0) x) as [q|].
  - rewrite Nat.eqb_eq. split; intros [A B]; split; congruence.
  - split; intros [A B]; discriminate.
Qed.
Lemma tl_in {A} (x : A) l : In x (tl l) -> In x l.
Proof. destruct l; simpl; auto. Qed.
Lemma changed_child p x : In x (changed_at p) -> In x (h_ch (l_heap st0) p).
Proof. intros I. apply tl_in, filter_In in I. tauto. Qed.
Definition inv (done : list nat) (st : lst) : Prop :=
  l_heap st = l_heap st0 /\ l_upos st = l_upos st0 /\ l_pproj st = l_pproj st0 /\
  forall x, l_dep st x = if changed done x then Some (new_label (l_dep st0 x)) else l_dep st0 x.
Lemma fresh_child done p x : incl done W -> ~ In p done -> In p W -> In x (h_ch (l_heap st0) p) -> changed done x = false.
Proof.
  intros D N P I. destruct (changed done x) eqn:E; auto. unfold changed in E. apply existsb_exists in E as (q & Q & M). apply mem_In, changed_child in M.
  apply child_iff in I as [_ I]; auto. apply child_iff in M as [_ M]; [|apply D, Q]. congruence.
Qed.
Lemma children_nodup p : In p W -> NoDup (h_ch (l_heap st0) p).
Proof. intros P. rewrite (c_children _ _ CO p) by (right; exact P). apply NoDup_filter, (c_once _ _ CO). Qed.
Lemma filter_ext_in' {A} (f g : A -> bool) l : (forall x, In x l -> f x = g x) -> filter f l = filter g l.
Proof. apply filter_ext_in. Qed.
Lemma node_ok done p st : incl done W -> ~ In p done -> In p W -> (forall x, In x (h_ch (l_heap st0) p) -> l_dep st0 x <> None) -> inv done st ->
  exists st', multisubj_node st p = (st', Ok tt) /\ inv (done ++ [p]) st'.
Proof.
  intros D N P L (H & U & Q & I). unfold multisubj_node. rewrite H.
  assert (Same : forall x, In x (h_ch (l_heap st0) p) -> l_dep st x = l_dep st0 x).
  { intros x X. rewrite I, (fresh_child done p x); auto. }
  rewrite subjects_ok by (intros x X; rewrite Same; auto). cbn [bind].
  assert (F : filter (isub st) (h_ch (l_heap st0) p) = filter (isub st0) (h_ch (l_heap st0) p)).
  { apply filter_ext_in. intros x X. unfold isub. rewrite Same; auto. }
  rewrite F. assert (E : exists st', (match filter (isub st0) (h_ch (l_heap st0) p) with | _ :: ((_ :: _) as l') => (relabel st l', Ok tt) | _ => (st, Ok tt) end) = (st', Ok tt) /\ st' = relabel st (changed_at p)).
  { unfold changed_at. clear F. destruct (filter (isub st0) _) as [|a [|b l]]; eexists; split; reflexivity. }
  destruct E as (st' & E & ->). exists (relabel st (changed_at p)). split; [exact E|].
  assert (ND : NoDup (changed_at p)).
  { unfold changed_at. pose proof (NoDup_filter (isub st0) (children_nodup p P)) as X. clear F E. destruct (filter (isub st0) _); [constructor|]. inversion X; auto. }
  destruct (relabel_ok (changed_at p) st ND) as (A & B & C & G). split; [congruence|]. split; [congruence|]. split; [congruence|].
  intros x. rewrite G. unfold changed. rewrite existsb_app. cbn [existsb]. rewrite orb_false_r. fold (changed done x).
  destruct (mem x (changed_at p)) eqn:M.
  - apply mem_In in M. rewrite orb_true_r. rewrite Same; auto. apply changed_child, M.
  - rewrite orb_false_r. apply I.
Qed.
Lemma run_ok : (forall x p, In x W -> In p W -> h_par (l_heap st0) x = Some p -> l_dep st0 x <> None) -> exists st', multisubj st0 r = (st', Ok tt) /\ inv W st'.
Proof.
  intros L. unfold multisubj, each_word. apply (for_each_prog inv multisubj_node W [] st0).
  - intros pre p post st E I. cbn [app] in *. pose proof (c_once _ _ CO) as ND. fold W in ND. rewrite E in ND.
    assert (P : In p W) by (rewrite E; apply in_or_app; simpl; auto).
    apply node_ok; auto.
    + intros x X. rewrite E. apply in_or_app. left. exact X.
    + apply NoDup_remove_2 in ND. intros X. apply ND, in_or_app; auto.
    + intros x X. apply child_iff in X as [X1 X2]; [|exact P]. exact (L x p X1 P X2).
  - split; [|split; [|split]]; auto.
Qed.
Lemma for_each_error f x e : forall l st, In x l -> (forall st st' o y, f st y = (st', o) -> o = Ok tt \/ o = Raise e) ->
  (forall st, l_heap st = l_heap st0 -> (forall y, l_dep st0 y = None -> l_dep st y = None) -> snd (f st x) = Raise e) ->
  (forall st y, l_heap (fst (f st y)) = l_heap st) -> l_heap st = l_heap st0 -> (forall y, l_dep st0 y = None -> l_dep st y = None) ->
  (forall st y z, l_dep st z = None -> snd (f st y) = Ok tt -> l_heap st = l_heap st0 -> l_dep (fst (f st y)) z = None) -> snd (for_each f l st) = Raise e.
Proof.
  induction l as [|y l IH]; intros st I O X H E1 E2 K; [contradiction|]. cbn [for_each]. destruct (f st y) as [st1 o] eqn:Fy.
  destruct (O _ _ _ _ Fy) as [->| ->]; [|reflexivity]. cbn [bind].
  destruct I as [->|I].
  - specialize (X st E1 E2). rewrite Fy in X. discriminate.
  - apply IH; auto; [rewrite <- E1; specialize (H st y); rewrite Fy in H; exact H|]. intros z Z. specialize (K st y z (E2 z Z)). rewrite Fy in K. apply K; auto.
Qed.
Lemma run_error x p : In x W -> In p W -> h_par (l_heap st0) x = Some p -> l_dep st0 x = None -> snd (multisubj st0 r) = Raise TypeError.
Proof.
  intros X P E N. unfold multisubj, each_word. apply (for_each_error multisubj_node p TypeError); auto.
  - intros st st' o y H. unfold multisubj_node in H. clear -H.
    assert (S : forall l, (exists k, subjects st l = Ok k) \/ subjects st l = Raise TypeError).
    { induction l as [|a l IH]; cbn [subjects]; [eauto|]. destruct (l_dep st a); auto. destruct IH as [[k ->]| ->]; cbn [rbind]; eauto. }
    destruct (S (h_ch (l_heap st) y)) as [[k Hk]|Hk]; rewrite Hk in H; cbn [bind] in H; [|injection H as _ <-; auto].
    destruct k as [|a [|b k]]; injection H as _ <-; auto.
  - intros st H L. unfold multisubj_node. rewrite H. rewrite (subjects_error st _ x); [reflexivity| |auto]. apply child_iff; auto.
  - intros st y. unfold multisubj_node. destruct (subjects _ _) as [k|?|]; cbn [bind fst]; auto. destruct k as [|a [|b k]]; auto. cbn [fst].
    generalize (b :: k). intros l. revert st. unfold relabel. induction l as [|c l IH]; intros st; auto. cbn [fold_left]. rewrite IH. reflexivity.
  - intros st y z Z O H. unfold multisubj_node in *. rewrite H in *. destruct (in_dec Nat.eq_dec z (h_ch (l_heap st0) y)) as [I|I].
    { rewrite (subjects_error st _ z I Z) in O. discriminate. }
    destruct (subjects st (h_ch (l_heap st0) y)) as [k|?|] eqn:S; cbn [bind fst] in *; auto.
    assert (Sub : forall l k, subjects st l = Ok k -> incl k l).
    { clear. induction l as [|a l IH]; intros k H; cbn [subjects] in H; [injection H as <-; apply incl_refl|]. destruct (l_dep st a); [|discriminate].
      destruct (subjects st l) as [m|?|]; try discriminate. cbn [rbind] in H. injection H as <-. specialize (IH m eq_refl).
      destruct (is_subject _); intros v V; [destruct V as [<-|V]; simpl; auto|simpl; auto]. }
    apply Sub in S. destruct k as [|a [|b k]]; auto. cbn [fst].
    assert (NI : ~ In z (b :: k)) by (intros J; apply I, S; right; exact J). revert NI Z. generalize (b :: k). clear. intros l. revert st. unfold relabel.
    induction l as [|c l IH]; intros st NI Z; auto. cbn [fold_left]. apply IH; [intros J; apply NI; simpl; auto|]. cbn. unfold upd. destruct (Nat.eqb_spec z c) as [->|]; auto. elim NI; simpl; auto.
Qed.

(** ---- in the words of the specification ---- *)
Lemma words_sorted : StronglySorted (key_lt (h_ord (l_heap st0))) W.
Proof.
  assert (H : forall l k, map (h_ord (l_heap st0)) l = map Z.of_nat (seq k (length l)) -> StronglySorted (key_lt (h_ord (l_heap st0))) l /\ forall x, In x l -> (Z.of_nat k <= h_ord (l_heap st0) x)%Z).
  { induction l as [|a l IH]; intros k E; [split; [constructor|contradiction]|]. cbn [length seq map] in E. injection E as E1 E2.
    destruct (IH _ E2) as [S B]. split.
    - constructor; auto. apply Forall_forall. intros x X. specialize (B x X). unfold key_lt. lia.
    - intros x [<-|X]; [lia|]. specialize (B x X). lia. }
  apply (H W 1%nat). apply (c_ords _ _ CO).
Qed.
Lemma tl_sorted key : forall l (x : nat), StronglySorted (key_lt key) l -> (In x (tl l) <-> In x l /\ exists y, In y l /\ (key y < key x)%Z).
Proof.
  intros l x S. destruct S as [|a l S F]; [simpl; split; [contradiction|tauto]|]. cbn [tl]. rewrite Forall_forall in F. split.
  - intros I. split; [simpl; auto|]. exists a. split; [simpl; auto|]. apply F, I.
  - intros [[<-|I] (y & Y & Lt)]; auto. destruct Y as [<-|Y]; [lia|]. specialize (F y Y). unfold key_lt in F. lia.
Qed.
Lemma isub_iff x : labelled st0 r -> In x W -> (isub st0 x = true <-> counts st0 x).
Proof.
  intros L X. destruct (L x X) as (d & E & N). unfold isub, counts. rewrite E, is_subject_iff by auto. split; [eauto|]. intros (d' & E' & H). injection E' as <-. auto.
Qed.
Lemma changed_iff x : labelled st0 r -> (changed W x = true <-> late_subject st0 r x).
Proof.
  intros L. unfold changed. rewrite existsb_exists.
  assert (K : forall p, In p W -> (In x (changed_at p) <-> (In x W /\ h_par (l_heap st0) x = Some p /\ counts st0 x) /\
     exists y, (In y W /\ h_par (l_heap st0) y = Some p /\ counts st0 y) /\ (h_ord (l_heap st0) y < h_ord (l_heap st0) x)%Z)).
  { intros p P. unfold changed_at. rewrite (tl_sorted (h_ord (l_heap st0))).
    - assert (M : forall y, In y (filter (isub st0) (h_ch (l_heap st0) p)) <-> In y W /\ h_par (l_heap st0) y = Some p /\ counts st0 y).
      { intros y. rewrite filter_In, child_iff by auto. split.
        - intros [[A B] C]. split; [|split]; auto. apply isub_iff; auto.
        - intros (A & B & C). split; [split|]; auto. apply isub_iff; auto. }
      rewrite M. split; intros [A (y & Y & Lt)]; (split; [exact A|]); exists y; (split; [apply M; exact Y|exact Lt]).
    - apply filter_StronglySorted. rewrite (c_children _ _ CO p) by (right; exact P). apply filter_StronglySorted. apply words_sorted. }
  split.
  - intros (p & P & M). apply mem_In in M. apply K in M as ((A & B & C) & y & (D & E & F) & Lt); auto. split; auto. exists p, y. auto 10.
  - intros (C & p & y & P & B & E & A & D & Lt & F). exists p. split; auto. apply mem_In, K; auto. split; auto. exists y. auto.
Qed.
End Tree.

Lemma multisubj_ok r st : consistent (l_heap st) r -> labelled st r ->
  exists st', multisubj st r = (st', Ok tt) /\ l_heap st' = l_heap st /\ l_upos st' = l_upos st /\ l_pproj st' = l_pproj st /\
    (forall x, late_subject st r x -> exists c d, l_dep st x = Some (c :: d) /\ l_dep st' x = Some (if N.eqb c 110 then s "obl" else s "advcl")) /\
    (forall x, ~ late_subject st r x -> l_dep st' x = l_dep st x).
Proof.
  intros CO L. destruct (run_ok r st CO) as (st' & E & H & U & P & D).
  { intros x p X _ _. destruct (L x X) as (d & -> & _). discriminate. }
  exists st'. split; [auto|]. split; [auto|]. split; [auto|]. split; [auto|]. split.
  - intros x Lx. rewrite D. pose proof Lx as ((d & Ed & Sd & _) & _). assert (exists c d', d = c :: d') as (c & d' & ->).
    { destruct Sd as [->|[->|[t [->| ->]]]]; eexists; eexists; reflexivity. }
    exists c, d'. split; auto. apply (changed_iff r st CO x L) in Lx. rewrite Lx, Ed. cbn [new_label].
    change (starts_with (s "n") (c :: d')) with (N.eqb 110 c && true). rewrite andb_true_r, N.eqb_sym. destruct (N.eqb c 110); reflexivity.
  - intros x Lx. rewrite D. destruct (changed _ _ x) eqn:C; auto. apply (changed_iff r st CO x L) in C. contradiction.
Qed.
Lemma at_most_one r st st' : consistent (l_heap st) r -> labelled st r -> multisubj st r = (st', Ok tt) ->
  forall p x y, In p (h_desc (l_heap st') r) -> In x (h_desc (l_heap st') r) -> In y (h_desc (l_heap st') r) ->
    h_par (l_heap st') x = Some p -> h_par (l_heap st') y = Some p -> counts st' x -> counts st' y -> x = y.
Proof.
  intros CO L R. destruct (multisubj_ok r st CO L) as (st1 & E & H & _ & _ & A & B). rewrite R in E. injection E as <-. rewrite H.
  assert (G : forall x, counts st' x -> ~ late_subject st r x).
  { intros x (d & Ed & Sd & _) Lx. destruct (A x Lx) as (c & d' & _ & En). rewrite En in Ed. injection Ed as <-.
    destruct (N.eqb c 110); destruct Sd as [Q|[Q|[t [Q|Q]]]]; discriminate. }
  assert (C : forall x, counts st' x -> counts st x).
  { intros x Cx. pose proof (G x Cx) as N. destruct Cx as (d & Ed & Sd). rewrite B in Ed by auto. exists d. auto. }
  assert (Lt : forall p x y, In p (h_desc (l_heap st) r) -> In x (h_desc (l_heap st) r) -> In y (h_desc (l_heap st) r) ->
    h_par (l_heap st) x = Some p -> h_par (l_heap st) y = Some p -> counts st' x -> counts st' y -> ~ (h_ord (l_heap st) y < h_ord (l_heap st) x)%Z).
  { intros p x y P X Y Px Py Cx Cy Lt. apply (G x Cx). split; [apply C; auto|]. exists p, y. auto 10. }
  intros p x y P X Y Px Py Cx Cy. assert (O : h_ord (l_heap st) x = h_ord (l_heap st) y).
  { pose proof (Lt p x y P X Y Px Py Cx Cy). pose proof (Lt p y x P Y X Py Px Cy Cx). lia. }
  pose proof (words_sorted r st CO) as S. clear -S X Y O. induction S as [|a l S IH F]; [contradiction|]. rewrite Forall_forall in F. unfold key_lt in F.
  destruct X as [<-|X], Y as [<-|Y]; auto; [specialize (F y Y)|specialize (F x X)]; lia.
Qed.
