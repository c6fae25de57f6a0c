(** Sentences as lists of tokens; proofs about ud.RemoveMwt. *)
From Coq Require Import String List NArith ZArith Bool Lia Permutation.
From Verif Require Import PyStr PyStrFacts PyList PyListFacts PyExn TreeModel TreeSpec TreeFacts TreeRepr TreeOps TreeRemove TreeCalls TreeQuery TreeProps
  DualDictModel DualDictSpec DualDictProofs DocModel MwtSpec MwtProofs TokModel TokSpec.
Import ListNotations.

Local Arguments dd_set : simpl never.

(** ---- the sentence as a list of tokens ---- *)
Record view (d : doc) (r : nat) (ts : list token) : Prop := {
  v_tree : consistent (d_h d) r;
  v_agree : mwts_agree d;
  v_words : flat_map (token_words d) ts = h_desc (d_h d) r;
  v_free : forall w, In (TWord w) ts -> d_mwt d w = None;
  v_mwts : forall m, In (TMwt m) ts <-> In m (d_mwts d r);
  v_ne : forall m, In (TMwt m) ts -> m_words (d_m d m) <> [];
  v_empty : forall e, In e (h_emp (d_h d) r) -> h_kind (d_h d) e = KEmpty /\ e < h_next (d_h d)
}.

Definition piece (d : doc) (t : token) : str :=
  match token_form d t with Some f => f | None => [] end ++ space_unless_no (token_misc d t).

Lemma no_space_val d t : no_space_after d t <-> val_is (misc_get (token_misc d t) SpaceAfter) No = true.
Proof.
  unfold no_space_after. fold SpaceAfter. fold No. destruct (misc_get (token_misc d t) SpaceAfter); simpl; try (split; discriminate).
  rewrite str_eqb_eq. split; congruence.
Qed.
Lemma printed_pieces d ts x : printed d ts x -> x = flat_map (piece d) ts.
Proof.
  induction 1 as [|t ts f x F N _ IH|t ts f x F N _ IH]; simpl; auto; unfold piece, space_unless_no; rewrite F;
    rewrite no_space_val in N; subst x.
  - destruct (val_is _ _); [tauto|]. rewrite <- !app_assoc. auto.
  - rewrite N, app_nil_r. auto.
Qed.

Lemma NoDup_flat_in {A} (f : A -> list nat) l1 x l2 y : NoDup (flat_map f (l1 ++ x :: l2)) -> In y (f x) ->
  ~ In y (flat_map f l1) /\ ~ In y (flat_map f l2).
Proof.
  rewrite flat_map_app. simpl. intros N I. apply NoDup_app_inv in N as (_&N2&D). apply NoDup_app_inv in N2 as (_&_&D2).
  split; [|apply D2; auto]. intros J. apply (D y J). apply in_or_app. auto.
Qed.

Lemma view_of d r : sound_sentence d r -> exists ts, token_descendants d r = Ok ts /\ view d r ts.
Proof.
  intros [C A B E F]. destruct (tokens_ok d r C A B) as (ts&T1&T2&T3&_). exists ts. split; [auto|].
  assert (FR : forall w, In (TWord w) ts -> d_mwt d w = None).
  { intros w I. destruct (d_mwt d w) as [m|] eqn:EM; auto. exfalso.
    assert (Iw : In w (h_desc (d_h d) r)). { rewrite <- T2. apply in_flat_map. exists (TWord w). simpl. auto. }
    destruct (ma_known _ A _ _ EM) as [L W]. rewrite (proj2 B w m Iw EM) in L. apply T3 in L.
    apply in_split in I as (l1&l2&->). pose proof (c_once _ _ C) as N. rewrite <- T2 in N.
    destruct (NoDup_flat_in _ _ _ _ w N) as [N1 N2]; [simpl; auto|].
    apply in_app_or in L as [L|[L|L]]; [apply N1|discriminate|apply N2]; apply in_flat_map; exists (TMwt m); auto. }
  constructor; auto. intros m I. apply (proj1 B). apply T3. auto.
Qed.

Lemma view_in d r ts t w : view d r ts -> In t ts -> In w (token_words d t) -> In w (h_desc (d_h d) r).
Proof. intros V I W. rewrite <- (v_words _ _ _ V). apply in_flat_map. eauto. Qed.
Lemma view_contiguous d r ts : view d r ts -> contiguous d r.
Proof.
  intros V. split.
  - intros m I. apply (v_mwts _ _ _ V) in I. split; [apply (v_ne _ _ _ V); auto|].
    apply in_split in I as (l1&l2&->). exists (flat_map (token_words d) l1), (flat_map (token_words d) l2).
    rewrite <- (v_words _ _ _ V), flat_map_app. auto.
  - intros w m I K. rewrite <- (v_words _ _ _ V) in I. apply in_flat_map in I as ([x|m']&I&W); simpl in W.
    + destruct W as [<-|[]]. apply (v_free _ _ _ V) in I. congruence.
    + apply (v_mwts _ _ _ V) in I. destruct (ma_listed _ (v_agree _ _ _ V) _ _ I) as [R L]. apply L in W. congruence.
Qed.
Lemma view_token_unique d : forall ts ts', flat_map (token_words d) ts = flat_map (token_words d) ts' ->
  (forall w, In (TWord w) ts \/ In (TWord w) ts' -> d_mwt d w = None) ->
  (forall m, In (TMwt m) ts \/ In (TMwt m) ts' -> m_words (d_m d m) <> [] /\ forall w, In w (m_words (d_m d m)) -> d_mwt d w = Some m) ->
  ts = ts'.
Proof.
  induction ts as [|t ts IH]; intros [|t' ts'] E F M; auto.
  - exfalso. destruct t' as [w|m]; [discriminate|]. destruct (M m) as [N _]; [simpl; auto|]. simpl in E.
    destruct (m_words (d_m d m)); [tauto|discriminate].
  - exfalso. destruct t as [w|m]; [discriminate|]. destruct (M m) as [N _]; [simpl; auto|]. simpl in E.
    destruct (m_words (d_m d m)); [tauto|discriminate].
  - assert (t = t').
    { destruct t as [w|m], t' as [w'|m']; simpl in E.
      - injection E as -> _. auto.
      - destruct (M m') as [N L]; [simpl; auto|]. destruct (m_words (d_m d m')) as [|x l]; [tauto|]. injection E as -> _.
        specialize (L x (or_introl eq_refl)). rewrite F in L by (simpl; auto). discriminate.
      - destruct (M m) as [N L]; [simpl; auto|]. destruct (m_words (d_m d m)) as [|x l]; [tauto|]. injection E as -> _.
        specialize (L w' (or_introl eq_refl)). rewrite F in L by (simpl; auto). discriminate.
      - destruct (M m) as [N L]; [simpl; auto|]. destruct (M m') as [N' L']; [simpl; auto|].
        destruct (m_words (d_m d m)) as [|x l]; [tauto|]. destruct (m_words (d_m d m')) as [|x' l']; [tauto|].
        injection E as -> _. specialize (L x' (or_introl eq_refl)). specialize (L' x' (or_introl eq_refl)). congruence. }
    subst t'. f_equal. apply IH.
    + simpl in E. apply app_inv_head in E. auto.
    + intros w [I|I]; apply F; simpl; auto.
    + intros m [I|I]; apply M; simpl; auto.
Qed.
Lemma view_tokens d r ts : view d r ts -> token_descendants d r = Ok ts.
Proof.
  intros V. destruct (tokens_ok d r (v_tree _ _ _ V) (v_agree _ _ _ V) (view_contiguous _ _ _ V)) as (ts'&T1&T2&T3&_).
  rewrite T1. f_equal. pose proof (v_agree _ _ _ V) as A.
  assert (FR : forall w, In (TWord w) ts' -> d_mwt d w = None).
  { intros w I. destruct (d_mwt d w) as [m|] eqn:EM; auto. exfalso.
    assert (Iw : In w (h_desc (d_h d) r)). { rewrite <- T2. apply in_flat_map. exists (TWord w). simpl. auto. }
    destruct (ma_known _ A _ _ EM) as [L W]. rewrite (proj2 (view_contiguous _ _ _ V) w m Iw EM) in L. apply T3 in L.
    apply in_split in I as (l1&l2&->). pose proof (c_once _ _ (v_tree _ _ _ V)) as N. rewrite <- T2 in N.
    destruct (NoDup_flat_in _ _ _ _ w N) as [N1 N2]; [simpl; auto|].
    apply in_app_or in L as [L|[L|L]]; [apply N1|discriminate|apply N2]; apply in_flat_map; exists (TMwt m); auto. }
  apply (view_token_unique d).
  - rewrite T2. symmetry. apply (v_words _ _ _ V).
  - intros w [I|I]; auto. apply (v_free _ _ _ V). auto.
  - intros m I. assert (L : In m (d_mwts d r)). { destruct I as [I|I]; [apply T3|apply (v_mwts _ _ _ V)]; auto. }
    split; [|apply (ma_listed _ A _ _ L)]. apply (v_ne _ _ _ V). apply (v_mwts _ _ _ V). auto.
Qed.
Lemma view_text d r ts : view d r ts -> (forall t, In t ts -> token_form d t <> None) ->
  compute_text d r true = Ok (rstrip (flat_map (piece d) ts)).
Proof.
  intros V F. destruct (tokens_ok d r (v_tree _ _ _ V) (v_agree _ _ _ V) (view_contiguous _ _ _ V)) as (ts'&T1&T2&T3&T4).
  rewrite (view_tokens _ _ _ V) in T1. injection T1 as <-. destruct (T4 F) as (x&P&->). apply printed_pieces in P as ->. auto.
Qed.
Lemma view_forms d r ts : view d r ts -> sound_sentence d r -> forall t, In t ts -> token_form d t <> None.
Proof.
  intros V [_ _ _ _ [F1 F2]] [w|m] I; simpl.
  - apply F1. apply (view_in _ _ _ _ _ V I). simpl. auto.
  - apply F2. apply (v_mwts _ _ _ V). auto.
Qed.
Lemma view_sound d r ts : view d r ts -> (forall w, In w (h_desc (d_h d) r) -> n_form (d_at d w) <> None) ->
  (forall m, In m (d_mwts d r) -> m_form (d_m d m) <> None) -> sound_sentence d r.
Proof. intros V F1 F2. destruct V as [C A ? ? ? ? E] eqn:EV. constructor; auto. apply (view_contiguous _ _ _ V). Qed.

(** ---- small steps ---- *)
Lemma agree_at d f g h : mwts_agree d -> mwts_agree (mkDoc h f (d_mwt d) (d_mwts d) (d_m d) (d_mnext d) g).
Proof. intros [A B C]. constructor; auto. Qed.
Lemma agree_put_at d x a : mwts_agree d -> mwts_agree (put_at d x a).
Proof. intros [A B C]. constructor; auto. Qed.
Lemma agree_with_h d h : mwts_agree d -> mwts_agree (with_h d h).
Proof. intros [A B C]. constructor; auto. Qed.

Lemma remove_frame h r x m : consistent h r -> In x (h_desc h r) -> same_static h (fst (node_remove h x m)).
Proof.
  intros C I. destruct (remove_ok h (abs h r) (consistent_wf h r C) (consistent_Repr h r C) x I m) as [h' [res [E [_ [_ [S _]]]]]].
  rewrite E. auto.
Qed.
Definition emp_ok (h : heap) (r : nat) := forall e, In e (h_emp h r) -> h_kind h e = KEmpty /\ e < h_next h.
Lemma emp_same h h' r : same_static h h' -> emp_ok h r -> emp_ok h' r.
Proof. intros [S1 S2 S3 S4] E e. rewrite S4, S2, S1. apply E. Qed.

Lemma rehang_one h r x : consistent h r -> emp_ok h r -> In x (h_desc h r) ->
  exists h', node_remove h x (Some (s "rehang")) = (h', Ok tt) /\ consistent h' r /\ emp_ok h' r /\
    h_desc h' r = filter (fun w => negb (Nat.eqb w x)) (h_desc h r) /\
    (forall w p, In w (h_desc h' r) -> h_par h w = Some p -> h_par h' w = if Nat.eqb p x then h_par h x else Some p).
Proof.
  intros C E I. destruct (remove_prop h r C x (Some (s "rehang")) E I) as (h'&EQ&C'&K&_).
  destruct K as [(f&F&D) P]; [exists (s "rehang"); vm_compute; auto|].
  exists h'. split; [auto|]. split; [auto|]. split.
  { pose proof (remove_frame h r x (Some (s "rehang")) C I) as S. rewrite EQ in S. simpl in S. eapply emp_same; eauto. }
  split; [|exact P]. rewrite D. apply filter_ext_in. intros w Iw. specialize (F w Iw).
  destruct (f w); destruct (Nat.eqb_spec w x); simpl; auto; subst; [tauto|]. destruct F as [_ F]. rewrite F; auto.
Qed.
Lemma filter_neq_mem x l (ws : list nat) : filter (fun w => negb (mem w l)) (filter (fun w => negb (Nat.eqb w x)) ws) =
  filter (fun w => negb (mem w (x :: l))) ws.
Proof. rewrite filter_filter. apply filter_ext. intros w. unfold mem. simpl. rewrite negb_orb. auto. Qed.

Lemma remove_words_ok r : forall l d, consistent (d_h d) r -> emp_ok (d_h d) r -> NoDup l ->
  (forall w, In w l -> In w (h_desc (d_h d) r)) ->
  exists h', remove_words d l = (with_h d h', Ok tt) /\ consistent h' r /\ emp_ok h' r /\
    h_desc h' r = filter (fun w => negb (mem w l)) (h_desc (d_h d) r).
Proof.
  induction l as [|x l IH]; intros d C E N I.
  - exists (d_h d). simpl. split; [destruct d; auto|]. split; [auto|]. split; [auto|]. symmetry. apply filter_all. auto.
  - inversion N as [|? ? N1 N2]; subst. cbn [remove_words].
    destruct (rehang_one (d_h d) r x C E (I x (or_introl eq_refl))) as (h1&E1&C1&M1&D1&_).
    rewrite E1. cbn [bind]. destruct (IH (with_h d h1)) as (h2&E2&C2&M2&D2); auto.
    { intros w Iw. cbn [with_h d_h]. rewrite D1. apply filter_In. split; [apply I; simpl; auto|].
      apply negb_true_iff, Nat.eqb_neq. intros ->. auto. }
    rewrite E2. exists h2. split; [auto|]. split; [auto|]. split; [auto|]. rewrite D2. cbn [with_h d_h]. rewrite D1.
    apply filter_neq_mem.
Qed.

Lemma filter_flat {A} (f : nat -> bool) (g : A -> list nat) l : filter f (flat_map g l) = flat_map (fun x => filter f (g x)) l.
Proof. induction l as [|x l IH]; simpl; auto. rewrite filter_app, IH. auto. Qed.
Lemma flat_map_ext_in {A B} (f g : A -> list B) l : (forall x, In x l -> f x = g x) -> flat_map f l = flat_map g l.
Proof. induction l as [|x l IH]; intros H; simpl; auto. rewrite H by (simpl; auto). rewrite IH; auto. intros y I; apply H; simpl; auto. Qed.

Lemma items_get m k : misc_get (Some (mkDD None (items m))) k = misc_get m k.
Proof.
  unfold misc_get, items, dd_get. cbn [dd_prop snd].
  assert (E : forall l, dd_dict (deserialize_if_empty (mkDD None l)) = l) by (intros [|kv l]; auto). rewrite E. auto.
Qed.

(** One multi-word token is replaced by its first word. *)
Lemma remove_mwt_ok d r l1 m l2 w rest : view d r (l1 ++ TMwt m :: l2) -> m_words (d_m d m) = w :: rest ->
  exists d', remove_mwt d m = (d', Ok tt) /\ view d' r (l1 ++ TWord w :: l2) /\ d_m d' = d_m d /\
    (forall r', d_mwts d' r' = filter (fun m' => negb (Nat.eqb m' m)) (d_mwts d r')) /\
    (forall x, x <> w -> d_at d' x = d_at d x) /\
    d_at d' w = set_feats (set_misc (set_form (d_at d w) (m_form (d_m d m))) (Some (mkDD None (items (m_misc (d_m d m))))))
                  (Some (set_to_itself (guess_feats d (dd_prop (n_feats (d_at d w))) rest))) /\
    h_desc (d_h d') r = filter (fun x => negb (mem x rest)) (h_desc (d_h d) r).
Proof.
  intros V EW. unfold remove_mwt. rewrite EW. cbv zeta.
  set (a := set_feats _ _). set (d1 := put_at d w a).
  assert (IM : In m (d_mwts d r)). { apply (v_mwts _ _ _ V). apply in_elt. }
  pose proof (v_agree _ _ _ V) as A. destruct (ma_listed _ A _ _ IM) as [RM LM].
  assert (A1 : mwts_agree d1) by (apply agree_put_at; auto).
  destruct (mwt_remove_ok d1 m A1) as (d2&E2&A2&H2&AT2&M2&_&_&L2&K2).
  { change (In m (d_mwts d (m_root (d_m d m)))). rewrite RM. auto. }
  rewrite E2. cbn [bind].
  pose proof (c_once _ _ (v_tree _ _ _ V)) as ND. pose proof (v_words _ _ _ V) as VW.
  assert (NR : NoDup (w :: rest)).
  { rewrite <- VW, flat_map_app in ND. apply NoDup_app_inv in ND as (_&ND&_). cbn [flat_map token_words] in ND.
    rewrite EW in ND. apply NoDup_app_inv in ND as (ND&_). auto. }
  pose proof (proj1 (NoDup_cons_iff _ _) NR) as [NR1 NR2].
  destruct (remove_words_ok r rest d2) as (h3&E3&C3&M3&D3); auto.
  { rewrite H2. apply (v_tree _ _ _ V). } { rewrite H2. exact (v_empty _ _ _ V). }
  { intros x I. rewrite H2. apply (view_in _ _ _ (TMwt m) _ V); [apply in_elt|]. simpl. rewrite EW. simpl. auto. }
  rewrite E3. exists (with_h d2 h3). split; [auto|].
  rewrite H2 in D3. cbn [d1 put_at d_h] in D3.
  assert (FREE : forall t x, In t (l1 ++ l2) -> In x (token_words d t) -> ~ In x (w :: rest)).
  { intros t x I J K. rewrite <- VW in ND. destruct (NoDup_flat_in _ _ _ _ x ND) as [N1 N2]; [simpl; rewrite EW; auto|].
    apply in_app_or in I as [I|I]; [apply N1|apply N2]; apply in_flat_map; eauto. }
  assert (TW : forall t, token_words (with_h d2 h3) t = token_words d t).
  { intros [x|m']; simpl; auto. rewrite M2. auto. }
  assert (TNE : ~ In (TMwt m) (l1 ++ l2)).
  { intros I. apply (FREE _ w I); [simpl; rewrite EW|]; simpl; auto. }
  split; [|split; [cbn [with_h d_m]; rewrite M2; auto|split; [exact L2|split; [|split; [|exact D3]]]]].
  - constructor; cbn [with_h d_h d_mwt d_mwts d_m]; auto.
    + apply agree_with_h; auto.
    + rewrite D3, <- VW, filter_flat, !flat_map_app. cbn [flat_map]. f_equal; [|f_equal].
      * apply flat_map_ext_in. intros t I. rewrite TW. symmetry. apply filter_all. intros x J.
        apply negb_true_iff, mem_false. intros K. apply (FREE t x); [apply in_or_app; auto|auto|simpl; auto].
      * simpl. rewrite EW. cbn [filter]. apply mem_false in NR1. rewrite NR1. cbn [negb]. f_equal.
        symmetry. apply filter_none. intros x J. apply mem_In in J. rewrite J. auto.
      * apply flat_map_ext_in. intros t I. rewrite TW. symmetry. apply filter_all. intros x J.
        apply negb_true_iff, mem_false. intros K. apply (FREE t x); [apply in_or_app; auto|auto|simpl; auto].
    + intros x I. rewrite K2. cbn [d1 put_at d_mwt]. apply in_app_or in I as [I|[[= <-]|I]].
      * rewrite (v_free _ _ _ V); auto. apply in_or_app. auto.
      * rewrite LM by (rewrite EW; simpl; auto). rewrite Nat.eqb_refl. auto.
      * rewrite (v_free _ _ _ V); auto. apply in_or_app. simpl. auto.
    + intros m'. rewrite L2, filter_In, negb_true_iff, Nat.eqb_neq. cbn [d1 put_at d_mwts]. rewrite <- (v_mwts _ _ _ V).
      rewrite !in_app_iff in *. simpl in *. split.
      * intros [I|[I|I]]; [|discriminate|]; (split; [auto|]; intros ->; apply TNE; auto).
      * intros [[I|[[= <-]|I]] N]; auto. tauto.
    + intros m' I. rewrite M2. cbn [d1 put_at d_m]. apply (v_ne _ _ _ V). rewrite in_app_iff in *. simpl in *.
      destruct I as [I|[I|I]]; auto. discriminate.
  - intros x N. cbn [with_h d_at]. rewrite AT2. cbn [d1 put_at d_at]. unfold upd. apply Nat.eqb_neq in N. rewrite N. auto.
  - cbn [with_h d_at]. rewrite AT2. cbn [d1 put_at d_at]. unfold upd. rewrite Nat.eqb_refl. auto.
Qed.

(** ---- the loop ---- *)
Definition first_word (d : doc) (m : nat) : nat := hd 0 (m_words (d_m d m)).
Definition others (d : doc) (m : nat) : list nat := tl (m_words (d_m d m)).
(** What the first word of a removed token looks like afterwards. *)
Definition became (d d' : doc) (m : nat) : Prop :=
  let w := first_word d m in
  d_at d' w = set_feats (set_misc (set_form (d_at d w) (m_form (d_m d m))) (Some (mkDD None (items (m_misc (d_m d m))))))
                (Some (set_to_itself (guess_feats d (dd_prop (n_feats (d_at d w))) (others d m)))).

Lemma guess_feats_ext d d' : forall l f, (forall x, In x l -> d_at d' x = d_at d x) -> guess_feats d' f l = guess_feats d f l.
Proof.
  induction l as [|x l IH]; intros f H; simpl; auto. rewrite H by (simpl; auto). apply IH. intros y I. apply H. simpl. auto.
Qed.
Definition replace (d : doc) (gone : list nat) (t : token) : token :=
  match t with TMwt m => if mem m gone then TWord (first_word d m) else t | TWord _ => t end.

Lemma filter_app_out {A} (f : A -> bool) l1 x l2 : (forall y, In y l1 -> f y = true) -> f x = false -> (forall y, In y l2 -> f y = true) ->
  filter f (l1 ++ x :: l2) = l1 ++ l2.
Proof. intros H1 HX H2. rewrite filter_app. cbn [filter]. rewrite HX, !filter_all by auto. auto. Qed.

Lemma every_other_in {A} (l : list A) : forall x, In x (every_other l) -> In x l.
Proof.
  assert (H : forall n (l : list A), length l <= n -> forall x, In x (every_other l) -> In x l).
  { induction n as [|n IH]; intros [|a [|b l']] L x I; simpl in *; try tauto; try lia. destruct I as [->|I]; auto.
    right. right. apply IH; [lia|auto]. }
  apply (H (length l)). lia.
Qed.

Lemma mem_app x l1 l2 : mem x (l1 ++ l2) = mem x l1 || mem x l2.
Proof. unfold mem. apply existsb_app. Qed.

Section loop.
  Variables (d : doc) (r : nat) (ts : list token).
  Hypothesis V : view d r ts.
  (** after the tokens [gone] have been removed *)
  Record after (gone : list nat) (d' : doc) : Prop := {
    af_view : view d' r (map (replace d gone) ts);
    af_m : d_m d' = d_m d;
    af_other : forall r', r' <> r -> d_mwts d' r' = d_mwts d r';
    af_at : forall x, (forall m, In m gone -> x <> first_word d m) -> d_at d' x = d_at d x;
    af_new : forall m, In m gone -> became d d' m;
    af_desc : h_desc (d_h d') r = filter (fun x => negb (existsb (fun m => mem x (others d m)) gone)) (h_desc (d_h d) r)
  }.

  Lemma words_disjoint m m' x : In m (d_mwts d r) -> In m' (d_mwts d r) -> In x (m_words (d_m d m)) -> In x (m_words (d_m d m')) -> m = m'.
  Proof.
    intros I I' J J'. pose proof (v_agree _ _ _ V) as A. apply (ma_listed _ A _ _ I) in J. apply (ma_listed _ A _ _ I') in J'. congruence.
  Qed.
  Lemma first_in m : In m (d_mwts d r) -> In (first_word d m) (m_words (d_m d m)) /\ m_words (d_m d m) = first_word d m :: others d m.
  Proof.
    intros I. apply (v_mwts _ _ _ V) in I. pose proof (v_ne _ _ _ V m I) as N. unfold first_word, others.
    destruct (m_words (d_m d m)); [tauto|]. simpl. auto.
  Qed.

  Lemma after_step gone m d1 : after gone d1 -> In m (d_mwts d r) -> ~ In m gone -> (forall m', In m' gone -> In m' (d_mwts d r)) ->
    exists d2, remove_mwt d1 m = (d2, Ok tt) /\ after (gone ++ [m]) d2 /\
      d_mwts d2 r = filter (fun m' => negb (Nat.eqb m' m)) (d_mwts d1 r).
  Proof.
    intros [AV AM AO AA AN AD] IM NG GL.
    destruct (first_in m IM) as [FI FW].
    assert (IT : In (TMwt m) ts) by (apply (v_mwts _ _ _ V); auto).
    apply in_split in IT as (l1&l2&ET).
    assert (R0 : replace d gone (TMwt m) = TMwt m). { simpl. apply mem_false in NG. rewrite NG. auto. }
    assert (AV' := AV). rewrite ET, map_app in AV'. cbn [map] in AV'. rewrite R0 in AV'.
    destruct (remove_mwt_ok d1 r _ m _ (first_word d m) (others d m) AV') as (d2&E2&V2&M2&L2&AT2&AW2&D2); [rewrite AM; auto|].
    assert (OUT : forall x m', In x (m_words (d_m d m)) -> In m' gone -> x <> first_word d m').
    { intros x m' I G ->. apply NG. rewrite (words_disjoint m m' (first_word d m')); auto. apply first_in. auto. }
    exists d2. split; [auto|]. split; [|apply L2].
    assert (RX : forall t, In t (l1 ++ l2) -> replace d (gone ++ [m]) t = replace d gone t).
    { intros [x|m'] I; auto. simpl. rewrite mem_app. simpl. unfold mem at 2. simpl. rewrite orb_false_r.
      destruct (Nat.eqb_spec m' m); [subst m'|rewrite orb_false_r; auto]. exfalso.
      pose proof (c_once _ _ (v_tree _ _ _ V)) as ND. rewrite <- (v_words _ _ _ V), ET in ND.
      destruct (NoDup_flat_in _ _ _ _ (first_word d m) ND) as [N1 N2]; [simpl; auto|].
      apply in_app_or in I as [I|I]; [apply N1|apply N2]; apply in_flat_map; exists (TMwt m); auto. }
    constructor.
    - rewrite ET, map_app. cbn [map].
      assert (RM : replace d (gone ++ [m]) (TMwt m) = TWord (first_word d m)).
      { simpl. rewrite mem_app. unfold mem at 2. simpl. rewrite Nat.eqb_refl, orb_true_r. auto. }
      rewrite RM. rewrite (map_ext_in _ (replace d gone) l1), (map_ext_in _ (replace d gone) l2); auto;
        intros t I; apply RX; apply in_or_app; auto.
    - congruence.
    - intros r' N. rewrite L2, AO by auto. apply filter_all. intros m' I. apply negb_true_iff, Nat.eqb_neq. intros ->.
      pose proof (v_agree _ _ _ V) as A. destruct (ma_listed _ A _ _ I) as [R1 _]. destruct (ma_listed _ A _ _ IM) as [R2 _]. congruence.
    - intros x H. rewrite AT2 by (apply H; apply in_or_app; simpl; auto). apply AA. intros m' I. apply H. apply in_or_app. auto.
    - intros m' I. apply in_app_or in I as [I|[<-|[]]].
      + unfold became. rewrite AT2; [apply AN; auto|]. intros EQ. apply (OUT (first_word d m) m'); auto.
      + unfold became. rewrite AW2, AM. rewrite (AA (first_word d m)) by (intros m' G; apply OUT; auto).
        rewrite (guess_feats_ext d d1); auto. intros x I. apply AA. intros m' G. apply OUT; auto. rewrite FW. simpl. auto.
    - rewrite D2, AD, filter_filter. apply filter_ext. intros x. rewrite existsb_app. simpl. rewrite orb_false_r, negb_orb. auto.
  Qed.

  Lemma loop_ok : forall n todo gone kept d1 fl, length todo <= n -> n <= fl -> after gone d1 -> d_mwts d1 r = kept ++ todo ->
    NoDup (gone ++ kept ++ todo) -> (forall m, In m (gone ++ kept ++ todo) -> In m (d_mwts d r)) ->
    exists d2, remove_mwt_loop fl d1 r (length kept) = (d2, Ok tt) /\ after (gone ++ every_other todo) d2 /\
      d_mwts d2 r = filter (fun m => negb (mem m (every_other todo))) (kept ++ todo).
  Proof.
    induction n as [|n IH]; intros todo gone kept d1 fl LN LF A EL ND IN.
    - destruct todo; [|simpl in LN; lia]. exists d1. simpl. rewrite !app_nil_r in *. split.
      + destruct fl; simpl; rewrite EL, (proj2 (nth_error_None kept (length kept))); auto.
      + split; [auto|]. rewrite EL. symmetry. apply filter_all. auto.
    - destruct todo as [|m todo].
      { exists d1. simpl. rewrite !app_nil_r in *. split.
        + destruct fl; simpl; rewrite EL, (proj2 (nth_error_None kept (length kept))); auto.
        + split; [auto|]. rewrite EL. symmetry. apply filter_all. auto. }
      destruct fl as [|fl]; [lia|]. cbn [remove_mwt_loop]. rewrite EL, nth_error_app2, Nat.sub_diag by lia. cbn [nth_error].
      assert (NG : ~ In m gone).
      { intros I. apply NoDup_app_inv in ND as (_&_&D). apply (D m I). apply in_or_app. simpl. auto. }
      destruct (after_step gone m d1 A) as (d2&E2&A2&L2); auto.
      { apply IN. apply in_or_app. right. apply in_or_app. simpl. auto. }
      { intros m' I. apply IN. apply in_or_app. auto. }
      rewrite E2. cbn [bind].
      assert (NK : NoDup (kept ++ m :: todo)) by (apply NoDup_app_inv in ND as (_&ND&_); auto).
      assert (L2' : d_mwts d2 r = kept ++ todo).
      { rewrite L2, EL. apply NoDup_remove_2 in NK as NM. apply filter_app_out; [| rewrite Nat.eqb_refl; auto|];
          intros y I; apply negb_true_iff, Nat.eqb_neq; intros ->; apply NM; apply in_or_app; auto. }
      destruct todo as [|m2 todo].
      { exists d2. split; [|split].
        + rewrite app_nil_r in L2'. destruct fl; cbn [remove_mwt_loop]; rewrite L2', (proj2 (nth_error_None kept (S (length kept)))) by lia; auto.
        + simpl. auto.
        + rewrite L2'. simpl. unfold mem. simpl. apply NoDup_remove_2 in NK. rewrite app_nil_r in *. symmetry.
          rewrite filter_app_out; [apply app_nil_r| |rewrite Nat.eqb_refl; auto|simpl; tauto].
          intros y I. rewrite orb_false_r. apply negb_true_iff, Nat.eqb_neq. intros ->. auto. }
      simpl in LN. destruct (IH todo (gone ++ [m]) (kept ++ [m2]) d2 fl) as (d3&E3&A3&L3); auto; try lia.
      { rewrite L2', <- app_assoc. auto. }
      { rewrite <- !app_assoc. simpl. apply (Permutation_NoDup (l := gone ++ kept ++ m :: m2 :: todo)); auto.
        apply Permutation_app_head. apply Permutation_sym. apply (Permutation_middle kept (m2 :: todo) m). }
      { intros m' I. apply IN. rewrite !in_app_iff in *. simpl in *. tauto. }
      exists d3. rewrite app_length in E3. simpl in E3. rewrite Nat.add_1_r in E3. split; [auto|]. split.
      + cbn [every_other]. rewrite <- app_assoc in A3. auto.
      + rewrite L3. rewrite <- app_assoc. cbn [app every_other]. apply NoDup_remove_2 in NK as NM.
        rewrite !filter_app. f_equal.
        * apply filter_ext_in. intros y I. unfold mem. cbn [existsb]. destruct (Nat.eqb_spec y m); auto. subst. elim NM. apply in_or_app. auto.
        * cbn [filter]. assert (EM : mem m (m :: every_other todo) = true) by (apply mem_In; simpl; auto). rewrite EM. cbn [negb].
          assert (X : forall y, In y (m2 :: todo) -> mem y (m :: every_other todo) = mem y (every_other todo)).
          { intros y I. unfold mem. cbn [existsb]. destruct (Nat.eqb_spec y m); auto. subst. elim NM. apply in_or_app. auto. }
          rewrite <- (X m2) by (simpl; auto). rewrite (filter_ext_in (fun m0 => negb (mem m0 (every_other todo))) (fun m0 => negb (mem m0 (m :: every_other todo)))); auto.
          intros y I. rewrite X; auto. simpl. auto.
  Qed.
End loop.

Lemma replace_none d ts : map (replace d []) ts = ts.
Proof. rewrite <- (map_id ts) at 2. apply map_ext. intros [x|m]; auto. Qed.

Lemma remove_mwts_ok d r ts : view d r ts -> exists d', remove_mwts d r = (d', Ok tt) /\
  after d r ts (every_other (d_mwts d r)) d' /\
  d_mwts d' r = filter (fun m => negb (mem m (every_other (d_mwts d r)))) (d_mwts d r).
Proof.
  intros V. unfold remove_mwts.
  destruct (loop_ok d r ts V (length (d_mwts d r)) (d_mwts d r) [] [] d (length (d_mwts d r))) as (d'&E&A&L); auto.
  - constructor; auto. + rewrite replace_none. auto. + simpl. tauto. + simpl. symmetry. apply filter_all. auto.
  - simpl. apply (ma_once _ (v_agree _ _ _ V)).
  - exists d'. auto.
Qed.

(** The text is kept. *)
Lemma after_pieces d r ts gone d' : view d r ts -> (forall m, In m gone -> In m (d_mwts d r)) -> after d r ts gone d' ->
  forall t, In t ts -> token_form d' (replace d gone t) = token_form d t /\ piece d' (replace d gone t) = piece d t.
Proof.
  intros V GL [AV AM AO AA AN AD] t I.
  assert (OUT : forall x m, In (TWord x) ts -> In m gone -> x <> first_word d m).
  { intros x m J G ->. apply (v_free _ _ _ V) in J. pose proof (v_agree _ _ _ V) as A.
    destruct (first_in d r ts V m (GL m G)) as [F _]. apply (ma_listed _ A _ _ (GL m G)) in F. congruence. }
  destruct t as [x|m]; simpl.
  - unfold piece. simpl. rewrite AA by (intros m G; apply OUT; auto). auto.
  - destruct (mem m gone) eqn:EM.
    + apply mem_In in EM. specialize (AN m EM). unfold became in AN. unfold piece. simpl. rewrite AN. cbn [set_feats set_misc set_form n_form n_misc].
      split; [auto|]. unfold space_unless_no. rewrite items_get. auto.
    + unfold piece. simpl. rewrite AM. auto.
Qed.

Lemma flat_map_map {A B C} (f : B -> list C) (g : A -> B) l : flat_map f (map g l) = flat_map (fun x => f (g x)) l.
Proof. induction l; simpl; auto. rewrite IHl. auto. Qed.

Lemma remove_mwts_prop d r : sound_sentence d r ->
  exists d', remove_mwts d r = (d', Ok tt) /\ sound_sentence d' r /\ compute_text d' r true = compute_text d r true /\
    (let gone := every_other (d_mwts d r) in
     d_mwts d' r = filter (fun m => negb (mem m gone)) (d_mwts d r) /\
     (forall m, In m gone -> exists w rest, m_words (d_m d m) = w :: rest /\ d_mwt d' w = None /\
        n_form (d_at d' w) = m_form (d_m d m) /\ (forall k, misc_of d' w k = misc_get (m_misc (d_m d m)) k) /\
        n_lemma (d_at d' w) = n_lemma (d_at d w) /\ n_upos (d_at d' w) = n_upos (d_at d w) /\ n_xpos (d_at d' w) = n_xpos (d_at d w) /\
        n_deprel (d_at d' w) = n_deprel (d_at d w)) /\
     (forall w, In w (h_desc (d_h d') r) <-> In w (h_desc (d_h d) r) /\
        forall m first rest, In m gone -> m_words (d_m d m) = first :: rest -> ~ In w rest) /\
     (exists f, h_desc (d_h d') r = filter f (h_desc (d_h d) r)) /\
     d_m d' = d_m d /\
     (forall w, In w (h_desc (d_h d') r) -> (forall m, In m gone -> ~ In w (m_words (d_m d m))) -> d_at d' w = d_at d w)).
Proof.
  intros S. destruct (view_of d r S) as (ts&_&V). destruct (remove_mwts_ok d r ts V) as (d'&E&A&L).
  assert (GL : forall m, In m (every_other (d_mwts d r)) -> In m (d_mwts d r)) by (intros; apply every_other_in; auto).
  exists d'. split; [auto|].
  pose proof (after_pieces d r ts _ d' V GL A) as AP. destruct A as [AV AM AO AA AN AD]. cbv zeta.
  set (gone := every_other (d_mwts d r)) in *.
  assert (DESC : forall w, In w (h_desc (d_h d') r) <-> In w (h_desc (d_h d) r) /\
        forall m first rest, In m gone -> m_words (d_m d m) = first :: rest -> ~ In w rest).
  { intros w. rewrite AD, filter_In, negb_true_iff. split; intros [I H]; (split; [auto|]).
    - intros m first rest G EW J. assert (X : existsb (fun m => mem w (others d m)) gone = true); [|congruence].
      apply existsb_exists. exists m. split; [auto|]. unfold others. rewrite EW. apply mem_In. auto.
    - apply not_true_is_false. intros X. apply existsb_exists in X as (m&G&J). apply mem_In in J.
      destruct (first_in d r ts V m (GL m G)) as [_ FW]. apply (H m _ _ G FW J). }
  split; [|split].
  - apply (view_sound _ _ _ AV).
    + intros w I. apply DESC in I as [I _]. destruct (in_dec Nat.eq_dec w (map (first_word d) gone)) as [J|J].
      * apply in_map_iff in J as (m&<-&G). specialize (AN m G). unfold became in AN. rewrite AN. cbn [set_feats set_misc set_form n_form].
        apply (proj2 (so_forms _ _ S)). auto.
      * rewrite AA; [apply (proj1 (so_forms _ _ S)); auto|]. intros m G ->. apply J. apply in_map. auto.
    + intros m I. rewrite AM. apply (proj2 (so_forms _ _ S)). rewrite L in I. apply filter_In in I. tauto.
  - rewrite (view_text _ _ _ AV), (view_text _ _ _ V).
    + rewrite flat_map_map. do 2 f_equal. apply flat_map_ext_in. intros t I. apply AP. auto.
    + apply (view_forms _ _ _ V S).
    + intros t I. apply in_map_iff in I as (t0&<-&I). rewrite (proj1 (AP t0 I)). apply (view_forms _ _ _ V S). auto.
  - split; [exact L|]. split; [|split; [exact DESC|split; [|split; [exact AM|]]]].
    + intros m G. destruct (first_in d r ts V m (GL m G)) as [FI FW]. exists (first_word d m), (others d m). split; [auto|].
      specialize (AN m G). unfold became in AN. split.
      * apply (v_free _ _ _ AV). apply in_map_iff. exists (TMwt m). split; [|apply (v_mwts _ _ _ V); auto].
        simpl. assert (EM : mem m gone = true) by (apply mem_In; auto). rewrite EM. auto.
      * unfold misc_of. rewrite AN. cbn [set_feats set_misc set_form n_form n_misc n_lemma n_upos n_xpos n_deprel].
        split; [auto|]. split; [intros k; apply items_get|auto].
    + rewrite AD. eexists. reflexivity.
    + intros w I H. apply AA. intros m G ->. apply (H m G). apply (first_in d r ts V m (GL m G)).
Qed.
