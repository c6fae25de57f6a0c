(** Proofs about joining sentences. *)
From Coq Require Import String List NArith ZArith Bool Lia Permutation.
From Verif Require Import PyStr PyStrFacts PyList PyListFacts PyExn TreeModel TreeSpec TreeProps TreeOps TreeCalls
  DualDictModel DualDictSpec DualDictProofs DocModel MwtSpec MwtProofs TextSpace StealModel StealSpec StealProofs StealThms TokModel TokSpec TokProofs TokJoin TokTree TokToken
  ResegModel ResegSpec.
Import ListNotations.

(** ---- tokens of a sentence, whatever the trees of the multi-word tokens are said to be ---- *)
Record tokened (d : doc) (r : nat) (ts : list token) : Prop := {
  t_tree : consistent (d_h d) r;
  t_words : flat_map (token_words d) ts = h_desc (d_h d) r;
  t_free : forall w, In (TWord w) ts -> d_mwt d w = None;
  t_mwt : forall m, In (TMwt m) ts -> m_words (d_m d m) <> [] /\ forall w, In w (m_words (d_m d m)) -> d_mwt d w = Some m;
  t_form : forall t, In t ts -> token_form d t <> None
}.
Lemma tokened_of d r : sound_sentence d r -> exists ts, token_descendants d r = Ok ts /\ tokened d r ts.
Proof.
  intros SO. destruct (view_of d r SO) as (ts&E&V). exists ts. split; [auto|]. constructor.
  - apply V.
  - apply V.
  - apply V.
  - intros m I. split; [apply (v_ne _ _ _ V); auto|apply (view_mwt _ _ _ _ V I)].
  - apply (view_forms _ _ _ V SO).
Qed.

Lemma skip_tokens d m L : forall ws post, (forall w, In w ws -> d_mwt d w = Some m /\ (h_ord (d_h d) w <= L)%Z) ->
  token_loop d L (ws ++ post) = token_loop d L post /\ forall acc, text_loop d true L acc (ws ++ post) = text_loop d true L acc post.
Proof.
  induction ws as [|w ws IH]; intros post H; [auto|]. destruct (H w) as [H1 H2]; [simpl; auto|]. cbn [app token_loop text_loop]. rewrite H1.
  assert (E : (L <? h_ord (d_h d) w)%Z = false) by (apply Z.ltb_ge; auto). rewrite E. apply IH. intros. apply H. simpl. auto.
Qed.
Lemma tokens_loop d : forall ts L, (forall a ws b, flat_map (token_words d) ts = a ++ ws :: b -> (L < h_ord (d_h d) ws)%Z) ->
  (forall a w b w' c, flat_map (token_words d) ts = a ++ w :: b ++ w' :: c -> (h_ord (d_h d) w < h_ord (d_h d) w')%Z) ->
  (forall w, In (TWord w) ts -> d_mwt d w = None) ->
  (forall m, In (TMwt m) ts -> m_words (d_m d m) <> [] /\ forall w, In w (m_words (d_m d m)) -> d_mwt d w = Some m) ->
  (forall t, In t ts -> token_form d t <> None) ->
  token_loop d L (flat_map (token_words d) ts) = Ok ts /\
  forall acc, text_loop d true L acc (flat_map (token_words d) ts) = Ok (acc ++ flat_map (piece d) ts).
Proof.
  induction ts as [|t ts IH]; intros L HL HO HF HM HN; [split; [auto|]; intros acc; simpl; rewrite app_nil_r; auto|].
  destruct t as [w|m].
  - cbn [flat_map token_words app] in *. cbn [token_loop text_loop]. rewrite HF by (simpl; auto).
    destruct (IH L) as [I1 I2]; try (intros; (eapply HF || eapply HM || eapply HN); simpl; eauto; fail).
    + intros a x b E. apply (HL (w :: a) x b). rewrite E. auto.
    + intros a x b x' c E. apply (HO (w :: a) x b x' c). rewrite E. auto.
    + rewrite I1. split; [auto|]. intros acc. pose proof (HN (TWord w) (or_introl eq_refl)) as F. cbn [token_form] in F.
      destruct (n_form (d_at d w)) as [f|] eqn:EF; [|tauto]. rewrite I2. unfold piece. cbn [token_form token_misc]. rewrite EF, <- !app_assoc. auto.
  - destruct (HM m (or_introl eq_refl)) as [NE KN]. pose proof (HN (TMwt m) (or_introl eq_refl)) as F. cbn [token_form] in F.
    cbn [flat_map token_words] in *. destruct (m_words (d_m d m)) as [|w ws] eqn:EW; [tauto|].
    cbn [app token_loop text_loop] in *. rewrite (KN w) by (simpl; auto).
    assert (E : (L <? h_ord (d_h d) w)%Z = true). { apply Z.ltb_lt. apply (HL [] w (ws ++ flat_map (token_words d) ts)). auto. }
    rewrite E, EW. destruct (@exists_last _ (w :: ws)) as (ws0&z&EZ); [discriminate|]. rewrite EZ, last_opt_app.
    destruct (m_form (d_m d m)) as [f|] eqn:EF; [|tauto].
    assert (OZ : forall x, In x ws -> (h_ord (d_h d) x <= h_ord (d_h d) z)%Z).
    { intros x Ix. destruct ws0 as [|w0 ws0]; [injection EZ as -> ->; destruct Ix|]. injection EZ as -> ->.
      apply in_app_or in Ix as [Ix|[->|[]]]; [|lia]. apply in_split in Ix as (a&b&->). apply Z.lt_le_incl.
      apply (HO (w0 :: a) x b z (flat_map (token_words d) ts)). cbn [app]. rewrite <- !app_assoc. auto. }
    destruct (skip_tokens d m (h_ord (d_h d) z) ws (flat_map (token_words d) ts)) as [S1 S2]; [intros x Ix; split; [apply KN; simpl; auto|auto]|].
    destruct (IH (h_ord (d_h d) z)) as [I1 I2]; try (intros; (eapply HF || eapply HM || eapply HN); simpl; eauto; fail).
    + intros a x b EE. apply (HO ws0 z a x b). change (w :: ws ++ flat_map (token_words d) ts) with ((w :: ws) ++ flat_map (token_words d) ts).
      rewrite EZ, EE, <- !app_assoc. auto.
    + intros a x b x' c EE. apply (HO ((w :: ws) ++ a) x b x' c). cbn [app]. rewrite EE, <- !app_assoc. auto.
    + rewrite S1, I1. split; [auto|]. intros acc. rewrite S2, I2. unfold piece. cbn [token_form token_misc]. rewrite EF, <- !app_assoc. auto.
Qed.
Lemma tokened_ok d r ts : tokened d r ts -> token_descendants d r = Ok ts /\ compute_text d r true = Ok (rstrip (flat_map (piece d) ts)).
Proof.
  intros [C W F M N]. destruct (tokens_loop d ts 0) as [T1 T2]; auto.
  - intros a x b E. rewrite W in E. rewrite (ord_at d r C a x b E). lia.
  - intros a w b w' c E. rewrite W in E. rewrite (ord_at d r C a w (b ++ w' :: c) E).
    assert (E2 : h_desc (d_h d) r = (a ++ w :: b) ++ w' :: c) by (rewrite E, <- app_assoc; auto).
    rewrite (ord_at d r C _ _ _ E2), app_length. simpl. lia.
  - rewrite W in *. split; [exact T1|]. unfold compute_text. assert (R : is_root (d_h d) r = true). { unfold is_root. rewrite (proj2 (c_kinds _ _ C)). auto. }
    rewrite R. cbn [rbind]. rewrite T2. auto.
Qed.
Lemma printed_of d ts : (forall t, In t ts -> token_form d t <> None) -> printed d ts (flat_map (piece d) ts).
Proof.
  induction ts as [|t ts IH]; intros F; [constructor|]. cbn [flat_map]. pose proof (F t (or_introl eq_refl)) as Ft.
  destruct (token_form d t) as [f|] eqn:E; [|tauto]. unfold piece at 1. rewrite E. unfold space_unless_no.
  destruct (val_is (misc_get (token_misc d t) SpaceAfter) No) eqn:V.
  - rewrite app_nil_r. apply pr_joined; [auto|apply no_space_val; auto|]. apply IH. intros. apply F. simpl. auto.
  - rewrite <- app_assoc. apply pr_space; [auto| |]. { rewrite no_space_val. congruence. } apply IH. intros. apply F. simpl. auto.
Qed.

(** ---- appending one tree ---- *)
Lemma leave_next old : forall l h, h_next (leave_children h old l) = h_next h.
Proof. induction l as [|c l IH]; intros h; cbn [leave_children]; auto. rewrite IH. auto. Qed.
Lemma loop_next self old whole nodes : forall l h n, h_next (fst (steal_loop h self old whole nodes n l)) = h_next h.
Proof.
  induction l as [|x l IH]; intros h n; auto. cbn [steal_loop].
  set (h1 := put_root (put_ord h x (n + 1)) x self).
  set (h2 := if whole then h1 else _). assert (E : h_next h2 = h_next h). { unfold h2. destruct whole; auto. unfold put_ch. cbn. rewrite leave_next. auto. }
  destruct (h_par h2 x) as [q|].
  - rewrite IH. destruct (_ || _); auto.
  - destruct whole; auto. rewrite IH. auto.
Qed.
Lemma steal_next d r r2 nodes : nodes <> [] -> (forall y, In y nodes -> h_root (d_h d) y = r2) -> sort_nodes (d_h d) nodes = h_desc (d_h d) r2 ->
  h_next (d_h (fst (steal_nodes d r nodes))) = h_next (d_h d).
Proof.
  intros NE RT SO. rewrite (steal_unfold d r r2 nodes NE RT), SO. unfold steal_body.
  replace (same_nodes (h_desc (d_h d) r2) (h_desc (d_h d) r2)) with true by (symmetry; apply same_nodes_eq; auto).
  pose proof (loop_next r r2 true (h_desc (d_h d) r2) (h_desc (d_h d) r2) (d_h d) (Z.of_nat (length (h_desc (d_h d) r)))) as E.
  destruct (steal_loop _ _ _ _ _ _ _) as [h [[]|e|]]; cbn in *; auto.
Qed.
Lemma consistent_same h h' r : (forall y, live h r y -> same_object h h' y) -> h_next h <= h_next h' -> consistent h r -> consistent h' r.
Proof.
  intros S N C. destruct (S r (or_introl eq_refl)) as (K&O&P&CH&RT&D&_).
  assert (L : forall y, live h' r y <-> live h r y) by (intros y; unfold live; rewrite D; tauto).
  assert (SW : forall y, In y (h_desc h r) -> same_object h h' y) by (intros y I; apply S; right; auto).
  constructor; rewrite ?D.
  - apply (c_once _ _ C).
  - apply (c_rootout _ _ C).
  - rewrite <- (c_ords _ _ C). apply map_ext_in. intros y I. apply (SW y I).
  - rewrite O. apply (c_ord0 _ _ C).
  - intros x I. destruct (SW x I) as (_&_&P1&_). rewrite P1. destruct (c_parents _ _ C x I) as (q&E&Q). exists q. split; [auto|]. apply L. auto.
  - rewrite P. apply (c_top _ _ C).
  - intros y Ly. apply L in Ly. destruct (S y Ly) as (_&_&_&CH1&_). rewrite CH1, (c_children _ _ C y Ly). apply filter_ext_in'. intros x I.
    unfold has_parent. destruct (SW x I) as (_&_&P1&_). rewrite P1. auto.
  - intros x I. pose proof (c_connected _ _ C x I) as U. assert (Lx : live h r x) by (right; auto). clear I. induction U as [x p E|x p a E U IH].
    + constructor. destruct (S x Lx) as (_&_&P1&_). congruence.
    + apply up_S with p; [destruct (S x Lx) as (_&_&P1&_); congruence|]. apply IH; auto. destruct Lx as [->|I]; [rewrite (c_top _ _ C) in E; discriminate|]. destruct (c_parents _ _ C x I) as (q&E2&Q). congruence.
  - intros y Ly. apply L in Ly. destruct (S y Ly) as (_&_&_&_&R1&_). rewrite R1. apply (c_roots _ _ C). auto.
  - split; [|rewrite K; apply (c_kinds _ _ C)]. intros x I. destruct (SW x I) as (K1&_). rewrite K1. apply (c_kinds _ _ C). auto.
  - intros y Ly. apply L in Ly. pose proof (c_alloc _ _ C y Ly). lia.
Qed.

Lemma append_ok d p r tsp tsr : tokened d p tsp -> tokened d r tsr -> p <> r -> h_desc (d_h d) r <> [] ->
  exists d', append_tree d p r = (d', Ok tt) /\ tokened d' p (tsp ++ tsr) /\ h_desc (d_h d') p = h_desc (d_h d) p ++ h_desc (d_h d) r /\
    (forall w, In w (h_desc (d_h d) p) -> h_par (d_h d') w = h_par (d_h d) w) /\
    (forall w q, In w (h_desc (d_h d) r) -> h_par (d_h d) w = Some q -> h_par (d_h d') w = Some (if Nat.eqb q r then p else q)) /\
    (forall y, ~ live (d_h d) p y -> ~ live (d_h d) r y -> same_object (d_h d) (d_h d') y) /\
    h_emp (d_h d') = h_emp (d_h d) /\ h_next (d_h d') = h_next (d_h d) /\
    d_at d' = d_at d /\ d_mwt d' = d_mwt d /\ d_m d' = d_m d /\ d_mwts d' p = d_mwts d p ++ d_mwts d r /\
    (forall t, t <> p -> t <> r -> d_mwts d' t = d_mwts d t) /\
    ri_text (d_ri d' p) = Some (rstrip (flat_map (piece d) (tsp ++ tsr))) /\ (forall t, t <> p -> d_ri d' t = d_ri d t).
Proof.
  intros Tp Tr N NE. pose proof (t_tree _ _ _ Tp) as Cp. pose proof (t_tree _ _ _ Tr) as Cr.
  destruct (steal_whole d p r (h_desc (d_h d) r) Cp Cr N NE (Permutation_refl _)) as (d1&E&D1&D2&C1&_&PR&PP&FR&A&RI).
  destruct (steal_whole_mwts d p r (h_desc (d_h d) r) Cp Cr N NE (Permutation_refl _)) as (d1'&E'&M1&_&M2&MM&MW&EM). rewrite E in E'. injection E' as <-.
  assert (NX : h_next (d_h d1) = h_next (d_h d)).
  { pose proof (steal_next d p r (h_desc (d_h d) r) NE) as H. rewrite E in H. cbn [fst] in H. apply H.
    - intros y I. apply (c_roots _ _ Cr). right. auto.
    - rewrite (sorted_moved d r (h_desc (d_h d) r) Cr (c_once _ _ Cr)); [|intros x; auto|left; intros x; auto].
      apply filter_all. intros w I. apply mem_In. auto. }
  assert (T1 : tokened d1 p (tsp ++ tsr)).
  { assert (TW : forall t, token_words d1 t = token_words d t) by (intros [w|m]; simpl; rewrite ?MM; auto).
    constructor; [auto| | | |].
    - rewrite (flat_map_ext _ _ TW), flat_map_app, (t_words _ _ _ Tp), (t_words _ _ _ Tr). auto.
    - intros w I. rewrite MW. apply in_app_or in I as [I|I]; [apply (t_free _ _ _ Tp)|apply (t_free _ _ _ Tr)]; auto.
    - intros m I. rewrite MM, MW. apply in_app_or in I as [I|I]; [apply (t_mwt _ _ _ Tp)|apply (t_mwt _ _ _ Tr)]; auto.
    - intros t I. assert (EF : token_form d1 t = token_form d t) by (destruct t; simpl; rewrite ?A, ?MM; auto). rewrite EF.
      apply in_app_or in I as [I|I]; [apply (t_form _ _ _ Tp)|apply (t_form _ _ _ Tr)]; auto. }
  assert (EP : flat_map (piece d1) (tsp ++ tsr) = flat_map (piece d) (tsp ++ tsr)).
  { apply flat_map_ext. intros t. unfold piece. destruct t; simpl; rewrite ?A, ?MM; auto. }
  exists (set_text d1 p (rstrip (flat_map (piece d) (tsp ++ tsr)))). split.
  { unfold append_tree. rewrite E, bind_ok. rewrite (proj2 (tokened_ok _ _ _ T1)), EP. reflexivity. }
  split; [destruct T1; constructor; auto|]. split; [auto|]. split; [auto|]. split.
  { intros w q I Q. destruct (PR w I) as [P1 P2]. cbn [set_text put_ri d_h]. rewrite Q in *. destruct (Nat.eqb_spec q r) as [->|NQ]; [auto|]. apply P2. congruence. }
  split; [auto|]. split; [auto|]. split; [auto|]. split; [auto|]. split; [auto|]. split; [auto|]. split; [auto|]. split; [auto|].
  cbn [set_text put_ri d_ri]. unfold upd. split.
  - rewrite Nat.eqb_refl. auto.
  - intros t Nt. destruct (Nat.eqb_spec t p); [tauto|]. rewrite RI. auto.
Qed.

(** ---- documents as groups of the sentences of [d0] ---- *)
Section groups.
  Variables (d0 : doc) (tok : nat -> list token).
  Definition flat {A} (gs : list (A * list A)) : list A := flat_map (fun g => fst g :: snd g) gs.
  Definition same_print (d : doc) : Prop :=
    forall w, n_form (d_at d w) = n_form (d_at d0 w) /\ misc_of d w SpaceAfter = misc_of d0 w SpaceAfter.
  Definition text0 (l : list nat) : str := flat_map (fun r => flat_map (piece d0) (tok r)) l.
  Record group (d : doc) (p : nat) (l : list nat) : Prop := {
    g_tok : tokened d p (flat_map tok (p :: l));
    g_desc : h_desc (d_h d) p = flat_map (h_desc (d_h d0)) (p :: l);
    g_par : forall r w q, In r (p :: l) -> In w (h_desc (d_h d0) r) -> h_par (d_h d0) w = Some q ->
              h_par (d_h d) w = Some (if Nat.eqb q r then p else q);
    g_text : ri_text (d_ri d p) = match l with [] => ri_text (d_ri d0 p) | _ => Some (rstrip (text0 (p :: l))) end;
    g_mwts : d_mwts d p = flat_map (d_mwts d0) (p :: l)
  }.
  Record state (d : doc) (gs : list (nat * list nat)) : Prop := {
    s_groups : forall p l, In (p, l) gs -> group d p l;
    s_once : NoDup (flat gs);
    s_print : same_print d;
    s_mwt : d_mwt d = d_mwt d0; s_m : d_m d = d_m d0; s_emp : h_emp (d_h d) = h_emp (d_h d0)
  }.
  Lemma same_pieces d ts : same_print d -> d_m d = d_m d0 -> flat_map (piece d) ts = flat_map (piece d0) ts.
  Proof. intros P M. apply pieces_same; [intros m; rewrite M; auto|]. intros x _. apply P. Qed.
  Lemma flat_text l : flat_map (piece d0) (flat_map tok l) = text0 l.
  Proof. unfold text0. induction l as [|r l IH]; auto. cbn [flat_map]. rewrite flat_map_app, IH. auto. Qed.
  Lemma flat_app {A} (a b : list (A * list A)) : flat (a ++ b) = flat a ++ flat b.
  Proof. apply flat_map_app. Qed.

  (** a change of attributes which does not show in the text *)
  Lemma state_attrs d d' gs : skel d d' -> d_ri d' = d_ri d -> d_mwt d' = d_mwt d -> d_m d' = d_m d -> same_print d' -> state d gs -> state d' gs.
  Proof.
    intros S R EM EMM P [G O P0 MW MM EE]. destruct S as [SH _ SL _ _].
    constructor; auto; rewrite ?SH, ?EM, ?EMM; auto.
    intros p l I. destruct (G p l I) as [T D PA TX M]. constructor; rewrite ?SH, ?R, ?SL; auto.
    destruct T as [T1 T2 T3 T4 T5]. constructor; rewrite ?SH, ?EM; auto.
    - rewrite <- T2. apply flat_map_ext. intros [w|m]; simpl; rewrite ?EMM; auto.
    - intros m Im. rewrite EMM. auto.
    - intros [w|m] It; pose proof (T5 _ It) as F; simpl in *; [|rewrite EMM; auto].
      rewrite (proj1 (P w)), <- (proj1 (P0 w)). auto.
  Qed.
  Lemma state_live d gs p l q l' y : state d gs -> In (p, l) gs -> In (q, l') gs -> p <> q -> live (d_h d) p y -> ~ live (d_h d) q y.
  Proof.
    intros S I J N L L'. apply N. pose proof (t_tree _ _ _ (g_tok _ _ _ (s_groups _ _ S _ _ I))) as C. pose proof (t_tree _ _ _ (g_tok _ _ _ (s_groups _ _ S _ _ J))) as C'.
    rewrite <- (c_roots _ _ C y L). apply (c_roots _ _ C' y L').
  Qed.
  Lemma state_step d gs1 p l r gs2 : state d (gs1 ++ (p, l) :: (r, []) :: gs2) -> h_desc (d_h d0) r <> [] ->
    exists d', append_tree d p r = (d', Ok tt) /\ state d' (gs1 ++ (p, l ++ [r]) :: gs2) /\ d_at d' = d_at d.
  Proof.
    intros S NE. assert (Ip : In (p, l) (gs1 ++ (p, l) :: (r, []) :: gs2)) by (apply in_or_app; simpl; auto).
    assert (Ir : In (r, []) (gs1 ++ (p, l) :: (r, []) :: gs2)) by (apply in_or_app; simpl; auto).
    pose proof (s_groups _ _ S _ _ Ip) as Gp. pose proof (s_groups _ _ S _ _ Ir) as Gr.
    pose proof (s_once _ _ S) as O. rewrite flat_app in O. cbn [flat flat_map fst snd app] in O. fold (flat gs2) in O.
    assert (NPR : p <> r).
    { apply NoDup_app_inv in O as (_&O&_). rewrite app_comm_cons in O. apply NoDup_app_inv in O as (_&_&X). intros ->. apply (X r); simpl; auto. }
    assert (Dr : h_desc (d_h d) r = h_desc (d_h d0) r) by (rewrite (g_desc _ _ _ Gr); simpl; rewrite app_nil_r; auto).
    destruct (append_ok d p r (flat_map tok (p :: l)) (flat_map tok [r]) (g_tok _ _ _ Gp) (g_tok _ _ _ Gr) NPR)
      as (d'&E&T'&D'&PP&PR&FR&EM&NX&A&MW&MM&M1&M2&TX&RI); [rewrite Dr; auto|].
    exists d'. split; [auto|]. split; [|auto]. rewrite <- flat_map_app in T'. change ((p :: l) ++ [r]) with (p :: (l ++ [r])) in *.
    assert (SP : same_print d'). { intros w. unfold misc_of. rewrite A. apply (s_print _ _ S). }
    constructor; auto; [| |rewrite MW; apply S|rewrite MM; apply S|rewrite EM; apply S].
    - intros q l' I.
      assert (CASE : (q, l') = (p, l ++ [r]) \/ (In (q, l') (gs1 ++ (p, l) :: (r, []) :: gs2) /\ q <> p /\ q <> r)).
      { apply in_app_or in I. destruct I as [I|[I|I]]; [right|left; auto|right].
        - split; [apply in_or_app; auto|]. assert (Iq : In q (flat gs1)) by (apply in_flat_map; exists (q, l'); simpl; auto).
          apply NoDup_app_inv in O as (_&_&X). split; intros ->; apply (X _ Iq); simpl; auto. right. apply in_or_app. simpl. auto.
        - split; [apply in_or_app; simpl; auto|]. assert (Iq : In q (flat gs2)) by (apply in_flat_map; exists (q, l'); simpl; auto).
          apply NoDup_app_inv in O as (_&O&_). rewrite app_comm_cons in O. apply NoDup_app_inv in O as (_&O2&X).
          split; intros ->; [apply (X p); simpl; auto|]. apply NoDup_cons_iff in O2. tauto. }
      destruct CASE as [CE|(J&N1&N2)].
      + injection CE as -> ->. constructor; auto.
        * rewrite D', (g_desc _ _ _ Gp), Dr. cbn [flat_map]. rewrite <- app_assoc. f_equal. rewrite flat_map_app. simpl. rewrite app_nil_r. auto.
        * intros r' w q Ir' Iw Q. change (p :: l ++ [r]) with ((p :: l) ++ [r]) in Ir'. apply in_app_or in Ir' as [Ir'|[<-|[]]].
          -- rewrite PP; [apply (g_par _ _ _ Gp r' w q); auto|]. rewrite (g_desc _ _ _ Gp). apply in_flat_map. eauto.
          -- apply PR; [rewrite Dr; auto|]. rewrite (g_par _ _ _ Gr r w q) by (simpl; auto). destruct (Nat.eqb_spec q r) as [->|]; auto.
        * rewrite TX. rewrite (same_pieces d) by apply S. rewrite <- flat_map_app. change ((p :: l) ++ [r]) with (p :: (l ++ [r])).
          rewrite flat_text. destruct (l ++ [r]) eqn:EL; auto. destruct l; discriminate.
        * rewrite M1, (g_mwts _ _ _ Gp), (g_mwts _ _ _ Gr). change (p :: l ++ [r]) with ((p :: l) ++ [r]). rewrite flat_map_app. auto.
      + pose proof (s_groups _ _ S _ _ J) as [T D PA TXq M].
        assert (SO : forall y, live (d_h d) q y -> same_object (d_h d) (d_h d') y).
        { intros y L. apply FR; [apply (state_live d _ q l' p l y S J Ip N1 L)|apply (state_live d _ q l' r [] y S J Ir N2 L)]. }
        assert (DQ : h_desc (d_h d') q = h_desc (d_h d) q) by (apply (SO q); left; auto).
        constructor.
        * destruct T as [T1 T2 T3 T4 T5]. constructor; rewrite ?DQ, ?MW; auto.
          -- apply (consistent_same (d_h d)); auto. lia.
          -- rewrite <- T2. apply flat_map_ext. intros [w|m]; simpl; rewrite ?MM; auto.
          -- intros m Im. rewrite MM. auto.
          -- intros [w|m] It; pose proof (T5 _ It) as F; simpl in *; rewrite ?A, ?MM; auto.
        * rewrite DQ. auto.
        * intros r' w q' Ir' Iw Q. rewrite <- (PA r' w q' Ir' Iw Q). apply SO. right. rewrite D. apply in_flat_map. eauto.
        * rewrite RI by auto. auto.
        * rewrite M2 by auto. auto.
    - rewrite flat_app. cbn [flat flat_map fst snd]. fold (flat gs2). cbn [app]. rewrite <- app_assoc. auto.
  Qed.
  Lemma group_appended d gs p l : state d gs -> In (p, l) gs -> (forall r, In r (p :: l) -> tokened d0 r (tok r)) -> appended d0 d p l.
  Proof.
    intros S I T0. destruct (s_groups _ _ S _ _ I) as [T D PA TX M]. constructor; auto.
    - apply T.
    - exists (map tok (p :: l)). split.
      + clear - T0. induction (p :: l) as [|r k IH]; cbn [map]; constructor; [apply tokened_ok; apply T0; simpl; auto|]. apply IH. intros. apply T0. simpl. auto.
      + rewrite <- flat_map_concat_map. apply (tokened_ok _ _ _ T).
    - exists (map (fun r => flat_map (piece d0) (tok r)) (p :: l)). split.
      + clear - T0. induction (p :: l) as [|r k IH]; cbn [map]; constructor.
        * exists (tok r). pose proof (T0 r (or_introl eq_refl)) as T. split; [apply (tokened_ok _ _ _ T)|]. apply printed_of. apply T.
        * apply IH. intros. apply T0. simpl. auto.
      + rewrite <- flat_map_concat_map. fold (text0 (p :: l)). split; [|auto]. rewrite (proj2 (tokened_ok _ _ _ T)), (same_pieces d) by apply S. rewrite flat_text. auto.
    - rewrite (s_emp _ _ S). auto.
  Qed.
  Lemma state_start l : NoDup l -> (forall r, In r l -> tokened d0 r (tok r)) -> state d0 (map (fun r => (r, [])) l).
  Proof.
    intros N T. constructor; auto.
    - intros p k I. apply in_map_iff in I as (r&E&I). injection E as <- <-. constructor; simpl; rewrite ?app_nil_r; auto.
      intros r' w q [<-|[]] Iw Q. rewrite Q. destruct (Nat.eqb_spec q r); congruence.
    - replace (flat (map (fun r => (r, [])) l)) with l; auto. clear. induction l as [|x l IH]; simpl; auto. f_equal. auto.
    - intros w. auto.
  Qed.
End groups.
