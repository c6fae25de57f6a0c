(** Proofs about ud.JoinAsMwt. *)
From Coq Require Import String List NArith ZArith Bool Lia Permutation.
From Verif Require Import PyStr PyStrFacts PyList PyListFacts PyExn TreeModel TreeSpec TreeProps TreeOps
  DualDictModel DualDictSpec DualDictProofs DocModel MwtSpec MwtProofs TextSpace TokModel TokSpec TokProofs.
Import ListNotations.

Local Arguments dd_set : simpl never.
Local Arguments dd_get : simpl never.
Local Arguments dd_del : simpl never.

(** ---- states that differ only in how MISC is stored ---- *)
Definition sim (a b : attrs) : Prop :=
  same_but_misc a b /\ (forall k, misc_get (n_misc a) k = misc_get (n_misc b) k) /\ (good (n_misc b) -> good (n_misc a)).
Lemma sim_refl a : sim a a. Proof. repeat split; auto. Qed.
Lemma sim_trans a b c : sim a b -> sim b c -> sim a c.
Proof.
  intros (S1&M1&G1) (S2&M2&G2). split; [unfold same_but_misc in *; intuition congruence|]. split; [intros; rewrite M1; auto|auto].
Qed.
Record skel (d d' : doc) : Prop := {
  sk_h : d_h d' = d_h d; sk_mwt : forall w, d_mwt d' w = d_mwt d w; sk_mwts : forall r, d_mwts d' r = d_mwts d r;
  sk_m : forall m, d_m d' m = d_m d m; sk_next : d_mnext d' = d_mnext d
}.
Lemma skel_refl d : skel d d. Proof. constructor; auto. Qed.
Lemma skel_trans a b c : skel a b -> skel b c -> skel a c.
Proof. intros [] []. constructor; intros; congruence. Qed.
Lemma skel_put d x a : skel d (put_at d x a).
Proof. constructor; auto. Qed.
Lemma skel_agree d d' : skel d d' -> mwts_agree d -> mwts_agree d'.
Proof.
  intros [H K L M N] [A B C]. constructor.
  - intros r. rewrite L. auto.
  - intros r m. rewrite L, M. intros I. destruct (B r m I) as [B1 B2]. split; auto. intros w Iw. rewrite K. auto.
  - intros w m. rewrite K, M, L. apply C.
Qed.
Lemma skel_minv d d' : skel d d' -> minv d -> minv d'.
Proof.
  intros S [A B C D]. constructor.
  - apply (skel_agree _ _ S A).
  - intros r m. rewrite (sk_mwts _ _ S), (sk_next _ _ S). apply B.
  - intros r. rewrite (sk_mwts _ _ S), (sk_h _ _ S). apply C.
  - intros w m. rewrite (sk_mwt _ _ S), (sk_h _ _ S). apply D.
Qed.
Lemma words_skel d d' : (forall m, d_m d' m = d_m d m) -> forall t, token_words d' t = token_words d t.
Proof. intros E [x|m]; simpl; auto. rewrite E. auto. Qed.
Lemma skel_view d d' r ts : skel d d' -> view d r ts -> view d' r ts.
Proof.
  intros S [C A W F M N E]. pose proof S as [SH SK SL SM SN]. constructor.
  - rewrite SH. auto.
  - apply (skel_agree _ _ S A).
  - rewrite SH, <- W. apply flat_map_ext. apply words_skel. auto.
  - intros w. rewrite SK. auto.
  - intros m. rewrite SL. auto.
  - intros m. rewrite SM. auto.
  - rewrite SH. auto.
Qed.

Lemma read_misc_ok d x k : exists d', read_misc d x k = (d', misc_of d x k) /\ skel d d' /\
  (forall w, sim (d_at d' w) (d_at d w)) /\ (forall w, w <> x -> d_at d' w = d_at d w).
Proof.
  unfold read_misc, misc_of, misc_get. destruct (dd_get (dd_prop (n_misc (d_at d x))) k) as [m v] eqn:E. cbn [snd].
  eexists. split; [reflexivity|]. split; [apply skel_put|]. split.
  - intros w. cbn [put_at d_at]. unfold upd. destruct (Nat.eqb_spec w x); [subst w|apply sim_refl]. split; [repeat split|].
    cbn [set_misc n_misc]. assert (Em : m = fst (dd_get (dd_prop (n_misc (d_at d x))) k)) by (rewrite E; auto). rewrite Em. split.
    + intros k'. apply get_after_get.
    + apply good_get.
  - intros w N. cbn [put_at d_at]. unfold upd. destruct (Nat.eqb_spec w x); tauto.
Qed.

Section join.
  Variable alpha : N -> bool.
  Notation glued := (glued alpha). Notation chain := (chain alpha). Notation ends := (ends alpha).
  Notation joins_next := (joins_next alpha). Notation join_run := (join_run alpha). Notation regrouped := (regrouped alpha).

  Lemma glued_sim d d' x y : sim (d_at d' x) (d_at d x) -> sim (d_at d' y) (d_at d y) -> glued d x y -> glued d' x y.
  Proof.
    intros (S1&M1&_) (S2&_&_) (G1&f&a&b&g&F1&F2&Aa&Ab). split; [unfold misc_of in *; rewrite M1; auto|].
    exists f, a, b, g. destruct S1 as [-> _], S2 as [-> _]. auto.
  Qed.
  Lemma sim_sym_glued d d' x y : sim (d_at d' x) (d_at d x) -> sim (d_at d' y) (d_at d y) -> glued d' x y -> glued d x y.
  Proof.
    intros (S1&M1&_) (S2&_&_) (G1&f&a&b&g&F1&F2&Aa&Ab). split; [unfold misc_of in *; rewrite <- M1; auto|].
    exists f, a, b, g. destruct S1 as [<- _], S2 as [<- _]. auto.
  Qed.

  Definition has_form (d : doc) (x : nat) : Prop := exists c f, n_form (d_at d x) = Some (c :: f).

  Lemma next_word d r pre x post : consistent (d_h d) r -> h_desc (d_h d) r = pre ++ x :: post ->
    next_node (d_h d) x = hd_error post.
  Proof.
    intros C E. destruct (neighbours_prop (d_h d) r C (S (length pre)) x) as [-> _].
    - cbn [nth_error]. rewrite E, nth_error_app2 by lia. rewrite Nat.sub_diag. auto.
    - change (nth_error (h_desc (d_h d) r) (1 + length pre) = hd_error post). rewrite E, nth_error_app2 by lia.
      replace (1 + length pre - length pre) with 1 by lia. cbn [nth_error]. destruct post; auto.
  Qed.

  Lemma joins_next_ok d r pre x post : consistent (d_h d) r -> h_desc (d_h d) r = pre ++ x :: post ->
    has_form d x -> (forall y, In y post -> has_form d y) ->
    exists d1 o, joins_next d x = (d1, Ok o) /\ skel d d1 /\ (forall w, sim (d_at d1 w) (d_at d w)) /\
      (forall w, w <> x -> d_at d1 w = d_at d w) /\
      match o with
      | Some y => exists post', post = y :: post' /\ d_mwt d y = None /\ glued d x y
      | None => match post with [] => True | y :: _ => d_mwt d y <> None \/ ~ glued d x y end
      end.
  Proof.
    intros C E FX FP. unfold TokModel.joins_next. destruct (read_misc_ok d x SpaceAfter) as (d1&->&S1&SI&FR).
    exists d1. destruct (val_is (misc_of d x SpaceAfter) No) eqn:V.
    2:{ exists None. split; [auto|]. split; [auto|]. split; [auto|]. split; [auto|]. destruct post as [|y post]; auto. right.
        intros (G&_). fold SpaceAfter in G. fold No in G. rewrite G in V. simpl in V. try rewrite str_eqb_refl in V. discriminate. }
    rewrite (sk_h _ _ S1), (next_word d r pre x post C E).
    destruct post as [|y post]; cbn [hd_error]; [exists None; auto 10|]. rewrite (sk_mwt _ _ S1).
    destruct (d_mwt d y) as [m|] eqn:EM. { exists None. repeat (split; [solve [auto]|]). left. discriminate. }
    destruct FX as (c&f&FX). destruct (FP y (or_introl eq_refl)) as (b&g&FY).
    assert (F1 : n_form (d_at d1 x) = Some (c :: f)) by (rewrite <- FX; apply (SI x)).
    assert (F2 : n_form (d_at d1 y) = Some (b :: g)) by (rewrite <- FY; apply (SI y)).
    rewrite F1, F2. cbn [last_alpha first_alpha].
    destruct (@exists_last _ (c :: f)) as (f0&a&EL); [discriminate|]. rewrite EL, last_opt_app. cbn [rbind].
    assert (GL : glued d x y <-> alpha a = true /\ alpha b = true).
    { split.
      - intros (_&f1&a1&b1&g1&H1&H2&H3&H4). rewrite FX, EL in H1. rewrite FY in H2. injection H1 as H1. injection H2 as <- <-.
        apply app_inj_tail in H1 as [_ ->]. auto.
      - intros [Ha Hb]. split.
        + fold SpaceAfter. fold No. destruct (misc_of d x SpaceAfter) as [| |v]; try discriminate. simpl in V. apply str_eqb_eq in V. congruence.
        + exists f0, a, b, g. rewrite <- EL. auto. }
    destruct (alpha a); cbn [rbind].
    - destruct (alpha b).
      + exists (Some y). repeat (split; [solve [auto]|]). exists post. repeat (split; [solve [auto]|]). apply GL. auto.
      + exists None. repeat (split; [solve [auto]|]). right. rewrite GL. intros [_ ?]; discriminate.
    - exists None. repeat (split; [solve [auto]|]). right. rewrite GL. intros [? _]; discriminate.
  Qed.

  Lemma join_run_ok : forall fl d r pre x post, length post <= fl -> consistent (d_h d) r -> h_desc (d_h d) r = pre ++ x :: post ->
    (forall y, In y (x :: post) -> has_form d y) ->
    exists d1 l post', join_run fl d x = (d1, Ok l) /\ skel d d1 /\ (forall w, sim (d_at d1 w) (d_at d w)) /\
      (forall w, ~ In w (x :: l) -> d_at d1 w = d_at d w) /\
      post = l ++ post' /\ (forall y, In y l -> d_mwt d y = None) /\ chain d (x :: l) /\
      match post' with [] => True | y :: _ => d_mwt d y <> None \/ ~ glued d (last (x :: l) x) y end.
  Proof.
    induction fl as [|fl IH]; intros d r pre x post LE C E F;
      (destruct (joins_next_ok d r pre x post C E) as (d1&o&EJ&S1&SI&FR&O); [apply F; simpl; auto|intros; apply F; simpl; auto|]).
    - destruct post; [|simpl in LE; lia]. destruct o as [y|]; [destruct O as (?&?&_); discriminate|].
      exists d1, [], []. cbn [TokModel.join_run]. rewrite EJ. cbn [bind]. split; [auto|]. split; [auto|]. split; [auto|]. split; [|simpl; repeat split; tauto].
      intros w N. apply FR. simpl in N. intuition.
    - cbn [TokModel.join_run]. rewrite EJ. cbn [bind]. destruct o as [y|].
      2:{ exists d1, [], post. split; [auto|]. split; [auto|]. split; [auto|]. split; [|simpl; repeat split; auto; tauto].
          intros w N. apply FR. simpl in N. intuition. }
      destruct O as (post1&->&MY&GY).
      destruct (IH d1 r (pre ++ [x]) y post1) as (d2&l&post'&EJ2&S2&SI2&FR2&EP&ML&CH&ST).
      + simpl in LE. lia.
      + rewrite (sk_h _ _ S1). auto.
      + rewrite (sk_h _ _ S1), E, <- app_assoc. auto.
      + intros z I. destruct (F z) as (c&f&FZ); [simpl in *; tauto|]. exists c, f. rewrite <- FZ. apply (SI z).
      + rewrite EJ2. cbn [bind]. exists d2, (y :: l), post'. split; [auto|]. split; [eapply skel_trans; eauto|].
        split; [intros w; eapply sim_trans; eauto|]. split.
        * intros w N. rewrite FR2, FR; auto; simpl in *; intuition.
        * split; [rewrite EP; auto|]. split.
          { intros z [<-|I]; auto. rewrite <- (sk_mwt _ _ S1). auto. }
          assert (CC : forall l, chain d1 l -> chain d l).
          { clear - SI. induction l as [|a l IH]; intros H; [exact Logic.I|]. destruct l as [|b l]; [exact Logic.I|].
            cbn [TokSpec.chain] in *. destruct H as [H1 H2]. split; [|apply IH; auto]. eapply sim_sym_glued; eauto. }
          split; [split; [auto|apply CC; auto]|].
          destruct post' as [|z post']; auto. rewrite (sk_mwt _ _ S1) in ST.
          assert (EL : last (x :: y :: l) x = last (y :: l) y). { clear. cbn [last]. revert y. induction l as [|a l IH]; intros y; auto. cbn [last] in *. destruct l; auto. }
          rewrite EL. destruct ST as [ST|ST]; [auto|]. right. intros G. apply ST. eapply glued_sim; eauto.
  Qed.

  Lemma forms_ok d : forall l, (forall x, In x l -> has_form d x) -> forms d l = Ok (flat_map (form_of d) l).
  Proof.
    induction l as [|x l IH]; intros F; auto. cbn [forms flat_map]. destruct (F x) as (c&f&E); [simpl; auto|].
    unfold form_of at 1. rewrite E, IH by (intros; apply F; simpl; auto). auto.
  Qed.

  (** ---- what happens to the words of the new token ---- *)
  Lemma del_space_ok : forall l d, skel d (del_space_after d l) /\ (forall x, ~ In x l -> d_at (del_space_after d l) x = d_at d x) /\
    (forall x, good (n_misc (d_at d x)) -> misc_of d x SpaceAfter = VStr [] -> sim (d_at (del_space_after d l) x) (d_at d x)).
  Proof.
    induction l as [|x l IH]; intros d; [split; [apply skel_refl|]; split; [auto|intros; apply sim_refl]|].
    cbn [del_space_after]. set (d1 := put_at d x _). destruct (IH d1) as (S&FR&SI).
    split; [eapply skel_trans; [apply skel_put|exact S]|]. split.
    - intros y N. rewrite FR by (simpl in N; tauto). unfold d1. cbn [put_at d_at]. unfold upd. destruct (Nat.eqb_spec y x); auto.
      simpl in N. subst. tauto.
    - intros y G E. assert (S1 : sim (d_at d1 y) (d_at d y)).
      { unfold d1. cbn [put_at d_at]. unfold upd. destruct (Nat.eqb_spec y x); [subst y|apply sim_refl]. split; [repeat split|].
        cbn [set_misc n_misc]. split; [|intros _; apply good_del; auto]. intros k. rewrite get_after_del by auto.
        destruct (str_eqb_spec k SpaceAfter); auto. subst. symmetry. exact E. }
      eapply sim_trans; [apply SI|exact S1]; destruct S1 as (_&M1&G1); [auto|]. unfold misc_of in *. rewrite M1. auto.
  Qed.

  (** FORM and MISC of a word with OrigForm after its form has been reverted *)
  Definition reverted (a b : attrs) : Prop :=
    same_but_form_misc a b /\ (good (n_misc b) -> good (n_misc a)) /\
    n_form a = match misc_get (n_misc b) OrigForm with VStr (c :: f) => Some (c :: f) | _ => n_form b end /\
    misc_get (n_misc a) OrigForm = VStr [] /\
    (forall k, k <> OrigForm -> misc_get (n_misc a) k = misc_get (n_misc b) k).
  Lemma reverted_ok : forall l d, NoDup l -> (forall x, In x l -> good (n_misc (d_at d x)) /\ exists f, misc_of d x OrigForm = VStr f) ->
    skel d (revert_forms d l) /\ (forall x, ~ In x l -> d_at (revert_forms d l) x = d_at d x) /\
    (forall x, In x l -> reverted (d_at (revert_forms d l) x) (d_at d x)).
  Proof.
    induction l as [|x l IH]; intros d ND G; [split; [apply skel_refl|]; split; [auto|intros x []]|].
    cbn [revert_forms]. destruct (read_misc_ok d x OrigForm) as (d1&->&S1&SI&FR).
    destruct (G x) as [Gx (f&Ef)]; [simpl; auto|]. rewrite Ef. apply NoDup_cons_iff in ND as [NI ND].
    match goal with |- context [revert_forms ?y l] => set (d2 := y) end.
    assert (SK2 : skel d d2). { unfold d2. destruct (truthy (VStr f)); auto. eapply skel_trans; [exact S1|apply skel_put]. }
    assert (FR2 : forall w, w <> x -> d_at d2 w = d_at d w).
    { intros w N. unfold d2. destruct (truthy (VStr f)); auto. cbn [put_at d_at]. unfold upd. destruct (Nat.eqb_spec w x); [tauto|]. auto. }
    assert (R2 : reverted (d_at d2 x) (d_at d x)).
    { destruct (SI x) as (SB&MM&GG). unfold misc_of in Ef. unfold d2. destruct f as [|c f]; cbn [truthy].
      - split; [destruct SB; auto|]. split; [auto|]. rewrite Ef. split; [apply SB|]. rewrite !MM. split; auto.
      - cbn [put_at d_at]. unfold upd. rewrite Nat.eqb_refl. cbn [set_misc set_form n_misc].
        split. { destruct SB as (?&?&?&?&?&?&?&?). repeat split; auto. }
        split; [intros; apply good_del; auto|]. cbn [n_form]. rewrite Ef. split; [auto|]. split.
        + cbn [set_misc set_form n_misc]. rewrite get_after_del, str_eqb_refl; auto.
        + intros k N. cbn [set_misc set_form n_misc]. rewrite get_after_del by auto. apply str_eqb_neq in N. rewrite N. auto. }
    destruct (IH d2) as (S3&F3&R3); [auto|..].
    { intros y I. destruct (Nat.eq_dec y x) as [->|N]; [tauto|]. unfold misc_of. rewrite FR2 by auto. apply G. simpl. auto. }
    split; [eapply skel_trans; eauto|]. split.
    - intros y N. simpl in N. rewrite F3, FR2; auto.
    - intros y [<-|I]; [rewrite F3; auto|]. rewrite <- (FR2 y) by (intros ->; tauto). auto.
  Qed.

  Lemma split_words d : forall l tp post', flat_map (token_words d) tp = l ++ post' -> (forall y, In y l -> d_mwt d y = None) ->
    (forall m, In (TMwt m) tp -> m_words (d_m d m) <> [] /\ forall w, In w (m_words (d_m d m)) -> d_mwt d w = Some m) ->
    exists tp', tp = map TWord l ++ tp' /\ flat_map (token_words d) tp' = post'.
  Proof.
    induction l as [|y l IH]; intros tp post' E F M; [exists tp; auto|].
    destruct tp as [|[z|m] tp]; [discriminate|..].
    - simpl in E. injection E as -> E. destruct (IH tp post' E) as (tp'&->&H).
      + intros; apply F; simpl; auto.
      + intros; apply M; simpl; auto.
      + exists tp'. auto.
    - exfalso. destruct (M m) as [N W]; [simpl; auto|]. simpl in E. destruct (m_words (d_m d m)) as [|w ws]; [tauto|].
      injection E as -> _. specialize (W y (or_introl eq_refl)). rewrite F in W by (simpl; auto). discriminate.
  Qed.
  Lemma view_mwt d r ts m : view d r ts -> In (TMwt m) ts ->
    m_words (d_m d m) <> [] /\ forall w, In w (m_words (d_m d m)) -> d_mwt d w = Some m.
  Proof. intros V I. split; [apply (v_ne _ _ _ V); auto|]. apply (v_mwts _ _ _ V) in I. apply (ma_listed _ (v_agree _ _ _ V) _ _ I). Qed.

  Definition newattrs (revert : bool) (a b : attrs) : Prop :=
    same_but_form_misc a b /\ good (n_misc a) /\
    n_form a = (if revert then match misc_get (n_misc b) OrigForm with VStr (c :: f) => Some (c :: f) | _ => n_form b end else n_form b) /\
    misc_get (n_misc a) SpaceAfter = VStr [] /\
    (revert = true -> misc_get (n_misc a) OrigForm = VStr []) /\
    (forall k, k <> SpaceAfter -> (revert = true -> k <> OrigForm) -> misc_get (n_misc a) k = misc_get (n_misc b) k).
  Definition word_ok (d : doc) (w : nat) : Prop :=
    has_form d w /\ good (n_misc (d_at d w)) /\ exists f, misc_of d w OrigForm = VStr f.
  Lemma word_ok_sim d d' w : sim (d_at d' w) (d_at d w) -> word_ok d w -> word_ok d' w.
  Proof.
    intros (S&M&G) ((c&f&F)&Gd&g&E). split; [exists c, f; destruct S as [-> _]; auto|]. split; [auto|].
    exists g. unfold misc_of in *. rewrite M. auto.
  Qed.

  Lemma join_step revert d r done x tp : view d r (done ++ TWord x :: tp) -> minv d ->
    (forall w, In w (flat_map (token_words d) (TWord x :: tp)) -> word_ok d w) ->
    exists d', join_node alpha revert d x = (d', Ok tt) /\ d_h d' = d_h d /\ minv d' /\
     ((skel d d' /\ (forall w, sim (d_at d' w) (d_at d w)) /\ (forall w, w <> x -> d_at d' w = d_at d w) /\ ends d x tp) \/
      exists l z tp', l <> [] /\ TWord x :: tp = map TWord (l ++ [z]) ++ tp' /\ chain d (l ++ [z]) /\ ends d z tp' /\
        view d' r (done ++ TMwt (d_mnext d) :: tp') /\ d_mnext d' = S (d_mnext d) /\
        (forall m, m <> d_mnext d -> d_m d' m = d_m d m) /\
        m_words (d_m d' (d_mnext d)) = l ++ [z] /\ m_form (d_m d' (d_mnext d)) = Some (flat_map (form_of d) (l ++ [z])) /\
        (forall k, misc_get (m_misc (d_m d' (d_mnext d))) k =
           if str_eqb k SpaceAfter && val_is (misc_of d z SpaceAfter) No then VStr No else VStr []) /\
        (forall r', r' <> r -> d_mwts d' r' = d_mwts d r') /\
        (forall w, ~ In w (l ++ [z]) -> d_at d' w = d_at d w /\ d_mwt d' w = d_mwt d w) /\
        (forall w, In w (l ++ [z]) -> newattrs revert (d_at d' w) (d_at d w) /\ d_mwt d' w = Some (d_mnext d))).
  Proof.
    intros V MI F. pose proof (v_tree _ _ _ V) as C.
    assert (MX : d_mwt d x = None) by (apply (v_free _ _ _ V); apply in_or_app; simpl; auto).
    assert (ED : h_desc (d_h d) r = flat_map (token_words d) done ++ x :: flat_map (token_words d) tp)
      by (rewrite <- (v_words _ _ _ V), flat_map_app; auto).
    assert (RX : h_root (d_h d) x = r) by (apply (c_roots _ _ C); right; rewrite ED; apply in_or_app; simpl; auto).
    unfold join_node. rewrite MX, RX.
    assert (LE : length (flat_map (token_words d) tp) <= length (h_desc (d_h d) r)) by (rewrite ED, app_length; simpl; lia).
    destruct (join_run_ok (length (h_desc (d_h d) r)) d r _ x _ LE C ED)
      as (d1&l0&post'&EJ&S1&SI&FR&EP&ML&CH&ST).
    { intros y I. apply F. exact I. }
    rewrite EJ. cbn [bind]. pose proof (skel_minv _ _ S1 MI) as MI1.
    destruct (split_words d l0 tp post' EP ML) as (tp'&->&EP').
    { intros m I. apply (view_mwt d r _ m V). apply in_or_app. simpl. auto. }
    assert (VM : forall m, In (TMwt m) tp' -> m_words (d_m d m) <> [] /\ forall w, In w (m_words (d_m d m)) -> d_mwt d w = Some m).
    { intros m I. apply (view_mwt d r _ m V). apply in_or_app. simpl. right. right. apply in_or_app. auto. }
    assert (FE : ends d (last (x :: l0) x) tp').
    { destruct tp' as [|[y|m] tp']; simpl; auto. simpl in EP'. subst post'. destruct ST as [ST|ST]; auto. elim ST.
      apply (v_free _ _ _ V). apply in_or_app. simpl. right. right. apply in_or_app. simpl. auto. }
    destruct l0 as [|y0 l0].
    { exists d1. split; [auto|]. split; [apply S1|]. split; [auto|]. left. split; [auto|]. split; [auto|]. split; [|auto].
      intros w N. apply FR. simpl. intuition. }
    set (nodes := x :: y0 :: l0) in *.
    destruct (@exists_last _ nodes) as (l&z&EN); [discriminate|].
    assert (EL : last nodes x = z) by (rewrite EN; apply last_last).
    assert (NDN : NoDup nodes).
    { pose proof (c_once _ _ C) as ND. rewrite ED, flat_map_app in ND. apply NoDup_app_inv in ND as (_&ND&_).
      assert (EE : flat_map (token_words d) (map TWord (y0 :: l0)) = y0 :: l0).
      { generalize (y0 :: l0). induction l1; simpl; auto. f_equal. auto. }
      rewrite EE in ND. change (x :: (y0 :: l0) ++ flat_map (token_words d) tp') with (nodes ++ flat_map (token_words d) tp') in ND.
      apply NoDup_app_inv in ND. tauto. }
    assert (FN : forall w, In w nodes -> word_ok d w).
    { intros w I. apply F. cbn [flat_map token_words app]. destruct I as [<-|I]; [simpl; auto|]. right.
      change (In w (flat_map (token_words d) (map TWord (y0 :: l0) ++ tp'))). rewrite EP. apply in_or_app. left. assumption. }
    assert (FN1 : forall w, In w nodes -> word_ok d1 w) by (intros w I; apply (word_ok_sim d); auto).
    assert (FM : forall w, In w nodes -> d_mwt d w = None) by (intros w [<-|I]; auto).
    assert (FOE : forall w, form_of d1 w = form_of d w). { intros w. unfold form_of. destruct (SI w) as ((->&_)&_). auto. }
    rewrite forms_ok by (intros w I; apply FN1; auto). cbn [bind]. rewrite (sk_h _ _ S1), RX.
    destruct (create_mwt_ok d1 r nodes (Some (flat_map (form_of d1) nodes)) [] MI1) as (d2&E1&E2&A2&H2&_&N2&L2&K2&M2&W2&O2&R2).
    destruct (create_mwt_space d1 r nodes (Some (flat_map (form_of d1) nodes)) [] z MI1) as (P1&P2&P3);
      [rewrite EN; apply last_opt_app|intros w I; apply FN1; auto|]. cbv zeta in *. rewrite E1 in *.
    destruct (create_multiword_token d1 r nodes _ []) as [d2' o2]. cbn [fst snd] in E1, E2. subst d2' o2.
    change (match nodes with [] => Raise IndexError | _ => Ok (d_mnext d1) end) with (Ok (d_mnext d1)). cbn [bind].
    change (match nodes with [] => x | _ => last nodes x end) with (last nodes x). rewrite EL.
    destruct (read_misc_ok d2 z SpaceAfter) as (d3&->&S3&SI3&FR3).
    assert (Iz : In z nodes) by (rewrite EN; apply in_or_app; simpl; auto).
    assert (EV : misc_of d2 z SpaceAfter = VStr []) by (apply (P2 z Iz)). rewrite EV. change (val_is (VStr []) No) with false. cbn [bind].
    destruct (del_space_ok nodes d3) as (S4&FR4&SI4).
    assert (SA3 : forall w, In w nodes -> sim (d_at (del_space_after d3 nodes) w) (d_at d2 w)).
    { intros w I. destruct (P2 w I) as (Q1&Q2&Q3&Q4). eapply sim_trans; [|apply SI3]. destruct (SI3 w) as (_&MM&GG).
      apply SI4; [auto|]. unfold misc_of. rewrite MM. auto. }
    set (d4 := del_space_after d3 nodes) in *.
    set (d5 := if revert then revert_forms d4 nodes else d4).
    assert (G5 : skel d4 d5 /\ (forall w, ~ In w nodes -> d_at d5 w = d_at d4 w) /\
      (forall w, In w nodes -> if revert then reverted (d_at d5 w) (d_at d4 w) else d_at d5 w = d_at d4 w)).
    { unfold d5. destruct revert; [|split; [apply skel_refl|auto]].
      apply reverted_ok; [auto|]. intros w I. destruct (SA3 w I) as (_&MM&GG). destruct (P2 w I) as (Q1&Q2&Q3&Q4). split; [auto|].
      destruct (FN1 w I) as (_&_&f&Ef). exists f. unfold misc_of in *. rewrite MM, Q2, Ef; auto. discriminate. }
    destruct G5 as (S5&FR5&R5).
    assert (SK : skel d2 d5) by (eapply skel_trans; [exact S3|eapply skel_trans; eauto]).
    pose proof (sk_next _ _ S1) as NX.
    assert (OV : forall r' m, In m (d_mwts d r') -> overlaps d1 nodes m = false).
    { intros r' m I. unfold overlaps. rewrite (sk_m _ _ S1). apply not_true_is_false. intros X.
      apply existsb_exists in X as (w&Iw&Jw). apply mem_In in Jw. destruct (ma_listed _ (v_agree _ _ _ V) _ _ I) as [_ LW].
      specialize (LW w Iw). rewrite FM in LW by auto. discriminate. }
    assert (LL : forall r', d_mwts d2 r' = d_mwts d r' ++ (if Nat.eqb r' r then [d_mnext d] else [])).
    { intros r'. rewrite L2, NX, (sk_mwts _ _ S1). f_equal. apply filter_all. intros m I. rewrite (OV r' m I). auto. }
    assert (KK : forall w, d_mwt d2 w = if mem w nodes then Some (d_mnext d) else d_mwt d w).
    { intros w. rewrite K2, NX, (sk_mwt _ _ S1). destruct (mem w nodes); auto. destruct (d_mwt d w) as [m|] eqn:EM; auto.
      destruct (ma_known _ (v_agree _ _ _ V) _ _ EM) as [IL _]. rewrite (OV _ _ IL). auto. }
    assert (MI2 : minv d2).
    { constructor; auto.
      - intros r' m. rewrite LL, N2, NX. intros I. apply in_app_or in I as [I|I].
        + apply (mi_next _ MI) in I. lia.
        + destruct (Nat.eqb r' r); [destruct I as [<-|[]]; lia|destruct I].
      - intros r' LR. rewrite H2, (sk_h _ _ S1) in LR. rewrite LL, (mi_roots _ MI) by auto.
        destruct (Nat.eqb_spec r' r); auto. subst r'. pose proof (c_alloc _ _ C r (or_introl eq_refl)). lia.
      - intros w m. rewrite KK, H2, (sk_h _ _ S1). destruct (mem w nodes) eqn:EM; [|apply (mi_words _ MI)]. intros _.
        apply mem_In in EM. apply (c_alloc _ _ C). right. rewrite ED. apply in_or_app. right.
        destruct EM as [<-|EM]; [simpl; auto|]. right. cbn [app]. rewrite EP. apply in_or_app. left. assumption. }
    exists d5. split; [auto|]. split; [rewrite (sk_h _ _ SK), H2; apply S1|]. split; [apply (skel_minv _ _ SK MI2)|]. right.
    exists l, z, tp'. rewrite <- EN.
    assert (MM2 : forall m, m <> d_mnext d -> d_m d2 m = d_m d m). { intros m N. rewrite M2 by congruence. apply S1. }
    assert (OLD : forall m, In m (d_mwts d r) -> m <> d_mnext d). { intros m I. apply (mi_next _ MI) in I. lia. }
    rewrite NX in *.
    split. { intros ->. cbn [app] in EN. unfold nodes in EN. discriminate. }
    split; [reflexivity|]. split; [exact CH|]. split; [rewrite <- EL; exact FE|]. split.
    { apply (skel_view d2); [exact SK|]. constructor.
      - rewrite H2, (sk_h _ _ S1). auto.
      - auto.
      - rewrite H2, (sk_h _ _ S1), ED, !flat_map_app. cbn [flat_map token_words]. rewrite W2.
        assert (TW : forall ts, (forall m, In (TMwt m) ts -> m <> d_mnext d) -> flat_map (token_words d2) ts = flat_map (token_words d) ts).
        { intros ts H. apply flat_map_ext_in. intros [w|m] I; simpl; auto. rewrite MM2; auto. }
        rewrite !TW.
        + f_equal. unfold nodes. cbn [app]. f_equal. assert (EE : flat_map (token_words d) (map TWord (y0 :: l0)) = y0 :: l0).
          { generalize (y0 :: l0). induction l1; simpl; auto. f_equal. auto. }
          rewrite EE. auto.
        + intros m I. apply OLD. apply (v_mwts _ _ _ V). apply in_or_app. right. right. apply in_or_app. auto.
        + intros m I. apply OLD. apply (v_mwts _ _ _ V). apply in_or_app. auto.
      - assert (NW : forall w, In (TWord w) (done ++ tp') -> ~ In w nodes /\ d_mwt d w = None).
        { intros w I. split.
          - intros J. pose proof (c_once _ _ C) as ND. rewrite <- (v_words _ _ _ V) in ND.
            apply in_app_or in I as [I|I].
            + rewrite flat_map_app in ND. apply NoDup_app_inv in ND as (_&_&D). apply (D w).
              * apply in_flat_map. exists (TWord w). simpl. auto.
              * destruct J as [<-|J]; [simpl; auto|]. right. cbn [app]. rewrite EP. apply in_or_app. left. assumption.
            + change (TWord x :: map TWord (y0 :: l0) ++ tp') with (map TWord nodes ++ tp') in ND.
              rewrite !flat_map_app in ND. apply NoDup_app_inv in ND as (_&ND&_). apply NoDup_app_inv in ND as (_&_&D). apply (D w).
              * apply in_flat_map. exists (TWord w). split; [apply in_map; auto|simpl; auto].
              * apply in_flat_map. exists (TWord w). simpl. auto.
          - apply (v_free _ _ _ V). apply in_or_app. apply in_app_or in I as [I|I]; auto. right. right. apply in_or_app. auto. }
        intros w I. destruct (NW w) as [N1 N3]. { apply in_app_or in I as [I|[I|I]]; [|discriminate|]; apply in_or_app; auto. }
        rewrite KK. destruct (mem w nodes) eqn:EM; auto. apply mem_In in EM. tauto.
      - intros m. rewrite LL, Nat.eqb_refl. pose proof (v_mwts _ _ _ V m) as VV. rewrite !in_app_iff in *. cbn [In] in *.
        rewrite in_app_iff, in_map_iff in VV. split.
        + intros [I|[E|I]]; [left; apply VV; auto|injection E as <-; auto|left; apply VV; auto].
        + intros [I|[<-|[]]]; [|auto]. apply VV in I as [I|[E|[(w&E&_)|I]]]; try discriminate; auto.
      - intros m I. destruct (Nat.eq_dec m (d_mnext d)) as [->|N]; [rewrite W2; discriminate|]. rewrite MM2 by auto.
        apply (v_ne _ _ _ V). apply in_app_or in I as [I|[E|I]]; [apply in_or_app; auto|congruence|].
        apply in_or_app. right. right. apply in_or_app. auto.
      - rewrite H2, (sk_h _ _ S1). apply V. }
    split; [rewrite (sk_next _ _ SK); auto|]. split; [intros m N; rewrite (sk_m _ _ SK); auto|]. rewrite (sk_m _ _ SK).
    split; [auto|]. split; [rewrite O2; f_equal; apply flat_map_ext; auto|]. split.
    { intros k. rewrite P3. destruct (SI z) as (_&MM&_). unfold misc_of. rewrite MM. auto. }
    split. { intros r' N. rewrite (sk_mwts _ _ SK), LL. destruct (Nat.eqb_spec r' r); [tauto|]. apply app_nil_r. }
    split; intros w I.
    - split.
      + rewrite FR5, FR4, FR3, P1, FR; auto; intros ->; tauto.
      + rewrite (sk_mwt _ _ SK), KK. destruct (mem w nodes) eqn:EM; auto. apply mem_In in EM. tauto.
    - split; [|rewrite (sk_mwt _ _ SK), KK; apply mem_In in I; rewrite I; auto].
      destruct (SA3 w I) as (A1&B1&C1). destruct (P2 w I) as (Q1&Q2&Q3&Q4). destruct (SI w) as (A0&B0&_). specialize (R5 w I).
      assert (SF : same_but_form_misc (d_at d4 w) (d_at d w)) by (unfold same_but_misc, same_but_form_misc in *; intuition congruence).
      assert (FF : n_form (d_at d4 w) = n_form (d_at d w)) by (unfold same_but_misc in *; intuition congruence).
      destruct revert.
      + destruct R5 as (R1&R2'&R3&R4&R6).
        split; [unfold same_but_form_misc in *; intuition congruence|]. split; [auto|]. split.
        { rewrite R3, B1, Q2, B0, FF by discriminate. auto. }
        split; [rewrite R6, B1 by discriminate; auto|]. split; [auto|]. intros k N1 N3. rewrite R6, B1, Q2; auto.
      + rewrite R5. split; [auto|]. split; [auto|]. split; [auto|]. split; [rewrite B1; auto|]. split; [discriminate|].
        intros k N1 N3. rewrite B1, Q2; auto.
  Qed.

  Lemma newattrs_sim revert a b c : sim b c -> newattrs revert a b -> newattrs revert a c.
  Proof.
    intros (S&M&_) (N1&N2&N3&N4&N5&N6). split; [unfold same_but_misc, same_but_form_misc in *; intuition congruence|].
    split; [auto|]. split; [|split; [auto|split; [auto|intros; rewrite N6; auto]]].
    rewrite N3, M. destruct S as [-> _]. auto.
  Qed.
  Lemma ends_sim d d' x tp : sim (d_at d' x) (d_at d x) -> (forall y, In (TWord y) tp -> sim (d_at d' y) (d_at d y)) ->
    ends d' x tp -> ends d x tp.
  Proof. intros S1 S2. destruct tp as [|[y|m] tp]; auto. simpl. intros H G. apply H. eapply glued_sim; eauto. apply S2. simpl. auto. Qed.
  Lemma chain_sim d d' : forall l, (forall y, In y l -> sim (d_at d' y) (d_at d y)) -> chain d' l -> chain d l.
  Proof.
    induction l as [|a l IH]; intros S H; [exact Logic.I|]. destruct l as [|b l]; [exact Logic.I|]. cbn [TokSpec.chain] in *. destruct H as [H1 H2].
    split; [|apply IH; auto; intros; apply S; simpl in *; auto]. eapply sim_sym_glued; [..|exact H1]; apply S; simpl; auto.
  Qed.
  Lemma each_app f : forall l1 l2 d, each_node f d (l1 ++ l2) = bind (each_node f d l1) (fun d _ => each_node f d l2).
  Proof. induction l1 as [|x l1 IH]; intros l2 d; simpl; auto. destruct (f d x) as [d1 [[]| |]]; simpl; auto. Qed.
  Lemma each_skip revert d : forall l, (forall w, In w l -> d_mwt d w <> None) -> each_node (join_node alpha revert) d l = (d, Ok tt).
  Proof.
    induction l as [|x l IH]; intros H; auto. cbn [each_node]. unfold join_node at 1. destruct (d_mwt d x) eqn:E; [|elim (H x); simpl; auto].
    cbn [bind]. apply IH. intros; apply H; simpl; auto.
  Qed.
  Lemma flat_words (d : doc) l : flat_map (token_words d) (map TWord l) = l.
  Proof. induction l; simpl; auto. f_equal. auto. Qed.
  Lemma flat_same d d' ts : (forall m, In (TMwt m) ts -> d_m d' m = d_m d m) -> flat_map (token_words d') ts = flat_map (token_words d) ts.
  Proof. intros H. apply flat_map_ext_in. intros [w|m] I; simpl; auto. rewrite H; auto. Qed.

  Lemma join_loop revert r d0 : forall n tp d done, length (flat_map (token_words d) tp) <= n -> view d r (done ++ tp) -> minv d ->
    (forall w, In w (flat_map (token_words d) tp) -> word_ok d0 w /\ sim (d_at d w) (d_at d0 w)) ->
    exists d' ts', each_node (join_node alpha revert) d (flat_map (token_words d) tp) = (d', Ok tt) /\ view d' r (done ++ ts') /\
      regrouped d0 d' tp ts' /\ minv d' /\ d_h d' = d_h d /\ d_mnext d <= d_mnext d' /\
      (forall m, m < d_mnext d -> d_m d' m = d_m d m) /\ (forall r', r' <> r -> d_mwts d' r' = d_mwts d r') /\
      (forall w, ~ In w (flat_map (token_words d) tp) -> d_at d' w = d_at d w /\ d_mwt d' w = d_mwt d w) /\
      (forall w, In w (flat_map (token_words d) tp) -> (sim (d_at d' w) (d_at d0 w) /\ d_mwt d' w = d_mwt d w) \/
         (d_mwt d w = None /\ newattrs revert (d_at d' w) (d_at d0 w) /\ exists m, d_mwt d' w = Some m /\ d_mnext d <= m)).
  Proof.
    induction n as [|n IH]; intros tp d done LE V MI F.
    { destruct tp as [|[x|m] tp].
      - exists d, []. split; [auto|]. split; [auto|]. split; [constructor|]. split; [auto|]. repeat (split; [auto|]). intros w [].
      - simpl in LE. lia.
      - exfalso. destruct (view_mwt d r _ m V) as [N _]; [apply in_or_app; simpl; auto|]. simpl in LE. destruct (m_words (d_m d m)); [tauto|simpl in LE; lia]. }
    assert (OLD : forall m, In (TMwt m) (done ++ tp) -> m < d_mnext d) by (intros m I; apply (v_mwts _ _ _ V) in I; apply (mi_next _ MI) in I; auto).
    destruct tp as [|[x|m] tp].
    - exists d, []. split; [auto|]. split; [auto|]. split; [constructor|]. split; [auto|]. repeat (split; [auto|]). intros w [].
    - assert (FO : forall w, In w (flat_map (token_words d) (TWord x :: tp)) -> word_ok d w).
      { intros w I. destruct (F w I) as [F1 F2]. apply (word_ok_sim d0); auto. }
      pose proof (c_once _ _ (v_tree _ _ _ V)) as ND. rewrite <- (v_words _ _ _ V), flat_map_app in ND. apply NoDup_app_inv in ND as (_&ND&_).
      destruct (join_step revert d r done x tp V MI FO) as (d1&E1&H1&MI1&[(S1&SI1&FR1&EN)|(l&z&tp'&NE&ET&CH&EN&V1&N1&M1&W1&O1&P1&L1&FR1&A1)]).
      + assert (FT : flat_map (token_words d1) tp = flat_map (token_words d) tp) by (apply flat_same; intros; apply S1).
        assert (FW : forall w, In w (flat_map (token_words d1) tp) -> word_ok d0 w /\ sim (d_at d1 w) (d_at d0 w)).
        { intros w I. rewrite FT in I. destruct (F w) as [F1 F2]; [simpl; auto|]. split; auto. eapply sim_trans; eauto. }
        destruct (IH tp d1 (done ++ [TWord x])) as (d'&ts'&E2&V2&R2&MI2&H2&N2&M2&L2&FR2&A2); auto.
        { rewrite FT. simpl in LE. lia. }
        { rewrite <- app_assoc. apply (skel_view _ _ _ _ S1). auto. }
        exists d', (TWord x :: ts'). cbn [flat_map token_words app each_node]. rewrite E1. cbn [bind]. rewrite <- FT at 1. rewrite E2.
        split; [auto|]. rewrite <- app_assoc in V2. split; [auto|]. rewrite (sk_next _ _ S1) in *. split.
        { constructor; [|auto]. apply (ends_sim d0 d); [apply F; simpl; auto| |auto]. intros y I. apply F. right.
          apply in_flat_map. exists (TWord y). simpl. auto. }
        split; [auto|]. split; [congruence|]. split; [auto|]. split; [intros m L; rewrite M2 by auto; apply S1|].
        split; [intros r' N; rewrite L2 by auto; apply S1|]. rewrite FT in *. simpl in ND. apply NoDup_cons_iff in ND as [NX ND]. split.
        * intros w N. simpl in N. destruct (FR2 w) as [Q1 Q2]; [tauto|]. rewrite Q1, Q2, FR1, (sk_mwt _ _ S1); auto.
        * intros w [<-|I].
          -- left. destruct (FR2 x NX) as [Q1 Q2]. rewrite Q1, Q2. split; [|apply S1]. eapply sim_trans; [apply SI1|apply F; simpl; auto].
          -- rewrite <- !(sk_mwt _ _ S1). apply A2. auto.
      + assert (OL : forall m, In (TMwt m) tp' -> d_m d1 m = d_m d m).
        { intros m I. apply M1. assert (m < d_mnext d); [|lia]. apply OLD. rewrite ET. apply in_or_app. right. apply in_or_app. auto. }
        assert (FT : flat_map (token_words d1) tp' = flat_map (token_words d) tp') by (apply flat_same; auto).
        assert (EF : flat_map (token_words d) (TWord x :: tp) = (l ++ [z]) ++ flat_map (token_words d) tp') by (rewrite ET, flat_map_app, flat_words; auto).
        rewrite EF in *. apply NoDup_app_inv in ND as (NDL&ND&DJ).
        assert (FW : forall w, In w (flat_map (token_words d1) tp') -> word_ok d0 w /\ sim (d_at d1 w) (d_at d0 w)).
        { intros w I. rewrite FT in I. destruct (F w) as [F1 F2]; [apply in_or_app; auto|]. split; auto.
          destruct (FR1 w) as [-> _]; auto. intros J. apply (DJ w J I). }
        destruct (IH tp' d1 (done ++ [TMwt (d_mnext d)])) as (d'&ts'&E2&V2&R2&MI2&H2&N2&M2&L2&FR2&A2); auto.
        { rewrite FT. rewrite !app_length in LE. simpl in LE. lia. }
        { rewrite <- app_assoc. auto. }
        rewrite FT in *. rewrite <- app_assoc in V2.
        exists d', (TMwt (d_mnext d) :: ts'). split.
        { assert (EX : exists l', l ++ [z] = x :: l'). { rewrite <- (flat_words d (l ++ [z])). destruct l as [|a l]; [tauto|]. simpl in ET. injection ET as <- _. simpl. eauto. }
          destruct EX as (l'&EX). rewrite EX. cbn [app each_node]. rewrite E1. cbn [bind]. rewrite each_app, each_skip.
          - cbn [bind]. auto.
          - intros w I. destruct (A1 w) as [_ ->]; [rewrite EX; simpl; auto|discriminate]. }
        split; [auto|]. split.
        { rewrite ET. assert (MN : d_m d' (d_mnext d) = d_m d1 (d_mnext d)) by (apply M2; lia).
          apply rg_join; rewrite ?MN; auto.
          - apply (chain_sim d0 d); [|auto]. intros y I. apply F. apply in_or_app. auto.
          - apply (ends_sim d0 d); [apply F; rewrite !in_app_iff; simpl; auto| |auto]. intros y I. apply F. apply in_or_app. right.
            apply in_flat_map. exists (TWord y). simpl. auto.
          - rewrite O1. f_equal. apply flat_map_ext_in. intros w I. unfold form_of. destruct (F w) as [_ ((->&_)&_)]; auto. apply in_or_app. auto.
          - intros k. rewrite P1. unfold misc_of. destruct (F z) as [_ (_&MM&_)]; [rewrite !in_app_iff; simpl; auto|]. rewrite MM. auto. }
        split; [auto|]. split; [congruence|]. split; [lia|]. split; [intros m L; rewrite M2, M1; auto; lia|].
        split; [intros r' N; rewrite L2, L1; auto|]. split.
        * intros w N. rewrite in_app_iff in N. destruct (FR2 w) as [-> ->]; [tauto|]. apply FR1. tauto.
        * intros w I. apply in_app_or in I as [I|I].
          -- right. destruct (FR2 w (DJ w I)) as [Q1 Q2]. destruct (A1 w I) as [B1 B2]. rewrite Q1, Q2, B2.
             split. { apply (v_free _ _ _ V). apply in_or_app. right. rewrite ET. apply in_or_app. left. apply in_map. auto. }
             split; [apply (newattrs_sim _ _ (d_at d w)); auto; apply F; apply in_or_app; auto|]. exists (d_mnext d). auto.
          -- destruct (FR1 w) as [B1 B2]; [intros J; apply (DJ w J I)|]. rewrite <- B2. destruct (A2 w I) as [A2'|(A2a&A2b&m&A2c&A2d)]; auto. right.
             split; [auto|]. split; [auto|]. exists m. split; [auto|lia].
    - destruct (view_mwt d r _ m V) as [NEm LW]; [apply in_or_app; simpl; auto|].
      destruct (IH tp d (done ++ [TMwt m])) as (d'&ts'&E2&V2&R2&MI2&H2&N2&M2&L2&FR2&A2); auto.
      { simpl in LE. rewrite app_length in LE. destruct (m_words (d_m d m)); [tauto|]. simpl in LE. lia. }
      { rewrite <- app_assoc. auto. }
      { intros w I. apply F. simpl. apply in_or_app. auto. }
      rewrite <- app_assoc in V2. exists d', (TMwt m :: ts'). cbn [flat_map token_words]. rewrite each_app, each_skip.
      2:{ intros w I. rewrite LW; [discriminate|auto]. }
      cbn [bind]. split; [auto|]. split; [auto|]. split; [constructor; auto|]. repeat (split; [solve [auto]|]).
      pose proof (c_once _ _ (v_tree _ _ _ V)) as ND. rewrite <- (v_words _ _ _ V), flat_map_app in ND. apply NoDup_app_inv in ND as (_&ND&_).
      cbn [flat_map token_words] in ND. apply NoDup_app_inv in ND as (_&_&DJ). split.
      + intros w N. apply FR2. intros J. apply N. apply in_or_app. auto.
      + intros w I. apply in_app_or in I as [I|I]; [|auto]. left. destruct (FR2 w (DJ w I)) as [-> ->]. split; [|auto].
        apply F. simpl. apply in_or_app. auto.
  Qed.

  (** ---- the text ---- *)
  Lemma chain_pieces d : forall l z, chain d (l ++ [z]) ->
    flat_map (piece d) (map TWord (l ++ [z])) = flat_map (form_of d) (l ++ [z]) ++ space_unless_no (n_misc (d_at d z)).
  Proof.
    induction l as [|a l IH]; intros z H.
    - simpl. unfold piece, form_of. simpl. rewrite !app_nil_r. auto.
    - assert (GA : misc_of d a SpaceAfter = VStr No /\ chain d (l ++ [z])).
      { destruct l as [|b l]; cbn [app TokSpec.chain] in H; destruct H as [[H _] H2]; auto. }
      destruct GA as [G1 G2]. cbn [app map flat_map]. rewrite IH by auto. rewrite app_assoc. f_equal. unfold piece. simpl.
      unfold space_unless_no, form_of. unfold misc_of in G1. rewrite G1. simpl. try rewrite str_eqb_refl. rewrite app_nil_r. auto.
  Qed.
  Lemma regrouped_pieces d d' ts ts' : regrouped d d' ts ts' ->
    (forall m, In (TMwt m) ts -> d_m d' m = d_m d m) -> (forall x, In (TWord x) ts' -> sim (d_at d' x) (d_at d x)) ->
    flat_map (piece d') ts' = flat_map (piece d) ts.
  Proof.
    induction 1 as [|m ts ts' R IH|x ts ts' EN R IH|l z m ts ts' NE CH EN W O P R IH]; intros HM HX; auto.
    - cbn [flat_map]. f_equal; [unfold piece; simpl; rewrite HM by (simpl; auto); auto|].
      apply IH; [intros; apply HM; simpl; auto|intros; apply HX; simpl; auto].
    - cbn [flat_map]. f_equal.
      + unfold piece, space_unless_no. simpl. destruct (HX x) as (S&M&_); [simpl; auto|]. rewrite M. destruct S as [-> _]. auto.
      + apply IH; [intros; apply HM; simpl; auto|intros; apply HX; simpl; auto].
    - rewrite flat_map_app, chain_pieces by auto. cbn [flat_map]. f_equal.
      + unfold piece, space_unless_no. simpl. rewrite O, P. rewrite str_eqb_refl. cbn [andb]. fold No. unfold misc_of. fold SpaceAfter.
        f_equal. destruct (val_is (misc_get (n_misc (d_at d z)) SpaceAfter) No); simpl; try rewrite str_eqb_refl; auto.
      + apply IH; [intros; apply HM; apply in_or_app; auto|intros; apply HX; simpl; auto].
  Qed.
  Lemma regrouped_mwts d d' ts ts' m : regrouped d d' ts ts' -> In (TMwt m) ts' -> In (TMwt m) ts \/ m_form (d_m d' m) <> None.
  Proof.
    induction 1 as [|m' ts ts' R IH|x ts ts' EN R IH|l z m' ts ts' NE CH EN W O P R IH]; intros I.
    - destruct I.
    - destruct I as [I|I]; [injection I as ->; simpl; auto|]. destruct (IH I); simpl; auto.
    - destruct I as [I|I]; [discriminate|]. destruct (IH I); simpl; auto.
    - destruct I as [I|I]; [injection I as ->; right; rewrite O; discriminate|]. rewrite in_app_iff. destruct (IH I); auto.
  Qed.

  (** Words as the block expects them: a FORM with at least one character; OrigForm, if given, has a value. *)
  Lemma join_prop revert d r : mwt_world d -> sound_sentence d r ->
    (forall w, In w (h_desc (d_h d) r) -> n_form (d_at d w) <> Some [] /\ misc_ok (n_misc (d_at d w)) /\ exists f, misc_of d w OrigForm = VStr f) ->
    exists d' ts ts', join_as_mwt alpha revert d r = (d', Ok tt) /\
      token_descendants d r = Ok ts /\ token_descendants d' r = Ok ts' /\ regrouped d d' ts ts' /\
      compute_text d' r true = compute_text d r true /\ sound_sentence d' r /\ d_h d' = d_h d /\
      (forall m, In m (d_mwts d r) -> In m (d_mwts d' r) /\ d_m d' m = d_m d m) /\ (forall r', r' <> r -> d_mwts d' r' = d_mwts d r') /\
      (forall w, ~ In w (h_desc (d_h d) r) -> d_at d' w = d_at d w /\ d_mwt d' w = d_mwt d w) /\
      (forall w, In w (h_desc (d_h d) r) -> d_mwt d' w = d_mwt d w ->
         same_but_misc (d_at d' w) (d_at d w) /\ forall k, misc_of d' w k = misc_of d w k) /\
      (forall w, In w (h_desc (d_h d) r) -> d_mwt d' w <> d_mwt d w ->
         d_mwt d w = None /\ same_but_form_misc (d_at d' w) (d_at d w) /\
         n_form (d_at d' w) = (if revert then match misc_of d w OrigForm with VStr (c :: f) => Some (c :: f) | _ => n_form (d_at d w) end else n_form (d_at d w)) /\
         misc_of d' w SpaceAfter = VStr [] /\ (revert = true -> misc_of d' w OrigForm = VStr []) /\
         (forall k, k <> SpaceAfter -> (revert = true -> k <> OrigForm) -> misc_of d' w k = misc_of d w k)).
  Proof.
    intros MW SO HW. pose proof (minv_world _ MW) as MI. destruct (view_of d r SO) as (ts&ET&V).
    destruct (join_loop revert r d (length (flat_map (token_words d) ts)) ts d []) as (d'&ts'&E&V'&R&MI'&H&N&M&L&FR&A); auto.
    { intros w I. rewrite (v_words _ _ _ V) in I. split; [|apply sim_refl]. destruct (HW w I) as (F1&F2&F3). split; [|split; [apply good_ok; auto|auto]].
      pose proof (proj1 (so_forms _ _ SO) w I) as F0. unfold has_form. destruct (n_form (d_at d w)) as [[|c f]|]; [tauto|eauto|tauto]. }
    cbn [app] in V'. rewrite (v_words _ _ _ V) in *. exists d', ts, ts'. split; [exact E|]. split; [auto|]. split; [apply (view_tokens _ _ _ V')|].
    split; [auto|].
    assert (OLD : forall m, In (TMwt m) ts -> d_m d' m = d_m d m).
    { intros m I. apply M. apply (v_mwts _ _ _ V) in I. apply (mi_next _ MI) in I. auto. }
    assert (CASE : forall w, In w (h_desc (d_h d) r) -> (sim (d_at d' w) (d_at d w) /\ d_mwt d' w = d_mwt d w) \/
       (d_mwt d w = None /\ newattrs revert (d_at d' w) (d_at d w) /\ d_mwt d' w <> None)).
    { intros w I. destruct (A w I) as [A'|(A1&A2&m&A3&_)]; auto. right. rewrite A3. split; [auto|split; [auto|discriminate]]. }
    assert (FWD : forall w, In w (h_desc (d_h d) r) -> n_form (d_at d' w) <> None).
    { intros w I. destruct (CASE w I) as [[((->&_)&_) _]|(_&(_&_&->&_)&_)]; [apply (so_forms _ _ SO); auto|].
      destruct revert; [|apply (so_forms _ _ SO); auto]. destruct (misc_get _ OrigForm) as [| |[|c f]]; try discriminate; apply (so_forms _ _ SO); auto. }
    assert (FMW : forall m, In m (d_mwts d' r) -> m_form (d_m d' m) <> None).
    { intros m I. apply (v_mwts _ _ _ V') in I. destruct (regrouped_mwts _ _ _ _ _ R I) as [J|J]; auto. rewrite OLD by auto.
      apply (so_forms _ _ SO). apply (v_mwts _ _ _ V). auto. }
    assert (SO' : sound_sentence d' r) by (apply (view_sound _ _ _ V'); rewrite ?H; auto).
    split.
    { rewrite (view_text _ _ _ V' (view_forms _ _ _ V' SO')), (view_text _ _ _ V (view_forms _ _ _ V SO)). f_equal. f_equal.
      apply (regrouped_pieces _ _ _ _ R OLD). intros x I.
      assert (Ix : In x (h_desc (d_h d) r)). { rewrite <- H. apply (view_in _ _ _ _ _ V' I). simpl. auto. }
      destruct (CASE x Ix) as [[S _]|(_&_&NN)]; auto. elim NN. apply (v_free _ _ _ V'). auto. }
    split; [auto|]. split; [auto|]. split.
    { intros m I. split; [|apply OLD; apply (v_mwts _ _ _ V); auto]. apply (v_mwts _ _ _ V') . apply (v_mwts _ _ _ V) in I. clear - R I.
      induction R as [|m' ts ts' R IH|x ts ts' EN R IH|l z m' ts ts' NE CH EN W O P R IH]; auto.
      - simpl in *. destruct I; auto.
      - simpl in *. destruct I; [discriminate|auto].
      - right. apply IH. apply in_app_or in I as [I|I]; auto. apply in_map_iff in I as (?&?&_). discriminate. }
    split; [auto|]. split; [auto|]. split.
    - intros w I EQ. destruct (CASE w I) as [[(S&K&_) _]|(N1&_&N2)]; [auto|congruence].
    - intros w I NQ. destruct (CASE w I) as [[_ ?]|(N1&(B1&_&B3&B4&B5&B6)&_)]; [tauto|]. auto 10.
  Qed.
End join.
