(** Proofs about ud.SetSpaceAfterFromText. *)
From Coq Require Import String List NArith ZArith Bool Lia.
From Verif Require Import PyStr PyList PyExn PyListFacts PyStrFacts TreeModel TreeSpec TreeFacts TreeOps DualDictModel
  DualDictSpec DualDictProofs DocModel ConlluModel MwtSpec MwtProofs TextModel TextSpec TextProofs.
Import ListNotations.

Lemma good_del m k : good m -> good (Some (dd_del (dd_prop m) k)).
Proof. intros (lower&x&HR). exists lower. eexists. apply R_del. eauto. Qed.
Lemma get_after_del m k k' : good m ->
  misc_get (Some (dd_del (dd_prop m) k)) k' = if str_eqb k' k then VStr [] else misc_get m k'.
Proof.
  intros (lower&x&HR). pose proof (R_del _ _ _ k HR) as HS.
  unfold misc_get, dd_get. simpl. destruct HS as (_&_&S3&_). destruct HR as (_&_&R3&_).
  rewrite S3, R3. unfold put, without. destruct (present x k) eqn:P; simpl; destruct (str_eqb k' k) eqn:E; auto.
  apply str_eqb_eq in E. subst. unfold present in P. destruct (m_val x k); [discriminate|]. auto.
Qed.

Lemma osa_refl d : only_space_after d d.
Proof. unfold only_space_after, same_but_misc. auto 20. Qed.
Lemma osa_trans d1 d2 d3 : only_space_after d1 d2 -> only_space_after d2 d3 -> only_space_after d1 d3.
Proof.
  intros (A1&A2&A3&A4&A5&A6&A7&A8) (B1&B2&B3&B4&B5&B6&B7&B8).
  unfold only_space_after. split; [congruence|]. split; [congruence|]. split; [congruence|]. split; [congruence|]. split; [congruence|].
  split; [|split].
  - intros x. specialize (A6 x). specialize (B6 x). unfold same_but_misc in *. decompose [and] A6. decompose [and] B6. repeat split; congruence.
  - intros m. specialize (A7 m). specialize (B7 m). decompose [and] A7. decompose [and] B7. repeat split; congruence.
  - intros t k H. rewrite B8, A8; auto.
Qed.
Lemma token_eq_dec (a b : token) : {a = b} + {a <> b}.
Proof. decide equality; apply Nat.eq_dec. Qed.
Lemma put_tok_misc_get d t v t' : token_misc (put_tok_misc d t v) t' = if token_eq_dec t' t then Some v else token_misc d t'.
Proof.
  destruct (token_eq_dec t' t) as [->|N]; destruct t as [x|m]; cbn.
  - rewrite upd_same. reflexivity.
  - rewrite upd_same. reflexivity.
  - destruct t' as [y|m]; cbn; auto. rewrite upd_other by congruence; auto.
  - destruct t' as [y|m']; cbn; auto. rewrite upd_other by congruence; auto.
Qed.
Lemma put_tok_misc_osa d t v : (forall k, k <> s "SpaceAfter" -> misc_get (Some v) k = misc_get (token_misc d t) k) ->
  only_space_after d (put_tok_misc d t v).
Proof.
  intros K. unfold only_space_after.
  assert (T8 : forall t' k, k <> s "SpaceAfter" -> misc_get (token_misc (put_tok_misc d t v) t') k = misc_get (token_misc d t') k).
  { intros t' k N. rewrite put_tok_misc_get. destruct (token_eq_dec t' t) as [->|]; auto. }
  destruct t as [x|m]; cbn [put_tok_misc put_at put_m d_h d_mwt d_mwts d_mnext d_ri d_at d_m].
  - repeat (split; [reflexivity|]). split; [|split; [auto|exact T8]].
    intros y. unfold upd. destruct (Nat.eqb_spec y x) as [->|]; unfold same_but_misc; cbn; auto 10.
  - repeat (split; [reflexivity|]). split; [unfold same_but_misc; auto 10|]. split; [|exact T8].
    intros y. unfold upd. destruct (Nat.eqb_spec y m) as [->|]; cbn; auto.
Qed.
Lemma osa_form d d' t : only_space_after d d' -> token_form d' t = token_form d t.
Proof.
  intros (_&_&_&_&_&A6&A7&_). destruct t as [x|m]; cbn; [apply A6|apply A7].
Qed.
Lemma laid_out_ext d d' : only_space_after d d' -> forall ts x y, laid_out d ts x y -> laid_out d' ts x y.
Proof.
  intros O. induction 1; [apply lo_last|apply lo_joined|apply lo_spaced]; auto; rewrite (osa_form _ _ _ O); auto.
Qed.
Lemma proper_ext d d' t : only_space_after d d' -> proper_form d t -> proper_form d' t.
Proof. intros O (f&A&B). exists f. rewrite (osa_form _ _ _ O). auto. Qed.

Lemma laid_nonempty d ts x y : laid_out d ts x y -> (forall t, In t ts -> proper_form d t) ->
  x <> [] /\ y <> [] /\ starts_solid x /\ starts_solid y /\ starts_solid (rev y).
Proof.
  assert (ST : forall f z, f <> [] -> starts_solid f -> f ++ z <> [] /\ starts_solid (f ++ z)).
  { intros f z N S. destruct f; [tauto|]. split; [discriminate|exact S]. }
  assert (SR : forall z f, f <> [] -> starts_solid (rev f) -> starts_solid (rev (z ++ f))).
  { intros z f N S. rewrite rev_app_distr. apply ST; auto. intros E. apply N. rewrite <- (rev_involutive f), E. auto. }
  induction 1 as [t f g E B|t ts f x y E L IH|t ts f c g x y E C B L IH]; intros P.
  - destruct (P t (or_introl eq_refl)) as (f'&E'&N&S1&S2). rewrite E in E'. injection E' as <-.
    destruct (ST f g N S1). auto 10.
  - destruct (P t (or_introl eq_refl)) as (f'&E'&N&S1&S2). rewrite E in E'. injection E' as <-.
    destruct IH as (N1&N2&_&_&I5); [intros; apply P; simpl; auto|]. destruct (ST f x N S1). destruct (ST f y N S1). auto 10.
  - destruct (P t (or_introl eq_refl)) as (f'&E'&N&S1&S2). rewrite E in E'. injection E' as <-.
    destruct IH as (N1&N2&_&_&I5); [intros; apply P; simpl; auto|]. destruct (ST f (c :: g ++ x) N S1). destruct (ST f (s " " ++ y) N S1).
    split; [auto|]. split; [auto|]. split; [auto|]. split; [auto|]. rewrite app_assoc. auto.
Qed.

Lemma not_no m : good m -> misc_get m SpaceAfter = VStr [] -> ~ (misc_get m (s "SpaceAfter") = VStr (s "No")).
Proof. intros _ E. unfold SpaceAfter in E. rewrite E. discriminate. Qed.

Lemma space_loop_ok : forall ts d x y, NoDup ts -> laid_out d ts x y ->
  (forall t, In t ts -> proper_form d t /\ good (token_misc d t)) ->
  exists d' z, space_loop d x ts = (d', Ok tt) /\ only_space_after d d' /\
    (forall t, ~ In t ts -> token_misc d' t = token_misc d t) /\ printed d' ts z /\ rstrip z = y.
Proof.
  induction ts as [|t ts IH]; intros d x y ND L P; [inversion L|].
  destruct (P t (or_introl eq_refl)) as [(f&E&N&S1&S2) G].
  inversion ND as [|? ? NI ND']; subst.
  set (dD := put_tok_misc d t (dd_del (dd_prop (token_misc d t)) SpaceAfter)).
  set (dS := put_tok_misc d t (dd_set (dd_prop (token_misc d t)) SpaceAfter (VStr No))).
  assert (OD : only_space_after d dD). { apply put_tok_misc_osa. intros k NK. rewrite get_after_del by auto.
    destruct (str_eqb_spec k SpaceAfter); [tauto|auto]. }
  assert (OS : only_space_after d dS). { apply put_tok_misc_osa. intros k NK. rewrite get_after_set by auto.
    destruct (str_eqb_spec k SpaceAfter); [tauto|auto]. }
  assert (MD : misc_get (token_misc dD t) (s "SpaceAfter") = VStr []).
  { unfold dD. rewrite put_tok_misc_get. destruct (token_eq_dec t t); [|tauto]. rewrite get_after_del by auto. reflexivity. }
  assert (MS : misc_get (token_misc dS t) (s "SpaceAfter") = VStr (s "No")).
  { unfold dS. rewrite put_tok_misc_get. destruct (token_eq_dec t t); [|tauto]. rewrite get_after_set by auto. reflexivity. }
  assert (TD : forall t', t' <> t -> token_misc dD t' = token_misc d t').
  { intros t' NE. unfold dD. rewrite put_tok_misc_get. destruct (token_eq_dec t' t); [tauto|auto]. }
  assert (TS : forall t', t' <> t -> token_misc dS t' = token_misc d t').
  { intros t' NE. unfold dS. rewrite put_tok_misc_get. destruct (token_eq_dec t' t); [tauto|auto]. }
  assert (PX : forall d1, only_space_after d d1 -> (forall t', t' <> t -> token_misc d1 t' = token_misc d t') ->
    forall t', In t' ts -> proper_form d1 t' /\ good (token_misc d1 t')).
  { intros d1 O K t' I. destruct (P t' (or_intror I)) as [Q1 Q2]. split; [eapply proper_ext; eauto|]. rewrite K; auto. intros ->. auto. }
  assert (SE : blank (s " ")) by (intros c [<-|[]]; reflexivity).
  change (tok_form d t) with (token_form d t) in *.
  inversion L as [t0 f0 g E0 B|t0 ts0 f0 x' y' E0 L'|t0 ts0 f0 c g x' y' E0 C B L']; subst.
  - rewrite E in E0. injection E0 as <-. cbn [space_loop]. change (tok_form d t) with (token_form d t). rewrite E, after_app.
    assert (C1 : match g with [] => true | c :: _ => is_space c end = true) by (destruct g as [|c g]; auto; apply B; simpl; auto).
    rewrite C1. change (tok_misc d t) with (token_misc d t). fold dD. exists dD, (f ++ [SP] ++ []). split; [reflexivity|]. split; [auto|].
    split; [intros t' H; apply TD; simpl in H; intuition congruence|].
    split. { apply pr_space; [rewrite (osa_form _ _ _ OD); auto|unfold no_space_after; rewrite MD; discriminate|constructor]. }
    rewrite app_nil_r. apply rstrip_blank; auto.
  - rewrite E in E0. injection E0 as <-. cbn [space_loop]. change (tok_form d t) with (token_form d t). rewrite E, after_app.
    assert (PT : forall t', In t' ts -> proper_form d t') by (intros t' I; apply P; simpl; auto).
    destruct (laid_nonempty _ _ _ _ L' PT) as (N1&N2&N3&N4&N5).
    assert (C1 : match x' with [] => true | c :: _ => is_space c end = false) by (destruct x'; [tauto|exact N3]).
    rewrite C1. change (tok_misc d t) with (token_misc d t). fold dS.
    destruct (IH dS x' y' ND' (laid_out_ext _ _ OS _ _ _ L') (PX dS OS TS)) as (d'&z&H1&H2&H3&H4&H5).
    exists d', (f ++ z). split; [auto|]. pose proof (osa_trans _ _ _ OS H2) as OT. split; [auto|].
    split. { intros t' H. rewrite H3 by (simpl in H; tauto). apply TS. simpl in H. intuition congruence. }
    split. { apply pr_joined; [rewrite (osa_form _ _ _ OT); auto|unfold no_space_after; rewrite H3 by auto; auto|auto]. }
    rewrite rstrip_app by (rewrite H5; auto). rewrite H5. auto.
  - rewrite E in E0. injection E0 as <-. cbn [space_loop]. change (tok_form d t) with (token_form d t). rewrite E, after_app, C.
    assert (PT : forall t', In t' ts -> proper_form d t') by (intros t' I; apply P; simpl; auto).
    destruct (laid_nonempty _ _ _ _ L' PT) as (N1&N2&N3&N4&N5).
    change (tok_misc d t) with (token_misc d t). fold dD.
    replace (lstrip (c :: g ++ x')) with x'.
    2: { symmetry. apply (lstrip_blank (c :: g) x'); auto. intros e [<-|I]; auto. }
    destruct (IH dD x' y' ND' (laid_out_ext _ _ OD _ _ _ L') (PX dD OD TD)) as (d'&z&H1&H2&H3&H4&H5).
    exists d', (f ++ [SP] ++ z). split; [auto|]. pose proof (osa_trans _ _ _ OD H2) as OT. split; [auto|].
    split. { intros t' H. rewrite H3 by (simpl in H; tauto). apply TD. simpl in H. intuition congruence. }
    split. { apply pr_space; [rewrite (osa_form _ _ _ OT); auto|unfold no_space_after; rewrite H3 by auto; rewrite MD; discriminate|auto]. }
    rewrite app_assoc, rstrip_app by (rewrite H5; auto). rewrite H5, <- app_assoc. auto.
Qed.

(** the case where nothing has to be changed *)
Lemma printed_proper d : forall ts z, printed d ts z -> ts <> [] -> (forall t, In t ts -> proper_form d t) ->
  rstrip z <> [] /\ starts_solid (rstrip z).
Proof.
  assert (ST : forall f z, f <> [] -> starts_solid f -> f ++ z <> [] /\ starts_solid (f ++ z)).
  { intros f z N S. destruct f; [tauto|]. split; [discriminate|exact S]. }
  induction 1 as [|t ts f z E NS H IH|t ts f z E NS H IH]; intros NE P; [tauto| |].
  - destruct (P t (or_introl eq_refl)) as (f'&E'&N&S1&S2). rewrite E in E'. injection E' as <-.
    destruct ts as [|t' ts].
    + inversion H; subst. rewrite app_nil_r, rstrip_blank by auto using blank_SP. auto.
    + destruct IH as [N1 _]; [discriminate|intros; apply P; simpl; auto|]. rewrite app_assoc, rstrip_app by auto. rewrite <- app_assoc. apply ST; auto.
  - destruct (P t (or_introl eq_refl)) as (f'&E'&N&S1&S2). rewrite E in E'. injection E' as <-.
    destruct ts as [|t' ts].
    + inversion H; subst. rewrite app_nil_r, rstrip_solid by auto. auto.
    + destruct IH as [N1 _]; [discriminate|intros; apply P; simpl; auto|]. rewrite rstrip_app by auto. apply ST; auto.
Qed.
Lemma already_ok d : forall ts z y, printed d ts z -> (forall t, In t ts -> proper_form d t) -> laid_out d ts (rstrip z) y -> y = rstrip z.
Proof.
  induction ts as [|t ts IH]; intros z y PR P L; [inversion L|].
  destruct (P t (or_introl eq_refl)) as (f&E&N&S1&S2).
  assert (PT : forall t', In t' ts -> proper_form d t') by (intros t' I; apply P; simpl; auto).
  assert (EZ : exists sp z', printed d ts z' /\ z = f ++ sp ++ z' /\ (sp = [] \/ sp = [SP])).
  { inversion PR as [|? ? f' z' E' NS H|? ? f' z' E' NS H]; subst; rewrite E in E'; injection E' as <-.
    - exists [SP], z'. auto.
    - exists [], z'. auto. }
  destruct EZ as (sp&z'&PR'&->&SPC).
  assert (BS : blank sp) by (destruct SPC as [->| ->]; [intros c []|apply blank_SP]).
  destruct ts as [|t' ts].
  - inversion PR'; subst. rewrite app_nil_r in L. rewrite app_nil_r. rewrite rstrip_blank in * by auto.
    inversion L as [t0 f0 g E0 B EQ|t0 ts0 f0 x' y' E0 L'|t0 ts0 f0 c g x' y' E0 C B L']; subst; try (inversion L'; fail).
    rewrite E in E0. injection E0 as E0. congruence.
  - set (us := t' :: ts) in *. destruct (printed_proper d us z' PR' ltac:(discriminate) PT) as [N1 N2].
    assert (EQ : rstrip (f ++ sp ++ z') = f ++ sp ++ rstrip z') by (rewrite app_assoc, rstrip_app, app_assoc; auto).
    rewrite EQ in *.
    inversion L as [t0 f0 g E0 B|t0 ts0 f0 x' y' E0 L'|t0 ts0 f0 c g x' y' E0 C B L']; subst us; subst.
    + rewrite E in E0. injection E0 as <-. match goal with H : f ++ _ = f ++ _ |- _ => apply app_inv_head in H; rename H into EQ0 end. destruct (laid_nonempty _ _ _ _ L' PT) as (M1&M2&M3&_).
      destruct SPC as [->| ->]; cbn [app] in EQ0; [|subst x'; discriminate M3]. subst x'. cbn [app]. f_equal. apply IH; auto.
    + rewrite E in E0. injection E0 as <-. match goal with H : f ++ _ = f ++ _ |- _ => apply app_inv_head in H; rename H into EQ0 end. destruct (laid_nonempty _ _ _ _ L' PT) as (M1&M2&M3&_).
      destruct SPC as [->| ->]; cbn [app] in EQ0.
      * destruct (rstrip z') as [|e w] eqn:EZ; [tauto|]. injection EQ0 as -> _. cbn in N2. congruence.
      * injection EQ0 as -> EQ0. destruct g as [|e g].
        -- cbn [app] in EQ0. subst x'. cbn [app s]. do 2 f_equal. apply IH; auto.
        -- destruct (rstrip z') as [|e' w] eqn:EZ; [tauto|]. injection EQ0 as -> _. cbn in N2. rewrite (B e' (or_introl eq_refl)) in N2. discriminate.
Qed.

(** ---- the block ---- *)
Lemma osa_tokens d d' : only_space_after d d' -> forall l z, token_loop d' z l = token_loop d z l.
Proof.
  intros (A1&A2&_&_&_&_&A7&_). induction l as [|x l IH]; intros z; cbn [token_loop]; auto.
  rewrite A2, A1. destruct (d_mwt d x) as [m|]; [|rewrite IH; auto]. rewrite (proj1 (A7 m)).
  destruct (z <? h_ord (d_h d) x)%Z; [|auto]. destruct (last_opt (m_words (d_m d m))); auto. rewrite IH. auto.
Qed.
Lemma osa_descendants d d' r : only_space_after d d' -> token_descendants d' r = token_descendants d r.
Proof. intros O. unfold token_descendants. rewrite (osa_tokens _ _ O). destruct O as (A1&_). rewrite A1. auto. Qed.
Lemma osa_agree d d' : only_space_after d d' -> mwts_agree d -> mwts_agree d'.
Proof.
  intros (A1&A2&A3&_&_&_&A7&_) [M1 M2 M3]. split; rewrite ?A3, ?A2; auto.
  - intros r m I. destruct (A7 m) as (B1&_&B3). rewrite B1, B3. auto.
  - intros w m E. destruct (A7 m) as (B1&_&B3). rewrite B1, B3. auto.
Qed.
Lemma osa_contiguous d d' r : only_space_after d d' -> contiguous d r -> contiguous d' r.
Proof.
  intros (A1&A2&A3&_&_&_&A7&_) [C1 C2]. split; rewrite ?A3, ?A2, ?A1.
  - intros m I. rewrite (proj1 (A7 m)). auto.
  - intros w m. destruct (A7 m) as (_&_&B3). rewrite B3. apply C2.
Qed.
Lemma del_empty_ok : forall l d, (forall x, In x l -> good (n_misc (d_at d x))) ->
  let d' := del_empty d l in
  only_space_after d d' /\ (forall t, good (token_misc d t) -> good (token_misc d' t)) /\
  (forall x, In x l -> misc_get (n_misc (d_at d' x)) SpaceAfter = VStr []) /\
  (forall x, misc_get (n_misc (d_at d x)) SpaceAfter = VStr [] -> good (n_misc (d_at d x)) ->
     misc_get (n_misc (d_at d' x)) SpaceAfter = VStr []).
Proof.
  induction l as [|w l IH]; intros d G; cbn zeta.
  - cbn [del_empty]. split; [apply osa_refl|]. split; [auto|]. split; [intros x []|auto].
  - cbn [del_empty]. set (d1 := put_at d w _).
    assert (GW : good (n_misc (d_at d w))) by (apply G; simpl; auto).
    assert (E1 : d1 = put_tok_misc d (TWord w) (dd_del (dd_prop (token_misc d (TWord w))) SpaceAfter)) by reflexivity.
    assert (O1 : only_space_after d d1).
    { rewrite E1. apply put_tok_misc_osa. intros k NK. rewrite get_after_del by auto. destruct (str_eqb_spec k SpaceAfter); [tauto|auto]. }
    assert (G1 : forall t, good (token_misc d t) -> good (token_misc d1 t)).
    { intros t Gt. rewrite E1, put_tok_misc_get. destruct (token_eq_dec t (TWord w)) as [->|]; auto. apply good_del. auto. }
    assert (W1 : forall x, good (n_misc (d_at d x)) -> misc_get (n_misc (d_at d x)) SpaceAfter = VStr [] \/ x = w ->
      misc_get (n_misc (d_at d1 x)) SpaceAfter = VStr []).
    { intros x Gx H. change (n_misc (d_at d1 x)) with (token_misc d1 (TWord x)). rewrite E1, put_tok_misc_get.
      destruct (token_eq_dec (TWord x) (TWord w)) as [EQ|NE]; [rewrite get_after_del by auto; reflexivity|].
      destruct H as [H| ->]; [exact H|tauto]. }
    destruct (IH d1) as (H1&H2&H3&H4). { intros x I. apply (G1 (TWord x)). apply G. simpl. auto. }
    split; [eapply osa_trans; eauto|]. split; [auto|]. split.
    + intros x I. assert (Gx : good (n_misc (d_at d x))) by (apply G; auto). destruct I as [<-|I]; [|apply H3; auto].
      apply H4; [apply W1; auto|]. apply (G1 (TWord w)). auto.
    + intros x E Gx. apply H4; [apply W1; auto|]. apply (G1 (TWord x)). auto.
Qed.
Lemma nodup_tokens d r ts : consistent (d_h d) r -> contiguous d r -> flat_map (token_words d) ts = h_desc (d_h d) r ->
  (forall m, In (TMwt m) ts <-> In m (d_mwts d r)) -> NoDup ts.
Proof.
  intros C [CT _] E M. pose proof (c_once _ _ C) as ND. rewrite <- E in ND.
  assert (NE : forall t, In t ts -> token_words d t <> []).
  { intros [x|m] I; [discriminate|]. apply M in I. cbn. apply CT. auto. }
  clear E M. induction ts as [|t ts IH]; [constructor|]. cbn [flat_map] in ND. apply NoDup_app_inv in ND as (D1&D2&D3).
  constructor; [|apply IH; [auto|intros; apply NE; simpl; auto]]. intros I.
  destruct (token_words d t) as [|w ws] eqn:EW; [apply (NE t (or_introl eq_refl)); auto|].
  apply (D3 w); [simpl; auto|]. apply in_flat_map. exists t. split; auto. rewrite EW. simpl. auto.
Qed.

Lemma set_space_statement d r ts text y : consistent (d_h d) r -> mwts_agree d -> contiguous d r ->
  (forall t, In t ts -> proper_form d t /\ misc_ok (token_misc d t)) ->
  (forall x, In x (h_emp (d_h d) r) -> misc_ok (n_misc (d_at d x))) ->
  token_descendants d r = Ok ts -> ri_text (d_ri d r) = Some text -> laid_out d ts text y ->
  exists d', set_space_after d r = (d', Ok tt) /\ only_space_after d d' /\ compute_text d' r true = Ok y /\
    (forall x, In x (h_emp (d_h d) r) -> ~ In x (h_desc (d_h d) r) -> misc_get (n_misc (d_at d' x)) (s "SpaceAfter") = VStr []).
Proof.
  intros C A CT P PE TD RT L. unfold set_space_after.
  destruct (del_empty_ok (h_emp (d_h d) r) d) as (O1&G1&E1&_). { intros x I. apply good_ok. auto. }
  set (d1 := del_empty d (h_emp (d_h d) r)) in *. clearbody d1. cbv zeta.
  assert (RI : d_ri d1 = d_ri d) by apply O1. rewrite RI, RT.
  assert (C1 : consistent (d_h d1) r). { destruct O1 as (H&_). rewrite H. auto. }
  pose proof (osa_agree _ _ O1 A) as A1. pose proof (osa_contiguous _ _ _ O1 CT) as CT1.
  destruct (tokens_ok d1 r C1 A1 CT1) as (ts'&T1&T2&T3&T4).
  rewrite (osa_descendants _ _ _ O1), TD in T1. injection T1 as <-.
  assert (P1 : forall t, In t ts -> proper_form d1 t) by (intros t I; eapply proper_ext; eauto; apply P; auto).
  destruct T4 as (z&PZ&EZ). { intros t I H. destruct (P1 t I) as (f&EF&_). congruence. }
  rewrite EZ. pose proof (laid_out_ext _ _ O1 _ _ _ L) as L1.
  destruct (str_eqb_spec text (rstrip z)) as [EQ|NE].
  - exists d1. split; [auto|]. split; [auto|]. split.
    + rewrite EZ. f_equal. symmetry. eapply already_ok; eauto. rewrite <- EQ. auto.
    + intros x I _. apply E1. auto.
  - rewrite (osa_descendants _ _ _ O1), TD.
    pose proof (nodup_tokens d1 r ts C1 CT1 T2 T3) as ND.
    destruct (space_loop_ok ts d1 text y ND L1) as (d'&z'&S1&S2&S3&S4&S5).
    { intros t I. split; auto. apply G1, good_ok, P. auto. }
    exists d'. pose proof (osa_trans _ _ _ O1 S2) as O2. split; [exact S1|]. split; [exact O2|].
    assert (C2 : consistent (d_h d') r). { destruct O2 as (H&_). rewrite H. auto. }
    destruct (tokens_ok d' r C2 (osa_agree _ _ O2 A) (osa_contiguous _ _ _ O2 CT)) as (ts2&U1&U2&U3&U4).
    rewrite (osa_descendants _ _ _ O2), TD in U1. injection U1 as <-.
    destruct U4 as (z2&PZ2&EZ2). { intros t I H. destruct (P1 t I) as (f&EF&_). rewrite (osa_form _ _ _ S2) in H. congruence. }
    split.
    + rewrite EZ2. f_equal. rewrite <- S5. f_equal.
      clear - PZ2 S4. revert z2 PZ2. induction S4 as [|t us f x E NS H IH|t us f x E NS H IH]; intros z2 PZ2.
      * inversion PZ2. auto.
      * inversion PZ2 as [|? ? f' x' E' NS' H'|? ? f' x' E' NS' H']; subst; [|tauto]. rewrite E in E'. injection E' as <-. rewrite (IH _ H'). auto.
      * inversion PZ2 as [|? ? f' x' E' NS' H'|? ? f' x' E' NS' H']; subst; [tauto|]. rewrite E in E'. injection E' as <-. rewrite (IH _ H'). auto.
    + intros x I NI. change (n_misc (d_at d' x)) with (token_misc d' (TWord x)). rewrite S3; [apply E1; auto|].
      intros J. apply NI. destruct O1 as (H&_). rewrite <- H, <- T2. apply in_flat_map. exists (TWord x). simpl. auto.
Qed.

(** forms without whitespace *)
Lemma laid_pieces d : forall ts x y, laid_out d ts x y -> (forall t, In t ts -> exists f, token_form d t = Some f /\ f <> [] /\ solid f) ->
  exists ps, x = glue ps /\ Forall piece_ok ps /\ ps <> [] /\ y = rstrip (out ps).
Proof.
  induction 1 as [t f g E B|t ts f x y E L IH|t ts f c g x y E C B L IH]; intros P.
  - destruct (P t (or_introl eq_refl)) as (f'&E'&N&S1). rewrite E in E'. injection E' as <-.
    exists [(f, g)]. cbn [glue out]. unfold ends_here. cbn [glue nonempty negb]. rewrite orb_true_r, !app_nil_r. split; [auto|]. split; [constructor; [repeat split; auto|constructor]|].
    split; [discriminate|]. rewrite rstrip_blank; auto using blank_SP. apply (solid_ends [] f); auto.
  - destruct (P t (or_introl eq_refl)) as (f'&E'&N&S1). rewrite E in E'. injection E' as <-.
    destruct IH as (ps&E1&F1&N1&E2); [intros; apply P; simpl; auto|]. exists ((f, []) :: ps).
    pose proof (glue_nonempty _ F1 N1) as GN. split; [cbn; rewrite E1; auto|]. split; [constructor; auto; repeat split; auto; intros c []|].
    split; [discriminate|]. cbn [out]. unfold ends_here. cbn [nonempty orb]. destruct (glue ps) as [|c l] eqn:EG; [tauto|]. cbn [nonempty negb app].
    rewrite rstrip_app; [rewrite E2; auto|]. rewrite rstrip_out by auto. rewrite EG.
    pose proof (split_words (glue ps)) as W. rewrite EG in W. pose proof (glue_starts _ F1) as GS. rewrite EG in GS.
    destruct (split_from [] (c :: l)) as [|w ws] eqn:ES; [|destruct w; [inversion W; tauto|cbn [join]; destruct ws; discriminate]].
    destruct (split_prefix [] (c :: l) []) as (w&ws&H1&_); [discriminate|auto|]. congruence.
  - destruct (P t (or_introl eq_refl)) as (f'&E'&N&S1). rewrite E in E'. injection E' as <-.
    destruct IH as (ps&E1&F1&N1&E2); [intros; apply P; simpl; auto|]. exists ((f, c :: g) :: ps).
    pose proof (glue_nonempty _ F1 N1) as GN. split; [cbn; rewrite E1; auto|].
    split; [constructor; auto; repeat split; auto; intros e [<-|I]; auto|].
    split; [discriminate|]. cbn [out]. unfold ends_here. cbn [nonempty orb].
    rewrite (app_assoc f [SP] (out ps)), rstrip_app; [rewrite E2, <- app_assoc; auto|]. rewrite rstrip_out by auto.
    pose proof (split_words (glue ps)) as W. pose proof (glue_starts _ F1) as GS.
    destruct (split_from [] (glue ps)) as [|w ws] eqn:ES; [|destruct w; [inversion W; tauto|cbn [join]; destruct ws; discriminate]].
    destruct (split_prefix [] (glue ps) []) as (w&ws&H1&_); [auto|auto|]. congruence.
Qed.
Lemma laid_words d ts x y ws : laid_out d ts x y -> (forall t, In t ts -> exists f, token_form d t = Some f /\ f <> [] /\ solid f) ->
  words_of x ws -> y = join (s " ") ws.
Proof.
  intros L P W. destruct (laid_pieces _ _ _ _ L P) as (ps&E1&F&N&->).
  apply (pieces_normal x [] ps ws); auto. intros c [].
Qed.
