(** Proofs about the tokenizers. *)
From Coq Require Import String List NArith ZArith Bool Lia.
From Verif Require Import PyStr PyList PyExn PyListFacts PyStrFacts TreeModel TreeSpec TreeFacts TreeOps DualDictModel DocModel
  ConlluModel MwtSpec MwtProofs TextModel TextSpec.
Import ListNotations.
Local Open Scope Z_scope.

(** ---- strings ---- *)
Lemma after_app p x : after p (p ++ x) = Some x.
Proof. induction p as [|a p IH]; simpl; [destruct x; auto|]. rewrite N.eqb_refl. auto. Qed.
Lemma lstrip_blank a x : blank a -> starts_solid x -> lstrip (a ++ x) = x.
Proof.
  intros B S. induction a as [|c a IH]; simpl.
  - destruct x as [|c x]; simpl; auto. simpl in S. rewrite S. auto.
  - rewrite (B c) by (simpl; auto). apply IH. intros e I. apply B. simpl. auto.
Qed.
Lemma space_run_blank a x : blank a -> starts_solid x -> space_run (a ++ x) = a.
Proof.
  intros B S. induction a as [|c a IH]; simpl.
  - destruct x as [|c x]; simpl; auto. simpl in S. rewrite S. auto.
  - rewrite (B c) by (simpl; auto). rewrite IH; auto. intros e I. apply B. simpl. auto.
Qed.
Lemma blank_app a b : blank (a ++ b) <-> blank a /\ blank b.
Proof.
  split.
  - intros H. split; intros c I; apply H, in_or_app; auto.
  - intros [A B] c I. apply in_app_or in I as [I|I]; auto.
Qed.
Lemma blank_rev a : blank a -> blank (rev a).
Proof. intros B c I. apply B, in_rev. auto. Qed.
Lemma solid_app a b : solid (a ++ b) <-> solid a /\ solid b.
Proof.
  split.
  - intros H. split; intros c I; apply H, in_or_app; auto.
  - intros [A B] c I. apply in_app_or in I as [I|I]; auto.
Qed.
Lemma rstrip_blank x a : blank a -> starts_solid (rev x) -> rstrip (x ++ a) = x.
Proof.
  intros B S. unfold rstrip. rewrite rev_app_distr, (lstrip_blank _ _ (blank_rev _ B) S). apply rev_involutive.
Qed.
Lemma rstrip_solid x : starts_solid (rev x) -> rstrip x = x.
Proof. intros S. rewrite <- (app_nil_r x) at 1. apply rstrip_blank; auto. intros c []. Qed.
Lemma solid_starts w x : w <> [] -> solid w -> starts_solid (w ++ x).
Proof. destruct w as [|c w]; [tauto|]. intros _ S. simpl. apply S. simpl. auto. Qed.
Lemma solid_ends x w : w <> [] -> solid w -> starts_solid (rev (x ++ w)).
Proof.
  intros N S. rewrite rev_app_distr. apply solid_starts.
  - intros E. apply N. rewrite <- (rev_involutive w), E. auto.
  - intros c I. apply S. apply in_rev. auto.
Qed.
Lemma rstrip_after x y : starts_solid (rev y) -> y <> [] -> rstrip (x ++ y) = x ++ y.
Proof.
  intros S N. apply rstrip_solid. rewrite rev_app_distr. destruct (rev y) as [|c r] eqn:E; [|exact S].
  elim N. rewrite <- (rev_involutive y), E. auto.
Qed.
(** rstrip of something with ink at the end of the front part *)
Lemma rstrip_ends x : starts_solid (rev (rstrip x)).
Proof.
  unfold rstrip. rewrite rev_involutive. induction (rev x) as [|c r IH]; simpl; auto.
  destruct (is_space c) eqn:E; auto.
Qed.
Lemma lstrip_app x y : lstrip x <> [] -> lstrip (x ++ y) = lstrip x ++ y.
Proof.
  induction x as [|c x IH]; simpl; [tauto|]. destruct (is_space c); auto.
Qed.
Lemma rstrip_app x y : rstrip y <> [] -> rstrip (x ++ y) = x ++ rstrip y.
Proof.
  intros N. unfold rstrip in *. rewrite rev_app_distr, lstrip_app.
  - rewrite rev_app_distr, rev_involutive. auto.
  - intros E. apply N. rewrite E. auto.
Qed.

(** ---- words ---- *)
Lemma split_from_solid w x : forall cur, solid w -> split_from cur (w ++ x) = split_from (cur ++ w) x.
Proof.
  induction w as [|c w IH]; intros cur S; simpl; [rewrite app_nil_r; auto|].
  rewrite (S c) by (simpl; auto). rewrite IH by (intros e I; apply S; simpl; auto). rewrite <- app_assoc. auto.
Qed.
Lemma split_from_blank a x : blank a -> split_from [] (a ++ x) = split_from [] x.
Proof.
  induction a as [|c a IH]; intros B; simpl; auto. rewrite (B c) by (simpl; auto). apply IH. intros e I. apply B. simpl. auto.
Qed.
Lemma split_word w g x : w <> [] -> solid w -> g <> [] -> blank g -> split_from [] (w ++ g ++ x) = w :: split_from [] x.
Proof.
  intros N S NG B. rewrite split_from_solid by auto. simpl. destruct g as [|c g]; [tauto|]. simpl.
  rewrite (B c) by (simpl; auto). destruct w as [|e w]; [tauto|]. cbn [nonempty]. f_equal. apply split_from_blank.
  intros z I. apply B. simpl. auto.
Qed.
Lemma split_prefix p : forall x cur, cur ++ x <> [] -> starts_solid (cur ++ x) ->
  exists w ws, split_from cur x = w :: ws /\ split_from (p ++ cur) x = (p ++ w) :: ws.
Proof.
  induction x as [|c x IH]; intros cur N S.
  - rewrite app_nil_r in N. exists cur, []. simpl. destruct cur as [|e cur]; [tauto|]. simpl.
    assert (E : nonempty (p ++ e :: cur) = true) by (destruct p; auto). rewrite E. auto.
  - simpl. destruct (is_space c) eqn:E.
    + destruct cur as [|e cur]; [simpl in S; congruence|]. exists (e :: cur), (split_from [] x). simpl.
      assert (E2 : nonempty (p ++ e :: cur) = true) by (destruct p; auto). rewrite E2. auto.
    + destruct (IH (cur ++ [c])) as (w&ws&H1&H2).
      * destruct cur; discriminate.
      * rewrite <- app_assoc. auto.
      * exists w, ws. split; auto. rewrite <- H2, <- app_assoc. auto.
Qed.
Lemma words_split x ws : words_of x ws -> split_from [] x = ws.
Proof.
  induction 1 as [x B|a w B N S|a w c x ws B N S C _ IH].
  - rewrite <- (app_nil_r x), split_from_blank; auto.
  - rewrite split_from_blank by auto. rewrite <- (app_nil_r w) at 1. rewrite split_from_solid by auto. simpl.
    destruct w; [tauto|]. auto.
  - rewrite split_from_blank by auto. rewrite split_from_solid by auto. simpl. rewrite C. destruct w; [tauto|]. simpl.
    f_equal. simpl in IH. rewrite C in IH. auto.
Qed.
(** Every text has words. *)
Lemma words_exist_from : forall x w, solid w -> exists ws, words_of (w ++ x) ws.
Proof.
  induction x as [|c x IH]; intros w S.
  - rewrite app_nil_r. destruct w as [|e w]; [exists []; apply wo_none; intros c []|].
    exists [e :: w]. apply (wo_last []); [intros c []|discriminate|auto].
  - destruct (is_space c) eqn:E.
    + destruct (IH [] ltac:(intros z [])) as [ws W]. simpl in W.
      assert (W' : words_of (c :: x) ws).
      { inversion W; subst.
        - apply wo_none. intros z [<-|I]; auto.
        - apply (wo_last (c :: a)); auto. intros z [<-|I]; auto.
        - apply (wo_more (c :: a)); auto. intros z [<-|I]; auto. }
      destruct w as [|e w]; [exists ws; auto|]. exists ((e :: w) :: ws).
      apply (wo_more [] (e :: w) c x ws); auto; [intros z []|discriminate].
    + destruct (IH (w ++ [c])) as [ws W].
      * apply solid_app. split; auto. intros z [<-|[]]. auto.
      * exists ws. rewrite <- app_assoc in W. auto.
Qed.
Lemma words_exist x : exists ws, words_of x ws.
Proof. apply (words_exist_from x []). intros c []. Qed.
Lemma words_unique x ws ws' : words_of x ws -> words_of x ws' -> ws = ws'.
Proof. intros A B. rewrite <- (words_split _ _ A). apply words_split. auto. Qed.
Lemma split_words x : words_of x (split_from [] x).
Proof. destruct (words_exist x) as [ws W]. rewrite (words_split _ _ W). auto. Qed.

(** ---- pieces of a text: tokens and the whitespace after them ---- *)
Fixpoint glue (ps : list (str * str)) : str := match ps with [] => [] | (t, g) :: ps => t ++ g ++ glue ps end.
Definition piece_ok (p : str * str) : Prop := fst p <> [] /\ solid (fst p) /\ blank (snd p).
Lemma glue_starts ps : Forall piece_ok ps -> starts_solid (glue ps).
Proof. destruct 1 as [|[t g] ps [N [S B]] H]; simpl; auto. apply solid_starts; auto. Qed.
Lemma glue_nonempty ps : Forall piece_ok ps -> ps <> [] -> glue ps <> [].
Proof. destruct 1 as [|[t g] ps [N [S B]] H]; [tauto|]. intros _. simpl in *. destruct t; [tauto|discriminate]. Qed.
(** the text printed for the pieces *)
Definition ends_here (ps : list (str * str)) (g : str) : bool := nonempty g || negb (nonempty (glue ps)).
Fixpoint out (ps : list (str * str)) : str :=
  match ps with
  | [] => []
  | (t, g) :: ps => t ++ (if ends_here ps g then [SP] else []) ++ out ps
  end.
Lemma blank_SP : blank [SP].
Proof. intros c [<-|[]]. reflexivity. Qed.
Lemma rstrip_out ps : Forall piece_ok ps -> rstrip (out ps) = join [SP] (split_from [] (glue ps)).
Proof.
  induction 1 as [|[t g] ps [N [S B]] H IH]; [reflexivity|]. cbn [fst snd] in *. cbn [out glue].
  assert (TS : starts_solid (rev t)) by (apply (solid_ends [] t); auto).
  destruct ps as [|q ps].
  - cbn [out glue]. unfold ends_here. cbn [glue nonempty negb]. rewrite orb_true_r. rewrite !app_nil_r.
    rewrite rstrip_blank by auto using blank_SP.
    destruct g as [|c g].
    + rewrite app_nil_r, <- (app_nil_r t) at 1. rewrite <- (app_nil_r t) at 2. rewrite split_from_solid by auto. simpl. destruct t; [tauto|]. simpl. rewrite app_nil_r. auto.
    + rewrite <- (app_nil_r (c :: g)), split_word by (auto; discriminate). reflexivity.
  - pose proof (glue_nonempty _ H ltac:(discriminate)) as GN. pose proof (glue_starts _ H) as GS.
    set (qs := q :: ps) in *. clearbody qs.
    assert (EN : nonempty (glue qs) = true) by (destruct (glue qs); [tauto|auto]).
    unfold ends_here. rewrite EN, orb_false_r.
    destruct (split_prefix t (glue qs) []) as (w&ws&E1&E2); [auto|auto|].
    assert (RN : rstrip (out qs) <> []).
    { rewrite IH, E1. destruct w as [|c w]; [|simpl; destruct ws; discriminate].
      exfalso. pose proof (split_words (glue qs)) as W. rewrite E1 in W. inversion W; tauto. }
    destruct g as [|c g]; cbn [nonempty].
    + cbn [app]. rewrite rstrip_app by auto. rewrite IH, E1. rewrite split_from_solid by auto. cbn [app].
      rewrite app_nil_r in E2. rewrite E2. simpl. destruct ws; [auto|]. rewrite <- app_assoc. auto.
    + rewrite (app_assoc t [SP]), rstrip_app by auto. rewrite split_word by (auto; discriminate).
      rewrite IH, E1. simpl. rewrite <- app_assoc. simpl. destruct ws; auto.
Qed.
Lemma pieces_words x ws : words_of x ws -> exists a ps, x = a ++ glue ps /\ blank a /\ Forall piece_ok ps /\ map fst ps = ws.
Proof.
  induction 1 as [x B|a w B N S|a w c x ws B N S C _ IH].
  - exists x, []. simpl. rewrite app_nil_r. auto.
  - exists a, [(w, [])]. simpl. rewrite !app_nil_r. repeat split; auto. constructor; auto. repeat split; auto. intros c [].
  - destruct IH as (b&ps&E&Bb&F&M). exists a, ((w, b) :: ps). simpl. rewrite E. repeat split; auto.
    + constructor; auto. repeat split; auto.
    + rewrite M. auto.
Qed.

(** ---- the loop over the tokens ---- *)
Definition setm (m : option dualdict) (k v : str) : option dualdict := Some (dd_set (dd_prop m) k (VStr v)).
Definition tok_misc_of (keep first : bool) (before g : str) (rest_empty : bool) : option dualdict :=
  let before := if keep then before else [] in
  let g := if keep then g else if negb (nonempty g) && negb rest_empty then [] else [SP] in
  let m := if first && nonempty before then setm None SpacesBefore (escape before) else None in
  if negb (nonempty g) then setm m SpaceAfter No
  else if negb (str_eqb g [SP]) then setm m SpacesAfter (escape g) else m.
Definition tok_attrs (t : str) (m : option dualdict) : attrs :=
  mkAttrs (Some t) None None None None None m (Some US) None.
Fixpoint miscs_of (keep first : bool) (before : str) (ps : list (str * str)) : list attrs :=
  match ps with
  | [] => []
  | (t, g) :: ps => tok_attrs t (tok_misc_of keep first before g (negb (nonempty (glue ps)))) :: miscs_of keep false before ps
  end.
(** d' has the new words ns with the attributes as below r, and is otherwise like d *)
Record extends (d d' : doc) (r : nat) (ns : list nat) (as_ : list attrs) : Prop := {
  x_next : (h_next (d_h d) <= h_next (d_h d'))%nat;
  x_fresh : forall n, In n ns -> (h_next (d_h d) <= n < h_next (d_h d'))%nat;
  x_nodup : NoDup ns;
  x_desc : h_desc (d_h d') r = h_desc (d_h d) r ++ ns;
  x_ch : h_ch (d_h d') r = h_ch (d_h d) r ++ ns;
  x_at : map (d_at d') ns = as_;
  x_new : forall n, In n ns -> d_mwt d' n = None /\ h_par (d_h d') n = Some r /\ h_root (d_h d') n = r /\ h_kind (d_h d') n = KNode /\ h_ch (d_h d') n = [];
  x_ords : map (h_ord (d_h d')) ns = map Z.of_nat (seq (S (length (h_desc (d_h d) r))) (length ns));
  x_old : forall n, (n < h_next (d_h d))%nat -> d_at d' n = d_at d n /\ d_mwt d' n = d_mwt d n /\ h_par (d_h d') n = h_par (d_h d) n /\
     h_root (d_h d') n = h_root (d_h d) n /\ h_kind (d_h d') n = h_kind (d_h d) n /\ h_ord (d_h d') n = h_ord (d_h d) n;
  x_other : forall n, (n < h_next (d_h d))%nat -> n <> r -> h_ch (d_h d') n = h_ch (d_h d) n /\ h_desc (d_h d') n = h_desc (d_h d) n;
  x_emp : forall n, (n < h_next (d_h d))%nat -> h_emp (d_h d') n = h_emp (d_h d) n;
  x_rest : d_mwts d' = d_mwts d /\ d_m d' = d_m d /\ d_mnext d' = d_mnext d /\ d_ri d' = d_ri d }.
Lemma extends_refl d r : extends d d r [] [].
Proof. split; simpl; rewrite ?app_nil_r; auto; try (intros ? []); try constructor; auto; intros; auto 10. Qed.
Lemma extends_trans d d1 d2 r ns1 as1 ns2 as2 : (r < h_next (d_h d))%nat -> extends d d1 r ns1 as1 -> extends d1 d2 r ns2 as2 ->
  extends d d2 r (ns1 ++ ns2) (as1 ++ as2).
Proof.
  intros LR [] [].
  assert (E2 : forall n, In n ns1 -> (n < h_next (d_h d1))%nat /\ n <> r).
  { intros n I. apply x_fresh0 in I. lia. }
  split; auto.
  - lia.
  - intros n I. apply in_app_or in I as [I|I]; [apply x_fresh0 in I|apply x_fresh1 in I]; lia.
  - apply NoDup_app; auto. intros n I J. apply x_fresh0 in I. apply x_fresh1 in J. lia.
  - rewrite x_desc1, x_desc0, app_assoc. auto.
  - rewrite x_ch1, x_ch0, app_assoc. auto.
  - rewrite map_app, x_at1. f_equal. rewrite <- x_at0. apply map_ext_in. intros n I. apply x_old1, E2. auto.
  - intros n I. apply in_app_or in I as [I|I]; [|apply x_new1; auto].
    destruct (E2 n I) as [L NR]. destruct (x_old1 n L) as (_&A&B&C&D&_). destruct (x_other1 n L NR) as [F _].
    rewrite A, B, C, D, F. apply x_new0. auto.
  - rewrite map_app, app_length, seq_app, map_app. f_equal.
    + rewrite <- x_ords0. apply map_ext_in. intros n I. apply x_old1, E2. auto.
    + rewrite x_ords1, x_desc0, app_length. do 2 f_equal. 
  - intros n L. assert (L1 : (n < h_next (d_h d1))%nat) by lia. specialize (x_old0 n L). specialize (x_old1 n L1).
    decompose [and] x_old0. decompose [and] x_old1. repeat split; congruence.
  - intros n L NR. assert (L1 : (n < h_next (d_h d1))%nat) by lia. specialize (x_other0 n L NR). specialize (x_other1 n L1 NR).
    decompose [and] x_other0. decompose [and] x_other1. split; congruence.
  - intros n L. rewrite x_emp1 by lia. auto.
  - decompose [and] x_rest0. decompose [and] x_rest1. repeat split; congruence.
Qed.
Lemma put_misc_attrs d n t m k v : d_at d n = tok_attrs t m -> forall x,
  d_at (put_misc d n k v) x = upd (d_at d) n (tok_attrs t (setm m k v)) x.
Proof. intros E x. unfold put_misc. cbn. rewrite E. reflexivity. Qed.

(** one token *)
Definition tok_step (keep : bool) (d : doc) (r : nat) (i : Z) (before g rest t : str) : doc :=
  let before := if keep then before else [] in
  let spaces_after := if keep then g else if negb (nonempty g) && nonempty rest then [] else [SP] in
  let (d, n) := create_form_child d r t in
  let d := with_h d (put_ord (d_h d) n i) in
  let d := if (i =? 1) && nonempty before then put_misc d n SpacesBefore (escape before) else d in
  if negb (nonempty spaces_after) then put_misc d n SpaceAfter No
  else if negb (str_eqb spaces_after [SP]) then put_misc d n SpacesAfter (escape spaces_after)
  else d.
Lemma tok_loop_cons keep d r i before x t ts y : after t x = Some y ->
  tok_loop keep d r i before x (t :: ts) =
  tok_loop keep (tok_step keep d r i before (space_run y) (lstrip y) t) r (i + 1) (if keep then before else []) (lstrip y) ts.
Proof. intros E. cbn [tok_loop]. rewrite E. reflexivity. Qed.

Lemma tok_step_ok keep d r i before g rest t : h_root (d_h d) r = r -> (r < h_next (d_h d))%nat ->
  i = (Z.of_nat (length (h_desc (d_h d) r)) + 1) ->
  extends d (tok_step keep d r i before g rest t) r [h_next (d_h d)]
    [tok_attrs t (tok_misc_of keep (i =? 1) before g (negb (nonempty rest)))].
Proof.
  intros RR LR Ei. unfold tok_step. unfold create_form_child, create_child, alloc. cbn [h_root].
  rewrite upd_other by lia. rewrite RR.
  set (n := h_next (d_h d)) in *.
  assert (NR : r <> n) by lia.
  match goal with |- context [with_h ?a (put_ord (d_h ?a) n i)] => set (d1 := with_h a (put_ord (d_h a) n i)) end.
  assert (X1 : extends d d1 r [n] [tok_attrs t None]).
  { subst d1. split; cbn; auto.
    - intros x [<-|[]]. lia.
    - constructor; [intros []|constructor].
    - rewrite upd_same. rewrite upd_other by auto. auto.
    - rewrite upd_same, upd_other by auto. auto.
    - rewrite upd_same. reflexivity.
    - intros x [<-|[]]. rewrite !upd_same. rewrite upd_other by auto. rewrite upd_same. auto.
    - rewrite upd_same. rewrite Ei. f_equal. lia.
    - intros x L. assert (x <> n) by lia. rewrite !upd_other by auto. auto 10.
    - intros x L N2. assert (x <> n) by lia. rewrite !upd_other by auto. auto.
    - intros x L. assert (x <> n) by lia. rewrite upd_other by auto. auto. }
  clearbody d1.
  assert (MS : forall d2 m k v, extends d d2 r [n] [tok_attrs t m] -> extends d (put_misc d2 n k v) r [n] [tok_attrs t (setm m k v)]).
  { intros d2 m k v X. pose proof (x_at _ _ _ _ _ X) as A. cbn in A. injection A as A.
    pose proof (put_misc_attrs d2 n t m k v A) as PM. destruct X. split; auto.
    - cbn [map]. rewrite PM, upd_same. auto.
    - intros x L. rewrite PM. assert (x <> n) by lia. rewrite upd_other by auto. apply x_old0. auto. }
  unfold tok_misc_of. cbv zeta. rewrite negb_involutive.
  change (list char) with str.
  match goal with |- context [if ?c then put_misc _ _ SpacesBefore _ else _] => destruct c end; [apply MS with (k := SpacesBefore) (v := escape (if keep then before else [])) in X1|].
  all: set (ga := if keep then g else if negb (nonempty g) && nonempty rest then [] else [SP]); clearbody ga.
  all: destruct (negb (nonempty ga)); [apply MS; exact X1|]; destruct (negb (str_eqb ga [SP])); [apply MS; exact X1|exact X1].
Qed.

Lemma tok_loop_ok keep r : forall ps d i before, Forall piece_ok ps -> h_root (d_h d) r = r -> (r < h_next (d_h d))%nat ->
  i = (Z.of_nat (length (h_desc (d_h d) r)) + 1) ->
  exists d' ns, tok_loop keep d r i before (glue ps) (map fst ps) = (d', Ok tt) /\
    extends d d' r ns (miscs_of keep (i =? 1) before ps).
Proof.
  induction ps as [|[t g] ps IH]; intros d i before F RR LR Ei.
  - exists d, []. split; [reflexivity|]. apply extends_refl.
  - inversion F as [|? ? [N [S B]] F']; subst. cbn [fst snd] in *. cbn [map glue fst].
    pose proof (glue_starts _ F') as GS.
    rewrite (tok_loop_cons _ _ _ _ _ _ _ _ (g ++ glue ps)) by apply after_app.
    rewrite lstrip_blank, space_run_blank by auto.
    set (i := Z.of_nat (length (h_desc (d_h d) r)) + 1) in *.
    pose proof (tok_step_ok keep d r i before g (glue ps) t RR LR eq_refl) as X1.
    set (d1 := tok_step keep d r i before g (glue ps) t) in *. clearbody d1.
    destruct (IH d1 (i + 1) (if keep then before else [])) as (d'&ns&E&X2); auto.
    + destruct (x_old _ _ _ _ _ X1 r LR) as (_&_&_&A&_). congruence.
    + pose proof (x_next _ _ _ _ _ X1). lia.
    + rewrite (x_desc _ _ _ _ _ X1), app_length. cbn [length]. lia.
    + exists d', (h_next (d_h d) :: ns). split; [exact E|].
      pose proof (extends_trans _ _ _ _ _ _ _ _ LR X1 X2) as X. cbn [app] in X.
      replace (i + 1 =? 1) with false in X by (symmetry; apply Z.eqb_neq; lia).
      cbn [miscs_of]. replace (miscs_of keep false before ps) with (miscs_of keep false (if keep then before else []) ps); auto.
      destruct keep; auto. generalize ps. intros l. induction l as [|[t' g'] l IHl]; cbn [miscs_of]; auto. rewrite IHl. auto.
Qed.

(** ---- the whole tree ---- *)
Lemma no_children_no_words h r : consistent h r -> h_ch h r = [] -> h_desc h r = [].
Proof.
  intros C E. destruct (h_desc h r) as [|x l] eqn:ED; auto. exfalso.
  assert (K : forall y, In y (h_desc h r) -> h_par h y = Some r -> False).
  { intros y I HP. assert (J : In y (h_ch h r)).
    { rewrite (c_children _ _ C r (or_introl eq_refl)). apply filter_In. split; auto.
      unfold has_parent. rewrite HP. apply Nat.eqb_refl. }
    rewrite E in J. destruct J. }
  assert (U : forall y z, up h y z -> z = r -> In y (h_desc h r) -> False).
  { intros y z U. induction U as [y p HP|y p z HP U IH]; intros -> I; [apply (K y); auto|].
    destruct (c_parents _ _ C y I) as (q&Q1&Q2). rewrite HP in Q1. injection Q1 as <-.
    destruct Q2 as [->|Q2]; [apply (K y); auto|apply IH; auto]. }
  assert (I : In x (h_desc h r)) by (rewrite ED; simpl; auto).
  apply (U x r (c_connected _ _ C x I) eq_refl I).
Qed.
Lemma extends_consistent d d' r ns l : consistent (d_h d) r -> h_desc (d_h d) r = [] -> extends d d' r ns l -> consistent (d_h d') r.
Proof.
  intros C E X. pose proof (c_alloc _ _ C r (or_introl eq_refl)) as LR. destruct X. rewrite E in *. cbn [app] in *.
  assert (CH : h_ch (d_h d) r = []). { rewrite (c_children _ _ C r (or_introl eq_refl)), E. auto. }
  rewrite CH in *. cbn [app] in *. destruct (x_old0 r LR) as (_&_&P&RT&K&O).
  split; rewrite ?x_desc0; auto.
  - intros I. apply x_fresh0 in I. lia.
  - rewrite O. apply (c_ord0 _ _ C).
  - intros x I. destruct (x_new0 x I) as (_&A&_). exists r. split; auto. left. auto.
  - rewrite P. apply (c_top _ _ C).
  - intros y [->|I].
    + rewrite x_ch0. symmetry. apply filter_all. intros n I. unfold has_parent. destruct (x_new0 n I) as (_&A&_). rewrite A. apply Nat.eqb_refl.
    + rewrite x_desc0 in I. destruct (x_new0 y I) as (_&_&_&_&A). rewrite A. symmetry. apply filter_none. intros n J. unfold has_parent.
      destruct (x_new0 n J) as (_&B&_). rewrite B. apply Nat.eqb_neq. apply x_fresh0 in I. lia.
  - intros x I. destruct (x_new0 x I) as (_&A&_). apply up_1. exact A.
  - intros y [->|I]; [rewrite RT; apply (c_roots _ _ C); left; auto|]. rewrite x_desc0 in I. apply x_new0. auto.
  - split; [intros x I; apply x_new0; auto|]. rewrite K. apply (c_kinds _ _ C).
  - intros y [->|I]; [lia|]. rewrite x_desc0 in I. apply x_fresh0. auto.
Qed.

(** the printed text *)
Fixpoint print_words (d : doc) (l : list nat) : str :=
  match l with
  | [] => []
  | n :: l => (match n_form (d_at d n) with Some f => f | None => [] end) ++ space_unless_no (n_misc (d_at d n)) ++ print_words d l
  end.
Lemma text_loop_words d : forall l z acc, (forall n, In n l -> d_mwt d n = None /\ n_form (d_at d n) <> None) ->
  text_loop d true z acc l = Ok (acc ++ print_words d l).
Proof.
  induction l as [|n l IH]; intros z acc H; cbn [text_loop print_words]; [rewrite app_nil_r; auto|].
  destruct (H n (or_introl eq_refl)) as [M F]. rewrite M. destruct (n_form (d_at d n)) as [f|]; [|tauto].
  rewrite IH by (intros; apply H; simpl; auto). rewrite <- !app_assoc. auto.
Qed.
Lemma space_of_misc m : space_unless_no m = if val_is (misc_get m SpaceAfter) No then [] else [SP].
Proof. reflexivity. Qed.
Lemma normal_misc first before g e :
  tok_misc_of false first before g e = if negb (nonempty g) && negb e then setm None SpaceAfter No else None.
Proof. unfold tok_misc_of. cbn [nonempty]. rewrite andb_false_r. destruct (negb (nonempty g) && negb e); reflexivity. Qed.
Lemma print_normal d : forall ps ns first before, map (d_at d) ns = miscs_of false first before ps -> print_words d ns = out ps.
Proof.
  induction ps as [|[t g] ps IH]; intros ns first before E; destruct ns as [|n ns]; try discriminate; auto.
  cbn [map miscs_of] in E. injection E as E1 E2. cbn [print_words out]. rewrite E1, (IH ns false before E2). cbn [n_form n_misc tok_attrs].
  rewrite normal_misc, negb_involutive. unfold ends_here.
  destruct (nonempty g); cbn [negb andb orb]; [reflexivity|].
  destruct (nonempty (glue ps)); reflexivity.
Qed.
Lemma miscs_forms keep : forall ps first before, map n_form (miscs_of keep first before ps) = map (fun p => Some (fst p)) ps.
Proof. induction ps as [|[t g] ps IH]; intros; cbn; auto. rewrite IH. auto. Qed.
Lemma miscs_shape keep : forall ps first before a, In a (miscs_of keep first before ps) -> exists t m, a = tok_attrs t m.
Proof. induction ps as [|[t g] ps IH]; intros first before a; cbn; [tauto|]. intros [<-|I]; eauto. Qed.

Lemma tokenize_pieces tok keep d r x a ps : consistent (d_h d) r -> h_ch (d_h d) r = [] -> ri_text (d_ri d r) = Some x ->
  x = a ++ glue ps -> blank a -> Forall piece_ok ps -> tok x = map fst ps ->
  exists d', tokenize_tree tok keep d r = (d', Ok tt) /\ consistent (d_h d') r /\ flat d' r /\
    map (d_at d') (h_desc (d_h d') r) = miscs_of keep true a ps /\
    (forall n, live (d_h d') r n -> n = r \/ ~ (n < h_next (d_h d))%nat) /\
    compute_text d' r true = Ok (rstrip (print_words d' (h_desc (d_h d') r))) /\
    extends d d' r (h_desc (d_h d') r) (miscs_of keep true a ps).
Proof.
  intros C E T EX B F TK. pose proof (c_alloc _ _ C r (or_introl eq_refl)) as LR.
  pose proof (no_children_no_words _ _ C E) as ED. pose proof (glue_starts _ F) as GS.
  destruct (tok_loop_ok keep r ps d 1 a F) as (d'&ns&EQ&X); auto.
  { apply (c_roots _ _ C). left. auto. } { rewrite ED. auto. }
  exists d'. unfold tokenize_tree. rewrite E, T, TK. rewrite EX, lstrip_blank, space_run_blank by auto.
  split; [exact EQ|]. pose proof (extends_consistent _ _ _ _ _ C ED X) as C'. split; [exact C'|].
  pose proof (x_desc _ _ _ _ _ X) as XD. rewrite ED in XD. cbn in XD. pose proof (x_at _ _ _ _ _ X) as XA. cbn [Z.eqb Pos.eqb] in XA, X.
  assert (SH : forall n, In n ns -> exists f m, d_at d' n = tok_attrs f m).
  { intros n I. apply (miscs_shape keep ps true a). rewrite <- XA. apply in_map. auto. }
  split; [|split; [rewrite XD; exact XA|]].
  { intros n I. rewrite XD in I. destruct (x_new _ _ _ _ _ X n I) as (A1&A2&_). split; [exact A2|]. split; [auto|]. apply SH. auto. }
  split; [|split; [|rewrite XD; exact X]].
  { intros n [->|I]; auto. right. rewrite XD in I. apply (x_fresh _ _ _ _ _ X) in I. lia. }
  unfold compute_text. assert (IR : is_root (d_h d') r = true). { unfold is_root. rewrite (proj2 (c_kinds _ _ C')). auto. }
  rewrite IR. cbn [rbind]. rewrite text_loop_words; [reflexivity|]. rewrite XD. intros n I.
  split; [apply (x_new _ _ _ _ _ X n I)|]. destruct (SH n I) as (f&m&->). discriminate.
Qed.
Lemma pieces_normal x a ps ws : x = a ++ glue ps -> blank a -> Forall piece_ok ps -> words_of x ws -> rstrip (out ps) = join [SP] ws.
Proof.
  intros EX B F W. rewrite rstrip_out by auto. rewrite <- (words_split _ _ W), EX, split_from_blank; auto.
Qed.
Lemma tokenize_normal tok d r x a ps ws : consistent (d_h d) r -> h_ch (d_h d) r = [] -> ri_text (d_ri d r) = Some x ->
  x = a ++ glue ps -> blank a -> Forall piece_ok ps -> tok x = map fst ps -> words_of x ws ->
  exists d', tokenize_tree tok false d r = (d', Ok tt) /\ consistent (d_h d') r /\ flat d' r /\
    map (fun n => n_form (d_at d' n)) (h_desc (d_h d') r) = map Some (tok x) /\
    map (d_at d') (h_desc (d_h d') r) = miscs_of false true a ps /\
    compute_text d' r true = Ok (join (s " ") ws) /\ d_ri d' = d_ri d.
Proof.
  intros C E T EX B F TK W. destruct (tokenize_pieces tok false d r x a ps) as (d'&Q1&Q2&Q3&Q4&_&Q5&Q6); auto.
  exists d'. split; [auto|]. split; [auto|]. split; [auto|]. split; [|split; [auto|split]].
  - rewrite TK, map_map, <- (miscs_forms false ps true a), <- Q4, map_map. auto.
  - rewrite Q5. rewrite (print_normal _ _ _ _ _ Q4). rewrite (pieces_normal x a ps ws); auto.
  - apply (x_rest _ _ _ _ _ Q6).
Qed.

(** C41, tokenize.OnWhitespace *)
Lemma on_whitespace_statement d r x ws : consistent (d_h d) r -> h_ch (d_h d) r = [] -> ri_text (d_ri d r) = Some x ->
  words_of x ws ->
  exists d', tokenize_tree tokenize_on_whitespace false d r = (d', Ok tt) /\ consistent (d_h d') r /\ flat d' r /\
    map (fun n => n_form (d_at d' n)) (h_desc (d_h d') r) = map Some ws /\
    compute_text d' r true = Ok (join (s " ") ws) /\ d_ri d' = d_ri d.
Proof.
  intros C E T W. destruct (pieces_words _ _ W) as (a&ps&EX&B&F&M).
  pose proof (words_split _ _ W) as TK.
  destruct (tokenize_normal tokenize_on_whitespace d r x a ps ws) as (d'&Q1&Q2&Q3&Q4&_&Q5&Q6); auto.
  { unfold tokenize_on_whitespace. congruence. }
  exists d'. unfold tokenize_on_whitespace in Q4 at 1. rewrite TK in Q4. auto 10.
Qed.

(** ---- keep_spaces ---- *)
Lemma unescape_cons c x : c <> 92%N -> unescape (c :: x) = c :: unescape x.
Proof.
  intros H. destruct c as [|p]; [reflexivity|].
  do 7 (destruct p as [p|p|]; try reflexivity). now elim H.
Qed.
Lemma unescape_escape : forall g y, blank g -> unescape (escape g ++ y) = g ++ unescape y.
Proof.
  induction g as [|c g IH]; intros y B; auto.
  assert (Bc : is_space c = true) by (apply B; simpl; auto).
  assert (IH' : unescape (escape g ++ y) = g ++ unescape y) by (apply IH; intros e I; apply B; simpl; auto).
  cbn [escape flat_map]. fold (escape g). rewrite <- app_assoc. unfold escape_char.
  destruct (N.eqb_spec c SP) as [->|_]; [cbn [app unescape]; rewrite <- IH'; reflexivity|].
  destruct (N.eqb_spec c TAB) as [->|_]; [cbn [app unescape]; rewrite <- IH'; reflexivity|].
  destruct (N.eqb_spec c CR) as [->|_]; [cbn [app unescape]; rewrite <- IH'; reflexivity|].
  destruct (N.eqb_spec c LF) as [->|_]; [cbn [app unescape]; rewrite <- IH'; reflexivity|].
  cbn [app]. rewrite unescape_cons; [rewrite IH'; auto|]. intros ->. discriminate Bc.
Qed.
Lemma unescape_escape0 g : blank g -> unescape (escape g) = g.
Proof. intros B. rewrite <- (app_nil_r (escape g)), unescape_escape by auto. apply app_nil_r. Qed.
Lemma escape_nonempty g : g <> [] -> escape g <> [].
Proof.
  destruct g as [|c g]; [tauto|]. intros _. cbn [escape flat_map]. unfold escape_char.
  repeat match goal with |- context [if ?b then _ else _] => destruct b end; discriminate.
Qed.
Lemma good_setm m k v : good m -> good (setm m k v).
Proof. apply good_set. Qed.
Lemma get_setm m k v k' : good m -> misc_get (setm m k v) k' = if str_eqb k' k then VStr v else misc_get m k'.
Proof. apply get_after_set. Qed.
Definition first_misc (first : bool) (before : str) : option dualdict :=
  if first && nonempty before then setm None SpacesBefore (escape before) else None.
Lemma first_misc_good first before : good (first_misc first before).
Proof. unfold first_misc. destruct (first && nonempty before); auto using good_setm, good_None. Qed.
Lemma first_misc_get first before k : misc_get (first_misc first before) k =
  if str_eqb k SpacesBefore then VStr (if first then escape before else []) else VStr [].
Proof.
  unfold first_misc. destruct first; cbn [andb]; [|destruct (str_eqb k SpacesBefore); reflexivity].
  destruct before as [|c b]; cbn [nonempty]; [destruct (str_eqb k SpacesBefore); reflexivity|].
  rewrite get_setm by apply good_None. destruct (str_eqb k SpacesBefore); reflexivity.
Qed.
Lemma keep_misc first before g e : tok_misc_of true first before g e =
  if negb (nonempty g) then setm (first_misc first before) SpaceAfter No
  else if negb (str_eqb g [SP]) then setm (first_misc first before) SpacesAfter (escape g) else first_misc first before.
Proof. reflexivity. Qed.
Lemma keep_after first before g e : blank g -> space_after (tok_misc_of true first before g e) g.
Proof.
  intros B. rewrite keep_misc. pose proof (first_misc_good first before) as G.
  destruct g as [|c g]; cbn [nonempty negb].
  - apply sa_no; rewrite get_setm by auto; [cbn [str_eqb]|reflexivity]. rewrite first_misc_get. reflexivity.
  - set (x := c :: g) in *. destruct (str_eqb x [SP]) eqn:E; cbn [negb].
    + apply str_eqb_eq in E. rewrite E. apply sa_default; rewrite first_misc_get; reflexivity.
    + rewrite <- (unescape_escape0 x B) at 2. apply sa_spaces; [apply escape_nonempty; discriminate|].
      rewrite get_setm by auto. reflexivity.
Qed.
Lemma keep_before before g e : blank before -> space_before (tok_misc_of true true before g e) before.
Proof.
  intros B. rewrite keep_misc. pose proof (first_misc_good true before) as G.
  replace (space_before _ before) with (space_before (if negb (nonempty g) then setm (first_misc true before) SpaceAfter No
    else if negb (str_eqb g [SP]) then setm (first_misc true before) SpacesAfter (escape g) else first_misc true before)
    (unescape (escape before))) by (rewrite (unescape_escape0 before B); auto).
  apply sb.
  destruct (negb (nonempty g)); [|destruct (negb (str_eqb g [SP]))]; rewrite ?get_setm by auto;
    (change (str_eqb (s "SpacesBefore") SpaceAfter) with false || change (str_eqb (s "SpacesBefore") SpacesAfter) with false || idtac); cbv iota;
    rewrite first_misc_get; reflexivity.
Qed.
Lemma encoded_pieces d : forall ps ns first before, Forall piece_ok ps -> map (d_at d) ns = miscs_of true first before ps ->
  encoded d ns (glue ps).
Proof.
  induction ps as [|[t g] ps IH]; intros ns first before F E; destruct ns as [|n ns]; try discriminate; [constructor|].
  inversion F as [|? ? [_ [_ B]] F']; subst. cbn [map miscs_of] in E. injection E as E1 E2. cbn [glue].
  apply en_cons; [rewrite E1; reflexivity| |eapply IH; eauto]. rewrite E1. cbn [n_misc tok_attrs]. apply keep_after. auto.
Qed.
Fixpoint out_k (ps : list (str * str)) : str :=
  match ps with
  | [] => []
  | (t, g) :: ps => t ++ (if nonempty g then [SP] else []) ++ out_k ps
  end.
Lemma rstrip_out_k ps : Forall piece_ok ps -> rstrip (out_k ps) = rstrip (out ps) /\ (ps <> [] -> rstrip (out_k ps) <> []).
Proof.
  induction 1 as [|[t g] ps [N [S B]] H [IH1 IH2]]; [split; [reflexivity|tauto]|]. cbn [fst snd] in *. cbn [out out_k].
  assert (TS : starts_solid (rev t)) by (apply (solid_ends [] t); auto).
  destruct ps as [|q ps].
  - cbn [out out_k]. unfold ends_here. cbn [glue nonempty negb]. rewrite orb_true_r. rewrite !app_nil_r.
    rewrite (rstrip_blank t [SP]) by auto using blank_SP.
    destruct g as [|c g]; cbn [nonempty]; [rewrite app_nil_r, rstrip_solid by auto|rewrite rstrip_blank by auto using blank_SP]; auto.
  - pose proof (glue_nonempty _ H ltac:(discriminate)) as GN. specialize (IH2 ltac:(discriminate)).
    set (qs := q :: ps) in *. clearbody qs.
    assert (EN : nonempty (glue qs) = true) by (destruct (glue qs); [tauto|auto]).
    unfold ends_here. rewrite EN, orb_false_r. rewrite !(app_assoc t), !rstrip_app by congruence. rewrite IH1. split; auto.
    intros _ E. apply app_eq_nil in E as [_ E]. congruence.
Qed.
Lemma print_keep d : forall ps ns first before, map (d_at d) ns = miscs_of true first before ps -> print_words d ns = out_k ps.
Proof.
  induction ps as [|[t g] ps IH]; intros ns first before E; destruct ns as [|n ns]; try discriminate; auto.
  cbn [map miscs_of] in E. injection E as E1 E2. cbn [print_words out_k]. rewrite E1, (IH ns false before E2). cbn [n_form n_misc tok_attrs].
  f_equal. f_equal. rewrite keep_misc. pose proof (first_misc_good first before) as G. unfold space_unless_no.
  destruct (nonempty g); cbn [negb]; [|rewrite get_setm by auto; reflexivity].
  destruct (negb (str_eqb g [SP])); rewrite ?get_setm by auto; [change (str_eqb SpaceAfter SpacesAfter) with false; cbv iota|];
    rewrite first_misc_get; reflexivity.
Qed.
Lemma keep_statement tok d r x a ps : consistent (d_h d) r -> h_ch (d_h d) r = [] -> ri_text (d_ri d r) = Some x ->
  x = a ++ glue ps -> blank a -> Forall piece_ok ps -> tok x = map fst ps -> ~ blank x ->
  exists d' n l b y, tokenize_tree tok true d r = (d', Ok tt) /\ consistent (d_h d') r /\ flat d' r /\
    compute_text d' r true = Ok (join (s " ") (split_from [] x)) /\
    map (fun n => n_form (d_at d' n)) (h_desc (d_h d') r) = map Some (tok x) /\
    h_desc (d_h d') r = n :: l /\ space_before (n_misc (d_at d' n)) b /\ encoded d' (n :: l) y /\ x = b ++ y /\ d_ri d' = d_ri d.
Proof.
  intros C E T EX B F TK NB. destruct (tokenize_pieces tok true d r x a ps) as (d'&Q1&Q2&Q3&Q4&_&Q5&Q6); auto.
  rewrite (print_keep _ _ _ _ _ Q4), (proj1 (rstrip_out_k ps F)), (pieces_normal x a ps _ EX B F (split_words x)) in Q5.
  destruct ps as [|[t g] ps]. { elim NB. rewrite EX. cbn [glue]. rewrite app_nil_r. auto. }
  destruct (h_desc (d_h d') r) as [|n l] eqn:ED; [discriminate|].
  exists d', n, l, a, (glue ((t, g) :: ps)). split; [auto|]. split; [auto|]. split; [auto|]. split; [exact Q5|].
  split. { rewrite TK, map_map, <- (miscs_forms true ((t, g) :: ps) true a), <- Q4, map_map, ED. reflexivity. }
  split; [auto|]. split.
  - cbn [map miscs_of] in Q4. injection Q4 as E1 E2. rewrite E1. cbn [n_misc tok_attrs]. apply keep_before. auto.
  - split; [eapply encoded_pieces; eauto|]. split; [auto|]. apply (x_rest _ _ _ _ _ Q6).
Qed.
Lemma on_whitespace_keep d r x ws : consistent (d_h d) r -> h_ch (d_h d) r = [] -> ri_text (d_ri d r) = Some x ->
  words_of x ws -> ws <> [] ->
  exists d' n l b y, tokenize_tree tokenize_on_whitespace true d r = (d', Ok tt) /\ consistent (d_h d') r /\ flat d' r /\
    compute_text d' r true = Ok (join (s " ") ws) /\
    map (fun n => n_form (d_at d' n)) (h_desc (d_h d') r) = map Some ws /\
    h_desc (d_h d') r = n :: l /\ space_before (n_misc (d_at d' n)) b /\ encoded d' (n :: l) y /\ x = b ++ y /\ d_ri d' = d_ri d.
Proof.
  intros C E T W NW. destruct (pieces_words _ _ W) as (a&ps&EX&B&F&M). pose proof (words_split _ _ W) as TK.
  destruct (keep_statement tokenize_on_whitespace d r x a ps) as (d'&n&l&b&y&H); auto.
  { unfold tokenize_on_whitespace. congruence. }
  { intros Bx. apply NW. rewrite <- (words_split _ _ (wo_none x Bx)). auto. }
  exists d', n, l, b, y. unfold tokenize_on_whitespace in H at 2. rewrite !TK in H. exact H.
Qed.

(** ---- tokenize.Simple ---- *)
Section simple.
  Context (wd : char -> bool).
  Hypothesis D : forall c, wd c = true -> is_space c = false.
  Definition all_wd (t : str) : Prop := forall c, In c t -> wd c = true.
  Fixpoint adj (ps : list (str * str)) : Prop :=
    match ps with
    | (t, g) :: l => match l with (t', _) :: _ => g = [] -> ~ (all_wd t /\ all_wd t') | [] => True end /\ adj l
    | [] => True
    end.
  Lemma wd_solid w : all_wd w -> solid w.
  Proof. intros H c I. apply D, H. auto. Qed.
  Lemma simple_pieces : forall x cur, all_wd cur -> exists a ps, cur ++ x = a ++ glue ps /\ blank a /\ Forall piece_ok ps /\
    map fst ps = find_from wd cur x /\ Forall (simple_token wd) (map fst ps) /\ adj ps.
  Proof.
    induction x as [|c x IH]; intros cur W.
    - destruct cur as [|e cur]; [exists [], []; cbn; repeat split; auto; intros c []|].
      exists [], [(e :: cur, [])]. cbn [glue map fst find_from nonempty app adj]. rewrite !app_nil_r.
      split; [auto|]. split; [intros c []|]. split; [constructor; [|constructor]; split; [discriminate|split; [apply wd_solid; auto|intros c []]]|].
      split; [auto|]. split; [|auto]. constructor; [|constructor]. left. split; [discriminate|auto].
    - cbn [find_from]. destruct (wd c) eqn:WC.
      + destruct (IH (cur ++ [c])) as (a&ps&H).
        { intros e I. apply in_app_or in I as [I|[<-|[]]]; auto. }
        exists a, ps. rewrite <- app_assoc in H. exact H.
      + destruct (IH []) as (a&ps&EX&B&F&M&S&A); [intros e []|]. cbn [app] in EX.
        destruct (is_space c) eqn:SC.
        * assert (Bc : blank (c :: a)) by (intros e [<-|I]; auto).
          destruct cur as [|e cur].
          -- exists (c :: a), ps. cbn [app nonempty]. split; [rewrite EX; auto|]. auto.
          -- exists [], ((e :: cur, c :: a) :: ps). set (w := e :: cur) in *. cbn [app map fst nonempty glue]. rewrite <- EX.
             split; [reflexivity|]. split; [intros z []|].
             split; [constructor; auto; split; [discriminate|split; [apply wd_solid; auto|auto]]|].
             split; [cbn; rewrite M; auto|]. split; [constructor; auto; left; split; [discriminate|auto]|].
             split; [|auto]. destruct ps as [|[]]; [auto|discriminate].
        * assert (P1 : piece_ok ([c], a)). { split; [discriminate|]. split; auto. intros z [<-|[]]; auto. }
          assert (T1 : simple_token wd [c]) by (right; exists c; auto).
          assert (N1 : ~ all_wd [c]). { intros H. rewrite (H c (or_introl eq_refl)) in WC. discriminate. }
          assert (A1 : adj (([c], a) :: ps)). { split; auto. destruct ps as [|[]]; [auto|]. intros _ [H _]. auto. }
          destruct cur as [|e cur].
          -- exists [], (([c], a) :: ps). cbn [app nonempty map fst glue]. rewrite <- EX, <- M. split; [auto|]. split; [intros z []|].
             split; [auto|]. split; [auto|]. auto.
          -- exists [], ((e :: cur, []) :: ([c], a) :: ps). set (w := e :: cur) in *. cbn [app map fst nonempty glue]. rewrite <- EX.
             split; [reflexivity|]. split; [intros z []|].
             split; [constructor; auto; split; [discriminate|split; [apply wd_solid; auto|intros z []]]|].
             split; [cbn; rewrite M; auto|]. split; [constructor; [left; split; [discriminate|auto]|constructor; auto]|].
             split; [|auto]. intros _ [_ H]. auto.
  Qed.
  Lemma ink_glue ps : Forall piece_ok ps -> ink (glue ps) = concat (map fst ps).
  Proof.
    induction 1 as [|[t g] ps [_ [S B]] F IH]; auto. cbn [glue map concat fst snd] in *. unfold ink in *.
    rewrite !filter_app. f_equal; [apply filter_all; intros c I; rewrite (S c I); auto|].
    rewrite (filter_none _ g) by (intros c I; rewrite (B c I); auto). auto.
  Qed.
  Lemma ink_blank a : blank a -> ink a = [].
  Proof. intros B. apply filter_none. intros c I. rewrite (B c I). auto. Qed.

  Lemma nodup_pieces d : forall ps l1 n n' l2 first before, Forall piece_ok ps -> map (d_at d) (l1 ++ n :: n' :: l2) = miscs_of false first before ps ->
    adj ps -> forall f f', n_form (d_at d n) = Some f -> n_form (d_at d n') = Some f' -> all_wd f -> all_wd f' ->
    misc_get (n_misc (d_at d n)) SpaceAfter = VStr [].
  Proof.
    intros ps l1. revert ps. induction l1 as [|m l1 IH]; intros ps n n' l2 first before F E A f f' E1 E2 W1 W2.
    - destruct ps as [|[t g] [|[t' g'] ps]]; try discriminate. cbn [app map miscs_of] in E. injection E as EN EN' _.
      rewrite EN in *. rewrite EN' in *. cbn [n_form n_misc tok_attrs] in *. injection E1 as <-. injection E2 as <-.
      rewrite normal_misc. destruct g as [|c g]; [|reflexivity]. destruct A as [A _]. elim (A eq_refl). auto.
    - destruct ps as [|[t g] ps]; try discriminate. cbn [app map miscs_of] in E. injection E as _ E.
      inversion F; subst. destruct A as [_ A]. eapply IH; eauto.
  Qed.
  Lemma simple_statement d r x ws : consistent (d_h d) r -> h_ch (d_h d) r = [] -> ri_text (d_ri d r) = Some x ->
    words_of x ws ->
    exists d' ts, tokenize_tree (tokenize_simple wd) false d r = (d', Ok tt) /\ consistent (d_h d') r /\ flat d' r /\
      map (fun n => n_form (d_at d' n)) (h_desc (d_h d') r) = map Some ts /\
      concat ts = ink x /\ Forall (simple_token wd) ts /\
      (forall l1 n n' l2 f f', h_desc (d_h d') r = l1 ++ n :: n' :: l2 -> n_form (d_at d' n) = Some f -> n_form (d_at d' n') = Some f' ->
         (forall c, In c f -> wd c = true) -> (forall c, In c f' -> wd c = true) -> misc_get (n_misc (d_at d' n)) (s "SpaceAfter") = VStr []) /\
      compute_text d' r true = Ok (join (s " ") ws) /\ d_ri d' = d_ri d.
  Proof.
    intros C E T W. destruct (simple_pieces x []) as (a&ps&EX&B&F&M&S&A); [intros c []|]. cbn [app] in EX.
    destruct (tokenize_normal (tokenize_simple wd) d r x a ps ws) as (d'&Q1&Q2&Q3&Q4&QA&Q5&Q6); auto.
    exists d', (map fst ps). rewrite M in *. split; [auto|]. split; [auto|]. split; [auto|]. split; [exact Q4|].
    split. { rewrite <- M, <- ink_glue by auto. rewrite EX. unfold ink at 2. rewrite filter_app. change (ink (glue ps) = ink a ++ ink (glue ps)). rewrite (ink_blank a B). auto. }
    split; [auto|]. split; [|auto]. intros l1 n n' l2 f f' ED E1 E2 W1 W2. rewrite ED in QA. eapply nodup_pieces; eauto.
  Qed.
  Lemma simple_keep d r x ws : consistent (d_h d) r -> h_ch (d_h d) r = [] -> ri_text (d_ri d r) = Some x ->
    words_of x ws -> ws <> [] ->
    exists d' n l b y, tokenize_tree (tokenize_simple wd) true d r = (d', Ok tt) /\ consistent (d_h d') r /\ flat d' r /\
      compute_text d' r true = Ok (join (s " ") ws) /\
      h_desc (d_h d') r = n :: l /\ space_before (n_misc (d_at d' n)) b /\ encoded d' (n :: l) y /\ x = b ++ y /\ d_ri d' = d_ri d.
  Proof.
    intros C E T W NW. destruct (simple_pieces x []) as (a&ps&EX&B&F&M&S&A); [intros c []|]. cbn [app] in EX.
    destruct (keep_statement (tokenize_simple wd) d r x a ps) as (d'&n&l&b&y&H1&H2&H3&H0&_&H4&H5&H6&H7&H8); auto.
    { intros Bx. apply NW. rewrite <- (words_split _ _ W), (words_split _ _ (wo_none x Bx)). auto. }
    rewrite (words_split _ _ W) in H0. exists d', n, l, b, y. auto 10.
  Qed.
End simple.
