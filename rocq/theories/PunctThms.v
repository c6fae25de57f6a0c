(** Proofs about ud.FixPunct: the first and the last steps, and the block as a whole. *)
From Coq Require Import String List NArith ZArith Bool Lia Permutation.
From Verif Require Import PyStr PyStrFacts PyList PyListFacts PyExn TreeModel TreeSpec TreeFacts TreeRepr TreeOps TreeCalls
  TreeQuery TreeProps DeprelModel DeprelProofs RehangModel RehangSpec RehangProofs RehangFix RehangProj RehangDeproj PunctModel PunctProofs PunctFix.
Import ListNotations.

(** ---- the first step is ud.FixPunctChild with other labels ---- *)
Section First.
Variables (chk : bool) (form : nat -> str).
Definition marked (st : lst) : lst :=
  mkL (l_heap st) (fun y => if is_punct chk form st y then Some (s "punct") else None) (l_upos st) (l_pproj st).
Lemma marked_heap st h : set_heap (marked st) h = marked (set_heap st h).
Proof. reflexivity. Qed.
Lemma marked_dep st y : ostr_eqb (l_dep (marked st) y) (s "punct") = is_punct chk form st y.
Proof. cbn [marked l_dep]. now destruct (is_punct chk form st y). Qed.
Lemma assign_marked st x p : assign_parent (marked st) x p = (marked (fst (assign_parent st x p)), snd (assign_parent st x p)).
Proof. unfold assign_parent. cbn [marked l_heap]. now destruct (set_parent (l_heap st) x p). Qed.
Lemma leave_marked : forall f st x, punctchild_loop f (marked st) x = (marked (fst (leave_punct chk form f st x)), snd (leave_punct chk form f st x)).
Proof.
  induction f as [|f IH]; intros st x; cbn [punctchild_loop leave_punct]; unfold the_parent; cbn [marked l_heap];
    (destruct (h_par (l_heap st) x) as [p|] eqn:EP; [|reflexivity]); change (mkL (l_heap st) _ (l_upos st) (l_pproj st)) with (marked st); rewrite marked_dep;
    (destruct (is_punct chk form st p); [|reflexivity]); [reflexivity|].
  unfold lift_once, the_parent. cbn [marked l_heap]. rewrite EP. change (mkL (l_heap st) _ (l_upos st) (l_pproj st)) with (marked st). rewrite assign_marked.
  destruct (assign_parent st x (h_par (l_heap st) p)) as [st' [[]|e|]]; cbn [bind fst snd]; auto.
Qed.
Lemma each_marked l : forall st, for_each (fun st x => punctchild_loop (fuel (l_heap st)) st x) l (marked st) =
  (marked (fst (for_each (fun st x => leave_punct chk form (fuel (l_heap st)) st x) l st)), snd (for_each (fun st x => leave_punct chk form (fuel (l_heap st)) st x) l st)).
Proof.
  induction l as [|x l IH]; intros st; cbn [for_each]; [reflexivity|]. change (l_heap (marked st)) with (l_heap st). rewrite leave_marked.
  destruct (leave_punct chk form (fuel (l_heap st)) st x) as [st' [[]|e|]]; cbn [bind fst snd]; auto.
Qed.
Lemma leave_labels : forall f st x, same_labels st (fst (leave_punct chk form f st x)).
Proof.
  induction f as [|f IH]; intros st x; cbn [leave_punct]; unfold the_parent; (destruct (h_par (l_heap st) x) as [p|]; [|now intros y]); (destruct (is_punct chk form st p); [|now intros y]); [now intros y|].
  unfold lift_once, the_parent. destruct (h_par (l_heap st) x) as [q|]; [|now intros y]. unfold assign_parent. destruct (set_parent (l_heap st) x (h_par (l_heap st) q)) as [h [[]|e|]]; cbn [bind fst]; try now intros y.
  intros y. specialize (IH (set_heap st h) x y). exact IH.
Qed.
Lemma each_labels l : forall st, same_labels st (fst (for_each (fun st x => leave_punct chk form (fuel (l_heap st)) st x) l st)).
Proof.
  induction l as [|x l IH]; intros st; cbn [for_each]; [now intros y|]. pose proof (leave_labels (fuel (l_heap st)) st x) as A.
  destruct (leave_punct chk form (fuel (l_heap st)) st x) as [st' [[]|e|]]; cbn [bind fst] in *; auto. intros y. specialize (IH st' y). specialize (A y). intuition congruence.
Qed.
Lemma first_step r st : consistent (l_heap st) r -> is_punct chk form st r = false ->
  exists st', for_each (fun st x => leave_punct chk form (fuel (l_heap st)) st x) (h_desc (l_heap st) r) st = (st', Ok tt) /\
    rehung (l_heap st) (l_heap st') r /\ lifted (l_heap st) (l_heap st') r /\ same_labels st st' /\
    (forall x p, In x (h_desc (l_heap st) r) -> h_par (l_heap st') x = Some p -> is_punct chk form st p = false) /\
    (forall x p, In x (h_desc (l_heap st) r) -> h_par (l_heap st) x = Some p -> is_punct chk form st p = false -> h_par (l_heap st') x = Some p).
Proof.
  intros C HR. destruct (fixpunctchild_prop r (marked st) C) as (st2 & A & B & L & SL & P & Q).
  { cbn [marked l_dep]. rewrite HR. discriminate. }
  unfold fixpunctchild, each_word in A. cbn [marked l_heap] in A. change (mkL (l_heap st) _ (l_upos st) (l_pproj st)) with (marked st) in A. rewrite each_marked in A.
  pose proof (each_labels (h_desc (l_heap st) r) st) as SL'.
  destruct (for_each (fun st x => leave_punct chk form (fuel (l_heap st)) st x) (h_desc (l_heap st) r) st) as [st' res]. cbn [fst snd] in *. injection A as <- ->. cbn [marked l_heap] in *.
  exists st'. split; auto. split; auto. split; auto. split; auto. split.
  - intros x p Hx Ep. rewrite (rh_words _ _ _ B) in P. specialize (P x p Hx Ep).
    assert (EQ : is_punct chk form st' p = is_punct chk form st p) by (unfold is_punct, upos_punct; destruct (SL' p) as (_ & -> & _); reflexivity).
    cbn [marked l_dep] in P. rewrite EQ in P. destruct (is_punct chk form st p); auto. contradiction.
  - intros x p Hx Ep NP. apply (Q x p Hx Ep). cbn [marked l_dep]. rewrite NP. discriminate.
Qed.
End First.

Section Last.
Variables (r : nat) (st0 : lst).
Hypothesis C0 : consistent (l_heap st0) r.
Notation words := (h_desc (l_heap st0) r).
Notation lv := (lv r st0).
Notation punct := (punct st0).
Notation inv := (inv r st0).

Lemma one_subroot_ok st1 : inv st1 -> words <> [] -> exists st' c, one_subroot st1 r = (st', Ok tt) /\ inv st' /\
  h_ch (l_heap st') r = [c] /\ In c words /\ par st1 c = Some r /\ par st' c = Some r /\
  (forall y, In y words -> y <> c -> par st1 y = Some r -> par st' y = Some c) /\
  (forall y, In y words -> par st1 y <> Some r -> par st' y = par st1 y) /\
  (forall y, l_dep st' y = l_dep st1 y) /\
  (udep st1 c = Some (s "root") \/ forall y, In y words -> par st1 y = Some r -> udep st1 y <> Some (s "root")).
Proof.
  intros I NE. assert (C1 := inv_cons _ _ st1 I). assert (W1 := inv_words _ _ st1 I).
  assert (CH : forall st, inv st -> forall y, In y (h_ch (l_heap st) r) <-> In y words /\ par st y = Some r).
  { intros st I' y. rewrite (child_In _ r y r (inv_cons _ _ st I') (or_introl eq_refl)). now rewrite (inv_words _ _ st I'). }
  destruct (root_has_child r _ C1) as (w & Hw & Ew); [now rewrite W1|]. rewrite W1 in Hw.
  assert (Hin : In w (h_ch (l_heap st1) r)) by (apply CH; auto).
  unfold one_subroot, children. destruct (h_ch (l_heap st1) r) as [|first rest] eqn:Ech; [destruct Hin|].
  destruct rest as [|second rest].
  { exists st1, first. assert (F : In first words /\ par st1 first = Some r) by (apply (CH st1 I); rewrite Ech; now left). destruct F as [F1 F2].
    split; auto. split; auto. split; auto. split; auto. split; auto. split; auto. split.
    { intros y Hy N Ey. exfalso. assert (J : In y (h_ch (l_heap st1) r)) by (apply (CH st1 I); auto). rewrite Ech in J. destruct J as [J|[]]; congruence. }
    split; auto. split; auto. destruct (udep st1 first) as [u|] eqn:EU.
    - destruct (str_eqb u (s "root")) eqn:Es; [apply str_eqb_eq in Es; subst u; now left|]. right. intros y Hy Ey.
      assert (J : In y (h_ch (l_heap st1) r)) by (apply (CH st1 I); auto). rewrite Ech in J. destruct J as [<-|[]]. rewrite EU. intros X. injection X as ->. rewrite str_eqb_refl in Es. discriminate.
    - right. intros y Hy Ey. assert (J : In y (h_ch (l_heap st1) r)) by (apply (CH st1 I); auto). rewrite Ech in J. destruct J as [<-|[]]. rewrite EU. discriminate. }
  set (kids := first :: second :: rest) in *.
  set (c := match List.find (fun x => ostr_eqb (udep st1 x) (s "root")) kids with Some x => x | None => first end).
  assert (Hc : In c kids) by (unfold c; destruct (List.find _ kids) eqn:F; [eapply find_some; eauto|now left]).
  assert (SELC : udep st1 c = Some (s "root") \/ forall y, In y words -> par st1 y = Some r -> udep st1 y <> Some (s "root")).
  { unfold c. destruct (List.find _ kids) as [z|] eqn:F.
    - apply find_some in F as [_ F]. left. now apply ostr_eqb_eq.
    - right. intros y Hy Ey EU. assert (J : In y kids) by (rewrite <- Ech; apply CH; auto). apply (find_none _ _ F) in J. apply ostr_eqb_eq in EU. congruence. }
  clearbody c. assert (Hcw : In c words /\ par st1 c = Some r) by (apply (CH st1 I); now rewrite Ech). destruct Hcw as [Hcw Ecr].
  assert (Nc : c <> r) by (intros ->; apply (c_rootout _ r C0); auto).
  destruct (for_each_prog (fun done st => inv st /\ par st c = Some r /\ (forall y, In y done -> y <> c -> par st y = Some c) /\
     (forall y, lv y -> ~ In y done -> par st y = par st1 y) /\ (forall y, l_dep st y = l_dep st1 y))
     (fun st x => if Nat.eqb x c then (st, Ok tt) else assign_parent st x (Some c)) kids [] st1) as (st' & Efe & I' & K1 & K2 & K3 & K4).
  - intros pre x post st Ek (J1 & J2 & J3 & J4 & J5). cbn [app] in *. assert (Hxk : In x kids) by (rewrite Ek; apply in_app_iff; right; now left).
    assert (Hx : In x words /\ par st1 x = Some r) by (apply (CH st1 I); now rewrite Ech). destruct Hx as [Hx Ex].
    destruct (Nat.eqb_spec x c) as [->|N].
    + exists st. split; auto. split; auto. split; auto. split.
      { intros y Hy Ny. apply in_app_iff in Hy as [Hy|[<-|[]]]; [auto|contradiction]. }
      split; auto. intros y Ly Ny. apply J4; auto. intros Hy. apply Ny, in_app_iff. now left.
    + assert (NS : ~ in_subtree (l_heap st) c x).
      { intros [EQ|U]; [congruence|]. unfold par in J2. inversion U as [? p Ep|? p a Ep U']; subst.
        - assert (x = r) by congruence. subst x. apply (c_rootout _ r C0). exact Hx.
        - assert (p = r) by congruence. subst p. inversion U' as [? p2 Ep2|? p2 a Ep2 U2]; subst; rewrite (c_top _ _ (inv_cons _ _ st J1)) in Ep2; discriminate. }
      destruct (safe_assign r st0 (fun _ => False) st x c J1 Hx (word_lv _ _ c Hcw)) as [I2 SQ].
      { intros S. contradiction. }
      destruct (assign_parent st x (Some c)) as [st2 [[]|e|]] eqn:EA; cbn [fst snd] in *; try contradiction. destruct SQ as (M1 & M2 & M3).
      exists st2. split; auto. split; auto. split; [rewrite M2; auto using word_lv|]. split.
      { intros y Hy Ny. destruct (Nat.eq_dec y x) as [->|Nyx]; auto. apply in_app_iff in Hy as [Hy|[<-|[]]]; [|contradiction].
        rewrite M2; auto. apply word_lv. assert (Jk : In y kids) by (rewrite Ek; apply in_app_iff; now left). rewrite <- Ech in Jk. now apply (CH st1 I). }
      split.
      { intros y Ly Ny. assert (Nyx : y <> x) by (intros ->; apply Ny, in_app_iff; right; now left). rewrite M2; auto. apply J4; auto. intros Hy. apply Ny, in_app_iff. now left. }
      intros y. now rewrite M3.
  - split; auto. split; auto. split; [intros y []|auto].
  - cbn [app] in *. exists st', c. split; [exact Efe|]. split; auto.
    assert (KK : forall y, In y words -> y <> c -> par st1 y = Some r -> par st' y = Some c).
    { intros y Hy Ny Ey. apply K2; auto. rewrite <- Ech. apply CH; auto. }
    assert (KO : forall y, In y words -> par st1 y <> Some r -> par st' y = par st1 y).
    { intros y Hy Ny. apply K3; [now apply word_lv|]. intros Hk. apply Ny. rewrite <- Ech in Hk. now apply (CH st1 I). }
    split; [|auto 20].
    assert (UN : forall y, In y (h_ch (l_heap st') r) -> y = c).
    { intros y Hy. apply (CH st' I') in Hy as [Hy Ey]. destruct (Nat.eq_dec y c); auto. exfalso.
      assert (DE : {par st1 y = Some r} + {par st1 y <> Some r}) by (repeat decide equality). destruct DE as [DE|DE].
      - rewrite (KK y Hy n DE) in Ey. congruence.
      - rewrite (KO y Hy DE) in Ey. contradiction. }
    assert (HC : In c (h_ch (l_heap st') r)) by (apply (CH st' I'); auto).
    pose proof (child_NoDup _ r r (inv_cons _ _ st' I') (or_introl eq_refl)) as ND.
    destruct (h_ch (l_heap st') r) as [|a [|b l]]; [destruct HC| |].
    + f_equal. apply UN. now left.
    + exfalso. assert (a = c) by (apply UN; now left). assert (b = c) by (apply UN; right; now left). subst a b. inversion ND; subst. apply H1. now left.
Qed.

Lemma root_nocolon : ~ In COLON (s "root") /\ ~ In COLON (s "punct").
Proof. split; intros H; repeat (destruct H as [H|H]; [discriminate|]); exact H. Qed.
Lemma udep_set st x v y : ~ In COLON v -> udep (set_udep st x v) y = if Nat.eqb y x then Some v else udep st y.
Proof.
  intros H. unfold udep, set_udep. cbn [set_dep l_dep]. unfold upd. destruct (Nat.eqb_spec y x) as [->|]; auto. now apply set_udeprel_spec.
Qed.
(** Labels after the last step. *)
Lemma relabel_ok l : forall st c, NoDup l -> ~ In c l -> exists st', for_each (fun st x => (if ostr_eqb (udep st x) (s "root") then set_udep st x (s "punct") else st, Ok tt)) l st = (st', Ok tt) /\
  l_heap st' = l_heap st /\ (forall x, l_upos st' x = l_upos st x) /\ (forall x, l_pproj st' x = l_pproj st x) /\
  forall x, l_dep st' x = (if mem x l && ostr_eqb (udep st x) (s "root") then set_udeprel (l_dep st x) (s "punct") else l_dep st x).
Proof.
  induction l as [|a l IH]; intros st c ND Nc; cbn [for_each]; [exists st; auto 10|]. cbn [bind]. inversion ND as [|? ? N1 N2]; subst.
  set (st1 := if ostr_eqb (udep st a) (s "root") then set_udep st a (s "punct") else st).
  assert (H1 : l_heap st1 = l_heap st /\ (forall x, l_upos st1 x = l_upos st x) /\ (forall x, l_pproj st1 x = l_pproj st x) /\
    forall x, l_dep st1 x = if Nat.eqb x a && ostr_eqb (udep st a) (s "root") then set_udeprel (l_dep st x) (s "punct") else l_dep st x).
  { unfold st1. destruct (ostr_eqb (udep st a) (s "root")); cbn [set_udep set_dep l_heap l_upos l_pproj l_dep]; (split; [auto|]); (split; [auto|]); (split; [auto|]); intros x; unfold upd;
      destruct (Nat.eqb_spec x a) as [->|]; auto. }
  destruct H1 as (G1 & G2 & G3 & G4). destruct (IH st1 c N2) as (st' & A1 & A2 & A3 & A4 & A5); [simpl in Nc; tauto|].
  exists st'. split; auto. split; [congruence|]. split; [intros; rewrite A3; auto|]. split; [intros; rewrite A4; auto|].
  intros x. rewrite A5. cbn [mem existsb]. change (existsb (Nat.eqb x) l) with (mem x l). unfold udep. rewrite !G4. destruct (Nat.eqb_spec x a) as [->|N].
  - assert (mem a l = false) as -> by now apply mem_false. cbn [andb orb]. unfold udep. reflexivity.
  - cbn [andb orb]. reflexivity.
Qed.

(** How the labels may differ at the end: c is the child of the root. *)
Definition labels_after (st st' : lst) (c : nat) : Prop :=
  forall x, In x words -> x <> c ->
    l_dep st' x = l_dep st x \/ (punct x = true /\ l_dep st' x = Some (s "punct")) \/
    (udep st x = Some (s "root") /\ l_dep st' x = set_udeprel (l_dep st x) (s "punct")).
Lemma label_root_ok st c : inv st -> h_ch (l_heap st) r = [c] -> In c words -> par st c = Some r ->
  exists st', label_root st r = (st', Ok tt) /\ l_heap st' = l_heap st /\ (forall x, l_upos st' x = l_upos st x) /\ (forall x, l_pproj st' x = l_pproj st x) /\
    udep st' c = Some (s "root") /\ (udep st c = Some (s "root") -> st' = st) /\
    (udep st c <> Some (s "root") -> forall x, In x words -> x <> c -> udep st' x <> Some (s "root")) /\
    (forall x, ~ In x words -> l_dep st' x = l_dep st x) /\
    forall x, x <> c -> l_dep st' x = l_dep st x \/ (udep st x = Some (s "root") /\ l_dep st' x = set_udeprel (l_dep st x) (s "punct")).
Proof.
  intros I Ech Hc Ec. unfold label_root, children. rewrite Ech. destruct root_nocolon as [RN PN]. destruct (ostr_eqb (udep st c) (s "root")) eqn:EU.
  - apply ostr_eqb_eq in EU. exists st. do 4 (split; [auto|]). split; [exact EU|]. split; [auto|]. split; [contradiction|]. split; [auto|]. intros x _. now left.
  - assert (NU : udep st c <> Some (s "root")) by (intros X; apply ostr_eqb_eq in X; congruence).
    set (st1 := set_udep st c (s "root")). assert (C1 := inv_cons _ _ st I). assert (Lc : live (l_heap st) r c) by (apply (inv_live _ _ st c I); now apply word_lv).
    destruct (descendants_prop (l_heap st) r C1 c Lc) as (l & El & LL & _). change (l_heap st1) with (l_heap st). unfold query. rewrite El. cbn [bind].
    destruct LL as (f & F & ->). 
    assert (DW : forall x, In x words -> x <> c -> In x (filter f (r :: h_desc (l_heap st) r))).
    { intros x Hx Nx. rewrite (inv_words _ _ st I). apply filter_In. split; [now right|]. apply F; [apply (inv_live _ _ st x I); now apply word_lv|].
      assert (Lx : live (l_heap st) r x) by (apply (inv_live _ _ st x I); now apply word_lv). destruct (steps_bound r (l_heap st) x C1 Lx) as (n & S & _).
      assert (Nr : x <> r) by (intros ->; apply (c_rootout _ r C0); auto). clear -S Nx Nr Ech C1 Lx. remember r as t eqn:Et. rewrite Et in Ech, C1, Lx. revert Nx Nr Lx. induction S as [t|x p n t Ep S IH]; intros Nx Nr Lx; [contradiction|].
      destruct (parent_live _ r x p C1 Lx Ep) as [Lp Hx]. destruct (Nat.eq_dec p t) as [->|Np].
      + subst t. exfalso. assert (J : In x (h_ch (l_heap st) r)) by (apply (child_In _ r x r C1 (or_introl eq_refl)); auto). rewrite Ech in J. destruct J as [J|[]]; congruence.
      + destruct (Nat.eq_dec p c) as [->|Npc]; [now constructor|]. eapply up_S; eauto. }
    assert (Nc : ~ In c (filter f (r :: h_desc (l_heap st) r))).
    { intros X. apply filter_In in X as [_ X]. apply F in X; auto. now apply (up_irrefl _ r C1 c Lc). }
    assert (NDl : NoDup (filter f (r :: h_desc (l_heap st) r))).
    { apply NoDup_filter. constructor; [apply (c_rootout _ r C1)|apply (c_once _ r C1)]. }
    assert (WL : forall x, ~ In x words -> ~ In x (filter f (r :: h_desc (l_heap st) r))).
    { intros x Nx X. apply filter_In in X as [X1 X2]. rewrite (inv_words _ _ st I) in X1. destruct X1 as [<-|X1]; [|contradiction].
      apply F in X2; [|now left]. inversion X2 as [? p Ep|? p a Ep]; subst; rewrite (c_top _ _ C1) in Ep; discriminate. }
    destruct (relabel_ok (filter f (r :: h_desc (l_heap st) r)) st1 c NDl Nc) as (st' & A1 & A2 & A3 & A4 & A5).
    exists st'. split; [exact A1|]. split; auto. split; [auto|]. split; [auto|].
    assert (D1 : forall x, x <> c -> l_dep st1 x = l_dep st x).
    { intros x Nx. unfold st1, set_udep. cbn [set_dep l_dep]. unfold upd. now destruct (Nat.eqb_spec x c). }
    split. { unfold udep. rewrite A5. assert (mem c (filter f (r :: h_desc (l_heap st) r)) = false) as -> by now apply mem_false. cbn [andb].
             pose proof (udep_set st c (s "root") c RN) as U. rewrite Nat.eqb_refl in U. exact U. }
    split; [contradiction|]. split.
    { intros _ x Hx Nx. unfold udep. rewrite A5. assert (mem x (filter f (r :: h_desc (l_heap st) r)) = true) as -> by (apply mem_In; auto). cbn [andb].
      destruct (ostr_eqb (udep st1 x) (s "root")) eqn:EX.
      - rewrite (proj1 (set_udeprel_spec (l_dep st1 x) (s "punct") PN)). discriminate.
      - intros X. apply ostr_eqb_eq in X. unfold udep in EX. congruence. }
    split.
    { intros x Nx. rewrite A5. assert (mem x (filter f (r :: h_desc (l_heap st) r)) = false) as -> by (apply mem_false; auto). cbn [andb]. apply D1. intros ->. contradiction. }
    intros x Nx. rewrite A5. unfold udep. rewrite (D1 x Nx). destruct (_ && _) eqn:EX; auto. right. apply andb_true_iff in EX as [_ EX]. apply ostr_eqb_eq in EX. auto.
Qed.
End Last.

Section Whole.
Variables (chk : bool) (form : nat -> str) (r : nat) (st : lst).
Hypothesis C : consistent (l_heap st) r.
(** root.py:24-26: what every technical root carries *)
Hypothesis RU : l_upos st r = Some (s "<ROOT>").
Hypothesis RF : form r = s "<ROOT>".
Notation words := (h_desc (l_heap st) r).

Lemma root_punct : is_punct chk form st r = false /\ punct st r = false.
Proof. unfold is_punct, upos_punct, punct. rewrite RU, RF. destruct chk; split; reflexivity. Qed.

Lemma first_inv st1 : rehung (l_heap st) (l_heap st1) r -> same_labels st st1 -> inv r st st1.
Proof. intros R S. constructor; auto; intros x; destruct (S x) as (A & B & D); auto. Qed.

(** The end of the block, in both theorems. *)
Lemma finish st3 : inv r st st3 -> words <> [] -> exists st' c, bind (one_subroot st3 r) (fun st _ => label_root st r) = (st', Ok tt) /\
  rehung (l_heap st) (l_heap st') r /\ (forall x, l_upos st' x = l_upos st x) /\ (forall x, l_pproj st' x = l_pproj st x) /\
  (forall x, ~ In x words -> l_dep st' x = l_dep st x) /\
  h_ch (l_heap st') r = [c] /\ udep st' c = Some (s "root") /\ labels_after r st st st' c /\
  par st3 c = Some r /\
  (forall y, In y words -> y <> c -> par st3 y = Some r -> par st' y = Some c) /\
  (forall y, In y words -> par st3 y <> Some r -> par st' y = par st3 y).
Proof.
  intros I3 NE. destruct (one_subroot_ok r st C st3 I3 NE) as (st4 & c & E4 & I4 & Ech & Hc & Ec3 & Ec4 & K1 & K2 & K3 & _). rewrite E4. cbn [bind].
  destruct (label_root_ok r st C st4 c I4 Ech Hc Ec4) as (st5 & E5 & H5 & U5 & P5 & L5 & _ & _ & O5 & D5). exists st5, c. split; auto. rewrite H5.
  split; [apply (i_rehung _ _ _ I4)|]. split; [intros x; rewrite U5; apply (i_upos _ _ _ I4)|]. split; [intros x; rewrite P5; apply (i_pproj _ _ _ I4)|]. split.
  { intros x Nx. rewrite O5 by auto. destruct (i_dep _ _ _ I4 x) as [A|(A & _)]; [auto|contradiction]. }
  split; auto. split; auto. split.
  { intros x Hx Nx. destruct (D5 x Nx) as [A|[A B]]; rewrite ?A, ?B.
    - destruct (i_dep _ _ _ I4 x) as [D|(_ & D & F)]; [left; exact D|right; left; auto].
    - unfold udep in A |- *. destruct (i_dep _ _ _ I4 x) as [D|(_ & D & F)].
      + rewrite D in A |- *. right. right. auto.
      + rewrite F in A. exfalso. vm_compute in A. discriminate. }
  unfold par in *. rewrite H5. auto.
Qed.

Lemma fix_punct_prop : words <> [] -> exists st' res, fix_punct chk form st r = (st', res) /\
  rehung (l_heap st) (l_heap st') r /\ (forall x, l_upos st' x = l_upos st x) /\ (forall x, l_pproj st' x = l_pproj st x) /\
  (forall x, ~ In x words -> l_dep st' x = l_dep st x) /\
  (res = Ok tt \/ res = Raise CycleError) /\
  (res = Ok tt -> exists c, h_ch (l_heap st') r = [c] /\ udep st' c = Some (s "root") /\ labels_after r st st st' c).
Proof.
  intros NE. destruct root_punct as [R1 R2]. unfold fix_punct.
  destruct (first_step chk form r st C R1) as (st1 & E1 & A1 & _ & A3 & _ & _). rewrite E1. cbn [bind].
  assert (I1 := first_inv st1 A1 A3). assert (W1 := inv_words _ _ st1 I1).
  assert (OUT : forall st', inv r st st' -> rehung (l_heap st) (l_heap st') r /\ (forall x, l_upos st' x = l_upos st x) /\ (forall x, l_pproj st' x = l_pproj st x) /\
    (forall x, ~ In x words -> l_dep st' x = l_dep st x)).
  { intros st' [B1 B2 B3 B4]. split; auto. split; auto. split; auto. intros x Nx. destruct (B4 x) as [B|(B & _)]; [auto|contradiction]. }
  destruct (fix_pairs_ok r chk form st C (fun e => e = CycleError) eq_refl (h_desc (l_heap st1) r) st1 (fun _ => None)) as [I2 Q2]; auto.
  { rewrite W1. apply incl_refl. }
  destruct (fix_pairs chk form (h_desc (l_heap st1) r) st1 (fun _ => None) r) as [st2 [pt|e|]]; cbn [fst snd bind] in *; try contradiction.
  2:{ subst e. exists st2, (Raise CycleError). destruct (OUT st2 I2) as (B1 & B2 & B3 & B4). split; auto. do 4 (split; [assumption|]). split; [now right|discriminate]. }
  destruct (subord_all_ok r form st C (fun e => e = CycleError) R2 False (or_introl eq_refl) st2 pt I2) as [I3 Q3]; [contradiction|].
  destruct (for_each _ (h_desc (l_heap st2) r) st2) as [st3 [[]|e|]]; cbn [fst snd bind] in *; try contradiction.
  2:{ subst e. exists st3, (Raise CycleError). destruct (OUT st3 I3) as (B1 & B2 & B3 & B4). split; auto. do 4 (split; [assumption|]). split; [now right|discriminate]. }
  destruct (finish st3 I3 NE) as (st' & c & EF & F1 & F2 & F3 & F4 & F5 & F6 & F7 & _). rewrite EF. exists st', (Ok tt). split; auto. do 4 (split; [assumption|]). split; [now left|].
  intros _. exists c. auto.
Qed.

Lemma fix_pairs_none : (forall x o c, In x words -> In (o, c) paired_punct -> form x <> o) ->
  forall l st1 pt, incl l words -> fix_pairs chk form l st1 pt r = (st1, Ok pt).
Proof.
  intros NP. induction l as [|x l IH]; intros st1 pt Hl; cbn [fix_pairs]; auto.
  assert (PG : paired_get paired_punct (form x) = None).
  { assert (G : forall t, incl t paired_punct -> paired_get t (form x) = None).
    { induction t as [|[o c] t IHt]; intros Ht; auto. cbn [paired_get]. destruct (str_eqb (form x) o) eqn:EQ.
      - apply str_eqb_eq in EQ. exfalso. apply (NP x o c); auto; [apply Hl; now left|apply Ht; now left].
      - apply IHt. intros z Hz. apply Ht. now right. }
    apply G, incl_refl. }
  rewrite PG. destruct (is_closing _); cbn [bind]; apply IH; intros z Hz; apply Hl; now right.
Qed.

Lemma no_pairs_prop : words <> [] -> (forall x o c, In x words -> In (o, c) paired_punct -> form x <> o) ->
  exists st' c, fix_punct chk form st r = (st', Ok tt) /\ h_ch (l_heap st') r = [c] /\
    (forall x p, In x words -> h_par (l_heap st') x = Some p -> l_upos st p <> Some (s "PUNCT") \/ p = c) /\
    (forall x p, In x words -> l_upos st x <> Some (s "PUNCT") -> h_par (l_heap st) x = Some p -> p <> r -> is_punct chk form st p = false -> h_par (l_heap st') x = Some p) /\
    (forall x p, In x words -> l_upos st x <> Some (s "PUNCT") -> h_par (l_heap st') x = Some p -> up (l_heap st) x p \/ p = c).
Proof.
  intros NE NP. destruct root_punct as [R1 R2]. unfold fix_punct.
  destruct (first_step chk form r st C R1) as (st1 & E1 & A1 & A2 & A3 & A4 & A5). rewrite E1. cbn [bind].
  assert (I1 := first_inv st1 A1 A3). assert (W1 := inv_words _ _ st1 I1). rewrite (fix_pairs_none NP) by (rewrite W1; apply incl_refl). cbn [bind].
  assert (CL : clean r st st1).
  { intros x p Hx Ep. specialize (A4 x p Hx Ep). unfold is_punct in A4. unfold punct, upos_punct in *. destruct (ostr_eqb (l_upos st p) (s "PUNCT")); [discriminate|auto]. }
  destruct (subord_all_ok r form st C (fun e => False) R2 True (or_intror Logic.I) st1 (fun _ => None) I1 (fun _ => CL)) as [I3 Q3].
  destruct (for_each _ (h_desc (l_heap st1) r) st1) as [st3 [[]|e|]]; cbn [fst snd bind] in *; try contradiction. destruct Q3 as [CL3 KP]. specialize (CL3 Logic.I).
  destruct (finish st3 I3 NE) as (st' & c & EF & F1 & F2 & F3 & F4 & F5 & F6 & F7 & F8 & F9 & F10). rewrite EF.
  assert (NPU : forall x, l_upos st x <> Some (s "PUNCT") <-> punct st x = false).
  { intros x. unfold punct. destruct (ostr_eqb (l_upos st x) (s "PUNCT")) eqn:EQ.
    - apply ostr_eqb_eq in EQ. split; [contradiction|discriminate].
    - split; auto. intros _ X. apply ostr_eqb_eq in X. congruence. }
  assert (CC : h_par (l_heap st') c = Some r).
  { assert (J : In c (h_ch (l_heap st') r)) by (rewrite F5; now left). now apply (child_In _ r c r (rh_consistent _ _ _ F1) (or_introl eq_refl)) in J. }
  assert (CASE : forall x p, In x words -> h_par (l_heap st') x = Some p -> p = c \/ par st3 x = Some p).
  { intros x p Hx Ep. destruct (Nat.eq_dec x c) as [->|Nx]; [right; congruence|]. assert (DE : {par st3 x = Some r} + {par st3 x <> Some r}) by (repeat decide equality).
    destruct DE as [DE|DE]; [left; specialize (F9 x Hx Nx DE); unfold par in F9; congruence|right]. rewrite <- (F10 x Hx DE). exact Ep. }
  exists st', c. split; auto. split; auto. split.
  { intros x p Hx Ep. destruct (CASE x p Hx Ep) as [->|E3]; auto. left. apply NPU. now apply (CL3 x). }
  split.
  { intros x p Hx Ux Ep Np Ip. specialize (A5 x p Hx Ep Ip). assert (E3 : par st3 x = Some p) by (rewrite KP; auto; [now right|now apply NPU]).
    change (h_par (l_heap st') x) with (par st' x). rewrite F10; auto. congruence. }
  intros x p Hx Ux Ep. destruct (CASE x p Hx Ep) as [->|E3]; auto. left. rewrite KP in E3; [|now right|now apply NPU]. now apply A2.
Qed.

Lemma empty_prop : words = [] -> fix_punct chk form st r = (st, Raise IndexError).
Proof.
  intros W. unfold fix_punct. rewrite W. cbn [for_each bind]. rewrite W. cbn [fix_pairs bind]. rewrite W. cbn [for_each bind].
  assert (CH : h_ch (l_heap st) r = []).
  { destruct (h_ch (l_heap st) r) as [|c l] eqn:Ech; auto. assert (J : In c (h_ch (l_heap st) r)) by (rewrite Ech; now left).
    apply (child_In _ r c r C (or_introl eq_refl)) in J as [J _]. rewrite W in J. destruct J. }
  unfold one_subroot, label_root, children. rewrite CH. cbn [bind]. rewrite CH. reflexivity.
Qed.
End Whole.
