(** Reading the lines of one sentence. *)
From Coq Require Import String List NArith ZArith Bool Lia Sorted Permutation.
From Verif Require Import PyStr PyStrFacts PyList PyListFacts PyExn TreeModel TreeSpec TreeFacts TreeRepr TreeOps TreeCalls
  DualDictModel DualDictSpec DualDictProofs DocModel MwtSpec MwtProofs ConlluModel ConlluSpec ConlluRe ConlluComments ConlluWrite ConlluAttach.
Import ListNotations.

Definition word_attrs (f : list str) : attrs :=
  mkAttrs (Some (field f 1)) (Some (field f 2)) (unless_us (field f 3)) (unless_us (field f 4)) (opt_dd (field f 5))
          (unless_us (field f 7)) (opt_dd (field f 9)) (Some (field f 8)) None.
Definition empty_attrs (f : list str) : attrs :=
  mkAttrs (Some (field f 1)) (Some (field f 2)) (Some (field f 3)) (Some (field f 4)) (opt_dd (field f 5))
          None (opt_dd (field f 9)) (Some (field f 8)) None.
Definition head_col (f : list str) : Z := match py_int (field f 6) with Some z => z | None => 0%Z end.
Definition word_read (d : doc) (x : nat) (f : list str) : Prop :=
  py_int (field f 0) = Some (h_ord (d_h d) x) /\ d_at d x = word_attrs f.
Definition empty_read (d : doc) (x : nat) (f : list str) : Prop :=
  float_tenths (field f 0) = Ok (h_eord (d_h d) x) /\ d_at d x = empty_attrs f.

(** nothing changed for the objects that existed before *)
Definition unchanged (d0 d : doc) (y : nat) : Prop :=
  same_object (d_h d0) (d_h d) y /\ d_at d y = d_at d0 y /\ d_mwt d y = d_mwt d0 y /\ d_mwts d y = d_mwts d0 y /\
  d_ri d y = d_ri d0 y.

Record rinv (d0 : doc) (r : nat) (st : rd) (ns es : list nat) (wf ef mf : list (list str)) (ri : rinfo) (ge : option str) : Prop := {
  iv_nodes : rd_nodes st = r :: ns;
  iv_parents : rd_parents st = 0%Z :: map head_col wf;
  iv_mwts : rd_mwts st = mf;
  iv_ge : rd_ge st = ge;
  iv_ri : d_ri (rd_d st) r = ri;
  iv_desc : h_desc (d_h (rd_d st)) r = ns;
  iv_emp : h_emp (d_h (rd_d st)) r = es;
  iv_nodup : NoDup (ns ++ es);
  iv_range : forall x, In x (ns ++ es) -> r < x < h_next (d_h (rd_d st));
  iv_next : r < h_next (d_h (rd_d st));
  iv_words : Forall2 (word_read (rd_d st)) ns wf;
  iv_empties : Forall2 (empty_read (rd_d st)) es ef;
  iv_word : forall x, In x ns -> h_kind (d_h (rd_d st)) x = KNode /\ h_par (d_h (rd_d st)) x = None /\
              h_ch (d_h (rd_d st)) x = [] /\ h_root (d_h (rd_d st)) x = r /\ d_mwt (rd_d st) x = None;
  iv_empty : forall x, In x es -> h_kind (d_h (rd_d st)) x = KEmpty /\ h_par (d_h (rd_d st)) x = None /\
              h_ch (d_h (rd_d st)) x = [] /\ h_root (d_h (rd_d st)) x = r /\ d_mwt (rd_d st) x = None;
  iv_root : h_kind (d_h (rd_d st)) r = KRoot /\ h_par (d_h (rd_d st)) r = None /\ h_ch (d_h (rd_d st)) r = [] /\
              h_root (d_h (rd_d st)) r = r /\ h_ord (d_h (rd_d st)) r = 0%Z /\ d_mwts (rd_d st) r = [];
  iv_m : d_m (rd_d st) = d_m d0;
  iv_mnext : d_mnext (rd_d st) = d_mnext d0;
  iv_frame : forall y, y < r -> unchanged d0 (rd_d st) y
}.

Lemma Forall2_snoc {A B} (P : A -> B -> Prop) l l' a b : Forall2 P l l' -> P a b -> Forall2 P (l ++ [a]) (l' ++ [b]).
Proof. induction 1; simpl; constructor; auto. Qed.
Lemma Forall2_ext_l {A B} (P Q : A -> B -> Prop) l l' : Forall2 P l l' -> (forall a b, In a l -> In b l' -> P a b -> Q a b) -> Forall2 Q l l'.
Proof. induction 1; simpl; intros H1; constructor; auto. Qed.

Section steps.
  Variables (d0 : doc) (r : nat).

  Lemma rinv_start ge : r = h_next (d_h d0) ->
    rinv d0 r (mkRd (fst (doc_new_root d0)) ge [r] [0%Z] []) [] [] [] [] [] no_rinfo ge.
  Proof.
    intros ->. remember (h_next (d_h d0)) as r eqn:Hr.
    assert (Hu : d_h (fst (doc_new_root d0)) = fst (new_root (d_h d0))) by reflexivity.
    split; simpl; rewrite <- ?Hr; upds; auto; try (now constructor); try (intros ? []; fail); try (repeat split; auto; fail); try lia.
    intros y Hy.
    unfold unchanged, same_object. simpl. rewrite <- ?Hr. assert (y <> r) by lia. upds. repeat split; auto; lia.
  Qed.

  Lemma comment_step st ns es wf ef mf ri ge ri' ge' : rinv d0 r st ns es wf ef mf ri ge ->
    rinv d0 r (mkRd (put_ri (rd_d st) r ri') ge' (rd_nodes st) (rd_parents st) (rd_mwts st)) ns es wf ef mf ri' ge'.
  Proof.
    intros []. split; simpl; auto; try (now upds).
    intros y Hy. destruct (iv_frame0 y Hy) as (F1 & F2 & F3 & F4 & F5). unfold unchanged. simpl.
    assert (y <> r) by lia. upds. auto.
  Qed.
  Lemma mwt_step st ns es wf ef mf ri ge f : rinv d0 r st ns es wf ef mf ri ge ->
    rinv d0 r (mkRd (rd_d st) (rd_ge st) (rd_nodes st) (rd_parents st) (rd_mwts st ++ [f])) ns es wf ef (mf ++ [f]) ri ge.
  Proof. intros []. split; simpl; auto. congruence. Qed.

  Lemma word_step strict st ns es wf ef mf ri ge f o :
    rinv d0 r st ns es wf ef mf ri ge -> py_int (field f 0) = Some o ->
    (py_int (field f 6) <> None \/ (strict = false /\ field f 6 = US)) ->
    exists d n, read_word strict (rd_d st) r f = (d, Ok (n, head_col f)) /\
      rinv d0 r (mkRd d (rd_ge st) (rd_nodes st ++ [n]) (rd_parents st ++ [head_col f]) (rd_mwts st))
           (ns ++ [n]) es (wf ++ [f]) ef mf ri ge.
  Proof.
    intros IV Ho Hh. destruct IV. unfold read_word. set (n := h_next (d_h (rd_d st))). cbn [new_node alloc fst snd].
    rewrite Ho.
    match goal with |- context [if str_eqb (field f 8) US then ?a else ?b] => set (dd := if str_eqb (field f 8) US then a else b) end.
    assert (EX : exists d', dd = d' /\ d_h d' = d_h dd /\ d_ri d' = d_ri (rd_d st) /\ d_mwts d' = d_mwts (rd_d st) /\
      d_m d' = d_m (rd_d st) /\ d_mnext d' = d_mnext (rd_d st) /\ d_mwt d' = upd (d_mwt (rd_d st)) n None /\
      d_at d' n = word_attrs f /\ (forall y, y <> n -> d_at d' y = d_at (rd_d st) y)).
    { exists dd. unfold dd. destruct (str_eqb_spec (field f 8) US) as [E|E]; simpl; fold n; upds.
      - do 7 (split; [auto|]). split; [unfold word_attrs; rewrite E; auto|]. intros; now upds.
      - do 7 (split; [auto|]). split; [reflexivity|]. intros; now upds. }
    assert (EH : d_h dd = put_ord (put_desc (fst (alloc (d_h (rd_d st)) KNode r)) r (upd (h_desc (d_h (rd_d st))) n [] r ++ [n])) n o).
    { unfold dd. destruct (str_eqb (field f 8) US); reflexivity. }
    clearbody dd. destruct EX as (d' & <- & _ & X1 & X2 & X3 & X4 & X5 & X6 & X7).
    exists dd, n. split.
    { unfold head_col. destruct (py_int (field f 6)) as [z|]; auto. destruct Hh as [|[-> ->]]; [tauto|]. reflexivity. }
    assert (Nr : n <> r) by (unfold n; lia).
    assert (NN : forall x, In x (ns ++ es) -> x <> n) by (intros x I; apply iv_range0 in I; unfold n; lia).
    assert (HD : h_desc (d_h dd) r = ns ++ [n]).
    { rewrite EH. simpl. fold n. upds. now rewrite iv_desc0. }
    split; simpl; auto.
    - now rewrite iv_nodes0.
    - rewrite iv_parents0, map_app. reflexivity.
    - rewrite X1; auto.
    - rewrite EH. simpl. fold n. upds. auto.
    - rewrite <- app_assoc. apply NoDup_app_inv in iv_nodup0 as (D1 & D2 & D3).
      apply NoDup_app; auto.
      + simpl. constructor; auto. intros I. apply (NN n); auto. apply in_app_iff; auto.
      + intros x I [<-|J]; [apply (NN n); auto; apply in_app_iff; auto|eapply D3; eauto].
    - intros x I. rewrite EH. simpl. fold n. rewrite <- app_assoc in I. apply in_app_iff in I as [I|[<-|I]];
        try (assert (r < x < n) by (apply iv_range0, in_app_iff; auto)); unfold n in *; lia.
    - rewrite EH. simpl. unfold n in *. lia.
    - apply Forall2_snoc.
      + eapply Forall2_ext_l; [exact iv_words0|]. intros a b Ia _ [Q1 Q2].
        assert (a <> n) by (apply NN, in_app_iff; auto). split; [rewrite EH; simpl; fold n; now upds|now rewrite X7].
      + split; auto. rewrite EH. simpl. fold n. now upds.
    - eapply Forall2_ext_l; [exact iv_empties0|]. intros a b Ia _ [Q1 Q2].
      assert (a <> n) by (apply NN, in_app_iff; auto). split; [rewrite EH; simpl; fold n; now upds|now rewrite X7].
    - intros x I. rewrite EH, X5. simpl. fold n. apply in_app_iff in I as [I|[<-|[]]].
      + assert (x <> n) by (apply NN, in_app_iff; auto). upds. auto.
      + upds. auto.
    - intros x I. rewrite EH, X5. simpl. fold n. assert (x <> n) by (apply NN, in_app_iff; auto). upds. auto.
    - rewrite EH, X2. simpl. fold n. upds. tauto.
    - congruence.
    - congruence.
    - intros y Hy. destruct (iv_frame0 y Hy) as (F1 & F2 & F3 & F4 & F5). unfold unchanged, same_object in *.
      assert (y <> n) by (unfold n; lia). assert (y <> r) by lia. rewrite X7, X5, X2, X1, EH by auto. simpl. fold n. upds.
      unfold n in *. repeat split; try tauto; try lia.
  Qed.
  Lemma empty_step st ns es wf ef mf ri ge f o :
    rinv d0 r st ns es wf ef mf ri ge -> float_tenths (field f 0) = Ok o ->
    exists d n, read_empty (rd_d st) r f = (d, Ok tt) /\
      rinv d0 r (mkRd d (rd_ge st) (rd_nodes st) (rd_parents st) (rd_mwts st))
           ns (es ++ [n]) wf (ef ++ [f]) mf ri ge.
  Proof.
    intros IV Ho. destruct IV. unfold read_empty. set (n := h_next (d_h (rd_d st))). cbn [new_node alloc fst snd].
    rewrite Ho.
    match goal with |- context [(put_at ?a ?b ?c, Ok tt)] => set (dd := put_at a b c) end.
    assert (EX : exists d', dd = d' /\ d_h d' = d_h dd /\ d_ri d' = d_ri (rd_d st) /\ d_mwts d' = d_mwts (rd_d st) /\
      d_m d' = d_m (rd_d st) /\ d_mnext d' = d_mnext (rd_d st) /\ d_mwt d' = upd (d_mwt (rd_d st)) n None /\
      d_at d' n = empty_attrs f /\ (forall y, y <> n -> d_at d' y = d_at (rd_d st) y)).
    { exists dd. unfold dd. simpl. fold n. upds. do 7 (split; [auto|]). split; [reflexivity|]. intros; now upds. }
    assert (EH : d_h dd = put_eord (put_emp (fst (alloc (d_h (rd_d st)) KEmpty r)) r (upd (h_emp (d_h (rd_d st))) n [] r ++ [n])) n o).
    { reflexivity. }
    clearbody dd. destruct EX as (d' & <- & _ & X1 & X2 & X3 & X4 & X5 & X6 & X7).
    exists dd, n. split; auto.
    assert (Nr : n <> r) by (unfold n; lia).
    assert (NN : forall x, In x (ns ++ es) -> x <> n) by (intros x I; apply iv_range0 in I; unfold n; lia).
    split; simpl; auto.
    - rewrite X1; auto.
    - rewrite EH. simpl. fold n. upds. auto.
    - rewrite EH. simpl. fold n. upds. now rewrite iv_emp0.
    - rewrite app_assoc. apply NoDup_app; auto.
      + constructor; auto; constructor.
      + intros x I [<-|[]]. apply (NN n); auto.
    - intros x I. rewrite EH. simpl. fold n. rewrite app_assoc in I. apply in_app_iff in I as [I|[<-|[]]];
        try (assert (r < x < n) by (apply iv_range0; auto)); unfold n in *; lia.
    - rewrite EH. simpl. unfold n in *. lia.
    - eapply Forall2_ext_l; [exact iv_words0|]. intros a b Ia _ [Q1 Q2].
      assert (a <> n) by (apply NN, in_app_iff; auto). split; [rewrite EH; simpl; fold n; now upds|now rewrite X7].
    - apply Forall2_snoc.
      + eapply Forall2_ext_l; [exact iv_empties0|]. intros a b Ia _ [Q1 Q2].
        assert (a <> n) by (apply NN, in_app_iff; auto). split; [rewrite EH; simpl; fold n; now upds|now rewrite X7].
      + split; auto. rewrite EH. simpl. fold n. now upds.
    - intros x I. rewrite EH, X5. simpl. fold n. assert (x <> n) by (apply NN, in_app_iff; auto). upds. auto.
    - intros x I. rewrite EH, X5. simpl. fold n. apply in_app_iff in I as [I|[<-|[]]].
      + assert (x <> n) by (apply NN, in_app_iff; auto). upds. auto.
      + upds. auto.
    - rewrite EH, X2. simpl. fold n. upds. tauto.
    - congruence.
    - congruence.
    - intros y Hy. destruct (iv_frame0 y Hy) as (F1 & F2 & F3 & F4 & F5). unfold unchanged, same_object in *.
      assert (y <> n) by (unfold n; lia). assert (y <> r) by lia. rewrite X7, X5, X2, X1, EH by auto. simpl. fold n. upds.
      unfold n in *. repeat split; try tauto; try lia.
  Qed.

  (** Any line at all: either an exception or the invariant goes on. *)
  Lemma any_line cfg canon st ns es wf ef mf ri ge line : rinv d0 r st ns es wf ef mf ri ge ->
    exists st' o, read_line cfg canon r st line = (st', o) /\
      match o with
      | Ok _ => exists ns' es' wf' ef' mf' ri' ge', rinv d0 r st' ns' es' wf' ef' mf' ri' ge'
      | Raise _ => True
      | Diverge => False
      end.
  Proof.
    intros IV. unfold read_line. destruct line as [|c line]; [do 2 eexists; split; [reflexivity|]; exact I|].
    set (ln := c :: line). destruct (N.eqb c HASH).
    { destruct (parse_comment canon (d_ri (rd_d st) r) (rd_ge st) ln) as [[ri' ge'] o] eqn:E.
      do 2 eexists. split; [reflexivity|]. destruct o as [[]|e|]; auto.
      - do 7 eexists. eapply comment_step; eauto.
      - revert E. unfold parse_comment. repeat (match goal with |- context [match ?x with _ => _ end] => destruct x end; try discriminate). }
    destruct (negb (Nat.eqb (length (split TAB ln)) 10) && rc_strict cfg); [do 2 eexists; split; [reflexivity|]; exact I|].
    set (f := split TAB ln ++ repeat US (10 - length (split TAB ln))).
    destruct (has_char MINUS (field f 0)).
    { do 2 eexists. split; [reflexivity|]. do 7 eexists. eapply mwt_step; eauto. }
    destruct (has_char DOT (field f 0)).
    { destruct (float_tenths (field f 0)) as [o|e|] eqn:E.
      - destruct (empty_step _ _ _ _ _ _ _ _ f o IV E) as (d & n & E1 & IV1). rewrite E1.
        do 2 eexists. split; [reflexivity|]. do 7 eexists. exact IV1.
      - unfold read_empty. cbn [new_node alloc fst snd]. rewrite E. do 2 eexists. split; [reflexivity|]. exact I.
      - unfold float_tenths in E. exfalso. revert E.
        repeat (match goal with |- context [match ?x with _ => _ end] => destruct x end; try discriminate). }
    destruct (py_int (field f 0)) as [o|] eqn:E0.
    - destruct (py_int (field f 6)) as [p|] eqn:E6.
      + destruct (word_step (rc_strict cfg) _ _ _ _ _ _ _ _ f o IV E0) as (d & n & E1 & IV1); [left; congruence|].
        rewrite E1. do 2 eexists. split; [reflexivity|]. do 7 eexists. exact IV1.
      + destruct (negb (rc_strict cfg) && str_eqb (field f 6) US) eqn:EN.
        * apply andb_true_iff in EN as [EN1 EN2]. apply negb_true_iff in EN1. apply str_eqb_eq in EN2.
          destruct (word_step (rc_strict cfg) _ _ _ _ _ _ _ _ f o IV E0) as (d & n & E1 & IV1); [right; auto|].
          rewrite E1. do 2 eexists. split; [reflexivity|]. do 7 eexists. exact IV1.
        * unfold read_word. cbn [new_node alloc fst snd]. rewrite E0, E6, EN. do 2 eexists. split; [reflexivity|]. exact I.
    - unfold read_word. cbn [new_node alloc fst snd]. rewrite E0. do 2 eexists. split; [reflexivity|]. exact I.
  Qed.
  Lemma any_lines cfg canon : forall lines st ns es wf ef mf ri ge, rinv d0 r st ns es wf ef mf ri ge ->
    exists st' o, read_lines cfg canon r st lines = (st', o) /\
      match o with
      | Ok _ => exists ns' es' wf' ef' mf' ri' ge', rinv d0 r st' ns' es' wf' ef' mf' ri' ge'
      | Raise _ => True
      | Diverge => False
      end.
  Proof.
    induction lines as [|l lines IH]; intros st ns es wf ef mf ri ge IV; cbn [read_lines].
    - do 2 eexists. split; [reflexivity|]. do 7 eexists. exact IV.
    - destruct (any_line cfg canon _ _ _ _ _ _ _ _ l IV) as (st' & o & E & H). rewrite E. destruct o as [u|e|]; cbn [bind].
      + destruct H as (ns' & es' & wf' & ef' & mf' & ri' & ge' & IV'). eapply IH; eauto.
      + do 2 eexists. split; [reflexivity|]. exact I.
      + tauto.
  Qed.
End steps.
