(** Proofs about saving and loading documents in CoNLL-U (C70): the bundles. *)
From Coq Require Import String List NArith ZArith Bool Lia.
From Verif Require Import PyStr PyStrFacts PyList PyListFacts PyExn TreeModel TreeSpec DocModel DualDictModel ConlluModel ConlluSpec ConlluRead
  BundleModel BundleSpec BundleProofs ReaderModel ReaderSpec ReaderProofs ReaderThms ReaderFiles ConlluFileModel ConlluFileSpec ConlluFileProofs.
Import ListNotations.

Section groups.
  Context {A : Type}.
  Implicit Types (r : reader A) (it : item A).
  Variable o : opts.
  Hypotheses (O1 : o_zone o = None) (O2 : o_ignore o = false) (O3 : o_max o = 0).
  Notation group := (str * list (str * item A))%type.
  Definition ok_group (g : group) : Prop :=
    fst g <> [] /\ ~ In 47%N (fst g) /\ snd g <> [] /\ NoDup (map fst (snd g)) /\
    Forall (fun zi => legal_zone (fst zi) /\ has_id (snd zi) (fst g) (fst zi)) (snd g).
  Definition group_items (gs : list group) : list (item A) := concat (map (fun g => map snd (snd g)) gs).

  (** the trees of the bundle have these zones *)
  Definition zones_are (s : store) (b : nat) (zs : list str) : Prop :=
    map (t_zone s) (b_trees s b) = map Some zs /\ Forall (fun t => t < nt s) (b_trees s b).
  (** the reader has the same files *)
  Definition same_files r r' : Prop :=
    rd_files r' = rd_files r /\ rd_number r' = rd_number r /\ rd_given r' = rd_given r /\ rd_handle r' = rd_handle r /\ rd_finished r' = rd_finished r.
  Lemma same_files_trans r1 r2 r3 : same_files r1 r2 -> same_files r2 r3 -> same_files r1 r3.
  Proof. unfold same_files. intuition congruence. Qed.

  Lemma prepared_id r it i z last : has_id it i z -> let r1 := fst (alloc r it) in let t := nt (rd_store r) in
    exists s', (forall n, prepare o (with_docs r1 n) t last = (with_store (with_docs r1 n) s', (i, str_eqb i last))) /\
      prepare o r1 t last = (with_store r1 s', (i, str_eqb i last)) /\ nt s' = S t /\ nb s' = nb (rd_store r) /\ b_trees s' = b_trees (rd_store r) /\
      b_id s' = b_id (rd_store r) /\
      (forall x, x < t -> t_zone s' x = t_zone (rd_store r) x) /\ (t_zone s' t = Some z \/ (t_zone s' t = None /\ z = [])).
  Proof.
    intros (NE & NS & ID) r1 t.
    set (p := match it_sid it with
         | None => (rd_store r1, (last, false))
         | Some sid =>
           match split1 47%N sid with
           | None => (rd_store r1, (sid, str_eqb sid last))
           | Some (b, z) => (fst (set_zone (rd_store r1) t z), (b, str_eqb b last))
           end
         end : store * (str * bool)).
    assert (P : forall q : reader A, rd_store q = rd_store r1 -> prepare o q t last = (with_store q (fst p), snd p)).
    { assert (TS : t_sid (rd_store r1) t = it_sid it) by (unfold r1, t; cbn; apply upd_same).
      intros q E. unfold prepare, p. rewrite E, O1, O2, TS. destruct (it_sid it) as [sid|]; [|reflexivity]. destruct (split1 47%N sid) as [[? ?]|]; reflexivity. }
    unfold p in P. clear p. destruct ID as [[ID ->]|ID].
    - exists (rd_store r1). rewrite (P r1 eq_refl). assert (S0 : split1 47%N i = None) by (now apply split1_None).
      split; [intros n; rewrite (P (with_docs r1 n) eq_refl)|]; rewrite ID, S0; [reflexivity|]. split; [reflexivity|].
      unfold r1, t. cbn. repeat split.
      + intros x Hx. rewrite upd_other by lia. reflexivity.
      + right. rewrite upd_same. auto.
    - exists (fst (set_zone (rd_store r1) t z)). rewrite (P r1 eq_refl). assert (S0 : split1 47%N (i ++ 47%N :: z) = Some (i, z)) by (now apply split1_app).
      split; [intros n; rewrite (P (with_docs r1 n) eq_refl)|]; rewrite ID, S0; [reflexivity|]. split; [reflexivity|].
      unfold set_zone. unfold r1, t. cbn. rewrite !upd_same. cbn. repeat split.
      + intros x Hx. rewrite !upd_other by lia. reflexivity.
      + left. now rewrite upd_same.
  Qed.

  Lemma add_ok s b t z zs : zones_are s b zs -> legal_zone z -> ~ In z zs -> S t = nt s -> Forall (fun x => x < t) (b_trees s b) ->
    (t_zone s t = Some z \/ (t_zone s t = None /\ z = [])) ->
    exists s', add_tree s b t = (s', Ok tt) /\ zones_are s' b (zs ++ [z]) /\ nt s' = nt s /\ nb s' = nb s.
  Proof.
    intros [Z1 Z2] [L1 L2] NI N BT TZ. unfold add_tree.
    set (s1 := match t_zone s t with None => put_zone s t (Some []) | Some _ => s end).
    assert (E1 : t_zone s1 t = Some z /\ nt s1 = nt s /\ nb s1 = nb s /\ b_trees s1 = b_trees s /\ forall x, x < t -> t_zone s1 x = t_zone s x).
    { unfold s1. destruct TZ as [E|[E ->]]; rewrite E; [auto|]. cbn. rewrite upd_same. repeat split. intros x Hx. rewrite upd_other by lia. reflexivity. }
    destruct E1 as (ZT & N1 & NB1 & B1 & Z3). assert (ZS : zone_str s1 t = z) by (unfold zone_str; now rewrite ZT). rewrite ZS.
    assert (CK : check_zone s1 b z = Ok tt).
    { unfold check_zone. rewrite L1. cbn [negb]. assert (Q : str_eqb z (PyStr.s "all") = false) by (now apply str_eqb_neq). rewrite Q.
      assert (X : existsb (zone_is s1 z) (b_trees s1 b) = false); [|now rewrite X].
      apply not_true_iff_false. intros X. apply existsb_exists in X as (x & I & X). rewrite B1 in I. apply NI.
      assert (J : In (t_zone s x) (map Some zs)) by (rewrite <- Z1; now apply in_map). rewrite Forall_forall in BT. unfold zone_is in X. rewrite Z3 in X by auto.
      apply in_map_iff in J as (y & E & J). rewrite <- E in X. apply str_eqb_eq in X. now subst. }
    rewrite CK. eexists. split; [reflexivity|].
    assert (G : forall s2, t_zone s2 = t_zone s1 -> nt s2 = nt s1 -> nb s2 = nb s1 -> b_trees s2 = b_trees s1 ->
      zones_are (put_trees (put_bundle s2 t (Some b)) b (b_trees (put_bundle s2 t (Some b)) b ++ [t])) b (zs ++ [z]) /\ nt s2 = nt s /\ nb s2 = nb s).
    { intros s2 A1 A2 A3 A4. split; [|split; congruence]. split; cbn; rewrite upd_same, A4, B1.
      - rewrite !map_app, A1. cbn [map]. rewrite ZT. f_equal. rewrite <- Z1. apply map_ext_in. intros x I. apply Z3. rewrite Forall_forall in BT. auto.
      - apply Forall_app. split; [|constructor; auto; lia]. rewrite A2, N1. exact Z2. }
    destruct (b_id s1 b) as [[|c i]|]; [exact (G s1 eq_refl eq_refl eq_refl eq_refl)|exact (G (put_sid s1 t _) eq_refl eq_refl eq_refl eq_refl)|exact (G s1 eq_refl eq_refl eq_refl eq_refl)].
  Qed.

  (** one tree that goes to the current bundle *)
  Lemma step_add r d b i it z zs l : has_id it i z -> legal_zone z -> ~ In z zs -> zones_are (rd_store r) b zs ->
    exists r', fast_trees o r d (Some b) i (Some it :: l) = fast_trees o r' d (Some b) i l /\ same_files r r' /\ zones_are (rd_store r') b (zs ++ [z]).
  Proof.
    intros HI LZ NI ZA. destruct (prepared_id r it i z i HI) as (s' & P1 & P2 & N & NB & BT & BI & Z1 & Z2). rewrite str_eqb_refl in P1, P2.
    cbn [fast_trees]. set (r1 := fst (alloc r it)) in *. set (t := nt (rd_store r)) in *.
    assert (EA : alloc r it = (r1, t)) by reflexivity. rewrite EA. unfold over_max. rewrite O3. cbn [Nat.eqb negb andb]. rewrite andb_false_r.
    destruct ZA as [ZA1 ZA2].
    assert (ZA' : zones_are s' b zs /\ Forall (fun x => x < t) (b_trees s' b)).
    { rewrite <- BT in ZA2. split; auto. split; [|eapply Forall_impl; [|exact ZA2]; intros a Ha; rewrite N; apply Nat.lt_lt_succ_r; exact Ha].
      rewrite BT, <- ZA1. apply map_ext_in. intros x I. apply Z1. rewrite Forall_forall in ZA2. apply ZA2. now rewrite BT. }
    destruct ZA' as [ZA' FT]. destruct (add_ok s' b t z zs ZA' LZ NI (eq_sym N) FT Z2) as (s2 & E2 & ZA2' & _).
    destruct (truthy (rd_newdoc r1 t)); [rewrite P1|rewrite P2]; unfold add_to; cbn [rd_store with_store]; rewrite E2; cbn [bind]; eexists; (split; [reflexivity|]); (split; [|exact ZA2']);
      unfold same_files; cbn; auto.
  Qed.
  (** one tree that starts a bundle *)
  Lemma step_new r d bundle last i it z l : has_id it i z -> legal_zone z -> (bundle = None \/ i <> last) ->
    exists r' b, fast_trees o r d bundle last (Some it :: l) = fast_trees o r' d (Some b) i l /\ same_files r r' /\ zones_are (rd_store r') b [z].
  Proof.
    intros HI LZ NB0. destruct (prepared_id r it i z last HI) as (s' & P1 & P2 & N & NB & BT & BI & Z1 & Z2).
    cbn [fast_trees]. set (r1 := fst (alloc r it)) in *. set (t := nt (rd_store r)) in *.
    assert (EA : alloc r it = (r1, t)) by reflexivity. rewrite EA. unfold over_max. rewrite O3. cbn [Nat.eqb negb andb]. rewrite andb_false_r.
    assert (AD : forall q : reader A, match bundle with Some b => if str_eqb i last then (q, b) else fresh_bundle q d i | None => fresh_bundle q d i end = fresh_bundle q d i).
    { intros q. destruct NB0 as [->|NB0]; auto. destruct bundle; auto. assert (Q : str_eqb i last = false) by (now apply str_eqb_neq). now rewrite Q. }
    set (b := nb s').
    assert (FB : forall q : reader A, rd_store q = s' -> exists s2, fresh_bundle q d i = (with_store q s2, b) /\ b_trees s2 b = [] /\ nt s2 = nt s' /\ t_zone s2 = t_zone s').
    { intros q EQ. unfold fresh_bundle. rewrite EQ. destruct (create_bundle s' d) as [s2 b2] eqn:CB.
      assert (K : b2 = b /\ b_trees s2 b2 = [] /\ nt s2 = nt s' /\ t_zone s2 = t_zone s').
      { unfold create_bundle in CB. cbn [new_bundle] in CB. injection CB as <- <-. cbn. rewrite upd_same. auto. }
      destruct K as (-> & K1 & K2 & K3). eexists. split; [reflexivity|]. destruct (nonempty i); auto. unfold set_bundle_id. cbn [put_bid b_trees].
      rewrite K1. cbn. auto. }
    assert (ST : forall q : reader A, rd_store q = s' -> same_files r q -> exists r' , bind (add_to (fst (fresh_bundle q d i)) b t) (fun r0 _ => fast_trees o r0 d (Some b) i l) = fast_trees o r' d (Some b) i l /\
        same_files r r' /\ zones_are (rd_store r') b [z]).
    { intros q EQ SF. destruct (FB q EQ) as (s2 & E2 & B2 & N2 & Z3). rewrite E2. cbn [fst]. unfold add_to. cbn [rd_store with_store].
      assert (ZA : zones_are s2 b []) by (split; rewrite B2; constructor).
      destruct (add_ok s2 b t z [] ZA LZ ltac:(intros []) ltac:(lia) ltac:(rewrite B2; constructor) ltac:(rewrite Z3; exact Z2)) as (s3 & E3 & ZA3 & _).
      rewrite E3. cbn [bind]. exists (with_store (with_store q s2) s3). split; [reflexivity|]. split; [exact SF|exact ZA3]. }
    assert (FE : forall q : reader A, rd_store q = s' -> fresh_bundle q d i = (fst (fresh_bundle q d i), b)).
    { intros q EQ. destruct (FB q EQ) as (s2 & E2 & _). now rewrite E2. }
    destruct (truthy (rd_newdoc r1 t)).
    - rewrite P1, AD, FE by reflexivity. destruct (ST (with_store (with_docs r1 (S (rd_docs r1))) s') eq_refl) as (r' & E & SF & ZA); [unfold same_files; cbn; auto|].
      exists r', b. auto.
    - rewrite P2, AD, FE by reflexivity. destruct (ST (with_store r1 s') eq_refl) as (r' & E & SF & ZA); [unfold same_files; cbn; auto|].
      exists r', b. auto.
  Qed.
  Lemma rest_of_group d b i l : Forall (fun zi => legal_zone (fst zi) /\ has_id (snd zi) i (fst zi)) l -> forall r zs rest,
    NoDup (zs ++ map fst l) -> zones_are (rd_store r) b zs ->
    exists r', fast_trees o r d (Some b) i (map Some (map snd l) ++ rest) = fast_trees o r' d (Some b) i rest /\ same_files r r'.
  Proof.
    induction 1 as [|[z it] l [LZ HI] _ IH]; intros r zs rest ND ZA; cbn [map app fst snd] in *; [exists r; split; auto; unfold same_files; auto|].
    assert (NI : ~ In z zs) by (apply NoDup_remove_2 in ND; intros I; apply ND, in_app_iff; auto).
    destruct (step_add r d b i it z zs (map Some (map snd l) ++ rest) HI LZ NI ZA) as (r1 & E & SF & ZA1). rewrite E.
    destruct (IH r1 (zs ++ [z]) rest) as (r' & E' & SF'); [now rewrite <- app_assoc|exact ZA1|]. exists r'. split; auto. now apply (same_files_trans r r1).
  Qed.
  Lemma groups_ok d gs : Forall ok_group gs -> (forall g1 a b g2, gs = g1 ++ a :: b :: g2 -> fst a <> fst b) -> forall r bundle last,
    (bundle = None \/ forall g gs', gs = g :: gs' -> fst g <> last) ->
    exists r', fast_trees o r d bundle last (map Some (group_items gs)) = (r', Ok FastAll) /\ same_files r r'.
  Proof.
    induction 1 as [|g gs (G1 & G2 & G3 & G4 & G5) _ IH]; intros SEP r bundle last HB; [exists r; split; auto; unfold same_files; auto|].
    destruct g as [i l]. cbn [fst snd] in *. destruct l as [|[z it] l]; [congruence|]. inversion G5 as [|? ? [LZ HI] G5']; subst. cbn [fst snd] in *.
    unfold group_items in *. cbn [map concat fst snd app]. rewrite map_app.
    destruct (step_new r d bundle last i it z (map Some (map snd l) ++ map Some (concat (map (fun g => map snd (snd g)) gs))) HI LZ) as (r1 & b & E & SF & ZA).
    { destruct HB as [HB|HB]; auto. right. apply (HB (i, (z, it) :: l) gs eq_refl). }
    rewrite E. destruct (rest_of_group d b i l G5' r1 [z] (map Some (concat (map (fun g => map snd (snd g)) gs))) G4 ZA) as (r2 & E2 & SF2). rewrite E2.
    destruct (IH (fun g1 a b0 g2 Q => SEP ((i, (z, it) :: l) :: g1) a b0 g2 (f_equal _ Q)) r2 (Some b) i) as (r3 & E3 & SF3).
    { right. intros g gs' ->. intros Q. symmetry in Q. revert Q. apply (SEP [] (i, (z, it) :: l) g gs'). reflexivity. }
    exists r3. split; auto. apply (same_files_trans r r1); auto. now apply (same_files_trans r1 r2).
  Qed.

  (** reading one file succeeds and gives one document *)
  Lemma one_document gs slow fl : Forall ok_group gs -> (forall g1 a b g2, gs = g1 ++ a :: b :: g2 -> fst a <> fst b) ->
    o_bpd o = 0 -> o_filter o = None -> o_split o = false ->
    exists r, read_documents (S fl) o no_after (new_reader [mkFile slow (Some (Ok (map Some (group_items gs))))]) [] = (r, Ok [0]).
  Proof.
    intros H SEP O4 O5 O6. cbn [read_documents rd_finished new_reader new_document].
    unfold process_document, try_fast_load. rewrite O4, O5, O6. cbn. rewrite upd_same. cbn.
    assert (FN : forall l : list (item A), first_newdoc (map Some l) = Ok tt) by (intros [|? ?]; reflexivity). rewrite FN.
    match goal with |- context [fast_trees o ?q 0 None [] _] => destruct (groups_ok 0 gs H SEP q None []) as (r1 & E & (F1 & F2 & F3 & F4 & F5)); [now left|rewrite E] end.
    cbn [bind]. unfold next_handle. rewrite F2, F3, F1. cbn. destruct fl; cbn; eexists; reflexivity.
  Qed.
End groups.

(** ---- The list of files does not matter while the trees of a file are placed ---- *)
Section setf.
  Context {A : Type}.
  Implicit Types (r : reader A).
  Definition setf r (fs : list (file A)) : reader A :=
    mkReader (rd_store r) (rd_newdoc r) (rd_content r) fs (rd_number r) (rd_given r) (rd_handle r) (rd_buffer r) (rd_finished r) (rd_docs r).
  Lemma fast_setf o d fs l : forall r bundle last,
    fast_trees o (setf r fs) d bundle last l = (setf (fst (fast_trees o r d bundle last l)) fs, snd (fast_trees o r d bundle last l)).
  Proof.
    induction l as [|[it|] l IH]; intros r bundle last; cbn [fast_trees]; auto.
    change (alloc (setf r fs) it) with (setf (fst (alloc r it)) fs, snd (alloc r it)). destruct (alloc r it) as [r1 t]. cbn [fst snd].
    change (rd_newdoc (setf r1 fs) t) with (rd_newdoc r1 t). change (over_max o (setf r1 fs)) with (over_max o r1).
    destruct (truthy (rd_newdoc r1 t) && over_max o r1); [reflexivity|].
    set (r2 := if truthy (rd_newdoc r1 t) then with_docs r1 (S (rd_docs r1)) else r1).
    assert (E2 : (if truthy (rd_newdoc r1 t) then with_docs (setf r1 fs) (S (rd_docs (setf r1 fs))) else setf r1 fs) = setf r2 fs).
    { unfold r2. destruct (truthy (rd_newdoc r1 t)); reflexivity. }
    rewrite E2. clearbody r2. clear E2.
    assert (E3 : prepare o (setf r2 fs) t last = (setf (fst (prepare o r2 t last)) fs, snd (prepare o r2 t last))).
    { unfold prepare. cbn [rd_store setf]. destruct (o_ignore o); [reflexivity|]. destruct (t_sid (rd_store r2) t); [|reflexivity].
      destruct (split1 47%N s) as [[? ?]|]; reflexivity. }
    rewrite E3. destruct (prepare o r2 t last) as [r3 [last' add]]. cbn [fst snd].
    assert (FB : fresh_bundle (setf r3 fs) d last' = (setf (fst (fresh_bundle r3 d last')) fs, snd (fresh_bundle r3 d last'))).
    { unfold fresh_bundle. cbn [rd_store setf]. destruct (create_bundle (rd_store r3) d); reflexivity. }
    assert (ST : forall r4 b, bind (add_to (setf r4 fs) b t) (fun r _ => fast_trees o r d (Some b) last' l) =
      (setf (fst (bind (add_to r4 b t) (fun r _ => fast_trees o r d (Some b) last' l))) fs, snd (bind (add_to r4 b t) (fun r _ => fast_trees o r d (Some b) last' l)))).
    { intros r4 b. unfold add_to. cbn [rd_store setf]. destruct (add_tree (rd_store r4) b t) as [s4 [u| |]]; cbn [bind]; try reflexivity.
      change (with_store (setf r4 fs) s4) with (setf (with_store r4 s4) fs). apply IH. }
    destruct bundle as [b|]; [destruct add|].
    - apply ST.
    - rewrite FB. destruct (fresh_bundle r3 d last') as [r4 b']. cbn [fst snd]. apply ST.
    - rewrite FB. destruct (fresh_bundle r3 d last') as [r4 b']. cbn [fst snd]. apply ST.
  Qed.
  Lemma slow_unused o gs slow slow' fl : Forall (ok_group (A := A)) gs -> (forall g1 a b g2, gs = g1 ++ a :: b :: g2 -> fst a <> fst b) ->
    o_zone o = None -> o_ignore o = false -> o_max o = 0 -> o_bpd o = 0 -> o_filter o = None -> o_split o = false ->
    forall r, read_documents (S fl) o no_after (new_reader [mkFile slow (Some (Ok (map Some (group_items gs))))]) [] = (r, Ok [0]) ->
    exists r', read_documents (S fl) o no_after (new_reader [mkFile slow' (Some (Ok (map Some (group_items gs))))]) [] = (r', Ok [0]) /\
      rd_store r' = rd_store r /\ rd_content r' = rd_content r.
  Proof.
    intros H SEP O1 O2 O3 O4 O5 O6 r. cbn [read_documents rd_finished new_reader new_document].
    unfold process_document, try_fast_load. rewrite O4, O5, O6. cbn. rewrite upd_same. cbn.
    assert (FN : forall l : list (item A), first_newdoc (map Some l) = Ok tt) by (intros [|? ?]; reflexivity). rewrite !FN.
    match goal with |- context [fast_trees o ?q 0 None [] _] =>
      destruct (groups_ok o O1 O2 O3 0 gs H SEP q None []) as (r1 & E & (F1 & F2 & F3 & F4 & F5)); [now left|]; rewrite E;
      pose proof (fast_setf o 0 [mkFile slow' (Some (Ok (map Some (group_items gs))))] (map Some (group_items gs)) q None []) as E' end.
    rewrite E in E'. cbn [fst snd] in E'.
    match goal with |- context [fast_trees o ?q2 0 None [] ?l] => assert (E2 : fast_trees o q2 0 None [] l = _) by exact E'; rewrite E2; clear E2 end. cbn [bind]. unfold next_handle. rewrite F2, F3, F1. cbn. rewrite F2, F3. cbn.
    intros Q. destruct fl; cbn in Q |- *; injection Q as <-; eexists; (split; [reflexivity|]); auto.
  Qed.
End setf.

(** ---- Grouping by a key is unique ---- *)
Section runs.
  Context {B : Type}.
  Variable key : B -> str.
  Definition grouped (gs : list (list B)) : Prop :=
    Forall (fun g => g <> [] /\ forall x y, In x g -> In y g -> key x = key y) gs /\
    forall l1 g h l2 x y, gs = l1 ++ g :: h :: l2 -> In x g -> In y h -> key x <> key y.
  Fixpoint runs (l : list B) : list (list B) :=
    match l with
    | [] => []
    | x :: l => match runs l with
                | (y :: g) :: gs => if str_eqb (key x) (key y) then (x :: y :: g) :: gs else [x] :: (y :: g) :: gs
                | _ => [[x]]
                end
    end.
  Lemma runs_group g gs : g <> [] -> (forall x y, In x g -> In y g -> key x = key y) -> Forall (fun g => g <> []) gs ->
    (forall h gs' x y, gs = h :: gs' -> In x g -> In y h -> key x <> key y) -> runs (concat gs) = gs -> runs (g ++ concat gs) = g :: gs.
  Proof.
    induction g as [|x g IH]; [congruence|]. intros _ K NE S R. destruct g as [|y g].
    - cbn [app runs]. rewrite R. destruct gs as [|[|z h] gs]; auto; [inversion NE; congruence|].
      assert (Q : str_eqb (key x) (key z) = false) by (apply str_eqb_neq; apply (S (z :: h) gs x z); cbn; auto). now rewrite Q.
    - change ((x :: y :: g) ++ concat gs) with (x :: ((y :: g) ++ concat gs)). cbn [runs]. rewrite IH; auto; try discriminate.
      + assert (Q : str_eqb (key x) (key y) = true) by (apply str_eqb_eq; apply K; cbn; auto). now rewrite Q.
      + intros a b Ha Hb. apply K; now right.
      + intros h gs' a b E Ha Hb. apply (S h gs' a b E); auto. now right.
  Qed.
  Lemma runs_grouped gs : grouped gs -> runs (concat gs) = gs.
  Proof.
    intros [H S]. induction H as [|g gs [NE K] H IH]; auto. cbn [concat]. apply runs_group; auto.
    - eapply Forall_impl; [|exact H]. now intros ? [? _].
    - intros h gs' x y ->. apply (S [] g h gs'). reflexivity.
    - apply IH. intros l1 a b l2 x y ->. apply (S (g :: l1) a b l2). reflexivity.
  Qed.
  Lemma grouped_unique gs hs : grouped gs -> grouped hs -> concat gs = concat hs -> gs = hs.
  Proof. intros H1 H2 E. rewrite <- (runs_grouped gs H1), <- (runs_grouped hs H2). now rewrite E. Qed.
End runs.

Section document.
  Variables (lower : str -> str) (canon : str -> option str) (d : doc).
  Lemma regroup {A} (P : sentv -> item A -> Prop) (D : docv) : forall its, Forall2 P (sentences D) its ->
    exists gs, group_items gs = its /\
      Forall2 (fun b g => fst b = fst g /\ Forall2 (fun zv zi => fst zv = fst zi /\ P (snd zv) (snd zi)) (snd b) (snd g)) D gs.
  Proof.
    induction D as [|[i l] D IH]; intros its H; unfold sentences in *; cbn [map concat snd] in H.
    - inversion H; subst. exists []. split; auto.
    - apply Forall2_app_inv_l in H as (its1 & its2 & H1 & H2 & ->). destruct (IH its2 H2) as (gs & E & F).
      assert (G : exists l', map snd l' = its1 /\ Forall2 (fun zv zi => fst zv = fst zi /\ P (snd zv) (snd zi)) l l').
      { clear - H1. revert its1 H1. induction l as [|[z v] l IH]; intros its1 H; inversion H; subst; [exists []; split; auto|].
        destruct (IH _ H4) as (k & <- & F). exists ((z, y) :: k). split; [reflexivity|]. constructor; auto. }
      destruct G as (l' & <- & F'). exists ((i, l') :: gs). split; [unfold group_items in *; cbn [map concat snd]; now rewrite E|]. constructor; auto.
  Qed.
  Lemma sid_has_id (it : item (list str)) i z v : i <> [] -> ~ In 47%N i -> names i z v -> it_sid it = Some (sv_sent_id v) -> has_id it i z.
  Proof. intros N1 N2 [[E ->]|E] H; split; auto; split; auto; rewrite H, E; [left; auto|right; reflexivity]. Qed.

  Lemma id_of_has (it : item (list str)) i z : has_id it i z -> id_of it = i.
  Proof.
    intros (_ & NS & [[E _]|E]); unfold id_of; rewrite E.
    - now rewrite (proj2 (split1_None 47%N i) NS).
    - now rewrite split1_app.
  Qed.
  Lemma z_of_has (it : item (list str)) i z : has_id it i z -> z_of it = z.
  Proof.
    intros (_ & NS & [[E ->]|E]); unfold z_of; rewrite E.
    - now rewrite (proj2 (split1_None 47%N i) NS).
    - now rewrite split1_app.
  Qed.

  Theorem document_round D ts : ok_document D -> Forall2 (saved lower canon d) ts (sentences D) ->
    exists text, write_file wdefault lower d ts = Ok text /\
      forall cfg slow o fl, o_zone o = None -> o_bpd o = 0 -> o_filter o = None -> o_split o = false -> o_ignore o = false -> o_merge o = false -> o_max o = 0 ->
      exists r dd, read_documents (S fl) o no_after (new_reader [text_file_of cfg canon lower slow text]) [] = (r, Ok [dd]) /\
        Forall2 (same_bundle cfg canon lower r) (d_bundles (rd_store r) dd) D.
  Proof.
    intros [OD SEP] H. destruct (items_of_file lower canon d ts _ H) as (text & W & F). exists text. split; auto.
    intros cfg slow o fl O1 O4 O5 O6 O2 O7 O3. destruct (F cfg slow) as (its & E & FI). destruct (regroup _ D its FI) as (gs & <- & FG).
    assert (OG : Forall ok_group gs).
    { clear - OD FG. induction FG as [|[i l] [i' l'] D gs [E FL] _ IH]; constructor; inversion OD as [|? ? (A1 & A2 & A3 & A4 & A5) ?]; subst; auto.
      cbn [fst snd] in *. subst i'. split; auto. split; auto. split; [intros Q; cbn [snd] in Q; subst l'; inversion FL; subst; auto|]. cbn [fst snd].
      assert (M : map fst l' = map fst l).
      { clear - FL. induction FL as [|zv zi l l' [Q _] _ IH]; auto. cbn [map]. rewrite IH. now rewrite Q. }
      rewrite M. split; auto. clear - FL A1 A2 A5. induction FL as [|zv zi l l' [Q [Q1 Q2]] _ IH]; constructor; inversion A5 as [|? ? [L N] ?]; subst; auto.
      rewrite <- Q. split; auto. now apply (sid_has_id (snd zi) i (fst zv) (snd zv)). }
    assert (SG : forall g1 a b g2, gs = g1 ++ a :: b :: g2 -> fst a <> fst b).
    { intros g1 a b g2 ->. apply Forall2_app_inv_r in FG as (D1 & D2 & F1 & F2 & ->). inversion F2 as [|a' ? D3 ? [Qa _] F3]; subst. inversion F3 as [|b' ? D4 ? [Qb _] F4]; subst.
      rewrite <- Qa, <- Qb. apply (SEP D1 a' b' D4). reflexivity. }
    destruct (one_document o O1 O2 O3 gs (map Some (group_items gs)) fl OG SG O4 O5 O6) as (r & R).
    destruct (slow_unused o gs (map Some (group_items gs)) slow fl OG SG O1 O2 O3 O4 O5 O6 r R) as (r' & R' & S' & C').
    exists r', 0. rewrite E. split; [exact R'|]. unfold same_bundle. rewrite S', C'.
    assert (IDT : Forall (Forall (identified (A := list str))) [group_items gs]).
    { constructor; auto. clear - OG. unfold group_items. apply Forall_forall. intros it I. apply in_concat in I as (l & I & J). apply in_map_iff in I as (g & <- & I).
      rewrite Forall_forall in OG. destruct (OG g I) as (_ & _ & _ & _ & A5). apply in_map_iff in J as (zi & <- & J). rewrite Forall_forall in A5.
      exists (fst g), (fst zi). now apply A5. }
    destruct (bundles_read o true [group_items gs] (S fl) _ r [0] no_after mild_no (or_introl eq_refl) R O2 IDT) as (gss & left & FB & CC & LL).
    specialize (LL O3). subst left. rewrite app_nil_r in CC. inversion FB as [|? ks ? ? [FB1 FB2] FB3]; subst. inversion FB3; subst. specialize (FB2 O4 O6 O7).
    unfold input in CC. cbn [map concat] in CC. rewrite !app_nil_r in CC. assert (WA : wanted o (group_items gs) = group_items gs).
    { unfold wanted. apply filter_all. intros it _. unfold accepted. now rewrite O5. }
    rewrite WA in CC.
    assert (U : ks = map (fun g => map snd (snd g)) gs).
    { apply (grouped_unique id_of); [| |exact CC].
      - split.
        + clear - FB1. induction FB1 as [|b k bs ks [NE FF] _ IH]; constructor; auto. split; auto.
          assert (AL : forall x, In x k -> Some (id_of x) = b_id (rd_store r) b).
          { clear - FF. induction FF as [|t it ts k (_ & i & z & HI & BI & _) _ IH]; intros x []; auto. subst x. rewrite BI. f_equal. now apply (id_of_has it i z). }
          intros x y Hx Hy. apply AL in Hx, Hy. congruence.
        + intros l1 g h l2 x y EK Hx Hy Q. apply (FB2 l1 g h l2 x y EK Hx Hy).
          assert (IH : forall x, In x (group_items gs) -> exists z, has_id x (id_of x) z).
          { intros it I. inversion IDT as [|? ? J _]; subst. rewrite Forall_forall in J. destruct (J it I) as (i & z & HI). exists z. now rewrite (id_of_has it i z HI). }
          assert (KI : forall k x, In k ks -> In x k -> In x (group_items gs)) by (intros k it I1 I2; rewrite <- CC; apply in_concat; eauto).
          destruct (IH x) as (z & HZ); [apply (KI g); auto; rewrite EK; apply in_app_iff; right; now left|].
          destruct (IH y) as (w & HW); [apply (KI h); auto; rewrite EK; apply in_app_iff; right; right; now left|].
          exists (id_of x), z, w. split; auto. now rewrite Q.
      - assert (GK : forall g x, In g gs -> In x (map snd (snd g)) -> id_of x = fst g).
        { intros g x I J. rewrite Forall_forall in OG. destruct (OG g I) as (_ & _ & _ & _ & A5). apply in_map_iff in J as (zi & <- & J). rewrite Forall_forall in A5.
          apply (id_of_has (snd zi) (fst g) (fst zi)). now apply A5. }
        split.
        + apply Forall_forall. intros k I. apply in_map_iff in I as (g & <- & I). split.
          * rewrite Forall_forall in OG. destruct (OG g I) as (_ & _ & A3 & _). destruct (snd g); [congruence|discriminate].
          * intros x y Hx Hy. rewrite (GK g x I Hx), (GK g y I Hy). reflexivity.
        + intros l1 g h l2 x y EK Hx Hy. apply map_eq_app in EK as (g1 & g2 & -> & <- & EK). destruct g2 as [|a [|b g2]]; try discriminate. cbn [map] in EK. injection EK as <- <- <-.
          rewrite (GK a x); auto; [|apply in_app_iff; right; now left]. rewrite (GK b y); auto; [|apply in_app_iff; right; right; now left]. apply (SG g1 a b g2). reflexivity. }
    subst ks. clear - FB1 FG O1 OG. revert FB1. generalize (d_bundles (rd_store r) 0) as bs. induction FG as [|[i l] [i' l'] D gs [EI FL] _ IH]; intros bs FB; cbn [map] in FB.
    - inversion FB. constructor.
    - inversion FB as [|b ? bs' ? [NE FF] FB']; subst. inversion OG as [|? ? OG1 OG2]; subst. constructor; [|apply IH; auto]. cbn [fst snd] in *. subst i'.
      destruct OG1 as (_ & _ & A3 & _ & A5). cbn [fst snd] in A3, A5.
      assert (FZ : Forall2 (fun t zi => b_id (rd_store r) b = Some i /\ t_zone (rd_store r) t = Some (fst zi) /\ t_sid (rd_store r) t = Some (full_id i (fst zi)) /\
                             rd_content r t = Some (it_content (snd zi))) (b_trees (rd_store r) b) l').
      { clear - FF A5 O1. revert FF. generalize (b_trees (rd_store r) b) as ts. induction A5 as [|zi l' [_ HI] _ IH]; intros ts FF; inversion FF as [|t ? ts' ? (CO & i0 & z0 & HI' & BI & TZ & TS) FF']; subst; constructor; auto.
        pose proof (id_of_has _ _ _ HI) as Q1. rewrite (id_of_has _ _ _ HI') in Q1. pose proof (z_of_has _ _ _ HI) as Q2. rewrite (z_of_has _ _ _ HI') in Q2. subst i0 z0.
        unfold zone_for in TZ, TS. rewrite O1 in TZ, TS. auto. }
      split.
      + destruct FZ as [|t zi ts l' [Q _] _]; [congruence|exact Q].
      + clear - FZ FL. cbn [fst snd]. revert FZ. generalize (b_trees (rd_store r) b) as ts. induction FL as [|zv zi l l' [Q [Q1 Q2]] _ IH]; intros ts FZ; inversion FZ as [|t ? ts' ? (BI & TZ & TS & CO) FZ']; subst; constructor; auto.
        rewrite Q. split; auto. split; auto. exists (it_content (snd zi)). split; auto.
  Qed.
End document.
