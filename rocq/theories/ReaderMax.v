(** Proofs about max_docs (C69): reading at most max documents is reading the shortened files. *)
From Coq Require Import String List NArith ZArith Bool Lia.
From Verif Require Import PyStr PyStrFacts PyList PyListFacts PyExn TreeModel BundleModel BundleSpec BundleProofs
  ReaderModel ReaderSpec ReaderProofs ReaderTerm ReaderThms ReaderFiles ReaderTextSpec ReaderFilesProofs.
Import ListNotations.

Section M.
Context {A : Type}.
Implicit Types (r : reader A) (it : item A).
Variable o : opts.
Hypothesis Hb : o_bpd o = 0.
Hypothesis Hf : o_filter o = None.
Hypothesis Hs : o_split o = false.
Hypothesis Hm : o_max o <> 0.
Definition zero : opts := mkOpts (o_zone o) (o_bpd o) (o_filter o) (o_split o) (o_ignore o) (o_merge o) 0 (o_multi o).
Notation M := (o_max o).
Notation nd it := (truthy (it_newdoc it)).

(** The trees read from l when n documents have been read before, and the tree that stops the reader *)
Fixpoint cut (n : nat) (l : list (item A)) : list (item A) * option (item A) :=
  match l with
  | [] => ([], None)
  | it :: l => if nd it && (M <=? n) then ([], Some it)
               else let (p, s) := cut (if nd it then S n else n) l in (it :: p, s)
  end.
Fixpoint cut_files (n : nat) (bs : list (list (item A))) : list (list (item A)) :=
  match bs with
  | [] => []
  | b :: bs => let (p, s) := cut n b in match s with Some _ => [p] | None => p :: cut_files (n + docs_in p) bs end
  end.

(** The same reader with other files *)
Definition frame r (F : list (file A)) (h : option (file A)) : reader A :=
  mkReader (rd_store r) (rd_newdoc r) (rd_content r) F (rd_number r) (rd_given r) h (rd_buffer r) (rd_finished r) (rd_docs r).

Lemma docs_cons it l : docs_in (it :: l) = (if nd it then 1 else 0) + docs_in l.
Proof. unfold docs_in. cbn. destruct (nd it); auto. Qed.

Lemma fast_cut F h l : forall r d bu la,
  exists q, fast_trees zero (frame r F h) d bu la (map Some (fst (cut (rd_docs r) l))) = (frame q F h, snd (fast_trees zero (frame r F h) d bu la (map Some (fst (cut (rd_docs r) l))))) /\
    keeps r q /\ rd_finished q = rd_finished r /\
    match snd (fast_trees zero (frame r F h) d bu la (map Some (fst (cut (rd_docs r) l)))) with
    | Ok x => x = FastAll /\ rd_docs q = rd_docs r + docs_in (fst (cut (rd_docs r) l)) /\
        fast_trees o r d bu la (map Some l) =
          match snd (cut (rd_docs r) l) with
          | None => (q, Ok FastAll)
          | Some it => (with_finished (fst (alloc q it)) true, Ok FastFinished)
          end
    | Raise e => exists q', fast_trees o r d bu la (map Some l) = (q', Raise e)
    | Diverge => exists q', fast_trees o r d bu la (map Some l) = (q', Diverge)
    end.
Proof.
  induction l as [|it l IH]; intros r d bu la.
  - cbn [cut fst snd map fast_trees]. exists r. split; auto. split; [repeat split|]. split; [auto|]. split; [auto|]. split; [cbn; lia|auto].
  - cbn [cut map]. cbn [fast_trees].
    destruct (alloc r it) as [r1 t] eqn:EA.
    assert (EN : rd_newdoc r1 t = it_newdoc it) by (unfold alloc in EA; cbn in EA; injection EA as <- <-; cbn; apply upd_same).
    assert (ED : rd_docs r1 = rd_docs r) by (unfold alloc in EA; cbn in EA; injection EA as <- <-; reflexivity).
    assert (EO : over_max o r1 = (M <=? rd_docs r)) by (unfold over_max; rewrite ED; destruct (Nat.eqb_spec M 0); [congruence|reflexivity]).
    assert (K1 : keeps r r1) by (unfold alloc in EA; cbn in EA; injection EA as <- <-; repeat split).
    assert (X1 : rd_finished r1 = rd_finished r) by (unfold alloc in EA; cbn in EA; injection EA as <- <-; reflexivity).
    rewrite EN, EO. destruct (nd it && (M <=? rd_docs r)) eqn:EC.
    { cbn [fst snd map fast_trees]. exists r. split; auto. split; [repeat split|]. split; auto. split; auto. split; [cbn; lia|]. rewrite EA. reflexivity. }
    set (r2 := if nd it then with_docs r1 (S (rd_docs r1)) else r1).
    assert (D2 : rd_docs r2 = if nd it then S (rd_docs r) else rd_docs r) by (unfold r2; destruct (nd it); cbn; congruence).
    assert (K2 : keeps r1 r2) by (unfold r2; destruct (nd it); repeat split).
    assert (X2 : rd_finished r2 = rd_finished r) by (unfold r2; destruct (nd it); auto).
    rewrite <- D2. destruct (cut (rd_docs r2) l) as [p s] eqn:EK. cbn [fst snd map fast_trees].
    assert (EA0 : alloc (frame r F h) it = (frame r1 F h, t)) by (unfold alloc in *; cbn in *; injection EA as <- <-; reflexivity).
    rewrite EA0. change (rd_newdoc (frame r1 F h) t) with (rd_newdoc r1 t). rewrite EN. unfold over_max at 1. cbn [o_max zero Nat.eqb negb andb]. rewrite !andb_false_r.
    assert (F2 : (if nd it then with_docs (frame r1 F h) (S (rd_docs (frame r1 F h))) else frame r1 F h) = frame r2 F h) by (unfold r2; destruct (nd it); reflexivity).
    rewrite F2. clear F2.
    assert (P0 : prepare zero (frame r2 F h) t la = (frame (fst (prepare o r2 t la)) F h, snd (prepare o r2 t la))).
    { unfold prepare. change (rd_store (frame r2 F h)) with (rd_store r2). change (o_ignore zero) with (o_ignore o). change (o_zone zero) with (o_zone o).
      match goal with |- context [let '(s, la) := ?e in _] => destruct e as [s1 la1] end. reflexivity. }
    rewrite P0. pose proof (prepare_keeps o r2 t la) as K3. pose proof (eq_refl (rd_docs (fst (prepare o r2 t la)))) as D3.
    assert (D3' : rd_docs (fst (prepare o r2 t la)) = rd_docs r2) by (unfold prepare; match goal with |- context [let '(s, la) := ?e in _] => destruct e as [s1 la1] end; reflexivity).
    assert (X3 : rd_finished (fst (prepare o r2 t la)) = rd_finished r2) by (unfold prepare; match goal with |- context [let '(s, la) := ?e in _] => destruct e as [s1 la1] end; reflexivity).
    clear D3. destruct (prepare o r2 t la) as [r3 [la' add]]. cbn [fst snd] in K3, D3', X3 |- *.
    assert (STEP : forall r4 b, keeps r3 r4 -> rd_docs r4 = rd_docs r3 -> rd_finished r4 = rd_finished r3 -> forall x x0,
      x0 = bind (add_to (frame r4 F h) b t) (fun r _ => fast_trees zero r d (Some b) la' (map Some p)) ->
      x = bind (add_to r4 b t) (fun r _ => fast_trees o r d (Some b) la' (map Some l)) ->
      exists q, x0 = (frame q F h, snd x0) /\ keeps r q /\ rd_finished q = rd_finished r /\
      match snd x0 with
      | Ok y => y = FastAll /\ rd_docs q = rd_docs r + docs_in (it :: p) /\
         x = match s with None => (q, Ok FastAll) | Some it => (with_finished (fst (alloc q it)) true, Ok FastFinished) end
      | Raise e => exists q', x = (q', Raise e)
      | Diverge => exists q', x = (q', Diverge)
      end).
    { intros r4 b K4 D4 X4 x x0 -> ->.
      assert (AD : add_to (frame r4 F h) b t = (frame (fst (add_to r4 b t)) F h, snd (add_to r4 b t))).
      { unfold add_to. change (rd_store (frame r4 F h)) with (rd_store r4). destruct (add_tree (rd_store r4) b t). reflexivity. }
      rewrite AD. destruct (add_to r4 b t) as [r5 y] eqn:E5. cbn [fst snd].
      assert (D5 : rd_docs r5 = rd_docs r4) by (unfold add_to in E5; destruct (add_tree (rd_store r4) b t); injection E5 as <- <-; reflexivity).
      assert (X5 : rd_finished r5 = rd_finished r4) by (unfold add_to in E5; destruct (add_tree (rd_store r4) b t); injection E5 as <- <-; reflexivity).
      apply add_keeps in E5 as [K5 _].
      pose proof (keeps_trans _ _ _ (keeps_trans _ _ _ (keeps_trans _ _ _ (keeps_trans _ _ _ K1 K2) K3) K4) K5) as K.
      destruct y as [u|e|]; cbn [bind snd]; [|exists r5; split; auto; split; auto; split; [congruence|eexists; reflexivity]|exists r5; split; auto; split; auto; split; [congruence|eexists; reflexivity]].
      assert (D6 : rd_docs r5 = rd_docs r2) by congruence. specialize (IH r5 d (Some b) la'). rewrite D6, EK in IH. cbn [fst snd] in IH.
      destruct IH as [q [I1 [I2 [X6 I3]]]]. exists q. split; [exact I1|]. split; [eapply keeps_trans; eauto|]. split; [congruence|].
      destruct (snd (fast_trees zero (frame r5 F h) d (Some b) la' (map Some p))); auto. destruct I3 as [I3 [I4 I5]]. split; auto. split; auto.
      rewrite I4, D2, docs_cons. destruct (nd it); lia. }
    assert (FR : fresh_bundle (frame r3 F h) d la' = (frame (fst (fresh_bundle r3 d la')) F h, snd (fresh_bundle r3 d la'))).
    { unfold fresh_bundle. change (rd_store (frame r3 F h)) with (rd_store r3). destruct (create_bundle (rd_store r3) d). reflexivity. }
    rewrite FR. pose proof (fresh_keeps r3 d la') as KF.
    assert (DF : rd_docs (fst (fresh_bundle r3 d la')) = rd_docs r3) by (unfold fresh_bundle; destruct (create_bundle (rd_store r3) d); reflexivity).
    assert (XF : rd_finished (fst (fresh_bundle r3 d la')) = rd_finished r3) by (unfold fresh_bundle; destruct (create_bundle (rd_store r3) d); reflexivity).
    destruct (fresh_bundle r3 d la') as [r4 b4]. cbn [fst snd] in KF, DF, XF |- *.
    destruct bu as [b|]; [destruct add|].
    + apply (STEP r3 b); auto. repeat split.
    + apply (STEP r4 b4); auto.
    + apply (STEP r4 b4); auto.
Qed.

(** ---- the loop over files ---- *)
Variables (F : list (file A)) (bs : list (list (item A))).
Hypothesis HF : Forall2 (fun f b => f_batch f = Some (Ok (map Some b))) F bs.
Notation F0 := (map (file_of true) (cut_files 0 bs)).
Record ready r q (rest : list (list (item A))) : Prop := {
  y_files : rd_files r = F;
  y_given : rd_given r = false;
  y_fin : rd_finished r = false;
  y_rest : exists k f b, rd_number r = S k /\ nth_error F k = Some f /\ f_batch f = Some (Ok (map Some b)) /\ rd_handle r = Some f /\
    skipn k bs = b :: rest /\ skipn k F0 = map (file_of true) (cut_files (rd_docs r) (b :: rest)) /\
    q = frame r F0 (Some (file_of true (fst (cut (rd_docs r) b)))) }.
Record done r q : Prop := {
  n_fin : rd_finished r = true;
  n_fin0 : rd_finished q = true;
  n_db : d_bundles (rd_store r) = d_bundles (rd_store q);
  n_bt : b_trees (rd_store r) = b_trees (rd_store q);
  n_c : forall t, t < nt (rd_store q) -> rd_content r t = rd_content q t }.

Lemma skipn_step {B} (l : list B) k a l' : skipn k l = a :: l' -> nth_error l k = Some a /\ skipn (S k) l = l'.
Proof.
  revert l. induction k as [|k IH]; intros [|x l] E; cbn in E; try discriminate.
  - injection E as -> ->. auto.
  - apply IH in E as [E1 E2]. auto.
Qed.
Lemma skipn_end {B} (l : list B) k : skipn k l = [] -> nth_error l k = None.
Proof. revert l. induction k as [|k IH]; intros [|x l] E; cbn in *; auto; discriminate. Qed.
Lemma batch_at k b rest : skipn k bs = b :: rest -> exists f, nth_error F k = Some f /\ f_batch f = Some (Ok (map Some b)).
Proof.
  clear - HF. revert k. induction HF as [|f b0 F' bs' H H' IH]; intros [|k] E; cbn in E; try discriminate.
  - injection E as -> ->. exists f. auto.
  - apply (IH H') in E. exact E.
Qed.
Lemma batch_end k : skipn k bs = [] -> nth_error F k = None.
Proof.
  clear - HF. revert k. induction HF as [|f b0 F' bs' H H' IH]; intros [|k] E; cbn in *; auto; try discriminate.
Qed.
Lemma cut_files_cons n b rest : exists tl, cut_files n (b :: rest) = fst (cut n b) :: tl /\
  tl = match snd (cut n b) with Some _ => [] | None => cut_files (n + docs_in (fst (cut n b))) rest end.
Proof. cbn [cut_files]. destruct (cut n b) as [p [s|]]; cbn; eauto. Qed.

Lemma sim_files fl : forall fl0 r q rest d r' x, ready r q rest -> length F0 - rd_number r < fl0 ->
  fast_files fl o r d = (r', Ok x) -> x = true /\
  exists q', fast_files fl0 zero q d = (q', Ok true) /\ (done r' q' \/ exists rest', ready r' q' rest').
Proof.
  induction fl as [|fl IH]; intros fl0 r q rest d r' x HR HL; cbn [fast_files]; [discriminate|].
  destruct fl0 as [|fl0]; [lia|]. destruct HR as [Y1 Y2 Y3 [k [f [b [Z1 [Z2 [Z3 [Z4 [Z5 [Z6 Z7]]]]]]]]]].
  rewrite Z4, Z3. rewrite first_newdoc_ok. cbn [fast_files]. rewrite Z7. cbn [frame rd_handle file_of f_batch].
  rewrite first_newdoc_ok. set (h := Some (mkFile [] (Some (Ok [])))).
  set (r1 := with_handle r (rd_number r) h).
  change (with_handle (frame r F0 (Some (file_of true (fst (cut (rd_docs r) b))))) (rd_number (frame r F0 (Some (file_of true (fst (cut (rd_docs r) b)))))) h)
    with (frame r1 F0 h).
  assert (D1 : rd_docs r1 = rd_docs r) by reflexivity.
  destruct (fast_cut F0 h b r1 d None []) as [q1 [C1 [C2 [XQ C3]]]]. rewrite <- D1 in *. rewrite C1.
  destruct (snd (fast_trees zero (frame r1 F0 h) d None [] (map Some (fst (cut (rd_docs r1) b))))) as [y|e|] eqn:EY;
    [|destruct C3 as [q' C3]; rewrite C3; cbn [bind]; intros E; discriminate|destruct C3 as [q' C3]; rewrite C3; cbn [bind]; intros E; discriminate].
  destruct C3 as [-> [C4 C5]]. rewrite C5. cbn [bind].
  destruct (cut_files_cons (rd_docs r1) b rest) as [tl [T1 T2]]. rewrite T1 in Z6. cbn [map] in Z6. apply skipn_step in Z6 as [_ Z6].
  apply skipn_step in Z5 as [_ Z5]. destruct C2 as [K1 [K2 [K3 K4]]].
  assert (N1 : rd_number q1 = S k) by (cbn in *; congruence).
  assert (G1 : rd_given q1 = false) by (cbn in *; congruence).
  assert (NH : forall G h', next_handle (frame q1 G h') = frame (with_handle q1 (S (S k)) None) G (nth_error G (S k))).
  { intros G h'. unfold next_handle. cbn [frame rd_given rd_number rd_files]. rewrite G1, N1. cbn [andb]. reflexivity. }
  assert (NR : next_handle q1 = with_handle q1 (S (S k)) (nth_error F (S k))).
  { unfold next_handle. rewrite G1, N1. cbn [andb]. repeat f_equal. cbn in *. congruence. }
  rewrite NH. destruct (snd (cut (rd_docs r1) b)) as [it|] eqn:ES.
  - subst tl. intros E. injection E as <- <-. split; auto. apply skipn_end in Z6. rewrite Z6. cbn [frame rd_handle bind].
    eexists. split; [reflexivity|]. left. constructor; auto; cbn. intros t Ht. apply upd_other. lia.
  - subst tl. cbn [bind]. rewrite NR. cbn [with_handle rd_handle]. rewrite <- C4 in Z6. destruct rest as [|b2 rest].
    + cbn [cut_files map] in Z6. apply skipn_end in Z6. rewrite (batch_end _ Z5), Z6. cbn [frame rd_handle bind].
      intros E. injection E as <- <-. split; auto. eexists. split; [reflexivity|]. left. constructor; auto.
    + destruct (batch_at _ _ _ Z5) as [f2 [B1 B2]]. rewrite B1.
      destruct (cut_files_cons (rd_docs q1) b2 rest) as [tl2 [T3 T4]].
      assert (Z6' := Z6). rewrite T3 in Z6'. cbn [map] in Z6'. apply skipn_step in Z6' as [Z8 _]. rewrite Z8. cbn [frame rd_handle bind].
      assert (RD : ready (with_handle q1 (S (S k)) (Some f2)) (frame (with_handle q1 (S (S k)) None) F0 (Some (file_of true (fst (cut (rd_docs q1) b2))))) rest).
      { constructor; try (cbn in *; congruence). exists (S k), f2, b2. repeat split; auto. }
      change (o_merge zero) with (o_merge o). destruct (o_merge o).
      * intros E. eapply IH; [exact RD| |exact E]. assert (LT : S k < length F0) by (apply nth_error_Some; congruence). rewrite Z1 in HL. cbn [with_handle rd_number]. lia.
      * intros E. injection E as <- <-. split; auto. eexists. split; [reflexivity|]. right. eexists. exact RD.
Qed.

Definition start r q : Prop := rd_files r = F /\ rd_given r = false /\ rd_finished r = false /\ rd_number r = 0 /\ rd_handle r = None /\ rd_docs r = 0 /\ q = frame r F0 None.
Lemma sim_process r q d r' : start r q \/ (exists rest, ready r q rest) -> d_bundles (rd_store r) d = [] ->
  process_document o r d = (r', Ok tt) ->
  exists q', process_document zero q d = (q', Ok tt) /\ (done r' q' \/ exists rest', ready r' q' rest').
Proof.
  intros HR DB.
  assert (SQ : rd_store q = rd_store r) by (destruct HR as [[_ [_ [_ [_ [_ [_ ->]]]]]]|[rest [_ _ _ [k [f [b [_ [_ [_ [_ [_ [_ ->]]]]]]]]]]]]; reflexivity).
  unfold process_document, try_fast_load. change (o_bpd zero) with (o_bpd o). change (o_filter zero) with (o_filter o). change (o_split zero) with (o_split o).
  rewrite SQ, DB, Hb, Hf, Hs. cbn [negb orb Nat.eqb].
  set (p1 := match rd_handle r with None => next_handle r | Some _ => r end).
  set (p0 := match rd_handle q with None => next_handle q | Some _ => q end).
  assert (HP : (rd_handle p1 = None /\ rd_handle p0 = None /\ done (with_finished p1 true) (with_finished p0 true)) \/ exists rest, ready p1 p0 rest).
  { destruct HR as [[Y1 [Y2 [Y3 [Y4 [Y5 [Y6 ->]]]]]]|[rest HR]].
    - assert (E1 : p1 = with_handle r 1 (nth_error F 0)) by (unfold p1; rewrite Y5; unfold next_handle; rewrite Y2, Y4, Y1; reflexivity).
      assert (E0 : p0 = frame (with_handle r 1 None) F0 (nth_error F0 0)) by (unfold p0; cbn [frame rd_handle]; unfold next_handle; cbn [frame rd_given rd_number]; rewrite Y2, Y4; reflexivity).
      rewrite E1, E0. clear p1 p0 E1 E0. destruct (skipn 0 bs) as [|b rest] eqn:EB.
      + left. rewrite (batch_end 0 EB). change (bs = []) in EB. rewrite EB. cbn. split; auto. split; auto. constructor; auto.
      + right. destruct (batch_at 0 b rest EB) as [f [B1 B2]]. exists rest. constructor; auto. exists 0, f, b.
        destruct (cut_files_cons 0 b rest) as [tl [T1 T2]].
        split; auto. split; auto. split; auto. split; [cbn [with_handle rd_handle]; auto|]. split; auto. cbn [with_handle rd_docs]. rewrite Y6.
        change (bs = b :: rest) in EB. split; [now rewrite EB|]. unfold frame. rewrite EB, T1. reflexivity.
    - right. exists rest. pose proof HR as [_ _ _ [k [f [b [_ [_ [_ [Z4 [_ [_ Z7]]]]]]]]]].
      assert (E1 : p1 = r) by (unfold p1; rewrite Z4; reflexivity). assert (E0 : p0 = q) by (unfold p0; rewrite Z7; reflexivity).
      rewrite E1, E0. exact HR. }
  clearbody p1 p0. clear HR SQ DB. destruct HP as [[P1 [P2 P3]]|[rest HR]].
  - rewrite P1, P2. cbn [bind]. intros E. injection E as <-. eexists. split; [reflexivity|]. now left.
  - pose proof HR as [Y1 _ _ [k [f [b [_ [_ [_ [Z4 [_ [_ Z7]]]]]]]]]]. rewrite Z4. assert (H0 : rd_handle p0 <> None) by (rewrite Z7; discriminate).
    assert (FL : rd_files p0 = F0) by (rewrite Z7; reflexivity). clear Z7. destruct (rd_handle p0); [|congruence].
    destruct (fast_files (S (S (length (rd_files p1)))) o p1 d) as [r1 [x|e|]] eqn:EF; cbn [bind]; try discriminate.
    destruct (sim_files _ (S (S (length (rd_files p0)))) _ _ _ _ _ _ HR ltac:(rewrite FL; lia) EF) as [-> [q' [Q1 Q2]]]. rewrite Q1. cbn [bind].
    intros E. injection E as <-. exists q'. auto.
Qed.

Lemma sim_read fl : forall r q docs r' docs', start r q \/ (exists rest, ready r q rest) ->
  read_documents fl o no_after r docs = (r', Ok docs') ->
  exists q', read_documents fl zero no_after q docs = (q', Ok docs') /\ done r' q'.
Proof.
  induction fl as [|fl IH]; intros r q docs r' docs' HR; cbn [read_documents].
  - assert (FI : rd_finished r = false) by (destruct HR as [[_ [_ [? _]]]|[? [_ _ ? _]]]; auto). rewrite FI. discriminate.
  - assert (FI : rd_finished r = false /\ rd_finished q = false /\ rd_store q = rd_store r).
    { destruct HR as [[_ [_ [? [_ [_ [_ ->]]]]]]|[? [_ _ ? [k [f [b [_ [_ [_ [_ [_ [_ ->]]]]]]]]]]]]; auto. }
    destruct FI as [FI [FI0 SQ]]. rewrite FI, FI0, SQ. destruct (new_document (rd_store r)) as [s1 d] eqn:ED.
    assert (DB : d_bundles (rd_store (with_store r s1)) d = []) by (unfold new_document in ED; injection ED as <- <-; cbn; now rewrite upd_same).
    assert (HR' : start (with_store r s1) (with_store q s1) \/ (exists rest, ready (with_store r s1) (with_store q s1) rest)).
    { destruct HR as [[Y1 [Y2 [Y3 [Y4 [Y5 [Y6 ->]]]]]]|[rest [Y1 Y2 Y3 [k [f [b [Z1 [Z2 [Z3 [Z4 [Z5 [Z6 ->]]]]]]]]]]]].
      - left. repeat split; auto.
      - right. exists rest. constructor; auto. exists k, f, b. repeat split; auto. }
    destruct (process_document o (with_store r s1) d) as [r1 [[]|e|]] eqn:EP; cbn [bind]; try discriminate.
    destruct (sim_process _ _ _ _ HR' DB EP) as [q1 [Q1 Q2]]. rewrite Q1. cbn [bind]. unfold no_after at 1 3. cbn [bind].
    destruct Q2 as [Q2|Q2]; [|apply IH; auto].
    destruct fl; cbn [read_documents]; rewrite (n_fin _ _ Q2), (n_fin0 _ _ Q2); intros E; injection E as <- <-; eexists; split; eauto.
Qed.

Theorem max_contents fl r docs : read_documents fl o no_after (new_reader F) [] = (r, Ok docs) ->
  contents r (all_trees (rd_store r) docs) = items (concat (cut_files 0 bs)).
Proof.
  intros H. destruct (sim_read fl (new_reader F) (new_reader F0) [] r docs) as [q [Q1 [N1 N2 N3 N4 N5]]]; auto.
  { left. repeat split. }
  pose proof (placed_once zero true (cut_files 0 bs) fl _ q docs no_after (@mild_no A) (or_introl eq_refl) Q1) as [_ [_ [_ [left [L1 L2]]]]].
  pose proof (trees_below zero true (cut_files 0 bs) fl _ q docs no_after (@mild_no A) (or_introl eq_refl) Q1) as TB.
  specialize (L2 eq_refl). subst left. cbn [items map] in L1. rewrite app_nil_r in L1.
  assert (EA : all_trees (rd_store r) docs = all_trees (rd_store q) docs) by (unfold all_trees, trees_of; now rewrite N3, N4).
  rewrite EA. assert (EI : input zero (cut_files 0 bs) = concat (cut_files 0 bs)).
  { unfold input. f_equal. rewrite <- (map_id (cut_files 0 bs)) at 2. apply map_ext. intros l. apply wanted_all. exact Hf. }
  rewrite EI in L1. rewrite <- L1. unfold contents. apply map_ext_in. intros t Ht. apply N5. rewrite Forall_forall in TB. auto.
Qed.
End M.

(** ---- the trees that are left are the first documents ---- *)
Section T.
Context {A : Type}.
Variable o : opts.
Hypothesis Hm : o_max o <> 0.
Notation M := (o_max o).
Notation nd it := (truthy (it_newdoc it)).
Notation cut := (@cut A o).
Lemma cut_app n l k : fst (cut n (l ++ k)) = match snd (cut n l) with Some _ => fst (cut n l) | None => fst (cut n l) ++ fst (cut (n + docs_in (fst (cut n l))) k) end.
Proof.
  revert n. induction l as [|it l IH]; intros n; cbn [app ReaderMax.cut fst snd].
  - cbn. now rewrite Nat.add_0_r.
  - destruct (nd it && (M <=? n)) eqn:EC; auto. specialize (IH (if nd it then S n else n)).
    destruct (cut (if nd it then S n else n) (l ++ k)) as [p1 s1]. destruct (cut (if nd it then S n else n) l) as [p s]. cbn [fst snd] in *.
    rewrite IH. destruct s; auto. cbn [app]. do 4 f_equal. rewrite docs_cons. destruct (nd it); lia.
Qed.
Lemma cut_first n l : n <= M -> exists rest, l = fst (cut n l) ++ rest /\ n + docs_in (fst (cut n l)) <= M /\
  match snd (cut n l) with
  | None => rest = []
  | Some it => n + docs_in (fst (cut n l)) = M /\ exists k, rest = it :: k /\ nd it = true
  end.
Proof.
  revert n. induction l as [|it l IH]; intros n HN; cbn [ReaderMax.cut fst snd].
  - exists []. cbn. split; auto. split; auto. lia.
  - destruct (nd it) eqn:EN; cbn [andb].
    + destruct (Nat.leb_spec M n) as [C|C]; cbn [fst snd].
      * exists (it :: l). split; auto. cbn. split; [lia|]. split; [lia|]. eauto.
      * destruct (IH (S n) C) as [rest [R1 [R2 R3]]]. destruct (cut (S n) l) as [p s]. cbn [fst snd] in *. exists rest. rewrite docs_cons, EN.
        split; [cbn; congruence|]. split; [lia|]. destruct s; auto. destruct R3. split; auto. lia.
    + destruct (IH n HN) as [rest [R1 [R2 R3]]]. destruct (cut n l) as [p s]. cbn [fst snd] in *. exists rest. rewrite docs_cons, EN.
      split; [cbn; congruence|]. split; [lia|]. destruct s; auto.
Qed.
(** What read_trees returns for a file *)
Lemma cut_up_to l : forall m n, m <= n -> n <= M ->
  fst (cut n (up_to M m l)) = fst (cut n l) /\ (m < n -> snd (cut n (up_to M m l)) = snd (cut n l)) /\ (m = n -> snd (cut n (up_to M m l)) = None).
Proof.
  induction l as [|it l IH]; intros m n H1 H2; cbn [up_to ReaderMax.cut fst snd]; auto.
  destruct (nd it) eqn:EN; cbn [andb].
  - destruct (Nat.eqb_spec m M) as [E|E].
    + assert (n = M) by lia. subst. cbn [ReaderMax.cut fst snd]. destruct (Nat.leb_spec M M); [|lia]. cbn. split; auto. split; auto; lia.
    + cbn [ReaderMax.cut]. rewrite EN. cbn [andb]. destruct (Nat.leb_spec M n) as [C|C]; cbn [fst snd].
      * split; auto. split; auto. intros. lia.
      * destruct (IH (S m) (S n)) as [I1 [I2 I3]]; try lia. destruct (cut (S n) (up_to M (S m) l)) as [p s], (cut (S n) l) as [p' s']. cbn [fst snd] in *.
        split; [congruence|]. split; intros; [apply I2|apply I3]; lia.
  - cbn [ReaderMax.cut]. rewrite EN. cbn [andb]. destruct (IH m n) as [I1 [I2 I3]]; try lia.
    destruct (cut n (up_to M m l)) as [p s], (cut n l) as [p' s']. cbn [fst snd] in *. split; [congruence|]. split; auto.
Qed.
Lemma full_file n l k : starts_doc l -> fst (cut (max n M) (l ++ k)) = [].
Proof. intros [it [q [-> H]]]. cbn. rewrite H. destruct (Nat.leb_spec M (max n M)); [reflexivity|lia]. Qed.
Lemma cut_files_first its : Forall starts_doc its -> forall n, n <= M ->
  concat (cut_files o n (map (up_to M 0) its)) = fst (cut n (concat its)).
Proof.
  induction 1 as [|l its HS H IH]; intros n HN; auto. cbn [map concat]. rewrite cut_app.
  destruct (cut_files_cons o n (up_to M 0 l) (map (up_to M 0) its)) as [tl [T1 T2]]. rewrite T1. cbn [concat]. subst tl.
  destruct (cut_up_to l 0 n) as [I1 [I2 I3]]; try lia. rewrite I1. destruct (cut_first n l HN) as [rest [R1 [R2 R3]]].
  destruct (Nat.eq_dec n 0) as [->|NZ].
  - rewrite (I3 eq_refl). rewrite IH by lia. destruct (snd (cut 0 l)) as [it|]; auto. destruct R3 as [R3 _]. rewrite R3.
    destruct H as [|l2 its H2 H]; cbn [concat].
    + cbn. now rewrite app_nil_r.
    + pose proof (full_file 0 l2 (concat its) H2) as Q. rewrite Nat.max_0_l in Q. rewrite Q. apply app_nil_r.
  - rewrite (I2 ltac:(lia)). destruct (snd (cut n l)) as [it|]; cbn [concat]; [now rewrite app_nil_r|]. rewrite IH by lia. reflexivity.
Qed.
Lemma cut_first_docs l : first_docs M l (fst (cut 0 l)).
Proof.
  destruct (cut_first 0 l) as [rest [R1 [R2 R3]]]; [lia|]. exists rest. split; auto. split; auto.
  destruct (snd (cut 0 l)) as [it|]; auto. destruct R3 as [R3 [k R4]]. right. split; auto. exists it, k. auto.
Qed.
End T.

Theorem conllu_max cfg canon lower o texts its fl files r docs : o_bpd o = 0 -> o_filter o = None -> o_split o = false -> o_max o <> 0 ->
  Forall2 (fun bs l => Forall good_block bs /\ Forall2 (fun b it => parse cfg canon lower b = Ok (Some it)) bs l /\ starts_doc l) texts its ->
  Forall2 (fun bs f => conllu_file cfg canon lower (o_max o) (text_of bs) = Ok f) texts files ->
  read_documents fl o no_after (new_reader files) [] = (r, Ok docs) ->
  exists p, first_docs (o_max o) (concat its) p /\ contents r (all_trees (rd_store r) docs) = items p.
Proof.
  intros H1 H2 H3 H4 H5 H6 H7. exists (fst (cut o 0 (concat its))). split; [now apply cut_first_docs|].
  assert (HF : Forall2 (fun f b => f_batch f = Some (Ok (map Some b))) files (map (up_to (o_max o) 0) its)).
  { clear - H4 H5 H6. revert files H6. induction H5 as [|bs l texts its [A1 [A2 A3]] _ IH]; intros files H6; inversion H6 as [|? f ? files' B1 B2]; subst; constructor; auto.
    rewrite (conllu_text_max _ _ _ _ _ l H4 A1 A2) in B1. injection B1 as <-. reflexivity. }
  rewrite (max_contents o H1 H2 H3 H4 files _ HF fl r docs H7). rewrite cut_files_first; auto; [|lia].
  clear - H5. induction H5 as [|? ? ? ? [_ [_ ?]] _ IH]; constructor; auto.
Qed.
