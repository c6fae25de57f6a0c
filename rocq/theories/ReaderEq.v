(** Loading a file at once or tree by tree gives the same documents (C29). *)
From Coq Require Import String List NArith ZArith Bool Lia.
From Verif Require Import PyStr PyList PyExn TreeModel BundleModel BundleProofs ReaderModel ReaderSpec ReaderTerm.
Import ListNotations.

Section E.
Context {A : Type}.
Variable o : opts.
Hypothesis Hb : o_bpd o = 0.
Hypothesis Hf : o_filter o = None.
Hypothesis Hs : o_split o = false.
Hypothesis Hm : o_max o = 0.
Implicit Types (r : reader A).

Definition same r r' : Prop := rd_store r = rd_store r' /\ rd_newdoc r = rd_newdoc r' /\ rd_content r = rd_content r'.
Definition rest_same r r' : Prop := rd_files r' = rd_files r /\ rd_number r' = rd_number r /\ rd_given r' = rd_given r /\
  rd_buffer r' = rd_buffer r /\ rd_finished r' = rd_finished r.
Lemma rs_trans r1 r2 r3 : rest_same r1 r2 -> rest_same r2 r3 -> rest_same r1 r3.
Proof. intros [H1 [H2 [H3 [H4 H5]]]] [K1 [K2 [K3 [K4 K5]]]]. repeat split; congruence. Qed.
Lemma no_max r : over_max o r = false.
Proof. unfold over_max. now rewrite Hm. Qed.
Lemma not_full r b : is_full o r b = Ok false.
Proof. unfold is_full. now rewrite Hb. Qed.

Lemma alloc_same r1 r2 it : same r1 r2 -> same (fst (alloc r1 it)) (fst (alloc r2 it)) /\ snd (alloc r1 it) = snd (alloc r2 it).
Proof. intros [H1 [H2 H3]]. unfold alloc, same. cbn. rewrite H1, H2, H3. auto. Qed.
Lemma alloc_rest r it : rest_same r (fst (alloc r it)) /\ rd_handle (fst (alloc r it)) = rd_handle r.
Proof. unfold alloc. cbn. repeat split. Qed.
Lemma prepare_same r1 r2 t la : same r1 r2 ->
  same (fst (prepare o r1 t la)) (fst (prepare o r2 t la)) /\ snd (prepare o r1 t la) = snd (prepare o r2 t la).
Proof.
  intros [H1 [H2 H3]]. unfold prepare. rewrite H1. destruct (if o_ignore o then _ else _) as [s x]. cbn. split; auto. repeat split; auto.
Qed.
Lemma prepare_rest r t la : rest_same r (fst (prepare o r t la)) /\ rd_handle (fst (prepare o r t la)) = rd_handle r.
Proof. unfold prepare. destruct (if o_ignore o then _ else _) as [s x]. repeat split. Qed.
Lemma fresh_same r1 r2 d la : same r1 r2 ->
  same (fst (fresh_bundle r1 d la)) (fst (fresh_bundle r2 d la)) /\ snd (fresh_bundle r1 d la) = snd (fresh_bundle r2 d la).
Proof. intros [H1 [H2 H3]]. unfold fresh_bundle. rewrite H1. destruct (create_bundle _ _) as [s x]. cbn. split; auto. repeat split; auto. Qed.
Lemma fresh_rest r d la : rest_same r (fst (fresh_bundle r d la)) /\ rd_handle (fst (fresh_bundle r d la)) = rd_handle r.
Proof. unfold fresh_bundle. destruct (create_bundle _ _) as [s x]. repeat split. Qed.
Lemma add_same r1 r2 b t : same r1 r2 -> same (fst (add_to r1 b t)) (fst (add_to r2 b t)) /\ snd (add_to r1 b t) = snd (add_to r2 b t).
Proof. intros [H1 [H2 H3]]. unfold add_to. rewrite H1. destruct (add_tree _ _ _) as [s x]. cbn. split; auto. repeat split; auto. Qed.
Lemma add_rest r b t : rest_same r (fst (add_to r b t)) /\ rd_handle (fst (add_to r b t)) = rd_handle r.
Proof. unfold add_to. destruct (add_tree _ _ _) as [s x]. repeat split. Qed.

Definition ended (fl : nat) d (l : list (item A)) (r1 : reader A) (x1 : res fast_result) r2 loaded (y : reader A * res unit) : Prop :=
  match x1 with
  | Ok FastAll => exists r2' bundle la, same r1 r2' /\ rest_same r2 r2' /\ rd_handle r2' = Some (mkFile [] None) /\
      y = slow_loop (fl - length l) o r2' d [] bundle la (loaded || nonempty_list l)
  | Ok FastFinished => False
  | Raise e => exists r2', same r1 r2' /\ y = (r2', Raise e)
  | Diverge => False
  end.
Lemma loop_same d : forall (l : list (item A)) fl r1 r2 bundle la loaded,
  same r1 r2 -> rd_handle r2 = Some (mkFile (map Some l) None) -> length l < fl ->
  let (f1, x1) := fast_trees o r1 d bundle la (map Some l) in
  rest_same r1 f1 /\ rd_handle f1 = rd_handle r1 /\ ended fl d l f1 x1 r2 loaded (slow_loop fl o r2 d [] bundle la loaded).
Proof.
  induction l as [|it l IH]; intros fl r1 r2 bundle la loaded HS HH HL; cbn [map fast_trees].
  - split; [repeat split|]. split; auto. cbn. exists r2, bundle, la. rewrite orb_false_r, Nat.sub_0_r. repeat split; auto; apply HS.
  - destruct fl as [|fl]; [lia|]. cbn [slow_loop]. unfold filtered_read_tree. rewrite HH. cbn [f_batch f_trees map filtered_from].
    destruct (alloc_same r1 r2 it HS) as [S1 E1]. destruct (alloc_rest r1 it) as [R1 H1], (alloc_rest r2 it) as [R2 H2].
    destruct (alloc r1 it) as [a1 t], (alloc r2 it) as [a2 t2]. cbn [fst snd] in *. subst t2. rewrite Hf. rewrite !no_max, !andb_false_r.
    set (r2a := with_handle a2 (rd_number a2) (Some (mkFile (map Some l) None))).
    set (b1 := if truthy (rd_newdoc a1 t) then with_docs a1 (S (rd_docs a1)) else a1).
    set (b2 := if negb loaded && negb (truthy (rd_newdoc r2a t)) then with_docs r2a (S (rd_docs r2a)) else r2a).
    assert (SB : same b1 b2) by (unfold b1, b2, r2a; destruct (truthy (rd_newdoc a1 t)), (negb loaded && _); exact S1).
    assert (RB1 : rest_same r1 b1 /\ rd_handle b1 = rd_handle r1) by (unfold b1; destruct (truthy _); split; auto).
    assert (RB2 : rest_same r2 b2 /\ rd_handle b2 = Some (mkFile (map Some l) None)) by (unfold b2; destruct (_ && _); split; auto).
    clearbody b1 b2. clear S1 R1 R2 H1 H2 r2a. destruct RB1 as [R1 H1], RB2 as [R2 H2].
    destruct (prepare_same b1 b2 t la SB) as [SC EC]. destruct (prepare_rest b1 t la) as [R3 H3], (prepare_rest b2 t la) as [R4 H4].
    destruct (prepare o b1 t la) as [c1 [la' add]], (prepare o b2 t la) as [c2 [la2 add2]]. cbn [fst snd] in *. injection EC as <- <-.
    assert (PL : place o c2 d [] bundle la' add t =
      let (r, b) := match bundle with Some b => if add then (if truthy (rd_newdoc c2 t) then with_docs c2 (S (rd_docs c2)) else c2, b)
                                               else fresh_bundle (if truthy (rd_newdoc c2 t) then with_docs c2 (S (rd_docs c2)) else c2) d la'
                                 | None => fresh_bundle (if truthy (rd_newdoc c2 t) then with_docs c2 (S (rd_docs c2)) else c2) d la' end in
      bind (add_to r b t) (fun r _ => (r, Ok (Placed [] b)))).
    { unfold place. cbv zeta. rewrite no_max, Hs, !andb_false_r. set (c3 := if truthy _ then _ else _).
      assert (BE : forall r b, bind (add_to r b t) (fun r _ =>
        match is_full o r b with
        | Ok true => if o_multi o then (r, Ok (Placed [] b)) else (r, Ok (Full b))
        | Ok false => (r, Ok (Placed [] b))
        | Raise e => (r, Raise e)
        | Diverge => (r, Diverge)
        end) = bind (add_to r b t) (fun r _ => (r, Ok (Placed [] b)))).
      { intros r b. destruct (add_to r b t) as [r' [u| |]]; cbn [bind]; auto. now rewrite not_full. }
      destruct bundle as [b|].
      - rewrite not_full. destruct add; [apply BE|]. destruct (fresh_bundle c3 d la') as [r b']. apply BE.
      - destruct (fresh_bundle c3 d la') as [r b']. apply BE. }
    rewrite PL. clear PL. set (c3 := if truthy (rd_newdoc c2 t) then _ else _).
    assert (S3 : same c1 c3) by (unfold c3; destruct (truthy _); exact SC).
    assert (R5 : rest_same r2 c3 /\ rd_handle c3 = Some (mkFile (map Some l) None)).
    { unfold c3. pose proof (rs_trans _ _ _ R2 R4). destruct (truthy _); split; auto; cbn; congruence. }
    clearbody c3. clear SC R2 R4 H2 H4 SB.
    assert (R6 : rest_same r1 c1 /\ rd_handle c1 = rd_handle r1) by (split; [eapply rs_trans; eauto|congruence]).
    clear R1 H1 R3 H3.
    assert (STEP : forall f1 f2 b, same f1 f2 -> rest_same r1 f1 /\ rd_handle f1 = rd_handle r1 ->
      rest_same r2 f2 /\ rd_handle f2 = Some (mkFile (map Some l) None) ->
      let (f1, x1) := bind (add_to f1 b t) (fun r _ => fast_trees o r d (Some b) la' (map Some l)) in
      rest_same r1 f1 /\ rd_handle f1 = rd_handle r1 /\
      ended (S fl) d (it :: l) f1 x1 r2 loaded
       (bind (bind (add_to f2 b t) (fun r _ => (r, Ok (Placed [] b)))) (fun r x =>
        match x with
        | Buffered | Full _ | Stopped => (r, Ok tt)
        | Placed orig b => slow_loop fl o r d orig (Some b) la' true
        end))).
    { intros f1 f2 b SF [RF1 HF1] [RF2 HF2]. destruct (add_same f1 f2 b t SF) as [SG EG].
      destruct (add_rest f1 b t) as [RG1 HG1], (add_rest f2 b t) as [RG2 HG2].
      destruct (add_to f1 b t) as [g1 x] eqn:EA, (add_to f2 b t) as [g2 x2]. cbn [fst snd] in *. subst x2. apply add_keeps in EA as [_ [_ ND]].
      pose proof (rs_trans _ _ _ RF1 RG1) as RT1. pose proof (rs_trans _ _ _ RF2 RG2) as RT2.
      destruct x as [u|e|]; cbn [bind].
      - specialize (IH fl g1 g2 (Some b) la' true SG). rewrite HG2, HF2 in IH. specialize (IH eq_refl ltac:(cbn in HL; lia)).
        destruct (fast_trees o g1 d (Some b) la' (map Some l)) as [k1 y1]. destruct IH as [I1 [I2 I3]].
        split; [eapply rs_trans; eauto|]. split; [congruence|]. destruct y1 as [[|]| |]; cbn [ended] in *; auto.
        destruct I3 as [r2' [bun' [la2 [J1 [J2 [J3 J4]]]]]]. exists r2', bun', la2. split; auto. split; [eapply rs_trans; eauto|]. split; auto.
        rewrite J4. cbn [length nonempty_list]. now rewrite orb_true_r.
      - split; [auto|]. split; [congruence|]. cbn. eauto.
      - congruence. }
    destruct (fresh_same c1 c3 d la' S3) as [S4 E4]. destruct (fresh_rest c1 d la') as [RA HA], (fresh_rest c3 d la') as [RB HB].
    destruct (fresh_bundle c1 d la') as [e1 nb1], (fresh_bundle c3 d la') as [e3 nb3]. cbn [fst snd] in *. subst nb3.
    destruct R5 as [R5 H5], R6 as [R6 H6].
    assert (FR : rest_same r1 e1 /\ rd_handle e1 = rd_handle r1) by (split; [eapply rs_trans; eauto|congruence]).
    assert (FR3 : rest_same r2 e3 /\ rd_handle e3 = Some (mkFile (map Some l) None)) by (split; [eapply rs_trans; eauto|congruence]).
    destruct bundle as [b|]; [destruct add|]; apply STEP; auto.
Qed.

(** ---- one document ---- *)
Hypothesis Hg : o_merge o = false.
Variable fs : list (list (item A)).
Hypothesis Hne : Forall (fun l => l <> []) fs.
Definition ready r1 r2 (rest : list (list (item A))) : Prop :=
  same r1 r2 /\ rd_given r1 = false /\ rd_given r2 = false /\ rd_files r1 = map (file_of true) fs /\ rd_files r2 = map (file_of false) fs /\
  rd_buffer r2 = None /\ rd_finished r1 = false /\ rd_finished r2 = false /\
  ((rd_handle r1 = None /\ rd_number r1 = 0 /\ rest = fs) \/
   (exists l, rd_handle r1 = Some (file_of true l) /\ rest = l :: skipn (rd_number r1) fs)) /\
  ((rd_handle r2 = None /\ rd_number r2 = 0 /\ rest = fs) \/
   (rd_handle r2 = Some (mkFile [] None) /\ rest = skipn (rd_number r2) fs /\ rest <> [])).
Definition agree (x y : reader A * res unit) : Prop :=
  snd x = snd y /\ same (fst x) (fst y) /\
  (snd x = Ok tt -> rd_finished (fst x) = rd_finished (fst y) /\ (rd_finished (fst x) = false -> exists rest, ready (fst x) (fst y) rest)).

Lemma next_file b r : rd_files r = map (file_of b) fs -> rd_given r = false ->
  rd_handle (next_handle r) = option_map (file_of b) (nth_error fs (rd_number r)).
Proof. intros E G. unfold next_handle. cbn. now rewrite G, E, nth_error_map. Qed.
Lemma nth_skipn {B} (l : list B) n x k : skipn n l = x :: k -> nth_error l n = Some x /\ skipn (S n) l = k.
Proof.
  revert n. induction l as [|a l IH]; intros [|n]; cbn; intros E; try discriminate.
  - injection E as -> ->. auto.
  - apply (IH n E).
Qed.
Lemma skipn_nil_nth {B} (l : list B) n : skipn n l = [] -> nth_error l n = None /\ length l <= n.
Proof.
  intros E. assert (L : length l <= n). { rewrite <- (firstn_skipn n l), E, app_nil_r. rewrite firstn_length. lia. }
  split; auto. now apply nth_error_None.
Qed.

Lemma read_one r1 r2 d l rest fl : same r1 r2 -> d_bundles (rd_store r1) d = [] ->
  rd_given r1 = false -> rd_given r2 = false -> rd_files r1 = map (file_of true) fs -> rd_files r2 = map (file_of false) fs ->
  rd_buffer r2 = None -> rd_finished r1 = false -> rd_finished r2 = false ->
  rd_handle r1 = Some (file_of true l) -> skipn (rd_number r1) fs = rest -> l <> [] ->
  rd_handle r2 = Some (mkFile (map Some l) None) -> skipn (rd_number r2) fs = rest -> length l < fl ->
  forall fl', agree (bind (fast_files (S fl') o r1 d) (fun r _ => (r, Ok tt))) (slow_loop fl o r2 d [] None [] false).
Proof.
  intros HS HD G1 G2 F1 F2 B2 FI1 FI2 H1 K1 NE H2 K2 FL fl'. cbn [fast_files]. rewrite H1. cbn [file_of f_batch].
  replace (first_newdoc (map Some l)) with (@Ok unit tt) by (destruct l; auto).
  set (r1a := with_handle r1 (rd_number r1) (Some (mkFile [] (Some (Ok []))))).
  pose proof (loop_same d l fl r1a r2 None [] false HS H2 FL) as LS.
  destruct (fast_trees o r1a d None [] (map Some l)) as [f1 x1]. destruct LS as [RS [HF EN]]. destruct RS as [Q1 [Q2 [Q3 [Q4 Q5]]]].
  destruct x1 as [[|]| |]; cbn [bind ended] in *; try contradiction.
  - destruct EN as [r2' [bun [la [S2 [RS2 [H2' ->]]]]]]. destruct RS2 as [P1 [P2 [P3 [P4 P5]]]].
    destruct l as [|it l]; [congruence|]. cbn [nonempty_list orb length]. destruct (fl - S (length l)) as [|fl2] eqn:EFL; [cbn in FL; lia|].
    cbn [slow_loop]. unfold filtered_read_tree. rewrite H2'. cbn [f_batch f_trees filtered_from]. rewrite Hg. cbn [negb orb andb].
    rewrite (next_file true f1) by (rewrite ?Q1, ?Q3; auto).
    change (rd_number r1a) with (rd_number r1) in Q2. rewrite Q2.
    assert (HN : has_next (with_handle r2' (rd_number r2') (Some (mkFile [] None))) = nonempty_list rest).
    { unfold has_next. cbn [with_handle rd_number rd_files]. rewrite P1, P2, F2, map_length, <- K2.
      destruct (skipn (rd_number r2) fs) eqn:ES.
      - apply skipn_nil_nth in ES as [_ ES]. apply Nat.ltb_ge. auto.
      - apply Nat.ltb_lt. apply nth_skipn in ES as [ES _]. apply nth_error_Some. congruence. }
    rewrite HN. destruct rest as [|l2 rest].
    + apply skipn_nil_nth in K1 as [K1 _]. rewrite K1. cbn [option_map bind nonempty_list negb]. split; [auto|]. split; [exact S2|]. cbn. intros _. split; auto. discriminate.
    + apply nth_skipn in K1 as [K1 K3]. rewrite K1. cbn [option_map bind nonempty_list negb]. split; [auto|]. split; [exact S2|]. cbn [fst snd]. intros _.
      split; [cbn; rewrite Q5; auto|]. intros _. exists (l2 :: rest). split; [exact S2|]. cbn.
      rewrite Q1, Q3, P1, P3, P4, Q5. repeat split; auto.
      * right. exists l2. change (rd_given r1a) with (rd_given r1). change (rd_files r1a) with (rd_files r1).
        rewrite G1. cbn [andb]. rewrite F1, Q2. rewrite nth_error_map, K1. split; auto. f_equal. symmetry. exact K3.
      * right. rewrite P2. repeat split; auto. discriminate.
  - destruct EN as [r2' [S2 ->]]. split; auto. split; auto. discriminate.
Qed.

Lemma process_same r1 r2 rest d : ready r1 r2 rest -> d_bundles (rd_store r1) d = [] ->
  agree (process_document o r1 d) (process_document o r2 d).
Proof.
  intros [HS [G1 [G2 [F1 [F2 [B2 [FI1 [FI2 [H1 H2]]]]]]]]] HD. pose proof HS as [HS1 _].
  assert (FAST : process_document o r1 d = bind (try_fast_load o r1 d) (fun r fast => if fast then (r, Ok tt) else
    bind (take_buffer r d (d_bundles (rd_store r) d)) (fun r ob =>
    let (orig, bundle) := ob in
    let r' := match rd_handle r with None => next_handle r | Some _ => r end in
    match rd_handle r' with
    | None => (with_finished r' true, Ok tt)
    | Some _ => slow_loop (fuel r') o r' d orig bundle [] false
    end))) by reflexivity.
  rewrite FAST. clear FAST. unfold process_document, try_fast_load. rewrite <- HS1, HD, Hb, Hf, Hs. cbn [negb orb Nat.eqb].
  set (p1 := match rd_handle r1 with None => next_handle r1 | Some _ => r1 end).
  set (p2 := match rd_handle r2 with None => next_handle r2 | Some _ => r2 end).
  assert (E1 : same r1 p1 /\ rd_given p1 = false /\ rd_files p1 = map (file_of true) fs /\ rd_finished p1 = false /\
    match rest with [] => rd_handle p1 = None | l :: k => rd_handle p1 = Some (file_of true l) /\ skipn (rd_number p1) fs = k end).
  { unfold p1. destruct H1 as [[E [N R]]|[l [E R]]]; rewrite E.
    - split; [repeat split|]. split; auto. split; auto. split; auto. rewrite (next_file true) by auto. rewrite N, R. cbn. rewrite N.
      destruct fs; cbn; auto.
    - split; [repeat split|]. rewrite R. auto 10. }
  clearbody p1. clear H1 G1 F1 FI1. destruct E1 as [S1 [G1 [F1 [FI1 H1]]]].
  assert (E2 : same r2 p2 /\ rd_given p2 = false /\ rd_files p2 = map (file_of false) fs /\ rd_finished p2 = false /\ rd_buffer p2 = None /\
    ((rd_handle p2 = None /\ rest = []) \/
     (exists l k, rest = l :: k /\ rd_handle p2 = Some (file_of false l) /\ skipn (rd_number p2) fs = k) \/
     (rd_handle p2 = Some (mkFile [] None) /\ rest = skipn (rd_number p2) fs /\ rest <> []))).
  { unfold p2. destruct H2 as [[E [N R]]|[E [R NR]]]; rewrite E.
    - split; [repeat split|]. split; auto. split; auto. split; auto. split; auto. rewrite (next_file false) by auto. rewrite N, R. cbn. rewrite N.
      destruct fs as [|l k]; cbn; [left; auto|right; left]. exists l, k. auto.
    - split; [repeat split|]. auto 10. }
  assert (TB : take_buffer p2 d [] = (p2, Ok ([], None))) by (unfold take_buffer; destruct E2 as [_ [_ [_ [_ [-> _]]]]]; auto).
  assert (TB0 : take_buffer r2 d [] = (r2, Ok ([], None))) by (unfold take_buffer; rewrite B2; auto).
  pose proof (eq_refl : p2 = match rd_handle r2 with None => next_handle r2 | Some _ => r2 end) as EP2.
  clearbody p2. destruct E2 as [S2 [G3 [F3 [FI3 [B3 H3]]]]].
  assert (SS : same p1 p2) by (destruct S1 as [? [? ?]], S2 as [? [? ?]], HS as [? [? ?]]; repeat split; congruence).
  assert (DB : d_bundles (rd_store p2) d = []) by (destruct S2 as [<- _]; rewrite <- HS1; auto).
  destruct H3 as [[H3 R]|H3].
  - subst rest. rewrite H1, H3. cbn [bind]. split; auto. split; [exact SS|]. cbn. intros _. split; auto. discriminate.
  - destruct rest as [|l k]; [destruct H3 as [[? [? [Q _]]]|[_ [_ Q]]]; congruence|]. destruct H1 as [H1 K1]. rewrite H1.
    assert (NL : l <> []).
    { rewrite Forall_forall in Hne. apply Hne. destruct H3 as [[? [? [Q1 [Q2 Q3]]]]|[_ [Q _]]]; [|rewrite <- (firstn_skipn (rd_number p2) fs), <- Q; apply in_app_iff; right; now left].
      injection Q1 as <- <-. destruct H2 as [[_ [_ R]]|[_ [R _]]]; [rewrite <- R; now left|].
      rewrite <- (firstn_skipn (rd_number r2) fs), <- R. apply in_app_iff. right. now left. }
    assert (FA : forall z, agree (bind (fast_files (S (S (length (rd_files p1)))) o p1 d) (fun r _ => (r, Ok tt))) z ->
      agree (bind (fast_files (S (S (length (rd_files p1)))) o p1 d) (fun r fast => if fast then (r, Ok tt) else
    bind (take_buffer r d (d_bundles (rd_store r) d)) (fun r ob =>
    let (orig, bundle) := ob in
    let r' := match rd_handle r with None => next_handle r | Some _ => r end in
    match rd_handle r' with
    | None => (with_finished r' true, Ok tt)
    | Some _ => slow_loop (fuel r') o r' d orig bundle [] false
    end))) z).
    { intros z. replace (fast_files (S (S (length (rd_files p1)))) o p1 d) with (fast_files (S (S (length (rd_files p1)))) o p1 d) by auto.
      destruct (fast_files (S (S (length (rd_files p1)))) o p1 d) as [q [[|]| |]] eqn:EQ; cbn [bind]; auto.
      exfalso. revert EQ. cbn [fast_files]. rewrite H1. cbn [file_of f_batch]. destruct (first_newdoc _); try discriminate.
      match goal with |- context [fast_trees ?a ?b ?c ?e ?f ?g] => destruct (fast_trees a b c e f g) as [q1 [[|]| |]] end; cbn [bind]; try discriminate.
      destruct (rd_handle (next_handle q1)); try discriminate. rewrite Hg. discriminate. }
    apply FA. clear FA.
    assert (SL : forall r, rd_handle r = Some (file_of false l) -> rd_files r = map (file_of false) fs -> skipn (rd_number r) fs = k -> rd_given r = false ->
       rd_buffer r = None -> rd_finished r = false -> same p1 r -> forall fl, length l < fl ->
       agree (bind (fast_files (S (S (length (rd_files p1)))) o p1 d) (fun r _ => (r, Ok tt))) (slow_loop fl o r d [] None [] false)).
    { intros r A1 A2 A3 A4 A5 A6 A7 fl A8. apply (read_one p1 r d l k fl); auto. destruct S1 as [<- _]. auto. }
    destruct H3 as [[l' [k' [Q1 [Q2 Q3]]]]|[Q1 [Q2 Q3]]].
    + injection Q1 as <- <-. rewrite Q2. cbn [fast_files bind]. rewrite Q2. cbn [file_of f_batch bind]. rewrite DB, TB. cbn [bind]. rewrite Q2. rewrite Q2.
      apply SL; auto. unfold fuel. rewrite Q2. unfold file_size at 2. cbn [file_of f_trees]. rewrite map_length. lia.
    + rewrite Q1. cbn [fast_files bind]. rewrite Q1. cbn [f_batch bind]. rewrite DB, TB. cbn [bind]. rewrite Q1. rewrite Q1.
      assert (FU : exists fu, fuel p2 = S fu /\ length l < fu).
      { unfold fuel. eexists. split; [reflexivity|]. rewrite F3. destruct (nth_skipn fs (rd_number p2) l k (eq_sym Q2)) as [NE _].
        assert (LS : S (length l) <= list_sum (map file_size (map (file_of false) fs))).
        { apply nth_error_In in NE. clear - NE. induction fs as [|a q IH]; [destruct NE|]. cbn [map]. change (list_sum (?x :: ?y)) with (x + list_sum y).
          destruct NE as [->|NE]; [unfold file_size at 1; cbn; rewrite map_length; lia|]. specialize (IH NE). cbn. lia. }
        lia. }
      destruct FU as [fu [-> FU]]. cbn [slow_loop]. unfold filtered_read_tree. rewrite Q1. cbn [f_trees f_batch filtered_from]. cbn [negb orb].
      assert (HN : has_next (with_handle p2 (rd_number p2) (Some (mkFile [] None))) = true).
      { unfold has_next. cbn. rewrite F3, map_length. apply Nat.ltb_lt. destruct (nth_skipn fs (rd_number p2) l k (eq_sym Q2)) as [NE _].
        apply nth_error_Some. congruence. }
      rewrite HN. cbn [andb]. destruct (nth_skipn fs (rd_number p2) l k (eq_sym Q2)) as [NE SK]. apply SL; auto.
      rewrite (next_file false) by auto. cbn. now rewrite NE.
Qed.

Theorem fast_is_slow fl : forall r1 r2 rest docs, ready r1 r2 rest ->
  snd (read_documents fl o no_after r1 docs) = snd (read_documents fl o no_after r2 docs) /\
  same (fst (read_documents fl o no_after r1 docs)) (fst (read_documents fl o no_after r2 docs)).
Proof.
  induction fl as [|fl IH]; intros r1 r2 rest docs RD; pose proof RD as [[S1 [S2 S3]] [G1 [G2 [F1 [F2 [B2 [FI1 [FI2 HH]]]]]]]]; cbn [read_documents]; rewrite FI1, FI2.
  - split; [auto|repeat split; auto].
  - rewrite <- S1. destruct (new_document (rd_store r1)) as [s1 d] eqn:ED.
    assert (RD' : ready (with_store r1 s1) (with_store r2 s1) rest) by (split; [repeat split; auto|]; exact (conj G1 (conj G2 (conj F1 (conj F2 (conj B2 (conj FI1 (conj FI2 HH)))))))).
    pose proof (process_same _ _ rest d RD') as AG.
    assert (DB : d_bundles (rd_store (with_store r1 s1)) d = []).
    { unfold new_document in ED. injection ED as <- <-. cbn. now rewrite upd_same. }
    specialize (AG DB). destruct (process_document o (with_store r1 s1) d) as [q1 x1], (process_document o (with_store r2 s1) d) as [q2 x2].
    destruct AG as [A1 [A2 A3]]. cbn [fst snd] in *. subst x2. destruct x1 as [[]| |]; cbn [bind]; auto.
    unfold no_after at 1 3 5 7. cbn [bind]. destruct (A3 eq_refl) as [A4 A5]. destruct (rd_finished q1) eqn:FQ.
    + symmetry in A4. destruct fl; cbn [read_documents]; rewrite FQ, A4; auto.
    + destruct (A5 eq_refl) as [rest' RD2]. apply (IH q1 q2 rest'); auto.
Qed.
Theorem fast_is_slow_new fl :
  snd (read_documents fl o no_after (new_reader (map (file_of true) fs)) []) = snd (read_documents fl o no_after (new_reader (map (file_of false) fs)) []) /\
  same (fst (read_documents fl o no_after (new_reader (map (file_of true) fs)) [])) (fst (read_documents fl o no_after (new_reader (map (file_of false) fs)) [])).
Proof.
  apply (fast_is_slow fl _ _ fs). split; [repeat split|]. cbn. repeat split; auto.
Qed.
End E.
