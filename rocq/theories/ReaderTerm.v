(** The readers terminate: every call of process_document that does not finish the reader consumes a part of
    the input (C28). *)
From Coq Require Import String List NArith ZArith Bool Lia.
From Verif Require Import PyStr PyList PyExn TreeModel BundleModel ReaderModel.
Import ListNotations.

Section T.
Context {A : Type}.
Variable o : opts.
Implicit Types (r : reader A).

Definition left r : nat :=
  match rd_handle r with Some f => length (f_trees f) | None => 0 end +
  list_sum (map file_size (skipn (rd_number r) (rd_files r))).
Definition batches (l : list (file A)) : Prop := Forall (fun f => f_batch f <> Some Diverge) l.
Definition fine r : Prop :=
  batches (rd_files r) /\ (match rd_handle r with Some f => f_batch f <> Some Diverge | None => True end) /\
  (rd_given r = true -> rd_files r <> []).

Lemma skipn_nth {B} (l : list B) n x : nth_error l n = Some x -> skipn n l = x :: skipn (S n) l.
Proof. revert n. induction l as [|a l IH]; intros [|n]; cbn; intros H; try discriminate; [congruence|]. exact (IH n H). Qed.
Lemma skipn_None {B} (l : list B) n : nth_error l n = None -> skipn n l = [].
Proof. intros H. apply nth_error_None in H. now apply skipn_all2. Qed.
Lemma next_left r : has_next r = true -> left (next_handle r) < left r.
Proof.
  unfold has_next, next_handle, left. intros H. apply Nat.ltb_lt in H.
  destruct (nth_error (rd_files r) (rd_number r)) eqn:E; [|apply nth_error_None in E; lia].
  rewrite (skipn_nth _ _ _ E). cbn [with_handle rd_handle rd_number rd_files map].
  change (list_sum (file_size f :: map file_size (skipn (S (rd_number r)) (rd_files r))))
    with (S (length (f_trees f)) + list_sum (map file_size (skipn (S (rd_number r)) (rd_files r)))).
  destruct (rd_given r && (rd_number r =? 0)); destruct (rd_handle r); lia.
Qed.
Lemma next_fine r : fine r -> fine (next_handle r).
Proof.
  intros [H1 [H2 H3]]. split; auto. split; auto. unfold next_handle. cbn. destruct (rd_given r && (rd_number r =? 0)); auto.
  destruct (nth_error (rd_files r) (rd_number r)) eqn:E; auto. apply nth_error_In in E. unfold batches in H1. rewrite Forall_forall in H1. auto.
Qed.

(** What filtered_read_tree does to the rest of the input. *)
Definition keeps r r' : Prop := rd_handle r' = rd_handle r /\ rd_number r' = rd_number r /\ rd_files r' = rd_files r /\ rd_given r' = rd_given r.
Lemma keeps_left r r' : keeps r r' -> left r' = left r.
Proof. intros [H1 [H2 [H3 H4]]]. unfold left. now rewrite H1, H2, H3. Qed.
Lemma keeps_fine r r' : keeps r r' -> fine r -> fine r'.
Proof. intros [H1 [H2 [H3 H4]]]. unfold fine. now rewrite H1, H3, H4. Qed.
Lemma keeps_trans r1 r2 r3 : keeps r1 r2 -> keeps r2 r3 -> keeps r1 r3.
Proof. intros [H1 [H2 [H3 H4]]] [K1 [K2 [K3 K4]]]. repeat split; congruence. Qed.
Lemma keeps_refl r : keeps r r.
Proof. repeat split. Qed.

Lemma filtered_from_left flt b : forall l sk r r' t,
  filtered_from flt sk r b l = (r', t) ->
  rd_files r' = rd_files r /\ rd_number r' = rd_number r /\ rd_given r' = rd_given r /\ (exists l', rd_handle r' = Some (mkFile l' b) /\ length l' <= length l /\ (t <> None -> length l' < length l)).
Proof.
  induction l as [|[it|] l IH]; intros sk r r' t; cbn [filtered_from].
  - intros E. injection E as <- <-. repeat split. exists []. repeat split; auto; try congruence.
  - destruct (alloc r it) as [r1 t1] eqn:EA.
    assert (K : rd_files r1 = rd_files r /\ rd_number r1 = rd_number r /\ rd_given r1 = rd_given r) by (unfold alloc in EA; cbn in EA; injection EA as <- <-; auto).
    destruct K as [K1 [K2 K3]]. destruct flt as [f|].
    + destruct (f _).
      * destruct (truthy sk && negb (truthy (rd_newdoc r1 t1))); intros E; injection E as <- <-; repeat split; auto;
        exists l; cbn; repeat split; auto.
      * intros E. apply IH in E as [E1 [E2 [E0 [l' [E3 [E4 E5]]]]]]; auto. split; [congruence|]. split; [congruence|]. split; [congruence|]. exists l'. cbn.
        split; auto. split; [lia|]. intros; lia.
    + intros E. injection E as <- <-. repeat split; auto. exists l. cbn. repeat split; auto.
  - intros E. injection E as <- <-. repeat split. exists l. cbn. repeat split; auto; try congruence.
Qed.
Lemma filtered_left r r' t : filtered_read_tree o r = (r', t) ->
  rd_files r' = rd_files r /\ rd_number r' = rd_number r /\ left r' <= left r /\ (t <> None -> left r' < left r) /\ (fine r -> fine r').
Proof.
  unfold filtered_read_tree. destruct (rd_handle r) as [f|] eqn:EH.
  - intros E. apply filtered_from_left in E as [E1 [E2 [E0 [l' [E3 [E4 E5]]]]]]; auto. split; auto. split; auto.
    unfold left. rewrite E1, E2, E3, EH. cbn [f_trees]. split; [lia|]. split; [intros N; specialize (E5 N); lia|].
    unfold fine. rewrite E1, E3, E0, EH. auto.
  - intros E. injection E as <- <-. split; auto. split; auto. split; auto. split; [congruence|auto].
Qed.
Lemma prepare_keeps r t la : keeps r (fst (prepare o r t la)).
Proof. unfold prepare. destruct (if o_ignore o then _ else _) as [s x]. repeat split. Qed.
Lemma fresh_keeps r d la : keeps r (fst (fresh_bundle r d la)).
Proof. unfold fresh_bundle. destruct (create_bundle _ _). repeat split. Qed.
Lemma add_keeps r b t r' x : add_to r b t = (r', x) -> keeps r r' /\ rd_finished r' = rd_finished r /\ x <> Diverge.
Proof.
  unfold add_to, add_tree. destruct (check_zone _ _ _) as [u|e|] eqn:EC.
  - intros E. injection E as <- <-. repeat split; discriminate.
  - intros E. injection E as <- <-. repeat split; discriminate.
  - exfalso. revert EC. unfold check_zone.
    repeat match goal with |- context [if ?b then _ else _] => destruct b end; discriminate.
Qed.

(** ---- slow loading ---- *)
Lemma place_left r d orig bundle la add t r' x : place o r d orig bundle la add t = (r', x) ->
  keeps r r' /\ x <> Diverge.
Proof.
  unfold place. cbv zeta. set (nd := truthy (rd_newdoc r t)).
  destruct (nd && over_max o r); [intros E; injection E as <- <-; repeat split; discriminate|].
  destruct (nd && _ && _); [intros E; injection E as <- <-; repeat split; discriminate|].
  set (r0 := if nd then with_docs r (S (rd_docs r)) else r).
  assert (K0 : keeps r r0) by (unfold r0; destruct nd; repeat split).
  assert (FULL : forall r b, is_full o r b <> Diverge).
  { intros r1 b. unfold is_full. destruct (o_bpd o =? 0); [discriminate|]. destruct (b_number _ _); discriminate. }
  assert (PUT : forall r1 orig b, keeps r r1 -> bind (add_to r1 b t) (fun r _ =>
      match is_full o r b with
      | Ok true => if o_multi o then (r, Ok (Placed orig b)) else (r, Ok (Full b))
      | Ok false => (r, Ok (Placed orig b))
      | Raise e => (r, Raise e)
      | Diverge => (r, Diverge)
      end) = (r', x) -> keeps r r' /\ x <> Diverge).
  { intros r1 orig1 b K1. destruct (add_to r1 b t) as [r2 y] eqn:EA. apply add_keeps in EA as [K2 [_ ND]].
    pose proof (keeps_trans _ _ _ K1 K2) as K3. destruct y; cbn [bind].
    - destruct (is_full o r2 b) as [[|]| |] eqn:EF; [destruct (o_multi o)|..]; intros E; injection E as <- <-; split; auto; try discriminate.
      exfalso. eapply FULL; eauto.
    - intros E; injection E as <- <-; split; auto; discriminate.
    - congruence. }
  assert (NEXT : match orig with
                  | b :: orig => bind (add_to r0 b t) (fun r _ =>
      match is_full o r b with
      | Ok true => if o_multi o then (r, Ok (Placed orig b)) else (r, Ok (Full b))
      | Ok false => (r, Ok (Placed orig b))
      | Raise e => (r, Raise e)
      | Diverge => (r, Diverge)
      end)
                  | [] => let (r, b) := fresh_bundle r0 d la in bind (add_to r b t) (fun r _ =>
      match is_full o r b with
      | Ok true => if o_multi o then (r, Ok (Placed [] b)) else (r, Ok (Full b))
      | Ok false => (r, Ok (Placed [] b))
      | Raise e => (r, Raise e)
      | Diverge => (r, Diverge)
      end)
                  end = (r', x) -> keeps r r' /\ x <> Diverge).
  { destruct orig as [|b orig]; [|apply PUT; auto]. pose proof (fresh_keeps r0 d la) as KF. destruct (fresh_bundle r0 d la) as [r1 b].
    apply PUT. eapply keeps_trans; eauto. }
  destruct bundle as [b|]; auto. destruct add; [apply PUT; auto|].
  destruct (is_full o r0 b) as [[|]| |] eqn:EF; auto.
  - intros E; injection E as <- <-; split; [|discriminate]. eapply keeps_trans; [exact K0|repeat split].
  - intros E; injection E as <- <-; split; auto; discriminate.
  - exfalso. eapply FULL; eauto.
Qed.
Lemma slow_left fl : forall r d orig bundle la loaded r' x, left r < fl -> fine r ->
  slow_loop fl o r d orig bundle la loaded = (r', x) ->
  x <> Diverge /\ fine r' /\ left r' <= left r /\ rd_files r' = rd_files r /\ (x = Ok tt -> rd_finished r' = false -> loaded = false -> left r' < left r).
Proof.
  induction fl as [|fl IH]; intros r d orig bundle la loaded r' x HL HF; [lia|]. cbn [slow_loop].
  destruct (filtered_read_tree o r) as [r1 root] eqn:EF. apply filtered_left in EF as [F1 [F2 [F3 [F4 F5]]]]. specialize (F5 HF).
  destruct root as [t|].
  - assert (L1 : left r1 < left r) by (apply F4; discriminate). clear F4.
    destruct (negb loaded && negb (truthy (rd_newdoc r1 t)) && over_max o r1).
    { intros E. injection E as <- <-. repeat split; try discriminate; auto; apply F5. }
    set (r2 := if negb loaded && negb (truthy (rd_newdoc r1 t)) then with_docs r1 (S (rd_docs r1)) else r1).
    assert (K2 : keeps r1 r2) by (unfold r2; destruct (_ && _); repeat split).
    pose proof (prepare_keeps r2 t la) as K3. destruct (prepare o r2 t la) as [r3 [la' add]]. cbn [fst] in K3.
    destruct (place o r3 d orig bundle la' add t) as [r4 y] eqn:EP. apply place_left in EP as [K4 ND].
    pose proof (keeps_trans _ _ _ (keeps_trans _ _ _ K2 K3) K4) as K. pose proof (keeps_left _ _ K) as KL. pose proof (keeps_fine _ _ K F5) as KF.
    assert (FL : rd_files r4 = rd_files r) by (destruct K as [_ [_ [K _]]]; congruence).
    destruct y as [[|b| |orig' b]| |]; cbn [bind]; try (intros E; injection E as <- <-; split; [discriminate|]; split; auto; split; [lia|]; split; auto; intros; lia);
      [|congruence].
    intros E. apply IH in E as [E1 [E2 [E3 [E4 E5]]]]; [|lia|auto]. split; auto. split; auto. split; [lia|]. split; [congruence|]. intros; lia.
  - destruct ((negb loaded || o_merge o) && has_next r1) eqn:EC.
    + apply andb_prop in EC as [EC1 EC2]. pose proof (next_left _ EC2) as NL. intros E.
      apply IH in E as [E1 [E2 [E3 [E4 E5]]]]; [|lia|apply next_fine; auto]. split; auto. split; auto. split; [lia|].
      split; [cbn in E4; congruence|]. intros; lia.
    + intros E. injection E as <- <-. split; [discriminate|]. split; [exact F5|]. split; [exact F3|]. split; auto. cbn.
      intros _ FI ->. cbn in EC. rewrite EC in FI. discriminate.
Qed.

(** ---- fast loading ---- *)
Lemma fast_keeps l : forall r d bundle la r' x, fast_trees o r d bundle la l = (r', x) ->
  keeps r r' /\ x <> Diverge /\ (x = Ok FastFinished -> rd_finished r' = true).
Proof.
  induction l as [|[it|] l IH]; intros r d bundle la r' x; cbn [fast_trees].
  - intros E. injection E as <- <-. repeat split; discriminate.
  - destruct (alloc r it) as [r1 t] eqn:EA. assert (K1 : keeps r r1) by (unfold alloc in EA; cbn in EA; injection EA as <- <-; repeat split).
    destruct (truthy (rd_newdoc r1 t) && over_max o r1).
    { intros E. injection E as <- <-. split; [exact K1|]. split; [discriminate|auto]. }
    set (r2 := if truthy (rd_newdoc r1 t) then with_docs r1 (S (rd_docs r1)) else r1).
    assert (K2 : keeps r1 r2) by (unfold r2; destruct (truthy _); repeat split).
    pose proof (prepare_keeps r2 t la) as K3. destruct (prepare o r2 t la) as [r3 [la' add]]. cbn [fst] in K3.
    pose proof (keeps_trans _ _ _ (keeps_trans _ _ _ K1 K2) K3) as K.
    assert (STEP : forall r4 b, keeps r r4 -> bind (add_to r4 b t) (fun r _ => fast_trees o r d (Some b) la' l) = (r', x) ->
      keeps r r' /\ x <> Diverge /\ (x = Ok FastFinished -> rd_finished r' = true)).
    { intros r4 b K4. destruct (add_to r4 b t) as [r5 y] eqn:EA2. apply add_keeps in EA2 as [K5 [_ ND]].
      destruct y; cbn [bind]; [|intros E; injection E as <- <-; split; [eapply keeps_trans; eauto|]; split; discriminate|congruence].
      intros E. apply IH in E as [E1 E2]. split; auto. eapply keeps_trans; [|exact E1]. eapply keeps_trans; eauto. }
    pose proof (fresh_keeps r3 d la') as KF. destruct (fresh_bundle r3 d la') as [r4 b4] eqn:EB. cbn [fst] in KF.
    destruct bundle as [b|]; [destruct add|]; apply STEP; auto; eapply keeps_trans; eauto.
  - apply IH.
Qed.
Lemma fast_left fl : forall r d r' x, rd_handle r <> None -> length (rd_files r) - rd_number r < fl -> fine r ->
  fast_files fl o r d = (r', x) ->
  x <> Diverge /\ fine r' /\ left r' <= left r /\ rd_files r' = rd_files r /\ (x = Ok true -> rd_finished r' = false -> left r' < left r) /\
  (x = Ok false -> left r' <= left r /\ rd_handle r' <> None).
Proof.
  induction fl as [|fl IH]; intros r d r' x HH HL HF; [lia|]. cbn [fast_files].
  destruct (rd_handle r) as [f|] eqn:EH; [|congruence]. pose proof HF as [HF1 [HF2 HF3]]. rewrite EH in HF2.
  destruct (f_batch f) as [[trees|e|]|] eqn:EB; try congruence;
    [|intros E; injection E as <- <-; split; [discriminate|]; split; auto; split; [lia|]; split; auto; split; [discriminate|]; intros Q; discriminate
     |intros E; injection E as <- <-; split; [discriminate|]; split; auto; split; [lia|]; split; auto; split; [discriminate|]; intros _; rewrite EH; split; auto].
  set (r1 := with_handle r (rd_number r) (Some (mkFile [] (Some (Ok []))))).
  assert (L1 : left r1 <= left r) by (unfold left, r1; cbn [with_handle rd_handle rd_number rd_files f_trees length]; lia).
  assert (F1 : fine r1) by (split; [apply HF1|split; [cbn; discriminate|exact HF3]]).
  destruct (first_newdoc trees) eqn:EN; [|intros E; injection E as <- <-; split; [discriminate|]; repeat split; auto; try discriminate; apply F1
     |unfold first_newdoc in EN; destruct trees as [|[|] ?]; discriminate].
  destruct (fast_trees o r1 d None [] trees) as [r2 y] eqn:ET. apply fast_keeps in ET as [K2 [ND FF]].
  pose proof (keeps_left _ _ K2) as KL. pose proof (keeps_fine _ _ K2 F1) as KF.
  assert (FI : rd_files r2 = rd_files r) by (destruct K2 as [_ [_ [K2 _]]]; auto).
  assert (NU : rd_number r2 = rd_number r) by (destruct K2 as [_ [K2 _]]; auto).
  destruct y as [[|]|e|]; cbn [bind]; [| | |congruence].
  - destruct (has_next r2) eqn:HN.
    + pose proof (next_left _ HN) as NL. pose proof (next_fine _ KF) as NF.
      destruct (rd_handle (next_handle r2)) eqn:NH.
      * destruct (o_merge o).
        { intros E. apply IH in E as [E1 [E2 [E3 [E4 [E5 E6]]]]]; [|congruence| |auto].
          - cbn in E4. split; auto. split; auto. split; [lia|]. split; [congruence|]. split; intros; [lia|split; [lia|apply E6; auto]].
          - unfold has_next in HN. apply Nat.ltb_lt in HN. cbn. rewrite FI, NU in *. lia. }
        { intros E. injection E as <- <-. split; [discriminate|]. split; auto. split; [lia|]. split; [cbn; auto|]. split; [intros; lia|discriminate]. }
      * intros E. injection E as <- <-. split; [discriminate|]. split; [exact NF|].
        assert (LL : left (with_finished (next_handle r2) true) = left (next_handle r2)) by reflexivity.
        split; [lia|]. split; [cbn; auto|]. split; [discriminate|discriminate].
    + unfold has_next in HN. apply Nat.ltb_ge in HN.
      assert (NH : rd_handle (next_handle r2) = None).
      { unfold next_handle. cbn [with_handle rd_handle]. destruct (rd_given r2 && (rd_number r2 =? 0)) eqn:NZ; [|now apply nth_error_None].
        apply andb_prop in NZ as [N1 N2]. apply Nat.eqb_eq in N2. destruct KF as [_ [_ KF]]. specialize (KF N1).
        destruct (rd_files r2); [congruence|]. cbn in HN. lia. }
      rewrite NH. intros E. injection E as <- <-. split; [discriminate|]. split; [apply (next_fine _ KF)|].
      split; [|split; [cbn; auto|split; discriminate]].
      assert (SK : skipn (S (rd_number r2)) (rd_files r2) = []) by (apply skipn_all2; lia).
      unfold left at 1, next_handle. cbn [with_finished rd_handle rd_number rd_files with_handle].
      change (if rd_given r2 && (rd_number r2 =? 0) then rd_handle r2 else nth_error (rd_files r2) (rd_number r2)) with (rd_handle (next_handle r2)).
      rewrite NH, SK. cbn. lia.
  - intros E. injection E as <- <-. split; [discriminate|]. split; auto. split; [lia|]. split; auto. split; [|discriminate].
    intros _ Q. rewrite FF in Q; [discriminate|auto].
  - intros E. injection E as <- <-. split; [discriminate|]. split; auto. split; [lia|]. split; auto. split; discriminate.
Qed.

Lemma take_keeps r d orig r' x : take_buffer r d orig = (r', x) -> keeps r r' /\ x <> Diverge.
Proof.
  unfold take_buffer. destruct (rd_buffer r) as [t|]; [|intros E; injection E as <- <-; repeat split; discriminate].
  cbv zeta.
  assert (STEP : forall r1 (orig1 : list nat) b, keeps r r1 -> bind (add_to r1 b t) (fun r _ =>
    ((if truthy (rd_newdoc r t) then with_docs r (S (rd_docs r)) else r), Ok (orig1, Some b))) = (r', x) -> keeps r r' /\ x <> Diverge).
  { intros r1 orig1 b K1. destruct (add_to r1 b t) as [r2 y] eqn:EA. apply add_keeps in EA as [K2 [_ ND]].
    pose proof (keeps_trans _ _ _ K1 K2) as K. destruct y; cbn [bind]; [|intros E; injection E as <- <-; split; [auto|discriminate]|congruence].
    intros E. injection E as <- <-. split; [|discriminate]. eapply keeps_trans; [exact K|]. destruct (truthy _); repeat split. }
  destruct orig as [|b orig].
  - destruct (create_bundle _ _) as [s1 b]. apply STEP. repeat split.
  - apply STEP. repeat split.
Qed.

Lemma process_left r d r' x : fine r -> process_document o r d = (r', x) ->
  x <> Diverge /\ fine r' /\ rd_files r' = rd_files r /\ (x = Ok tt -> rd_finished r' = false -> left r' < left r).
Proof.
  intros HF. unfold process_document.
  destruct (try_fast_load o r d) as [r1 y] eqn:ET.
  assert (T : y <> Diverge /\ fine r1 /\ rd_files r1 = rd_files r /\ (y = Ok true -> rd_finished r1 = false -> left r1 < left r) /\
    (y = Ok false -> left r1 <= left r)).
  { revert ET. unfold try_fast_load. destruct (_ || _ || _ || _).
    - intros E. injection E as <- <-. repeat split; try discriminate; auto; apply HF.
    - cbv zeta. assert (OP : fine (match rd_handle r with None => next_handle r | Some _ => r end) /\
        left (match rd_handle r with None => next_handle r | Some _ => r end) <= left r /\
        rd_files (match rd_handle r with None => next_handle r | Some _ => r end) = rd_files r).
      { destruct (rd_handle r) eqn:EH; [auto|]. split; [now apply next_fine|]. split; auto.
        destruct (has_next r) eqn:HN; [apply next_left in HN; lia|]. unfold has_next in HN. apply Nat.ltb_ge in HN.
        unfold left, next_handle. cbn [with_handle rd_handle rd_number rd_files]. rewrite (skipn_all2 (n := S (rd_number r))) by lia.
        replace (nth_error (rd_files r) (rd_number r)) with (@None (file A)) by (symmetry; now apply nth_error_None).
        rewrite EH. destruct (_ && _); cbn; lia. }
      destruct OP as [O1 [O2 O3]]. set (r0 := match rd_handle r with None => next_handle r | Some _ => r end) in *. clearbody r0.
      destruct (rd_handle r0) eqn:EH.
      + intros E. apply fast_left in E as [E1 [E2 [E3 [E4 [E5 E6]]]]]; [|congruence|lia|auto].
        split; auto. split; auto. split; [congruence|]. split; [intros Q1 Q2; specialize (E5 Q1 Q2); lia|]. intros Q; specialize (E6 Q); lia.
      + intros E. injection E as <- <-. split; [discriminate|]. split; [exact O1|]. split; [exact O3|]. split; [discriminate|discriminate]. }
  destruct T as [T1 [T2 [T3 [T4 T5]]]]. destruct y as [[|]| |]; cbn [bind].
  - intros E. injection E as <- <-. split; [discriminate|]. auto.
  - specialize (T5 eq_refl). destruct (take_buffer r1 d (d_bundles (rd_store r1) d)) as [r2 z] eqn:EB. apply take_keeps in EB as [K ND].
    pose proof (keeps_left _ _ K) as KL. pose proof (keeps_fine _ _ K T2) as KF.
    assert (FI : rd_files r2 = rd_files r) by (destruct K as [_ [_ [K _]]]; congruence).
    destruct z as [[orig bundle]| |]; cbn [bind]; [|intros E; injection E as <- <-; repeat split; try discriminate; auto; apply KF|congruence].
    assert (OP : fine (match rd_handle r2 with None => next_handle r2 | Some _ => r2 end) /\
        left (match rd_handle r2 with None => next_handle r2 | Some _ => r2 end) <= left r2 /\
        rd_files (match rd_handle r2 with None => next_handle r2 | Some _ => r2 end) = rd_files r2).
      { destruct (rd_handle r2) eqn:EH; [auto|]. split; [now apply next_fine|]. split; auto.
        destruct (has_next r2) eqn:HN; [apply next_left in HN; lia|]. unfold has_next in HN. apply Nat.ltb_ge in HN.
        unfold left, next_handle. cbn [with_handle rd_handle rd_number rd_files]. rewrite (skipn_all2 (n := S (rd_number r2))) by lia.
        replace (nth_error (rd_files r2) (rd_number r2)) with (@None (file A)) by (symmetry; now apply nth_error_None).
        rewrite EH. destruct (_ && _); cbn; lia. }
    destruct OP as [O1 [O2 O3]]. set (r0 := match rd_handle r2 with None => next_handle r2 | Some _ => r2 end) in *. clearbody r0.
    destruct (rd_handle r0) eqn:EH.
    + intros E. apply slow_left in E as [E1 [E2 [E3 [E4 E5]]]]; auto.
      * split; auto. split; auto. split; [congruence|]. intros Q1 Q2. specialize (E5 Q1 Q2 eq_refl). lia.
      * unfold left, fuel. rewrite EH.
        assert (LS : forall n (l : list (file A)), list_sum (map file_size (skipn n l)) <= list_sum (map file_size l)).
        { intros n l. rewrite <- (firstn_skipn n l) at 2. rewrite map_app, list_sum_app. lia. }
        specialize (LS (rd_number r0) (rd_files r0)). unfold file_size at 3. lia.
    + intros E. injection E as <- <-. split; [discriminate|]. split; [exact O1|]. split; [cbn; congruence|discriminate].
  - intros E. injection E as <- <-. split; [discriminate|]. split; auto. split; auto. discriminate.
  - congruence.
Qed.

(** The number of the trees of the files, and of the files. *)
Theorem reading_ends fl : forall r docs, fine r -> left r < fl -> snd (read_documents fl o no_after r docs) <> Diverge.
Proof.
  induction fl as [|fl IH]; intros r docs HF HL; [lia|]. cbn [read_documents].
  destruct (rd_finished r) eqn:FI; [discriminate|]. destruct (new_document (rd_store r)) as [s1 d] eqn:ED.
  destruct (process_document o (with_store r s1) d) as [r2 x] eqn:EP. apply process_left in EP as [E1 [E2 [E3 E4]]]; [|exact HF].
  destruct x as [[]| |]; cbn [bind]; [|discriminate|congruence]. unfold no_after at 1. cbn [bind].
  destruct (rd_finished r2) eqn:F2.
  - destruct fl; cbn [read_documents]; rewrite F2; discriminate.
  - apply IH; auto. specialize (E4 eq_refl eq_refl). change (left (with_store r s1)) with (left r) in E4. lia.
Qed.
Theorem reading_files_ends (files : list (file A)) fl : (forall f, In f files -> f_batch f <> Some Diverge) ->
  list_sum (map (fun f => S (length (f_trees f))) files) < fl ->
  snd (read_documents fl o no_after (new_reader files) []) <> Diverge.
Proof.
  intros H1 H2. apply reading_ends; [|exact H2]. split; [|split; [exact I|discriminate]]. unfold batches. now apply Forall_forall.
Qed.
End T.
