(** Proofs about util.Normalize. *)
From Coq Require Import String List NArith ZArith Bool Lia Sorting.Sorted Sorting.Permutation.
From Verif Require Import PyStr PyStrFacts PyList PyListFacts TreeModel TreeSpec EmptySpec DualDictModel DualDictSpec DualDictProofs CorefModel CorefSpec CorefSpan
  NormModel NormSpec.
Import ListNotations.
Local Open Scope Z_scope.

(** ---- sent_id ---- *)
Definition prefix_of (o : norm_opts) (stem : str) : str := if no_from_filename o then stem ++ no_prefix o else no_prefix o.
Lemma ids_run o stem : forall l n, no_reset o = false ->
  norm_bundles o stem n l = (n + Z.of_nat (length l), numbered_ids (prefix_of o stem) n (length l)).
Proof.
  induction l as [|b l IH]; intros n R; cbn [norm_bundles]; [cbn; f_equal; lia|]. unfold norm_bundle. rewrite R. cbn [andb].
  rewrite IH by auto. cbn [numbered_ids length]. unfold prefix_of. f_equal. lia.
Qed.
Lemma ids_reset o stem l n : no_reset o = true -> (forall b, In b l -> b = false) ->
  norm_bundles o stem n (true :: l) = (1 + Z.of_nat (S (length l)), numbered_ids (prefix_of o stem) 1 (S (length l))).
Proof.
  intros R F. cbn [norm_bundles]. unfold norm_bundle. rewrite R. cbn [andb].
  assert (H : forall l m, (forall b, In b l -> b = false) -> norm_bundles o stem m l = (m + Z.of_nat (length l), numbered_ids (prefix_of o stem) m (length l))).
  { clear. induction l as [|b l IH]; intros m F; cbn [norm_bundles]; [cbn; f_equal; lia|]. unfold norm_bundle. rewrite (F b) by (simpl; auto). rewrite andb_false_r.
    rewrite IH by (intros; apply F; simpl; auto). cbn [numbered_ids length]. unfold prefix_of. f_equal. lia. }
  rewrite H by auto. cbn [numbered_ids]. unfold prefix_of. f_equal. lia.
Qed.
Lemma ids_in p k : forall n x, In x (numbered_ids p n k) -> exists i, n <= i < n + Z.of_nat k /\ x = p ++ str_of_Z i.
Proof.
  induction k as [|k IH]; intros n x I; [destruct I|]. destruct I as [<-|I]; [exists n; split; [lia|auto]|]. apply IH in I as (i&A&B). exists i. split; [lia|auto].
Qed.
Lemma ids_distinct p k : forall n, 0 <= n -> NoDup (numbered_ids p n k).
Proof.
  induction k as [|k IH]; intros n H; cbn [numbered_ids]; constructor; [|apply IH; lia]. intros I. apply ids_in in I as (i&A&B).
  apply app_inv_head, str_of_Z_inj in B; lia.
Qed.
Lemma ids_app p k : forall n j, numbered_ids p n (k + j) = numbered_ids p n k ++ numbered_ids p (n + Z.of_nat k) j.
Proof.
  induction k as [|k IH]; intros n j; [cbn; f_equal; lia|]. cbn [Nat.add numbered_ids app]. rewrite IH. do 3 f_equal. lia.
Qed.
Definition total (docs : list (str * list bool)) : nat := fold_right (fun d n => (length (snd d) + n)%nat) O docs.
Lemma docs_run o : forall docs n, no_reset o = false -> no_from_filename o = false -> concat (norm_docs o n docs) = numbered_ids (no_prefix o) n (total docs).
Proof.
  induction docs as [|[stem l] docs IH]; intros n R F; [auto|]. cbn [norm_docs]. rewrite ids_run by auto. cbn [concat total fold_right snd].
  rewrite IH by auto. fold (total docs). rewrite ids_app. unfold prefix_of. rewrite F. auto.
Qed.
Lemma docs_each o : forall docs n, no_reset o = false ->
  exists starts, norm_docs o n docs = map (fun ds => numbered_ids (prefix_of o (fst (fst ds))) (snd ds) (length (snd (fst ds)))) (combine docs starts) /\
    length starts = length docs /\ (forall m, In m starts -> n <= m).
Proof.
  induction docs as [|[stem l] docs IH]; intros n R; [exists []; repeat split; auto; intros m []|]. cbn [norm_docs]. rewrite ids_run by auto.
  destruct (IH (n + Z.of_nat (length l)) R) as (st&E&L&G). exists (n :: st). cbn [combine map fst snd length]. rewrite E, L. repeat split; auto. intros m [<-|I]; [lia|]. apply G in I. lia.
Qed.
Lemma each_distinct o docs n : no_reset o = false -> 0 <= n -> forall ids, In ids (norm_docs o n docs) -> NoDup ids.
Proof.
  intros R H ids I. destruct (docs_each o docs n R) as (st&E&_&G). rewrite E in I. apply in_map_iff in I as ([d m]&<-&I). apply ids_distinct. apply in_combine_r, G in I. cbn [snd]. lia.
Qed.

(** ---- FEATS and MISC ---- *)
Lemma R_normalize lower d m : R lower d m -> R lower (dd_normalize d) (forget_text m).
Proof.
  intros (A&B&C&_). unfold R, dd_normalize, forget_text. rewrite deser_None. cbn. auto.
Qed.
Lemma normalize_mapping lower v d0 os os' : value_ok v -> dd_new v = Some d0 -> Forall op_ok os -> Forall op_ok os' ->
  exists m, initial v = Some m /\ answers lower (dd_normalize (fst (dd_run lower d0 os))) os' = snd (map_run lower (forget_text (fst (map_run lower m os))) os').
Proof.
  intros V D O O'. destruct (R_initial lower v d0 V D) as (m&I&H). exists m. split; auto.
  destruct (sim_run lower os d0 m H O) as [H1 H2]; try (apply R_normalize in H1); try (apply R_normalize in H2). apply (sim_run lower os' _ _ ltac:(eassumption) O').
Qed.

(** ---- ords of empty nodes ---- *)
Lemma kind_empty h x : is_empty h x = true <-> h_kind h x = KEmpty.
Proof. unfold is_empty. destruct (h_kind h x); split; congruence. Qed.
Lemma okey_pos h x : okey h x = position h x.
Proof. unfold okey, position, is_empty. destruct (h_kind h x); auto. Qed.
Inductive numbered (h : heap) : Z -> Z -> list nat -> Prop :=
| nb_nil n k : numbered h n k []
| nb_empty n k x l : h_kind h x = KEmpty -> h_eord h x = 10 * n + (k + 1) -> numbered h n (k + 1) l -> numbered h n k (x :: l)
| nb_word n k x l : h_kind h x <> KEmpty -> numbered h (h_ord h x) 0 l -> numbered h n k (x :: l).
Definition only_eord (h h' : heap) (l : list nat) : Prop :=
  h_next h' = h_next h /\ h_kind h' = h_kind h /\ h_ord h' = h_ord h /\ h_par h' = h_par h /\ h_ch h' = h_ch h /\ h_root h' = h_root h /\
  h_desc h' = h_desc h /\ h_emp h' = h_emp h /\ forall x, ~ In x l \/ h_kind h x <> KEmpty -> h_eord h' x = h_eord h x.
Lemma renumber_ok : forall l h n k, NoDup l -> only_eord h (renumber h n k l) l /\ numbered (renumber h n k l) n k l.
Proof.
  induction l as [|x l IH]; intros h n k ND; cbn [renumber]; [split; [repeat split; auto|constructor]|]. inversion ND; subst. destruct (is_empty h x) eqn:E.
  - apply kind_empty in E. set (h1 := put_eord h x (10 * n + (k + 1))). destruct (IH h1 n (k + 1) H2) as [(F1&F2&F3&F4&F5&F6&F7&F8&F9) N].
    set (h2 := renumber h1 n (k + 1) l) in *. split.
    + repeat split; auto. intros y [Y|Y].
      * rewrite F9 by (left; intros J; apply Y; simpl; auto). unfold h1. cbn. unfold upd. destruct (Nat.eqb_spec y x) as [->|]; auto. elim Y. simpl. auto.
      * rewrite F9 by auto. unfold h1. cbn. unfold upd. destruct (Nat.eqb_spec y x) as [->|]; auto. congruence.
    + apply nb_empty; auto; [rewrite F2; auto|]. rewrite F9 by auto. unfold h1. cbn. unfold upd. rewrite Nat.eqb_refl. auto.
  - assert (E' : h_kind h x <> KEmpty) by (intros X; apply kind_empty in X; congruence).
    destruct (IH h (h_ord h x) 0 H2) as [(F1&F2&F3&F4&F5&F6&F7&F8&F9) N]. set (h2 := renumber h (h_ord h x) 0 l) in *. split.
    + repeat split; auto. intros y [Y|Y]; apply F9; auto. left. intros J. apply Y. simpl. auto.
    + apply nb_word; [rewrite F2; auto|]. rewrite F3. auto.
Qed.
Lemma numbered_sorted h h' N : h_kind h' = h_kind h -> h_ord h' = h_ord h -> forall l n k, numbered h' n k l ->
  StronglySorted (fun a b => position h a < position h b) l -> 0 <= k -> 0 <= n <= N ->
  (forall w, In w l -> h_kind h w <> KEmpty -> n < h_ord h w <= N) ->
  (forall run post, l = run ++ post -> Forall (fun x => h_kind h x = KEmpty) run -> k + Z.of_nat (length run) <= 9) ->
  (forall pre run post, l = pre ++ run ++ post -> Forall (fun x => h_kind h x = KEmpty) run -> (length run <= 9)%nat) ->
  StronglySorted (key_lt (okey h')) l /\ (forall x, In x l -> 10 * n + k < okey h' x) /\
  (forall x, In x l -> h_kind h x = KEmpty -> exists m j, h_eord h' x = 10 * m + j /\ 1 <= j <= 9 /\ 0 <= m <= N).
Proof.
  intros K O. induction l as [|x l IH]; intros n k NB S K0 N0 W RU AR; [repeat split; try constructor; intros x []|]. apply StronglySorted_inv in S as [S' H2].
  assert (AR' : forall pre run post, l = pre ++ run ++ post -> Forall (fun x => h_kind h x = KEmpty) run -> (length run <= 9)%nat).
  { intros pre run post E F. apply (AR (x :: pre) run post); auto. rewrite E. auto. }
  rewrite Forall_forall in H2. inversion NB as [|n0 k0 x0 l0 H3 H4 H5|n0 k0 x0 l0 H3 H5]; subst.
  - rewrite K in H3.
    assert (K1 : k + 1 <= 9). { specialize (RU [x] l eq_refl ltac:(auto)). cbn in RU. lia. }
    destruct (IH n (k + 1)) as (A&B&C); auto; [lia|intros w I Q; apply W; simpl; auto| |].
    { intros run post E F. specialize (RU (x :: run) post). cbn [app length] in RU. rewrite E in RU. specialize (RU eq_refl ltac:(auto)). lia. }
    assert (KX : okey h' x = 10 * n + (k + 1)). { unfold okey. assert (is_empty h' x = true) as -> by (apply kind_empty; rewrite K; auto). auto. }
    split; [|split].
    + constructor; auto. apply Forall_forall. intros y I. unfold key_lt. rewrite KX. specialize (B y I). lia.
    + intros y [<-|I]; [lia|]. specialize (B y I). lia.
    + intros y [<-|I] Q; [|auto]. exists n, (k + 1). repeat split; auto; lia.
  - rewrite K in H3. pose proof (W x ltac:(simpl; auto) H3) as WX. rewrite O in H5.
    assert (K1 : k <= 9). { specialize (RU [] (x :: l) eq_refl ltac:(auto)). cbn in RU. lia. }
    assert (PX : position h x = 10 * h_ord h x) by (unfold position; destruct (h_kind h x); congruence).
    destruct (IH (h_ord h x) 0) as (A&B&C); auto; [lia|lia| | |].
    { intros w I Q. split; [|apply W; simpl; auto]. specialize (H2 w I). rewrite PX in H2. unfold position in H2. destruct (h_kind h w); try congruence; lia. }
    { intros run post E F. specialize (AR' [] run post E F). lia. }
    assert (KX : okey h' x = 10 * h_ord h x). { rewrite okey_pos. unfold position. rewrite K, O. destruct (h_kind h x); congruence. }
    split; [|split].
    + constructor; auto. apply Forall_forall. intros y I. unfold key_lt. rewrite KX. specialize (B y I). lia.
    + intros y [<-|I]; [lia|]. specialize (B y I). lia.
    + intros y [<-|I] Q; [congruence|auto].
Qed.
Lemma consistent_keep h h' r : (h_next h <= h_next h')%nat -> h_kind h' = h_kind h -> h_ord h' = h_ord h -> h_par h' = h_par h -> h_ch h' = h_ch h -> h_root h' = h_root h ->
  h_desc h' = h_desc h -> consistent h r -> consistent h' r.
Proof.
  intros E1 E2 E3 E4 E5 E6 E7 C. destruct h as [a b c d e f g i j], h' as [a' b' c' d' e' f' g' i' j']. cbn in *. subst. destruct C.
  assert (UP : forall x y, up (mkHeap a b c d e f g i j) x y -> up (mkHeap a' b c d e f g i' j') x y).
  { induction 1; [apply up_1; auto|eapply up_S; eauto]. }
  constructor; auto. intros y L. specialize (c_alloc y L). cbn in *. lia.
Qed.
Lemma same_order (f g : nat -> Z) : forall l x y, StronglySorted (key_lt f) l -> StronglySorted (key_lt g) l -> In x l -> In y l -> f x < f y -> g x < g y.
Proof.
  induction l as [|z l IH]; intros x y F G Ix Iy L; [destruct Ix|]. inversion F; subst. inversion G; subst. rewrite Forall_forall in *. unfold key_lt in *.
  destruct Ix as [<-|Ix], Iy as [<-|Iy]; auto; try lia. exfalso. repeat match goal with H : forall x, In x _ -> _ |- _ => pose proof (H _ Ix); revert H end. intros. lia.
Qed.
Lemma numbered_run h : forall l n k, numbered h n k l -> forall run e post, l = run ++ e :: post -> Forall (fun x => h_kind h x = KEmpty) (run ++ [e]) ->
  h_eord h e = 10 * n + k + Z.of_nat (length run) + 1.
Proof.
  induction l as [|x l IH]; intros n k NB run e post E F; [destruct run; discriminate|].
  destruct run as [|y run]; cbn [app] in *; injection E as -> E; inversion F; subst; inversion NB; subst; try congruence.
  - cbn [length]. change (Z.of_nat 0) with 0. lia.
  - rewrite (IH n (k + 1) H7 run e post) by auto. cbn [length]. lia.
Qed.
Lemma numbered_skip h : forall pre n k l, numbered h n k (pre ++ l) -> (forall p x, pre = p ++ [x] -> h_kind h x <> KEmpty) ->
  pre = [] \/ numbered h (match rev pre with [] => 0 | w :: _ => h_ord h w end) 0 l.
Proof.
  induction pre as [|x pre IH]; intros n k l NB LW; [auto|]. right. cbn [app] in NB.
  destruct pre as [|y pre].
  - inversion NB; subst; [|auto]. elim (LW [] x); auto.
  - assert (LW' : forall p z, y :: pre = p ++ [z] -> h_kind h z <> KEmpty). { intros p z E. apply (LW (x :: p)). rewrite E. auto. }
    assert (X : exists n' k', numbered h n' k' ((y :: pre) ++ l)) by (inversion NB; eauto). destruct X as (n'&k'&X). destruct (IH n' k' l X LW') as [|Q]; [discriminate|].
    change (rev (x :: y :: pre)) with (rev (y :: pre) ++ [x]). destruct (rev (y :: pre)) as [|w q] eqn:RE; [|exact Q].
    apply (f_equal (@length nat)) in RE. rewrite rev_length in RE. discriminate.
Qed.
Lemma empty_ords_ok h r : consistent h r -> good_empties h r -> short_runs h (descendants_and_empty h r) ->
  let h' := norm_empty_ords h r in
  descendants_and_empty h' r = descendants_and_empty h r /\ ids_in_order h' (descendants_and_empty h' r) /\ good_empties h' r /\ consistent h' r /\
  (forall x, ~ In x (h_emp h r) -> h_eord h' x = h_eord h x) /\
  h_kind h' = h_kind h /\ h_ord h' = h_ord h /\ h_par h' = h_par h /\ h_ch h' = h_ch h /\ h_desc h' = h_desc h /\ h_emp h' = h_emp h.
Proof.
  intros C G SR. cbv zeta. unfold norm_empty_ords. set (l := descendants_and_empty h r) in *.
  destruct (dae_order h r C G) as [S M]. fold l in S, M. unfold increasing in S.
  assert (ND : NoDup l). { apply (Permutation_NoDup (Permutation_sym (sort_on_perm _ _))). apply tree_nodup; auto. }
  destruct (renumber_ok l h 0 0 ND) as [(F1&F2&F3&F4&F5&F6&F7&F8&F9) NB]. set (h' := renumber h 0 0 l) in *.
  set (N := Z.of_nat (length (h_desc h r))).
  assert (WK : forall w, In w l -> h_kind h w <> KEmpty -> In w (h_desc h r)). { intros w I Q. apply M in I as [I|I]; auto. elim Q. apply (ge_kind _ _ G); auto. }
  destruct (numbered_sorted h h' N F2 F3 l 0 0 NB S) as (A&B&D); try lia.
  { intros w I Q. apply WK in I; auto. assert (J : In (h_ord h w) (map Z.of_nat (seq 1 (length (h_desc h r))))) by (rewrite <- (c_ords _ _ C); apply in_map; auto).
    apply in_map_iff in J as (j&<-&J). apply in_seq in J. unfold N. lia. }
  { intros run post E F. specialize (SR [] run post E F). lia. }
  { exact SR. }
  assert (EL : forall e, In e (h_emp h r) -> In e l) by (intros e I; apply M; right; auto).
  assert (KE : forall e, In e (h_emp h r) -> okey h' e = h_eord h' e).
  { intros e I. unfold okey. assert (is_empty h' e = true) as ->; [|auto]. apply kind_empty. rewrite F2. apply (ge_kind _ _ G); auto. }
  assert (DL : descendants_and_empty h' r = l).
  { unfold descendants_and_empty. rewrite F7, F8. apply sort_on_unique; auto. symmetry. apply sort_on_perm. }
  assert (S0 : StronglySorted (key_lt (okey h)) l). { revert S. clear. induction 1; constructor; auto. rewrite Forall_forall in *. intros y I. unfold key_lt. rewrite !okey_pos. auto. }
  split; [exact DL|]. split; [|split; [|split]].
  - rewrite DL. intros pre run e post E F LW. assert (PE : position h' e = h_eord h' e).
    { apply Forall_app in F as [_ F]. inversion F; subst. unfold position. rewrite H1. auto. }
    rewrite PE. fold h' in NB. rewrite E in NB. destruct (numbered_skip h' pre 0 0 _ NB LW) as [->|Q].
    + rewrite (numbered_run h' _ 0 0 NB run e post) by auto. cbn. lia.
    + rewrite (numbered_run h' _ _ 0 Q run e post) by auto. lia.
  - destruct G. constructor; rewrite ?F8, ?F7.
    + revert ge_sorted. assert (I : incl (h_emp h r) (h_emp h r)) by (intros x; auto). revert I. generalize (h_emp h r) at 1 3 4. intros q I Q. induction Q as [|e q Q IH H]; constructor.
      * apply IH. intros y J. apply I. simpl. auto.
      * rewrite Forall_forall in *. intros y J. assert (Ie : In e (h_emp h r)) by (apply I; simpl; auto). assert (Iy : In y (h_emp h r)) by (apply I; simpl; auto).
        rewrite <- (KE e Ie), <- (KE y Iy). apply (same_order (okey h) (okey h') l); auto. specialize (H y J). unfold okey.
        assert (is_empty h e = true) as -> by (apply kind_empty; auto). assert (is_empty h y = true) as -> by (apply kind_empty; auto). auto.
    + intros e I. destruct (D e (EL e I) (ge_kind e I)) as (m&j&->&J1&J2). rewrite Z.add_comm, Z.mul_comm, Z_mod_plus_full, Z.mod_small; lia.
    + intros e I. destruct (D e (EL e I) (ge_kind e I)) as (m&j&->&J1&J2). fold N. lia.
    + intros e I. rewrite F2. auto.
    + intros e I. rewrite F1. auto.
    + intros e I. rewrite F6. auto.
  - apply (consistent_keep h h'); auto. lia.
  - split; [|auto 10]. intros x I. destruct (in_dec Nat.eq_dec x l) as [J|J]; [|apply F9; auto].
    apply F9. right. intros Q. apply M in J as [J|J]; auto. pose proof (proj1 (c_kinds _ _ C) x J). congruence.
Qed.

Lemma total_flat docs : total docs = length (flat_map snd docs).
Proof. induction docs as [|d docs IH]; [auto|]. cbn [total fold_right flat_map]. fold (total docs). rewrite app_length, IH. auto. Qed.
Lemma ids_length p k : forall n, length (numbered_ids p n k) = k.
Proof. induction k; intros n; cbn; auto. Qed.
Lemma docs_lengths o : forall docs n, no_reset o = false -> map (@length str) (norm_docs o n docs) = map (fun d => length (snd d)) docs.
Proof. induction docs as [|[stem l] docs IH]; intros n R; [auto|]. cbn [norm_docs]. rewrite ids_run by auto. cbn [map snd]. rewrite ids_length, IH; auto. Qed.
Lemma ids_prop o docs n : no_reset o = false -> no_from_filename o = false ->
  concat (norm_docs o n docs) = numbered_ids (no_prefix o) n (length (flat_map snd docs)) /\
  map (@length str) (norm_docs o n docs) = map (fun d => length (snd d)) docs /\
  (0 <= n -> NoDup (concat (norm_docs o n docs))).
Proof.
  intros R F. rewrite docs_run, total_flat by auto. split; auto. split; [apply docs_lengths; auto|]. intros H. apply ids_distinct; auto.
Qed.
Lemma ids_file o stem l n : no_reset o = false -> no_from_filename o = true -> 0 <= n ->
  snd (norm_bundles o stem n l) = numbered_ids (stem ++ no_prefix o) n (length l) /\ NoDup (snd (norm_bundles o stem n l)).
Proof. intros R F H. rewrite ids_run by auto. cbn [snd]. unfold prefix_of. rewrite F. split; auto. apply ids_distinct; auto. Qed.
Lemma ids_reset_file o stem l n : no_reset o = true -> no_from_filename o = true -> (forall b, In b l -> b = false) ->
  snd (norm_bundles o stem n (true :: l)) = numbered_ids (stem ++ no_prefix o) 1 (S (length l)) /\ NoDup (snd (norm_bundles o stem n (true :: l))).
Proof. intros R F H. rewrite ids_reset by auto. cbn [snd]. unfold prefix_of. rewrite F. split; auto. apply ids_distinct. lia. Qed.
