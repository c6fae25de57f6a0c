(** Proofs about enhanced dependencies. *)
From Coq Require Import String List NArith ZArith Bool Lia Sorting.Sorted.
From Verif Require Import PyStr PyStrFacts PyList PyListFacts PyExn TreeModel TreeSpec TreeFacts TreeRepr TreeOps TreeCalls TreeProps EmptySpec EmptyProofs DepsModel DepsSpec.
Import ListNotations.

Lemma digits_notin n c : (0 <= n)%Z -> is_digit c = false -> ~ In c (str_of_Z n).
Proof.
  intros H D Hin. destruct (str_of_Z_nonneg n H) as [F _]. rewrite forallb_forall in F. rewrite (F c Hin) in D. discriminate.
Qed.

Lemma root_of h r x : consistent h r -> good_empties h r -> any_node h r x -> h_root h x = r.
Proof. intros C G [L|E]; [apply (c_roots h r C); auto|apply (ge_root h r G); auto]. Qed.
Lemma not_empty h r x : consistent h r -> live h r x -> is_empty h x = false.
Proof.
  intros C L. unfold is_empty. destruct (c_kinds h r C) as [K1 K2].
  destruct L as [->|L]; [rewrite K2; auto|rewrite K1; auto].
Qed.
Lemma emp_is_empty h r x : good_empties h r -> In x (h_emp h r) -> is_empty h x = true.
Proof. intros G L. unfold is_empty. rewrite (ge_kind h r G); auto. Qed.
Lemma ord_nonneg h r x : consistent h r -> live h r x -> (0 <= h_ord h x)%Z.
Proof.
  intros C L. pose proof (node_ord _ _ (consistent_Repr h r C) x) as N. apply N. destruct L as [->|L]; [left|right]; auto.
Qed.

(** IDs contain neither ':' nor '|', and an empty node's ID contains a dot. *)
Lemma id_clean h r x c : consistent h r -> good_empties h r -> any_node h r x -> is_digit c = false -> c <> 46%N -> ~ In c (id_str h x).
Proof.
  intros C G L D N. unfold id_str. destruct L as [L|L].
  - rewrite (not_empty h r x C L). apply digits_notin; auto. eapply ord_nonneg; eauto.
  - rewrite (emp_is_empty h r x G L). destruct (ge_range h r G x L) as [R _].
    rewrite !in_app_iff. simpl. intros [H|[[H|[]]|H]].
    + revert H. apply digits_notin; auto. apply Z.div_pos; lia.
    + congruence.
    + revert H. apply digits_notin; auto. apply Z.mod_pos_bound. lia.
Qed.
Lemma id_dot h r x : good_empties h r -> In x (h_emp h r) -> In 46%N (id_str h x).
Proof. intros G L. unfold id_str. rewrite (emp_is_empty h r x G L). apply in_app_iff. right. left. reflexivity. Qed.
Lemma id_nodot h r x : consistent h r -> live h r x -> ~ In 46%N (id_str h x) /\ py_int (id_str h x) = Some (h_ord h x).
Proof.
  intros C L. unfold id_str. rewrite (not_empty h r x C L). pose proof (ord_nonneg h r x C L).
  split; [apply digits_notin; auto|apply py_int_str_of_Z; auto].
Qed.
Lemma id_denotes h r x : consistent h r -> good_empties h r -> any_node h r x -> denotes h r (id_str h x) x.
Proof.
  intros C G [L|L]; [right|left].
  - destruct (id_nodot h r x C L). auto.
  - split; [eapply id_dot; eauto|auto].
Qed.

Lemma sorted_eord_inj h l : StronglySorted (fun a b => (h_eord h a < h_eord h b)%Z) l ->
  forall x y, In x l -> In y l -> h_eord h x = h_eord h y -> x = y.
Proof.
  induction 1 as [|a l S IH F]; [intros x y []|]. rewrite Forall_forall in F.
  intros x y [->|Hx] [->|Hy] E; auto.
  - specialize (F y Hy). lia.
  - specialize (F x Hx). lia.
Qed.
Lemma emp_id_inj h r x y : good_empties h r -> In x (h_emp h r) -> In y (h_emp h r) -> id_str h x = id_str h y -> x = y.
Proof.
  intros G Hx Hy E. apply (sorted_eord_inj h _ (ge_sorted h r G)); auto.
  unfold id_str in E. rewrite (emp_is_empty h r x G Hx), (emp_is_empty h r y G Hy) in E.
  destruct (ge_range h r G x Hx) as [Rx _], (ge_range h r G y Hy) as [Ry _].
  assert (Qx : (0 <= h_eord h x / 10)%Z) by (apply Z.div_pos; lia).
  assert (Qy : (0 <= h_eord h y / 10)%Z) by (apply Z.div_pos; lia).
  assert (Mx := Z.mod_pos_bound (h_eord h x) 10 ltac:(lia)).
  assert (My := Z.mod_pos_bound (h_eord h y) 10 ltac:(lia)).
  change (s ".") with [46%N] in E. cbn [app] in E.
  pose proof (split1_app 46%N (str_of_Z (h_eord h x / 10)) (str_of_Z (h_eord h x mod 10)) ltac:(apply digits_notin; auto)) as S1.
  pose proof (split1_app 46%N (str_of_Z (h_eord h y / 10)) (str_of_Z (h_eord h y mod 10)) ltac:(apply digits_notin; auto)) as S2.
  rewrite E, S2 in S1. injection S1 as E1 E2.
  apply str_of_Z_inj in E1; auto. apply str_of_Z_inj in E2; try lia.
  rewrite (Z.div_mod (h_eord h x) 10), (Z.div_mod (h_eord h y) 10) by lia. lia.
Qed.

(** Looking up a head. *)
Lemma nth_live h r i p : consistent h r -> nth_error (r :: h_desc h r) i = Some p -> live h r p /\ h_ord h p = Z.of_nat i.
Proof.
  intros C. pose proof (consistent_Repr h r C) as R. destruct i as [|i]; cbn.
  - intros [= <-]. split; [left; auto|apply (c_ord0 h r C)].
  - intros E. split; [right; eapply nth_error_In; eauto|].
    pose proof (r_ord h (abs h r) R i p E). lia.
Qed.
Lemma live_nth h r p : consistent h r -> live h r p -> nth_error (r :: h_desc h r) (Z.to_nat (h_ord h p)) = Some p.
Proof.
  intros C L. assert (In p (r :: h_desc h r)) as Hin by (destruct L as [->|L]; [left|right]; auto).
  destruct (In_nth_error _ _ Hin) as [i E]. destruct (nth_live h r i p C E) as [_ ->]. now rewrite Nat2Z.id.
Qed.
Lemma find_emp h r head p : good_empties h r -> In p (h_emp h r) -> id_str h p = head ->
  find (fun e => str_eqb (id_str h e) head) (h_emp h r) = Some p.
Proof.
  intros G Hp E. destruct (find _ _) as [e|] eqn:F.
  - apply find_some in F as [He Q]. apply str_eqb_eq in Q. f_equal. eapply emp_id_inj; eauto. congruence.
  - exfalso. apply (find_none _ _ F p) in Hp. cbv beta in Hp. rewrite E, str_eqb_refl in Hp. discriminate.
Qed.
Lemma head_denotes h r x head p : consistent h r -> good_empties h r -> h_root h x = r ->
  denotes h r head p -> head_node h x head = Ok p.
Proof.
  intros C G R [[D [Hp E]]|[D [Hp E]]]; unfold head_node; rewrite R.
  - apply has_char_In in D as ->. rewrite (find_emp h r head p); auto.
  - apply has_char_false in D as ->. rewrite E.
    rewrite py_nth_nonneg by (eapply ord_nonneg; eauto). rewrite live_nth; auto.
Qed.
Lemma head_back h r x head p : consistent h r -> good_empties h r -> h_root h x = r ->
  head_node h x head = Ok p -> denotes h r head p \/ exists z, py_int head = Some z /\ (z < 0)%Z.
Proof.
  intros C G R. unfold head_node. rewrite R. destruct (has_char 46%N head) eqn:D.
  - destruct (find _ _) as [e|] eqn:F; [|discriminate]. intros [= <-]. left. left.
    apply find_some in F as [He Q]. apply str_eqb_eq in Q. apply has_char_In in D. auto.
  - destruct (py_int head) as [z|] eqn:I; [|discriminate].
    destruct (Z.ltb_spec z 0); [intros _; right; eauto|].
    rewrite py_nth_nonneg by auto. destruct (nth_error _ _) as [n|] eqn:N; [|discriminate]. intros [= <-].
    left. right. destruct (nth_live h r _ _ C N) as [L O]. split; [now apply has_char_false|]. split; auto. rewrite O, Z2Nat.id; auto.
Qed.
Lemma head_total h x head : (exists p, head_node h x head = Ok p) \/ head_node h x head = Raise ValueError \/ head_node h x head = Raise IndexError.
Proof.
  unfold head_node. destruct (has_char _ _); [destruct (find _ _); eauto|].
  destruct (py_int _); auto. destruct (py_nth _ _); eauto.
Qed.

(** The loop over the pieces. *)
Lemma piece_split h r piece pd : piece_of h r piece pd -> exists head, split1 58%N piece = Some (head, snd pd) /\ denotes h r head (fst pd).
Proof. intros [head [-> [N D]]]. exists head. split; auto. change (s ":") with [58%N]. cbn [app]. now apply split1_app. Qed.
Lemma parse_ok h r x pieces l : consistent h r -> good_empties h r -> h_root h x = r ->
  Forall2 (piece_of h r) pieces l -> forall acc, parse_deps h x acc pieces = (acc ++ l, Ok tt).
Proof.
  intros C G R F. induction F as [|p [n d] ps l P F IH]; intros acc; cbn [parse_deps].
  - now rewrite app_nil_r.
  - destruct (piece_split _ _ _ _ P) as [head [-> D]]. cbn [snd] in *. rewrite (head_denotes h r x head n C G R D).
    rewrite IH, <- app_assoc. reflexivity.
Qed.
Lemma parse_total h r x pieces : consistent h r -> good_empties h r -> h_root h x = r ->
  (forall p, In p pieces -> ~ negative_head p) -> forall acc,
  (exists l, Forall2 (piece_of h r) pieces l /\ parse_deps h x acc pieces = (acc ++ l, Ok tt)) \/
  ((exists l, parse_deps h x acc pieces = (l, Raise ValueError) \/ parse_deps h x acc pieces = (l, Raise IndexError)) /\
   forall l, ~ Forall2 (piece_of h r) pieces l).
Proof.
  intros C G R. induction pieces as [|p ps IH]; intros N acc; cbn [parse_deps].
  - left. exists []. split; [constructor|now rewrite app_nil_r].
  - destruct (split1 58%N p) as [[head d]|] eqn:S.
    + destruct (head_total h x head) as [[n E]|[E|E]]; rewrite E.
      * apply split1_Some in S as [Ep Hc]. assert (Q : p = head ++ s ":" ++ d) by exact Ep.
        destruct (head_back h r x head n C G R E) as [D|[z [I Z0]]].
        2:{ exfalso. apply (N p); [left; auto|]. exists head, d, z. auto. }
        destruct (IH (fun q H => N q (or_intror H)) (acc ++ [(n, d)])) as [[l [F El]]|[El NF]].
        -- left. exists ((n, d) :: l). split; [|rewrite El, <- app_assoc; reflexivity].
           constructor; auto. exists head. auto.
        -- right. split; [exact El|]. intros l F. inversion F; subst. eapply NF; eauto.
      * right. split; [eauto|]. intros l F. inversion F as [|? y ? ? P].
        destruct (piece_split _ _ _ _ P) as [head' [S' D]]. rewrite S in S'. injection S' as <- _.
        rewrite (head_denotes h r x _ _ C G R D) in E. discriminate.
      * right. split; [eauto|]. intros l F. inversion F as [|? y ? ? P].
        destruct (piece_split _ _ _ _ P) as [head' [S' D]]. rewrite S in S'. injection S' as <- _.
        rewrite (head_denotes h r x _ _ C G R D) in E. discriminate.
    + right. split; [eauto|]. intros l F. inversion F as [|? y ? ? P].
      destruct (piece_split _ _ _ _ P) as [head' [S' D]]. congruence.
Qed.

(** ---- C20 ---- *)
Lemma column_join h l : deps_column h l = deps_str h l.
Proof.
  unfold deps_str. induction l as [|[p d] l IH]; auto. cbn [deps_column map join fst snd].
  destruct l as [|q l]; auto. rewrite IH. cbn [map]. rewrite <- !app_assoc. reflexivity.
Qed.
Lemma column_split h r l : consistent h r -> good_empties h r -> expressible h r l ->
  split 124%N (deps_column h l) = map (fun pd => id_str h (fst pd) ++ s ":" ++ snd pd) l.
Proof.
  intros C G [NE X]. rewrite column_join. unfold deps_str. change (s "|") with [124%N]. apply split_join.
  - destruct l; [congruence|discriminate].
  - intros y Hy. apply in_map_iff in Hy as [[p d] [<- Hin]]. destruct (X p d Hin) as [A B]. cbn [fst snd].
    rewrite !in_app_iff. intros [H|[H|H]].
    + revert H. eapply id_clean; eauto. discriminate.
    + destruct H as [H|[]]. discriminate.
    + auto.
Qed.
Lemma column_pieces h r l : consistent h r -> good_empties h r -> expressible h r l ->
  Forall2 (piece_of h r) (split 124%N (deps_column h l)) l.
Proof.
  intros C G X. rewrite (column_split h r); auto. destruct X as [_ X]. induction l as [|[p d] l IH]; cbn; constructor.
  - exists (id_str h p). cbn [fst snd]. destruct (X p d) as [A _]; [left; auto|]. split; [reflexivity|]. split.
    + eapply id_clean; eauto. discriminate.
    + apply id_denotes; auto.
  - apply IH. intros; apply X; right; auto.
Qed.
Lemma column_not_us h r l : consistent h r -> good_empties h r -> expressible h r l -> str_eqb (deps_column h l) (s "_") = false.
Proof.
  intros C G X. apply str_eqb_neq. intros E.
  pose proof (column_pieces h r l C G X) as F. rewrite E in F. change (split 124%N (s "_")) with [s "_"] in F.
  inversion F as [|? ? ? ? [head [E2 _]]]; subst.
  destruct head as [|a head]; cbn in E2; [discriminate|]. injection E2 as _ E2. destruct head; discriminate.
Qed.

Lemma upd_eq {A} (f : nat -> A) k v : upd f k v k = v.
Proof. unfold upd. now rewrite Nat.eqb_refl. Qed.
Lemma upd_neq {A} (f : nat -> A) k v x : x <> k -> upd f k v x = f x.
Proof. unfold upd. intros N. destruct (Nat.eqb_spec x k); congruence. Qed.

Lemma deps_round_trip st r x l : consistent (s_h st) r -> good_empties (s_h st) r -> any_node (s_h st) r x ->
  expressible (s_h st) r l -> s_raw st x = Some (deps_column (s_h st) l) -> s_deps st x = None ->
  exists st', deps st x = (st', Ok (DList l)) /\ s_h st' = s_h st /\
    snd (raw_deps st' x) = Ok (Some (deps_column (s_h st) l)) /\
    (forall y, y <> x -> s_deps st' y = s_deps st y /\ s_raw st' y = s_raw st y).
Proof.
  intros C G A X Er Ed. unfold deps. rewrite Ed, Er, (column_not_us _ r); auto.
  pose proof (parse_ok (s_h st) r x _ _ C G (root_of _ r x C G A) (column_pieces _ r l C G X) []) as P.
  cbn [app] in P. rewrite P. eexists. split; [reflexivity|]. split; [reflexivity|]. split.
  - unfold raw_deps. cbn [put_deps s_deps s_h]. rewrite upd_eq. rewrite column_join. destruct l as [|q l]; [destruct X; congruence|].
    reflexivity.
  - intros y N. cbn. rewrite upd_neq by auto. auto.
Qed.

Lemma deps_written st r x l : consistent (s_h st) r -> good_empties (s_h st) r -> any_node (s_h st) r x ->
  expressible (s_h st) r l -> s_deps st x = Some (DList l) ->
  exists st', raw_deps st x = (st', Ok (Some (deps_column (s_h st) l))) /\ s_deps st' = s_deps st /\ s_h st' = s_h st /\
    snd (deps (set_raw_deps st' x (Some (deps_column (s_h st) l))) x) = Ok (DList l).
Proof.
  intros C G A X Ed. unfold raw_deps. rewrite Ed. destruct l as [|q l]; [destruct X; congruence|].
  rewrite <- (column_join (s_h st)). eexists. split; [reflexivity|]. split; [reflexivity|]. split; [reflexivity|].
  edestruct (deps_round_trip (set_raw_deps (put_raw st x (Some (deps_column (s_h st) (q :: l)))) x (Some (deps_column (s_h st) (q :: l)))) r x (q :: l))
    as [st' [E _]]; auto.
  - cbn. now rewrite upd_eq.
  - cbn. now rewrite upd_eq.
  - cbn in E |- *. rewrite E. reflexivity.
Qed.

(** ---- C60 ---- *)
Lemma deps_first st r x raw : consistent (s_h st) r -> good_empties (s_h st) r -> any_node (s_h st) r x ->
  s_raw st x = Some raw -> s_deps st x = None -> raw <> s "_" ->
  (forall p, In p (split 124%N raw) -> ~ negative_head p) ->
  (exists l, Forall2 (piece_of (s_h st) r) (split 124%N raw) l /\ snd (deps st x) = Ok (DList l)) \/
  ((snd (deps st x) = Raise ValueError \/ snd (deps st x) = Raise IndexError) /\
   forall l, ~ Forall2 (piece_of (s_h st) r) (split 124%N raw) l).
Proof.
  intros C G A Er Ed Nu N. unfold deps. rewrite Ed, Er. apply str_eqb_neq in Nu as ->.
  destruct (parse_total (s_h st) r x _ C G (root_of _ r x C G A) N []) as [[l [F E]]|[[l [E|E]] NF]]; rewrite E.
  - left. exists l. cbn [app snd]. auto.
  - right. cbn. auto.
  - right. cbn. auto.
Qed.

(** ---- C61, C62 ---- *)
Lemma close_gap_fields h e : let h' := close_gap h e in
  h_next h' = h_next h /\ h_kind h' = h_kind h /\ h_ord h' = h_ord h /\ h_par h' = h_par h /\ h_ch h' = h_ch h /\
  h_root h' = h_root h /\ h_desc h' = h_desc h /\ h_emp h' = h_emp h.
Proof.
  cbv zeta. unfold close_gap. set (l := filter _ _). clearbody l. revert h. induction l as [|a l IH]; intros h; cbn [fold_left]; [auto 10|].
  destruct (IH (put_eord h a (h_eord h a - 1)%Z)) as (A & B & C & D & E & F & G & H). rewrite A, B, C, D, E, F, G, H. auto 10.
Qed.
Lemma dec_all l : forall h, NoDup l -> forall y, h_eord (fold_left (fun h' e => put_eord h' e (h_eord h' e - 1)%Z) l h) y =
  if mem y l then (h_eord h y - 1)%Z else h_eord h y.
Proof.
  induction l as [|a l IH]; intros h ND y; cbn [fold_left]; auto.
  inversion ND as [|? ? N1 N2]; subst. rewrite IH by auto. cbn [mem existsb]. cbn [put_eord set_eord h_eord].
  destruct (Nat.eqb_spec y a) as [->|Ny]; cbn [orb].
  - assert (M : mem a l = false) by (destruct (mem a l) eqn:M; auto; unfold mem in M; rewrite existsb_exists in M; destruct M as [z [Hz Q]]; apply Nat.eqb_eq in Q; subst; contradiction).
    rewrite M, upd_eq. auto.
  - rewrite upd_neq by auto. reflexivity.
Qed.
Lemma close_gap_eord h e y : NoDup (h_emp h (h_root h e)) -> In y (h_emp h (h_root h e)) ->
  h_eord (close_gap h e) y = if (h_eord h e <? h_eord h y)%Z && (h_eord h y <? h_eord h e + 10)%Z then (h_eord h y - 1)%Z else h_eord h y.
Proof.
  intros ND Hy. unfold close_gap. rewrite dec_all by (apply NoDup_filter; auto).
  destruct (mem y _) eqn:M.
  - unfold mem in M. rewrite existsb_exists in M. destruct M as [z [Hz Q]]. apply Nat.eqb_eq in Q; subst z.
    apply filter_In in Hz as [_ ->]. auto.
  - destruct (_ && _) eqn:Q; auto. exfalso. apply not_true_iff_false in M. apply M. unfold mem. rewrite existsb_exists.
    exists y. rewrite Nat.eqb_refl. split; auto. apply filter_In. auto.
Qed.
Lemma drop_all_fields l : forall st, s_h (drop_all st l) = s_h st /\ s_raw (drop_all st l) = s_raw st /\
  forall y, s_deps (drop_all st l) y = if mem y l then drop_deps (s_deps st y) else s_deps st y.
Proof.
  assert (DD : forall v, drop_deps (drop_deps v) = drop_deps v) by (intros [[[|]|]|]; auto).
  induction l as [|a l IH]; intros st; cbn [drop_all]; auto.
  destruct (IH (put_deps st a (drop_deps (s_deps st a)))) as [A [B C]]. rewrite A, B. split; auto. split; auto.
  intros y. rewrite C. cbn [put_deps s_deps mem existsb]. fold (mem y l). destruct (Nat.eqb_spec y a) as [->|N]; cbn [orb].
  - rewrite upd_eq, DD. destruct (mem a l); auto.
  - rewrite upd_neq by auto. reflexivity.
Qed.
Lemma remove_emp_list e l : NoDup l -> In e l -> exists l', list_remove e l = Some l' /\ l' = filter (fun y => negb (Nat.eqb y e)) l.
Proof.
  induction l as [|a l IH]; intros ND; [intros []|intros [->|H]].
  - cbn. rewrite Nat.eqb_refl. cbn. inversion ND; subst. exists l. split; auto. symmetry. apply filter_all.
    intros y Hy. destruct (Nat.eqb_spec y e); subst; [contradiction|auto].
  - inversion ND; subst. destruct IH as [l' [E ->]]; auto. cbn. destruct (Nat.eqb_spec a e) as [->|N]; [contradiction|].
    rewrite E. cbn. eauto.
Qed.

Lemma empty_remove_spec st r e : consistent (s_h st) r -> good_empties (s_h st) r -> In e (h_emp (s_h st) r) ->
  let st' := empty_remove st e in let h' := s_h st' in
  h_emp h' r = filter (fun y => negb (Nat.eqb y e)) (h_emp (s_h st) r) /\
  h_desc h' r = h_desc (s_h st) r /\ consistent h' r /\ s_raw st' = s_raw st /\
  (forall y, s_deps st' y = s_deps st y \/ (y <> e /\ any_node (s_h st) r y /\ s_deps st' y = Some DKeys /\ exists l, s_deps st y = Some (DList l))) /\
  (~ blocked (s_h st) r e -> good_empties h' r /\
     forall w y, In w (h_desc h' r) -> In y (h_emp h' r) -> (before_empty (s_h st) w y <-> before_empty h' w y)).
Proof.
  intros C G He. set (h := s_h st). fold h in C, G, He.
  pose proof (ge_root h r G e He) as Hr.
  pose proof (sorted_eord_nodup h _ (ge_sorted h r G)) as ND.
  destruct (close_gap_fields h e) as (F1 & F2 & F3 & F4 & F5 & F6 & F7 & F8).
  assert (EO : forall y, In y (h_emp h r) -> h_eord (close_gap h e) y =
     if (h_eord h e <? h_eord h y)%Z && (h_eord h y <? h_eord h e + 10)%Z then (h_eord h y - 1)%Z else h_eord h y).
  { intros y Hy. apply close_gap_eord; rewrite Hr; auto. }
  destruct (remove_emp_list e (h_emp h r) ND He) as [l' [RL El]].
  cbv zeta. unfold empty_remove. cbn [put_h s_h]. fold h. rewrite F6, Hr, F8, RL. cbn [h_desc put_emp set_emp]. rewrite F7.
  destruct (drop_all_fields (l' ++ h_desc h r) (put_h (put_h st (close_gap h e)) (put_emp (close_gap h e) r l'))) as [A [B D]].
  rewrite A, B. cbn [put_h s_h s_raw s_deps h_emp h_desc put_emp set_emp] in *. rewrite upd_eq, F7.
  split; [exact El|]. split; [reflexivity|].
  assert (C' : consistent (put_emp (close_gap h e) r l') r).
  { assert (L : forall y, live (put_emp (close_gap h e) r l') r y <-> live h r y) by (intros y; unfold live; cbn; rewrite F7; tauto).
    assert (U : forall a b, up h a b -> up (put_emp (close_gap h e) r l') a b).
    { intros a b U. induction U; [apply up_1|eapply up_S]; cbn; rewrite ?F4; eauto. }
    destruct C as [c1 c2 c3 c4 c5 c6 c7 c8 c9 c10 c11].
    assert (HD : h_desc (put_emp (close_gap h e) r l') = h_desc h) by exact F7.
    assert (HP : h_par (put_emp (close_gap h e) r l') = h_par h) by exact F4.
    assert (HO : h_ord (put_emp (close_gap h e) r l') = h_ord h) by exact F3.
    assert (HC : h_ch (put_emp (close_gap h e) r l') = h_ch h) by exact F5.
    assert (HR : h_root (put_emp (close_gap h e) r l') = h_root h) by exact F6.
    assert (HK : h_kind (put_emp (close_gap h e) r l') = h_kind h) by exact F2.
    assert (HN : h_next (put_emp (close_gap h e) r l') = h_next h) by exact F1.
    constructor; rewrite ?HD, ?HP, ?HO, ?HC, ?HR, ?HK, ?HN; auto.
    - intros y Hy. destruct (c5 y Hy) as [p [E Lp]]. exists p. split; auto. now apply L.
    - intros y Ly. rewrite c7 by (apply L; auto). apply filter_ext. intros w. unfold has_parent. now rewrite HP.
    - intros y Ly. apply c9. now apply L.
    - intros y Ly. apply c11. now apply L. }
  split; [exact C'|]. split; [reflexivity|]. split.
  { intros y. rewrite D. destruct (mem y _) eqn:M; auto.
    unfold mem in M. rewrite existsb_exists in M. destruct M as [z [Hz Q]]. apply Nat.eqb_eq in Q; subst z.
    destruct (s_deps st y) as [[[|q l]|]|] eqn:Ed; cbn; auto. right.
    apply in_app_iff in Hz. split; [|split; [|eauto]].
    - intros ->. destruct Hz as [Hz|Hz].
      + subst l'. apply filter_In in Hz as [_ Q]. now rewrite Nat.eqb_refl in Q.
      + pose proof (ge_kind h r G e He) as K. destruct (c_kinds h r C) as [K1 _]. rewrite (K1 e Hz) in K. discriminate.
    - destruct Hz as [Hz|Hz]; [right; subst l'; apply filter_In in Hz; tauto|left; right; auto]. }
  intros NB.
  assert (IN : forall y, In y l' -> In y (h_emp h r) /\ y <> e).
  { intros y Hy. subst l'. apply filter_In in Hy as [Hy Q]. split; auto. intros ->. now rewrite Nat.eqb_refl in Q. }
  assert (ME := Z.mod_pos_bound (h_eord h e) 10 ltac:(lia)).
  assert (DE := Z.div_mod (h_eord h e) 10 ltac:(lia)).
  pose proof (ge_frac h r G e He) as FE.
  (* what the new number looks like *)
  assert (NEW : forall y, In y l' -> exists o, h_eord (close_gap h e) y = o /\ (o / 10 = h_eord h y / 10)%Z /\ (o mod 10 <> 0)%Z).
  { intros y Hy. destruct (IN y Hy) as [Hy1 Hy2]. rewrite (EO y Hy1). eexists. split; [reflexivity|].
    assert (MY := Z.mod_pos_bound (h_eord h y) 10 ltac:(lia)).
    assert (DY := Z.div_mod (h_eord h y) 10 ltac:(lia)).
    pose proof (ge_frac h r G y Hy1) as FY.
    destruct (_ && _) eqn:Q; [|auto].
    apply andb_true_iff in Q as [Q1 Q2]. apply Z.ltb_lt in Q1, Q2.
    set (q := (h_eord h y / 10)%Z) in *. set (m := (h_eord h y mod 10)%Z) in *.
    set (qe := (h_eord h e / 10)%Z) in *. set (me := (h_eord h e mod 10)%Z) in *.
    assert (m <> 1)%Z.
    { intros M1. assert (q = qe + 1)%Z by lia.
      apply NB. unfold blocked. fold qe me. split; [lia|]. exists y. split; auto. lia. }
    replace (h_eord h y - 1)%Z with (q * 10 + (m - 1))%Z by lia.
    rewrite Z.div_add_l, (Z.div_small (m - 1)) by lia. rewrite (Z.add_comm (q * 10) (m - 1)), Z.mod_add by lia. rewrite Z.mod_small by lia. lia. }
  assert (EO' : forall y, h_eord (put_emp (close_gap h e) r l') y = h_eord (close_gap h e) y) by reflexivity.
  split.
  - constructor; cbn [h_emp put_emp set_emp h_eord h_desc h_kind h_root h_next]; rewrite upd_eq, ?F1, ?F2, ?F6, ?F7.
    + pose proof (ge_sorted h r G) as S. apply (filter_StronglySorted _ (fun y => negb (Nat.eqb y e))) in S. rewrite <- El in S.
      eapply strongly_sorted_impl; [|exact S]. intros a b Ha Hb Lt. cbv beta in Lt |- *.
      destruct (IN a Ha) as [Ha1 Ha2], (IN b Hb) as [Hb1 Hb2]. rewrite (EO a Ha1), (EO b Hb1).
      assert (h_eord h a <> h_eord h e) by (intros Q; apply Ha2; eapply (sorted_eord_inj h _ (ge_sorted h r G)); eauto).
      assert (h_eord h b <> h_eord h e) by (intros Q; apply Hb2; eapply (sorted_eord_inj h _ (ge_sorted h r G)); eauto).
      destruct (Z.ltb_spec (h_eord h e) (h_eord h a)), (Z.ltb_spec (h_eord h a) (h_eord h e + 10)),
        (Z.ltb_spec (h_eord h e) (h_eord h b)), (Z.ltb_spec (h_eord h b) (h_eord h e + 10)); cbn [andb]; lia.
    + intros y Hy. destruct (NEW y Hy) as [o [-> [_ M]]]. auto.
    + intros y Hy. destruct (IN y Hy) as [Hy1 _]. pose proof (ge_range h r G y Hy1) as RY.
      destruct (NEW y Hy) as [o [-> [Q M]]].
      assert (DO := Z.div_mod o 10 ltac:(lia)). assert (MO := Z.mod_pos_bound o 10 ltac:(lia)).
      assert (MY := Z.mod_pos_bound (h_eord h y) 10 ltac:(lia)).
      assert (DY := Z.div_mod (h_eord h y) 10 ltac:(lia)). rewrite <- Q in DY. lia.
    + intros y Hy. apply (ge_kind h r G), IN, Hy.
    + intros y Hy. apply (ge_alloc h r G), IN, Hy.
    + intros y Hy. apply (ge_root h r G), IN, Hy.
  - intros w y Hw Hy. unfold before_empty. cbn [h_ord h_eord put_emp set_emp]. rewrite F3.
    destruct (NEW y Hy) as [o [-> [Q M]]]. destruct (IN y Hy) as [Hy1 _]. pose proof (ge_frac h r G y Hy1) as FY.
    assert (DO := Z.div_mod o 10 ltac:(lia)). assert (MO := Z.mod_pos_bound o 10 ltac:(lia)).
    assert (MY := Z.mod_pos_bound (h_eord h y) 10 ltac:(lia)).
    assert (DY := Z.div_mod (h_eord h y) 10 ltac:(lia)). rewrite <- Q in DY. lia.
Qed.

(** ---- C61, C62 ---- *)
Lemma deps_changed st r x l : consistent (s_h st) r -> good_empties (s_h st) r -> any_node (s_h st) r x ->
  expressible (s_h st) r l ->
  snd (raw_deps (mutate_deps st x l) x) = Ok (Some (deps_column (s_h st) l)) /\
  snd (raw_deps (set_deps st x l) x) = Ok (Some (deps_column (s_h st) l)).
Proof.
  intros C G A X. rewrite column_join. destruct l as [|q l]; [destruct X; congruence|].
  unfold raw_deps, mutate_deps, set_deps. cbn [put_deps put_raw s_deps]. rewrite upd_eq. auto.
Qed.
