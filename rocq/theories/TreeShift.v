(** Node._shift_before_ord on represented trees. *)
From Coq Require Import String List NArith ZArith Bool Lia Permutation Sorted.
From Verif Require Import PyStr PyList PyListFacts PyExn TreeModel TreeSpec TreeFacts TreeRepr TreeOps TreeRemove.
Import ListNotations.

Lemma nth_error_mid {A} (l1 l2 : list A) x k : k = length l1 -> nth_error (l1 ++ x :: l2) k = Some x.
Proof. intros ->. rewrite nth_error_app2 by lia. now rewrite Nat.sub_diag. Qed.
Lemma set_nth_mid {A} (l1 l2 : list A) x v k : k = length l1 -> set_nth k v (l1 ++ x :: l2) = l1 ++ v :: l2.
Proof. intros ->. apply set_nth_app. Qed.
Lemma py_nth_mid {A} (l1 l2 : list A) x i : i = Z.of_nat (length l1) -> py_nth (l1 ++ x :: l2) i = Some x.
Proof. intros ->. rewrite py_nth_nonneg by lia. apply nth_error_mid. lia. Qed.
Lemma py_set_mid {A} (l1 l2 : list A) x v i : i = Z.of_nat (length l1) -> py_set (l1 ++ x :: l2) i v = Some (l1 ++ v :: l2).
Proof.
  intros ->. unfold py_set. rewrite py_index_nonneg by (rewrite ?app_length; simpl; lia).
  rewrite set_nth_mid; auto. lia.
Qed.
Lemma snoc_case {A} (l : list A) : l = [] \/ exists l' x, l = l' ++ [x].
Proof. destruct l as [|a l]; auto. right. destruct (@exists_last A (a :: l)) as [l' [x E]]; [discriminate|eauto]. Qed.

Lemma list_split {A} (l : list A) k : k <= length l -> exists l1 l2, l = l1 ++ l2 /\ length l1 = k.
Proof.
  intros Hk. exists (firstn k l), (skipn k l). split; [symmetry; apply firstn_skipn|].
  now apply firstn_length_le.
Qed.

Section Shift.
Variables (h : heap) (T : atree).
Hypothesis W : wf T.
Hypothesis HR : Repr h T.
Notation root := (a_root T).
Notation words := (a_words T).
Notation par := (a_par T).
Let N0 : node_of T root := or_introl eq_refl.
Let NW : forall x, In x words -> node_of T x := fun x H => or_intror H.

(** Heaps that differ from h only in the word list and the ords of words. *)
Record shifted (hk : heap) : Prop := {
  sh_static : same_static h hk;
  sh_par : h_par hk = h_par h;
  sh_ch : h_ch hk = h_ch h;
  sh_eord : h_eord hk = h_eord h;
  sh_desc : forall y, y <> root -> h_desc hk y = h_desc h y;
  sh_ord : forall y, ~ In y words -> h_ord hk y = h_ord h y
}.
(** The word list is A ++ G ++ Q ++ R ++ B; the words of A, Q and B know their positions,
    G and R are to be overwritten. *)
Record Inv (hk : heap) (A G Q R B : list nat) : Prop := {
  i_sh : shifted hk;
  i_desc : h_desc hk root = A ++ G ++ Q ++ R ++ B;
  i_nodup : NoDup (A ++ Q ++ B);
  i_incl : incl (A ++ Q ++ B) words;
  i_A : pos_ok hk 0 A;
  i_Q : pos_ok hk (length A + length G) Q;
  i_B : pos_ok hk (length A + length G + length Q + length R) B
}.

Lemma shifted_refl : shifted h.
Proof. constructor; auto using same_static_refl. Qed.

Lemma shifted_put hk l x v : shifted hk -> In x words -> shifted (put_ord (put_desc hk root l) x v).
Proof.
  intros [S1 S2 S3 S4 S5 S6] Hx. constructor; auto.
  - destruct S1. constructor; auto.
  - intros y Hy. cbn. upds. auto.
  - intros y Hy. cbn. rewrite upd_other; auto. congruence.
Qed.
Lemma shifted_framed hk : shifted hk -> framed h hk (node_of T).
Proof.
  intros [[S1 S1' S1'' S1'''] S2 S3 S4 S5 S6]. constructor; intros; try congruence.
  - lia.
  - apply S6. intros Hy. apply H; auto.
  - apply S5. intros ->. apply H; auto.
Qed.

Lemma pos_ok_put hk l0 x v k l : ~ In x l -> pos_ok hk k l -> pos_ok (put_ord (put_desc hk root l0) x v) k l.
Proof. intros Hx. apply pos_ok_ext. intros y Hy. cbn. rewrite upd_other; congruence. Qed.

(** One copy to the right: x, the last word of A, goes to the end of the gap. *)
Lemma right_copy hk A x G g Q R B trg src :
  Inv hk (A ++ [x]) (G ++ [g]) Q R B ->
  src = (Z.of_nat (length A) + 1)%Z -> trg = (Z.of_nat (length A + length G) + 2)%Z ->
  exists hk', copy_node hk root trg src = (hk', Ok tt) /\ Inv hk' A (x :: G) (x :: Q) R B.
Proof.
  intros [I1 I2 I3 I4 I5 I6 I7] -> ->. unfold copy_node. rewrite I2.
  rewrite <- !app_assoc. cbn [app].
  rewrite py_nth_mid by lia.
  replace (A ++ x :: G ++ g :: Q ++ R ++ B) with ((A ++ x :: G) ++ g :: Q ++ R ++ B) by (now rewrite <- app_assoc).
  rewrite py_set_mid by (rewrite app_length; simpl; lia).
  eexists. split; [reflexivity|].
  rewrite <- !app_assoc in I3, I4. cbn [app] in I3, I4.
  apply NoDup_remove in I3 as [I3 I3'].
  assert (HxW : In x words) by (apply I4, in_app_iff; simpl; auto).
  constructor.
  - now apply shifted_put.
  - cbn. upds. rewrite <- !app_assoc. reflexivity.
  - cbn [app]. eapply Permutation_NoDup; [apply Permutation_middle|]. constructor; auto.
  - intros y Hy. apply I4. rewrite in_app_iff in *. simpl in *. tauto.
  - apply pos_ok_put; [|now apply pos_ok_app in I5]. intros H. apply I3', in_app_iff; auto.
  - apply pos_ok_cons. split.
    + cbn. upds. simpl. lia.
    + apply pos_ok_put.
      * intros H. apply I3'. rewrite !in_app_iff; auto.
      * rewrite !app_length in I6. simpl in I6 |- *. replace (S (length A + S (length G))) with (length A + 1 + (length G + 1)) by lia. auto.
  - apply pos_ok_put.
    + intros H. apply I3'. rewrite !in_app_iff; auto.
    + rewrite !app_length in I7. simpl in I7 |- *.
      replace (length A + S (length G) + S (length Q) + length R) with (length A + 1 + (length G + 1) + length Q + length R) by lia. auto.
Qed.
(** One copy to the left: x, the first word of Q, goes to the start of the gap. *)
Lemma left_copy hk A x G g Q R B trg src :
  Inv hk A (g :: G) (x :: Q) R B ->
  trg = (Z.of_nat (length A) + 1)%Z -> src = (Z.of_nat (length A + length G) + 2)%Z ->
  exists hk', copy_node hk root trg src = (hk', Ok tt) /\ Inv hk' (A ++ [x]) (G ++ [x]) Q R B.
Proof.
  intros [I1 I2 I3 I4 I5 I6 I7] -> ->. unfold copy_node. rewrite I2. cbn [app].
  replace (A ++ g :: G ++ x :: Q ++ R ++ B) with ((A ++ g :: G) ++ x :: Q ++ R ++ B) by (now rewrite <- app_assoc).
  rewrite py_nth_mid by (rewrite app_length; simpl; lia).
  rewrite <- app_assoc. cbn [app].
  rewrite py_set_mid by lia.
  eexists. split; [reflexivity|].
  cbn [app] in I3, I4.
  apply NoDup_remove in I3 as [I3 I3'].
  assert (HxW : In x words) by (apply I4, in_app_iff; simpl; auto).
  constructor.
  - now apply shifted_put.
  - cbn. upds. rewrite <- !app_assoc. reflexivity.
  - rewrite <- app_assoc. cbn [app]. eapply Permutation_NoDup; [apply Permutation_middle|]. constructor; auto.
  - rewrite <- app_assoc. exact I4.
  - apply pos_ok_app. split.
    + apply pos_ok_put; auto. intros H. apply I3', in_app_iff; auto.
    + apply pos_ok_cons. split; [|apply pos_ok_nil]. cbn. upds. lia.
  - apply pos_ok_cons in I6 as [_ I6]. apply pos_ok_put.
    + intros H. apply I3'. rewrite !in_app_iff; auto.
    + rewrite !app_length. simpl in I6 |- *. replace (length A + 1 + (length G + 1)) with (S (length A + S (length G))) by lia. auto.
  - apply pos_ok_put.
    + intros H. apply I3'. rewrite !in_app_iff; auto.
    + rewrite !app_length. simpl in I7 |- *.
      replace (length A + 1 + (length G + 1) + length Q + length R) with (length A + S (length G) + S (length Q) + length R) by lia. auto.
Qed.
Lemma right_skip hk A x G Q R B : Inv hk (A ++ [x]) G Q R B -> Inv hk A (x :: G) Q R B.
Proof.
  intros [I1 I2 I3 I4 I5 I6 I7]. rewrite <- !app_assoc in *. cbn [app] in *. constructor; auto.
  - now apply NoDup_remove in I3.
  - intros y Hy. apply I4. rewrite in_app_iff in *. simpl in *. tauto.
  - now apply pos_ok_app in I5.
  - rewrite app_length in I6. simpl in *. replace (length A + S (length G)) with (length A + 1 + length G) by lia. auto.
  - rewrite app_length in I7. simpl in *. replace (length A + S (length G)) with (length A + 1 + length G) by lia. auto.
Qed.
Lemma left_skip hk A x G Q R B : Inv hk A G (x :: Q) R B -> Inv hk A (G ++ [x]) Q R B.
Proof.
  intros [I1 I2 I3 I4 I5 I6 I7]. cbn [app] in *. constructor; auto.
  - rewrite <- app_assoc. auto.
  - now apply NoDup_remove in I3.
  - intros y Hy. apply I4. rewrite in_app_iff in *. simpl in *. tauto.
  - apply pos_ok_cons in I6 as [_ I6]. rewrite app_length. simpl in *.
    replace (length A + (length G + 1)) with (S (length A + length G)) by lia. auto.
  - rewrite app_length. simpl in *.
    replace (length A + (length G + 1) + length Q) with (length A + length G + S (length Q)) by lia. auto.
Qed.

(** The copying loops. *)
Lemma copy_right_ok P2 : forall hk A G Q R B trg src,
  Inv hk (A ++ P2) G Q R B -> G <> [] ->
  src = Z.of_nat (length A + length P2) -> trg = Z.of_nat (length A + length P2 + length G) ->
  exists hk' G', copy_right (length P2) hk root trg src = (hk', Ok (trg - Z.of_nat (length P2))%Z) /\
    Inv hk' A G' (P2 ++ Q) R B /\ length G' = length G.
Proof.
  induction P2 as [|x P2 IH] using rev_ind; intros hk A G Q R B trg src HI HG Es Et.
  - exists hk, G. cbn. rewrite Z.sub_0_r. rewrite app_nil_r in HI. auto.
  - rewrite app_length in *. cbn [length] in *.
    replace (length P2 + 1) with (S (length P2)) in * by lia.
    destruct (snoc_case G) as [->|[G' [g ->]]]; [congruence|].
    rewrite app_length in Et. cbn [length] in Et.
    rewrite app_assoc in HI.
    destruct (right_copy hk (A ++ P2) x G' g Q R B trg src HI) as [hk1 [E1 I1]];
      [rewrite app_length; lia|rewrite app_length; lia|].
    cbn [copy_right]. rewrite E1. cbn [bind].
    destruct (IH hk1 A (x :: G') (x :: Q) R B (trg - 1)%Z (src - 1)%Z I1) as [hk2 [G2 [E2 [I2 L2]]]];
      [discriminate|lia|cbn [length]; lia|].
    exists hk2, G2. rewrite E2. split; [f_equal; f_equal; lia|]. split.
    + now rewrite <- app_assoc.
    + rewrite L2, app_length. simpl. lia.
Qed.
Lemma copy_left_ok Q1 : forall hk A G Q R B trg src,
  Inv hk A G (Q1 ++ Q) R B -> G <> [] ->
  trg = (Z.of_nat (length A) + 1)%Z -> src = (Z.of_nat (length A + length G) + 1)%Z ->
  exists hk' G', copy_left (length Q1) hk root trg src = (hk', Ok (trg + Z.of_nat (length Q1))%Z) /\
    Inv hk' (A ++ Q1) G' Q R B /\ length G' = length G.
Proof.
  induction Q1 as [|x Q1 IH]; intros hk A G Q R B trg src HI HG Et Es.
  - exists hk, G. cbn. rewrite Z.add_0_r, app_nil_r. auto.
  - destruct G as [|g G]; [congruence|]. cbn [length app] in *.
    destruct (left_copy hk A x G g (Q1 ++ Q) R B trg src HI Et) as [hk1 [E1 I1]]; [lia|].
    cbn [copy_left]. rewrite E1. cbn [bind].
    destruct (IH hk1 (A ++ [x]) (G ++ [x]) Q R B (trg + 1)%Z (src + 1)%Z I1) as [hk2 [G2 [E2 [I2 L2]]]].
    + destruct G; discriminate.
    + rewrite app_length; simpl; lia.
    + rewrite !app_length; simpl; lia.
    + exists hk2, G2. rewrite E2. split; [f_equal; f_equal; lia|]. split.
      * rewrite <- app_assoc in I2. exact I2.
      * rewrite L2, app_length. simpl. lia.
Qed.

Section Gaps.
Variable mv : nat -> bool.
Notation nmv := (fun y => negb (mv y)).
Variable movs : list nat.
Hypothesis Hmovs : forall y, In y movs -> mv y = true.

Lemma gap_right_ok P2 : forall hk A G Q R B M1 M2 trg src mov,
  Inv hk (A ++ P2) G Q R B -> G <> [] ->
  movs = M1 ++ filter mv P2 ++ M2 -> M2 <> [] ->
  (M1 <> [] -> True) ->
  src = Z.of_nat (length A + length P2) -> trg = Z.of_nat (length A + length P2 + length G) ->
  mov = (Z.of_nat (length (M1 ++ filter mv P2)) - 1)%Z ->
  exists hk' G' t, gap_right (length P2) hk root movs trg src mov = (hk', Ok t) /\
    Inv hk' A G' (filter nmv P2 ++ Q) R B /\ length G' = length G + length (filter mv P2).
Proof.
  induction P2 as [|x P2 IH] using rev_ind; intros hk A G Q R B M1 M2 trg src mov HI HG EM HM2 _ Es Et Em.
  - exists hk, G, trg. cbn. rewrite app_nil_r in HI. auto. 
  - rewrite !filter_app in *. rewrite !app_length in *. cbn [length filter app] in *.
    replace (length P2 + 1) with (S (length P2)) in * by lia.
    assert (EL : py_nth (h_desc hk root) (src - 1) = Some x).
    { rewrite (i_desc _ _ _ _ _ _ HI). rewrite <- !app_assoc. cbn [app]. rewrite app_assoc.
      apply py_nth_mid. rewrite app_length. lia. }
    rewrite app_assoc in HI.
    cbn [gap_right]. rewrite EL.
    destruct (mv x) eqn:EX; cbn [negb app length] in *.
    + assert (EMV : py_nth movs mov = Some x).
      { rewrite EM. rewrite <- app_assoc. cbn [app]. rewrite app_assoc. apply py_nth_mid. rewrite app_length. lia. }
      rewrite EMV, Nat.eqb_refl.
      apply right_skip in HI.
      destruct (IH hk A (x :: G) Q R B M1 ([x] ++ M2) trg (src - 1)%Z (mov - 1)%Z HI) as [hk2 [G2 [t [E2 [I2 L2]]]]];
        try discriminate; auto; try (cbn [length]; lia).
      * rewrite EM, <- app_assoc. reflexivity.
      * rewrite app_length; lia.
      * exists hk2, G2, t. split; auto. split; [now rewrite app_nil_r|]. cbn [length] in L2. lia.
    + rewrite app_nil_r in *. cbn [length] in *. rewrite ?Nat.add_0_r in *.
      assert (exists b, py_nth movs mov = Some b /\ In b movs) as [b [Eb Hb]].
      { destruct (Nat.eq_dec (length M1 + length (filter mv P2)) 0) as [E0|E0].
        - rewrite EM, Em, E0. destruct M1; [|discriminate]. destruct (filter mv P2); [|discriminate].
          cbn [app]. destruct (snoc_case M2) as [->|[M3 [b ->]]]; [congruence|].
          exists b. split; [|apply in_app_iff; simpl; auto].
          unfold py_nth, py_index. rewrite app_length. cbn [length].
          replace (0 <=? Z.of_nat 0 - 1)%Z with false by reflexivity.
          destruct (Z.leb_spec (- Z.of_nat (length M3 + 1)) (Z.of_nat 0 - 1)); [|lia].
          apply nth_error_mid. lia.
        - destruct (nth_error movs (Z.to_nat mov)) as [b|] eqn:Eb.
          + exists b. split; [rewrite py_nth_nonneg by lia; auto|]. eapply nth_error_In; eauto.
          + apply nth_error_None in Eb. rewrite EM, !app_length in Eb. lia. }
      rewrite Eb. destruct (Nat.eqb_spec x b) as [->|Hxb].
      { rewrite (Hmovs b Hb) in EX. discriminate. }
      destruct (snoc_case G) as [->|[G' [g ->]]]; [congruence|].
      rewrite !app_length in *. cbn [length] in *.
      destruct (right_copy hk (A ++ P2) x G' g Q R B trg src HI) as [hk1 [E1 I1]];
        [rewrite app_length; lia|rewrite app_length; lia|].
      rewrite E1. cbn [bind].
      destruct (IH hk1 A (x :: G') (x :: Q) R B M1 M2 (trg - 1)%Z (src - 1)%Z mov I1) as [hk2 [G2 [t [E2 [I2 L2]]]]];
        try discriminate; auto; try (cbn [length]; lia).
      { rewrite app_length. lia. }
      exists hk2, G2, t. split; auto. split; [now rewrite <- app_assoc|]. cbn [length] in L2. lia.
Qed.

Lemma gap_left_ok Q1 : forall hk A G Q R B M1 M2 trg src mov,
  Inv hk A G (Q1 ++ Q) R B -> G <> [] ->
  movs = M1 ++ filter mv Q1 ++ M2 ->
  trg = (Z.of_nat (length A) + 1)%Z -> src = (Z.of_nat (length A + length G) + 1)%Z ->
  mov = Z.of_nat (length M1) ->
  exists hk' G', gap_left (length Q1) hk root movs trg src mov =
       (hk', Ok (trg + Z.of_nat (length (filter nmv Q1)))%Z) /\
    Inv hk' (A ++ filter nmv Q1) G' Q R B /\ length G' = length G + length (filter mv Q1).
Proof.
  induction Q1 as [|x Q1 IH]; intros hk A G Q R B M1 M2 trg src mov HI HG EM Et Es Em.
  - exists hk, G. cbn. rewrite Z.add_0_r, app_nil_r. auto.
  - cbn [length app filter] in *.
    assert (EL : py_nth (h_desc hk root) (src - 1) = Some x).
    { rewrite (i_desc _ _ _ _ _ _ HI). cbn [app]. rewrite app_assoc.
      apply py_nth_mid. rewrite app_length. lia. }
    cbn [gap_left]. rewrite EL.
    destruct (mv x) eqn:EX; cbn [negb app length] in *.
    + assert (EMV : py_nth movs mov = Some x) by (rewrite EM; apply py_nth_mid; lia).
      destruct (Z.ltb_spec mov (Z.of_nat (length movs))) as [_|HL].
      2:{ rewrite EM, app_length in HL. cbn [length] in HL. lia. }
      rewrite EMV, Nat.eqb_refl. apply left_skip in HI.
      destruct (IH hk A (G ++ [x]) Q R B (M1 ++ [x]) M2 trg (src + 1)%Z (mov + 1)%Z HI) as [hk2 [G2 [E2 [I2 L2]]]];
        auto; try (rewrite !app_length; cbn [length]; lia).
      * destruct G; discriminate.
      * rewrite EM, <- app_assoc. reflexivity.
      * exists hk2, G2. split; auto. split; auto. rewrite app_length in L2. cbn [length] in *. lia.
    + destruct G as [|g G]; [congruence|]. cbn [length] in *.
      destruct (left_copy hk A x G g (Q1 ++ Q) R B trg src HI Et) as [hk1 [E1 I1]]; [lia|].
      destruct (IH hk1 (A ++ [x]) (G ++ [x]) Q R B M1 M2 (trg + 1)%Z (src + 1)%Z mov I1) as [hk2 [G2 [E2 [I2 L2]]]];
        auto; try (rewrite !app_length; cbn [length]; lia).
      { destruct G; discriminate. }
      assert (EE : bind (copy_node hk root trg src)
                     (fun h _ => gap_left (length Q1) h root movs (trg + 1) (src + 1) mov) =
        (hk2, Ok (trg + Z.of_nat (S (length (filter nmv Q1))))%Z)).
      { rewrite E1. cbn [bind]. rewrite E2. f_equal. f_equal. lia. }
      rewrite EE.
      assert (GG : (if (mov <? Z.of_nat (length movs))%Z then match py_nth movs mov with
        | Some b => if x =? b then gap_left (length Q1) hk root movs trg (src + 1) (mov + 1)
                    else (hk2, Ok (trg + Z.of_nat (S (length (filter nmv Q1))))%Z)
        | None => (hk, Raise IndexError) end
        else (hk2, Ok (trg + Z.of_nat (S (length (filter nmv Q1))))%Z)) =
        (hk2, Ok (trg + Z.of_nat (S (length (filter nmv Q1))))%Z)).
      { destruct (Z.ltb_spec mov (Z.of_nat (length movs))) as [HL|_]; auto.
        destruct (py_nth movs mov) as [b|] eqn:Eb.
        - rewrite py_nth_nonneg in Eb by lia. apply nth_error_In in Eb.
          destruct (Nat.eqb_spec x b) as [->|]; auto. rewrite (Hmovs b Eb) in EX. discriminate.
        - rewrite py_nth_nonneg in Eb by lia. apply nth_error_None in Eb. lia. }
      rewrite GG. exists hk2, G2. split; auto. split.
      * rewrite <- app_assoc in I2. exact I2.
      * rewrite app_length in L2. cbn [length] in *. lia.
Qed.
End Gaps.

(** Writing the moved words into the gap. *)
Lemma place_all_ok M : forall hk A G B trg,
  Inv hk A G [] [] B -> length G = length M -> incl M words -> NoDup (A ++ M ++ B) ->
  trg = (Z.of_nat (length A) + 1)%Z ->
  exists hk', place_all hk root trg M = (hk', Ok tt) /\ Inv hk' (A ++ M) [] [] [] B.
Proof.
  induction M as [|m M IH]; intros hk A G B trg HI HL HM ND Et.
  - exists hk. cbn. rewrite app_nil_r. destruct G; [auto|discriminate].
  - destruct G as [|g G]; [discriminate|]. cbn [place_all]. unfold place_node.
    destruct HI as [I1 I2 I3 I4 I5 I6 I7]. rewrite I2. cbn [app].
    rewrite py_set_mid by lia. cbn [bind].
    set (hk1 := put_ord _ _ _).
    assert (HmW : In m words) by (apply HM; simpl; auto).
    cbn [app] in ND. assert (ND' := ND). apply NoDup_remove in ND' as [ND1 ND2].
    assert (I' : Inv hk1 (A ++ [m]) G [] [] B).
    { constructor.
      - now apply shifted_put.
      - unfold hk1. cbn. upds. rewrite <- app_assoc. reflexivity.
      - cbn [app] in *. rewrite <- app_assoc. cbn [app]. eapply Permutation_NoDup; [apply Permutation_middle|].
        constructor; auto. intros H. apply ND2. rewrite !in_app_iff in *. tauto.
      - cbn [app] in *. intros y Hy. rewrite <- app_assoc in Hy. rewrite in_app_iff in Hy. simpl in Hy.
        destruct Hy as [Hy|[<-|Hy]]; auto; apply I4, in_app_iff; auto.
      - apply pos_ok_app. split.
        + apply pos_ok_put; auto. intros H. apply ND2, in_app_iff; auto.
        + apply pos_ok_cons. split; [|apply pos_ok_nil]. cbn. upds. lia.
      - apply pos_ok_nil.
      - apply pos_ok_put.
        + intros H. apply ND2. rewrite !in_app_iff; auto.
        + rewrite app_length. cbn [length] in *. replace (length A + 1 + length G + 0 + 0) with (length A + S (length G) + 0 + 0) by lia. auto. }
    destruct (IH hk1 (A ++ [m]) G B (trg + 1)%Z I') as [hk2 [E2 I3']].
    + now injection HL.
    + intros y Hy. apply HM. simpl; auto.
    + rewrite <- app_assoc. exact ND.
    + rewrite app_length. simpl. lia.
    + exists hk2. split; auto. now rewrite <- app_assoc in I3'.
Qed.

Lemma Inv_init A G Q R B : words = A ++ G ++ Q ++ R ++ B -> Inv h A G Q R B.
Proof.
  intros E. pose proof (wf_nodup T W) as ND. pose proof (words_pos h T HR) as WP.
  rewrite E in ND, WP.
  apply pos_ok_app in WP as [PA WP]. apply pos_ok_app in WP as [_ WP].
  apply pos_ok_app in WP as [PQ WP]. apply pos_ok_app in WP as [_ PB].
  constructor; auto.
  - apply shifted_refl.
  - now rewrite (r_desc h T HR).
  - apply NoDup_app_inv in ND as [NA [ND D1]]. apply NoDup_app_inv in ND as [NG [ND D2]].
    apply NoDup_app_inv in ND as [NQ [ND D3]]. apply NoDup_app_inv in ND as [NR [NB D4]].
    apply NoDup_app; auto; [apply NoDup_app; auto|].
    + intros y H1 H2. apply (D3 y H1). apply in_app_iff; auto.
    + intros y H1 H2. apply (D1 y H1). rewrite !in_app_iff in *. tauto.
  - rewrite E. intros y. rewrite !in_app_iff. tauto.
Qed.
Lemma Inv_tail hk A G Q : Inv hk A G Q [] [] -> Inv hk A G [] [] Q.
Proof.
  intros [I1 I2 I3 I4 I5 I6 I7]. cbn [app] in *. rewrite !app_nil_r in *. constructor; auto.
  - apply pos_ok_nil.
  - cbn [length]. now rewrite !Nat.add_0_r.
Qed.
Lemma Inv_join hk A G R B : Inv hk A G [] R B -> Inv hk A (G ++ R) [] [] B.
Proof.
  intros [I1 I2 I3 I4 I5 I6 I7]. cbn [app] in *. constructor; auto.
  - now rewrite <- app_assoc.
  - apply pos_ok_nil.
  - rewrite app_length. cbn [length] in *.
    replace (length A + (length G + length R) + 0 + 0) with (length A + length G + 0 + length R) by lia. auto.
Qed.
Lemma Inv_split hk A a Q G B : Inv hk (A ++ a :: Q) G B [] [] -> Inv hk A [a] Q G B.
Proof.
  intros [I1 I2 I3 I4 I5 I6 I7]. rewrite !app_nil_r in *. constructor; auto.
  - rewrite I2, <- app_assoc. reflexivity.
  - rewrite <- app_assoc in I3. cbn [app] in I3. now apply NoDup_remove in I3.
  - intros y Hy. apply I4. rewrite !in_app_iff in *. simpl. tauto.
  - now apply pos_ok_app in I5.
  - apply pos_ok_app in I5 as [_ I5]. apply pos_ok_cons in I5 as [_ I5]. cbn [length].
    replace (length A + 1) with (S (0 + length A)) by lia. auto.
  - rewrite app_length in I6. cbn [length] in *.
    replace (length A + 1 + length Q + length G) with (length A + S (length Q) + length G) by lia. auto.
Qed.

(** A reordered sentence. *)
Lemma below_perm L x a : Permutation L words -> (below (mkT root L par) x a <-> below T x a).
Proof.
  intros P. split; apply below_mono; simpl; intros y Hy; split; auto.
  - eapply Permutation_in; eauto.
  - eapply Permutation_in; [symmetry|]; eauto.
Qed.
Lemma node_perm L y : Permutation L words -> (node_of (mkT root L par) y <-> node_of T y).
Proof.
  intros P. unfold node_of. simpl. split; intros [H|H]; auto; right.
  - eapply Permutation_in; eauto.
  - eapply Permutation_in; [symmetry|]; eauto.
Qed.
Lemma wf_perm L : Permutation L words -> wf (mkT root L par).
Proof.
  intros P. constructor; simpl.
  - eapply Permutation_NoDup; [symmetry; eauto|apply (wf_nodup T W)].
  - intros H. apply (wf_rootfresh T W). eapply Permutation_in; eauto.
  - intros x Hx. apply node_perm; auto. apply (wf_parent T W). eapply Permutation_in; eauto.
  - intros x Hx. apply (below_perm L x root P). apply (wf_reach T W). eapply Permutation_in; eauto.
Qed.

Lemma filter_perm {A} (f : A -> bool) l1 l2 : Permutation l1 l2 -> Permutation (filter f l1) (filter f l2).
Proof.
  induction 1; simpl; auto.
  - destruct (f x); auto.
  - destruct (f x), (f y); auto. constructor.
  - etransitivity; eauto.
Qed.

Lemma sorted_finish x L hk hk2 l : In x words -> shifted hk -> only_eord hk hk2 l -> incl l (h_emp h root) ->
  h_desc hk root = L -> pos_ok hk 0 L -> Permutation L words ->
  (forall y, y <> par x -> filter (fun c => Nat.eqb (par c) y) L = filter (fun c => Nat.eqb (par c) y) words) ->
  exists h', sort_siblings hk2 x = (h', Ok tt) /\ Repr h' (mkT root L par) /\
    framed h h' (touched h T) /\ same_static h h' /\ h_eord h' = h_eord hk2.
Proof.
  intros Hx HS HO HI HD HP PL HF. unfold sort_siblings.
  rewrite (oe_par _ _ _ HO), (sh_par _ HS), (r_par h T HR x Hx).
  assert (Hp : node_of T (par x)) by (now apply (wf_parent T W)).
  eexists. split; [reflexivity|].
  assert (ES : sort_nodes hk2 (h_ch hk2 (par x)) = filter (fun c => Nat.eqb (par c) (par x)) L).
  { unfold sort_nodes. rewrite (oe_ord _ _ _ HO), (oe_ch _ _ _ HO), (sh_ch _ HS), (r_ch h T HR _ Hp).
    apply sort_on_unique; [apply filter_perm; now symmetry|].
    apply filter_StronglySorted. eapply pos_ok_sorted; eauto. }
  rewrite ES.
  assert (ST : same_static h hk2).
  { eapply same_static_trans; [apply (sh_static _ HS)|eapply only_eord_static; eauto]. }
  split; [|split; [|split]]; auto.
  - constructor; cbn.
    + now rewrite (oe_desc _ _ _ HO).
    + intros i y Hi. rewrite (oe_ord _ _ _ HO). now apply HP.
    + rewrite (oe_ord _ _ _ HO), (sh_ord _ HS); [apply (r_ord0 h T HR)|apply (wf_rootfresh T W)].
    + intros y Hy. rewrite (oe_par _ _ _ HO), (sh_par _ HS). apply (r_par h T HR). eapply Permutation_in; eauto.
    + rewrite (oe_par _ _ _ HO), (sh_par _ HS). apply (r_parroot h T HR).
    + intros y Hy. apply node_perm in Hy; auto. destruct (Nat.eq_dec y (par x)) as [->|Hn]; upds; auto.
      rewrite HF by auto. rewrite (oe_ch _ _ _ HO), (sh_ch _ HS). now apply (r_ch h T HR).
    + intros y Hy. apply node_perm in Hy; auto. rewrite (ss_root _ _ ST). now apply (r_root h T HR).
    + intros y Hy. rewrite (ss_kind _ _ ST). apply (r_kind h T HR). eapply Permutation_in; eauto.
    + rewrite (ss_kind _ _ ST). apply (r_kindroot h T HR).
    + intros y Hy. apply node_perm in Hy; auto. rewrite (ss_next _ _ ST). now apply (r_alloc h T HR).
  - apply (framed_trans h hk); [eapply framed_weaken; [|now apply shifted_framed]; left; auto|].
    apply (framed_trans hk hk2).
    + eapply only_eord_framed; eauto. intros y Hy. right. auto.
    + apply framed_ch. left. auto.
  - destruct ST. constructor; auto.
Qed.

Section Move.
Variable x : nat.
Hypothesis Hx : In x words.
Variable mv : nat -> bool.
Hypothesis mvx : mv x = true.
(** Siblings away from x move together. *)
Hypothesis mv_sib : forall c c', In c words -> In c' words -> par c = par c' -> par c <> par x -> mv c = mv c'.
Notation nmv := (fun y => negb (mv y)).
Let movs := filter mv words.

Definition moved_list (L1 L2 : list nat) : list nat := filter nmv L1 ++ filter mv (L1 ++ L2) ++ filter nmv L2.
Lemma moved_perm L1 L2 : Permutation (moved_list L1 L2) (L1 ++ L2).
Proof.
  unfold moved_list. rewrite app_assoc. rewrite (Permutation_app_comm (filter nmv L1)).
  rewrite <- app_assoc. rewrite <- filter_app.
  symmetry. apply (filter_partition_perm mv).
Qed.
Lemma moved_ch L1 L2 y : words = L1 ++ L2 -> y <> par x ->
  filter (fun c => Nat.eqb (par c) y) (moved_list L1 L2) = filter (fun c => Nat.eqb (par c) y) words.
Proof.
  intros EW Hy. unfold moved_list. rewrite EW at 1. rewrite !filter_app, !filter_filter.
  assert (D : (forall c, In c words -> par c = y -> mv c = true) \/ (forall c, In c words -> par c = y -> mv c = false)).
  { destruct (filter (fun c => Nat.eqb (par c) y) words) as [|c0 l] eqn:E.
    - left. intros c Hc Hpc. exfalso. assert (In c []) as [].
      rewrite <- E. apply filter_In. split; auto. now apply Nat.eqb_eq.
    - assert (In c0 (c0 :: l)) as H0 by (simpl; auto). rewrite <- E in H0. apply filter_In in H0 as [H0 H1].
      apply Nat.eqb_eq in H1. destruct (mv c0) eqn:EM; [left|right]; intros c Hc Hpc;
      rewrite <- EM; apply mv_sib; congruence. }
  assert (I1 : forall c, In c L1 -> In c words) by (intros; rewrite EW; apply in_app_iff; auto).
  assert (I2 : forall c, In c L2 -> In c words) by (intros; rewrite EW; apply in_app_iff; auto).
  destruct D as [D|D].
  - rewrite (filter_none (fun z => negb (mv z) && _) L1), (filter_none (fun z => negb (mv z) && _) L2).
    + cbn [app]. rewrite app_nil_r. f_equal; apply filter_ext_in'; intros c Hc;
      destruct (Nat.eqb_spec (par c) y) as [E|E]; [rewrite D; auto|now rewrite andb_false_r
        |rewrite D; auto|now rewrite andb_false_r].
    + intros c Hc. destruct (Nat.eqb_spec (par c) y); [rewrite D; auto|now rewrite andb_false_r].
    + intros c Hc. destruct (Nat.eqb_spec (par c) y); [rewrite D; auto|now rewrite andb_false_r].
  - rewrite (filter_none (fun z => mv z && _) L1), (filter_none (fun z => mv z && _) L2).
    + cbn [app]. f_equal; apply filter_ext_in'; intros c Hc;
      destruct (Nat.eqb_spec (par c) y) as [E|E]; [rewrite D; auto|now rewrite andb_false_r
        |rewrite D; auto|now rewrite andb_false_r].
    + intros c Hc. destruct (Nat.eqb_spec (par c) y); [rewrite D; auto|now rewrite andb_false_r].
    + intros c Hc. destruct (Nat.eqb_spec (par c) y); [rewrite D; auto|now rewrite andb_false_r].
Qed.

(** Writing the moved words into the remaining gap gives the moved list. *)
Lemma place_moved hk A G R B L1 L2 trg :
  Inv hk A G [] R B -> words = L1 ++ L2 -> A = filter nmv L1 -> B = filter nmv L2 ->
  length G + length R = length movs -> trg = (Z.of_nat (length A) + 1)%Z ->
  exists hk', place_all hk root trg movs = (hk', Ok tt) /\ shifted hk' /\
    h_desc hk' root = moved_list L1 L2 /\ pos_ok hk' 0 (moved_list L1 L2).
Proof.
  intros HI EW EA EB EL Et. apply Inv_join in HI.
  assert (EM : A ++ movs ++ B = moved_list L1 L2).
  { unfold moved_list, movs. rewrite <- EW. congruence. }
  destruct (place_all_ok movs hk A (G ++ R) B trg HI) as [hk' [E1 I1]]; auto.
  - rewrite app_length. auto.
  - intros y Hy. unfold movs in Hy. now apply filter_In in Hy.
  - rewrite EM. eapply Permutation_NoDup; [symmetry; apply moved_perm|]. rewrite <- EW. apply (wf_nodup T W).
  - exists hk'. split; auto. destruct I1 as [J1 J2 J3 J4 J5 J6 J7]. cbn [app length] in *. split; auto.
    rewrite <- EM, app_assoc. split; auto. apply pos_ok_app. split; auto.
    now rewrite !Nat.add_0_r in J7.
Qed.

Lemma t_move_list L1 L2 : words = L1 ++ L2 -> t_move T mv (length L1) = mkT root (moved_list L1 L2) par.
Proof.
  intros E. unfold t_move, moved_list. rewrite E.
  rewrite firstn_app, Nat.sub_diag, firstn_all, skipn_app, Nat.sub_diag, skipn_all. cbn.
  now rewrite app_nil_r.
Qed.

(** words around the moved ones *)
Lemma moved_span : exists P M Q a M' M'' z, words = P ++ M ++ Q /\ filter mv P = [] /\ filter mv Q = [] /\
  M = a :: M' /\ M = M'' ++ [z] /\ mv a = true /\ mv z = true.
Proof.
  assert (G : forall l, (exists y, In y l /\ mv y = true) -> exists P a M, l = P ++ a :: M /\ filter mv P = [] /\ mv a = true).
  { induction l as [|b l IH]; intros [y [Hy Ey]]; [destruct Hy|]. destruct (mv b) eqn:Eb.
    - exists [], b, l. auto.
    - destruct IH as [P [a [M [E1 [E2 E3]]]]].
      + exists y. split; auto. destruct Hy; [congruence|auto].
      + exists (b :: P), a, M. cbn. rewrite Eb, E1. auto. }
  destruct (G words) as [P [a [M [E1 [E2 E3]]]]]; [eauto|].
  destruct (G (rev (a :: M))) as [Q' [z [M2 [F1 [F2 F3]]]]].
  { exists a. split; auto. rewrite <- in_rev. simpl; auto. }
  assert (F1' : a :: M = (rev M2 ++ [z]) ++ rev Q').
  { rewrite <- (rev_involutive (a :: M)), F1, rev_app_distr. cbn. now rewrite <- app_assoc. }
  exists P, (rev M2 ++ [z]), (rev Q'). 
  assert (exists M', rev M2 ++ [z] = a :: M') as [M' EM'].
  { destruct (rev M2); cbn in *; injection F1' as -> _; eauto. }
  exists a, M', (rev M2), z. rewrite E1, F1'. repeat split; auto.
  rewrite filter_none; auto. intros y Hy. rewrite <- in_rev in Hy.
  destruct (mv y) eqn:Ey; auto. assert (In y []) as []. rewrite <- F2. apply filter_In; auto.
Qed.

Lemma mv_none l : filter mv l = [] -> filter nmv l = l.
Proof.
  intros E. apply filter_all. intros y Hy. destruct (mv y) eqn:Ey; auto.
  assert (In y []) as []. rewrite <- E. apply filter_In; auto.
Qed.
Lemma filter_len l : length (filter mv l) = length l -> filter mv l = l /\ filter nmv l = [].
Proof.
  induction l as [|y l IH]; cbn; auto. pose proof (filter_length_le mv l).
  destruct (mv y); cbn [negb length]; intros E; [|lia].
  injection E as E. destruct (IH E) as [E1 E2]. split; auto. congruence.
Qed.

Lemma subtree_shift ref : (1 <= ref <= Z.of_nat (length words) + 1)%Z ->
  let n := Z.of_nat (length movs) in
  exists a z hk L1 L2, py_nth movs 0 = Some a /\ py_nth movs (-1) = Some z /\
    words = L1 ++ L2 /\ length L1 = Z.to_nat (ref - 1) /\
    (let first := h_ord h a in let last := h_ord h z in
     (if (last - first + 1 =? n)%Z then
          bind (copy_right (Z.to_nat (first - ref)) h root last (first - 1)) (fun h _ =>
          bind (copy_left (Z.to_nat (ref - (last + 1))) h root first (last + 1)) (fun h trg =>
          let trg := if (ref <? first)%Z then ref else trg in
          place_all h root trg movs))
        else
          bind (gap_right (Z.to_nat (last - ref)) h root movs last (last - 1) (n - 2)) (fun h _ =>
          bind (gap_left (Z.to_nat (ref - (first + 1))) h root movs first (first + 1) 1) (fun h trg =>
          let trg := if (ref <? first)%Z then ref else trg in
          place_all h root trg movs))) = (hk, Ok tt)) /\
    shifted hk /\ h_desc hk root = moved_list L1 L2 /\ pos_ok hk 0 (moved_list L1 L2).
Proof.
  intros Href n. destruct moved_span as [P [M [Q [a [M' [M'' [z [EW [FP [FQ [EM1 [EM2 [Ea Ez]]]]]]]]]]]]].
  assert (Emovs : movs = filter mv M).
  { unfold movs. rewrite EW, !filter_app, FP, FQ. cbn. now rewrite app_nil_r. }
  assert (WP := words_pos h T HR). rewrite EW in WP. apply pos_ok_app in WP as [_ WP].
  apply pos_ok_app in WP as [WP _]. cbn [Nat.add] in WP.
  assert (Oa : h_ord h a = (Z.of_nat (length P) + 1)%Z).
  { rewrite EM1 in WP. apply pos_ok_cons in WP. tauto. }
  assert (Oz : h_ord h z = Z.of_nat (length P + length M)).
  { rewrite EM2 in WP. apply pos_ok_app in WP as [_ WP]. apply pos_ok_cons in WP as [WP _].
    rewrite WP, EM2, app_length. cbn [length]. lia. }
  assert (LW : length words = length P + length M + length Q) by (rewrite EW, !app_length; lia).
  exists a, z.
  assert (N1 : py_nth movs 0 = Some a).
  { rewrite Emovs, EM1. cbn [filter]. rewrite Ea. reflexivity. }
  assert (N2 : py_nth movs (-1) = Some z).
  { rewrite Emovs, EM2, filter_app. cbn [filter]. rewrite Ez.
    unfold py_nth, py_index. rewrite app_length. cbn [length].
    replace (0 <=? -1)%Z with false by reflexivity.
    destruct (Z.leb_spec (- Z.of_nat (length (filter mv M'') + 1)) (-1)); [|lia].
    apply nth_error_mid. lia. }
  rewrite Oa, Oz. cbv zeta.
  assert (Hmovs : forall y, In y movs -> mv y = true) by (intros y Hy; unfold movs in Hy; now apply filter_In in Hy).
  assert (LM : length M >= 1) by (rewrite EM1; cbn; lia).
  destruct (Z.eqb_spec (Z.of_nat (length P + length M) - (Z.of_nat (length P) + 1) + 1) n) as [En|En].
  - (* no gap *)
    assert (EMM : filter mv M = M /\ filter nmv M = []).
    { apply filter_len. unfold n in En. rewrite Emovs in En. lia. }
    destruct EMM as [EMM EMN]. rewrite EMM in Emovs.
    destruct (Z_le_gt_dec ref (Z.of_nat (length P))) as [C1|C1].
    + (* to the left *)
      destruct (list_split P (Z.to_nat (ref - 1))) as [P1 [P2 [EP LP1]]]; [lia|].
      subst P. rewrite app_length in *.
      rewrite filter_app in FP. apply app_eq_nil in FP as [FP1 FP2].
      assert (HI : Inv h (P1 ++ P2) M Q [] []) by (apply Inv_init; now rewrite !app_nil_r).
      destruct (copy_right_ok P2 h P1 M Q [] [] (Z.of_nat (length P1 + length P2 + length M))
        (Z.of_nat (length P1 + length P2) + 1 - 1)%Z HI) as [hk1 [G1 [E1 [I1 L1']]]]; try lia.
      { rewrite EM1. discriminate. }
      replace (Z.to_nat (Z.of_nat (length P1 + length P2) + 1 - ref)) with (length P2) by lia.
      rewrite E1. cbn [bind].
      replace (Z.to_nat (ref - (Z.of_nat (length P1 + length P2 + length M) + 1))) with 0 by lia.
      cbn [copy_left bind].
      destruct (Z.ltb_spec ref (Z.of_nat (length P1 + length P2) + 1)); [|lia].
      apply Inv_tail in I1.
      destruct (place_moved hk1 P1 G1 [] (P2 ++ Q) P1 (P2 ++ M ++ Q) ref I1) as [hk2 [E2 [S2 [D2 O2]]]].
      * now rewrite EW, <- app_assoc.
      * symmetry. now apply mv_none.
      * rewrite !filter_app, (mv_none P2), (mv_none Q), EMN by auto. reflexivity.
      * cbn [length]. rewrite Emovs. lia.
      * lia.
      * exists hk2, P1, (P2 ++ M ++ Q). rewrite E2. repeat split; auto; try apply S2. now rewrite EW, <- app_assoc.
    + destruct (Z_le_gt_dec ref (Z.of_nat (length P + length M) + 1)) as [C2|C2].
      * (* stays *)
        destruct (list_split M (Z.to_nat (ref - 1 - Z.of_nat (length P)))) as [M1 [M2 [EM LM1]]]; [lia|].
        replace (Z.to_nat (Z.of_nat (length P) + 1 - ref)) with 0 by lia.
        replace (Z.to_nat (ref - (Z.of_nat (length P + length M) + 1))) with 0 by lia.
        cbn [copy_right copy_left bind].
        destruct (Z.ltb_spec ref (Z.of_nat (length P) + 1)); [lia|].
        assert (HI : Inv h P M [] [] Q) by (apply Inv_init; auto).
        assert (EMN' : filter nmv M1 = [] /\ filter nmv M2 = []) by (apply app_eq_nil; rewrite <- filter_app, <- EM; auto).
        destruct EMN' as [EMN1 EMN2].
        destruct (place_moved h P M [] Q (P ++ M1) (M2 ++ Q) (Z.of_nat (length P) + 1)%Z HI) as [hk2 [E2 [S2 [D2 O2]]]].
        -- rewrite EW, EM, <- !app_assoc. auto.
        -- rewrite filter_app, EMN1, app_nil_r. symmetry. now apply mv_none.
        -- rewrite filter_app, EMN2. symmetry. now apply mv_none.
        -- rewrite Emovs. cbn. lia.
        -- lia.
        -- exists hk2, (P ++ M1), (M2 ++ Q). rewrite E2. repeat split; auto; try apply S2.
           ++ rewrite EW, EM, <- !app_assoc. auto.
           ++ rewrite app_length. lia.
      * (* to the right *)
        destruct (list_split Q (Z.to_nat (ref - 1 - Z.of_nat (length P + length M)))) as [Q1 [Q2 [EQ LQ1]]]; [lia|].
        subst Q. rewrite app_length in *. rewrite filter_app in FQ. apply app_eq_nil in FQ as [FQ1 FQ2].
        assert (HI : Inv h P M (Q1 ++ Q2) [] []) by (apply Inv_init; now rewrite !app_nil_r).
        replace (Z.to_nat (Z.of_nat (length P) + 1 - ref)) with 0 by lia. cbn [copy_right bind].
        destruct (copy_left_ok Q1 h P M Q2 [] [] (Z.of_nat (length P) + 1)%Z
          (Z.of_nat (length P + length M) + 1)%Z HI) as [hk1 [G1 [E1 [I1 L1']]]]; try lia.
        { rewrite EM1. discriminate. }
        replace (Z.to_nat (ref - (Z.of_nat (length P + length M) + 1))) with (length Q1) by lia.
        rewrite E1. cbn [bind].
        destruct (Z.ltb_spec ref (Z.of_nat (length P) + 1)); [lia|].
        apply Inv_tail in I1.
        destruct (place_moved hk1 (P ++ Q1) G1 [] Q2 (P ++ M ++ Q1) Q2 (Z.of_nat (length P) + 1 + Z.of_nat (length Q1)) I1) as [hk2 [E2 [S2 [D2 O2]]]].
        -- rewrite EW, <- !app_assoc. auto.
        -- rewrite !filter_app, EMN, (mv_none P), (mv_none Q1) by auto. reflexivity.
        -- symmetry. now apply mv_none.
        -- cbn [length]. rewrite Emovs. lia.
        -- rewrite app_length. lia.
        -- exists hk2, (P ++ M ++ Q1), Q2. rewrite E2. repeat split; auto; try apply S2.
           ++ rewrite EW, <- !app_assoc. auto.
           ++ rewrite !app_length. lia.
  - (* gaps *)
    assert (exists Mi, M' = Mi ++ [z]) as [Mi EMi].
    { destruct M'' as [|b M'']; [|exists M''; rewrite EM1 in EM2; now injection EM2].
      exfalso. apply En. unfold n. rewrite Emovs, EM2. cbn. rewrite Ez. cbn. lia. }
    subst M'. clear EM2. subst M.
    assert (Emovs1 : movs = [a] ++ filter mv Mi ++ [z]).
    { rewrite Emovs. cbn [filter app]. rewrite Ea, filter_app. cbn [filter]. now rewrite Ez. }
    assert (Ln : n = (Z.of_nat (length (filter mv Mi)) + 2)%Z).
    { unfold n. rewrite Emovs1, !app_length. cbn [length]. lia. }
    cbn [length] in *. rewrite app_length in *. cbn [length] in *.
    assert (EW2 : words = (P ++ a :: Mi) ++ [z] ++ Q) by (rewrite EW, <- !app_assoc; cbn; now rewrite <- app_assoc).
    destruct (Z_le_gt_dec ref (Z.of_nat (length P + S (length Mi + 1)))) as [C1|C1].
    + (* the right loop moves words *)
      destruct (list_split (P ++ a :: Mi) (Z.to_nat (ref - 1))) as [P1 [P2 [EP LP1]]];
        [rewrite app_length; cbn [length]; lia|].
      assert (LP : length P + S (length Mi) = length P1 + length P2).
      { rewrite <- app_length, <- EP, app_length. cbn [length]. lia. }
      assert (HI : Inv h (P1 ++ P2) [z] Q [] []) by (apply Inv_init; rewrite <- EP, EW2; now rewrite !app_nil_r).
      assert (EFP : [a] ++ filter mv Mi = filter mv P1 ++ filter mv P2).
      { rewrite <- filter_app, <- EP, filter_app, FP. cbn. now rewrite Ea. }
      destruct (gap_right_ok mv movs Hmovs P2 h P1 [z] Q [] [] (filter mv P1) [z]
         (Z.of_nat (length P + S (length Mi + 1))) (Z.of_nat (length P + S (length Mi + 1)) - 1)%Z (n - 2)%Z HI)
         as [hk1 [G2 [t [E1 [I1 L1']]]]]; try discriminate; auto; cbn [length]; try lia.
      { rewrite Emovs1, !app_assoc. f_equal. exact EFP. }
      { rewrite <- EFP. rewrite app_length. cbn [length]. lia. }
      replace (Z.to_nat (Z.of_nat (length P + S (length Mi + 1)) - ref)) with (length P2) by lia.
      rewrite E1. cbn [bind].
      assert (EWL : words = P1 ++ P2 ++ [z] ++ Q) by (rewrite EW2, EP, <- !app_assoc; auto).
      assert (EB : filter nmv P2 ++ Q = filter nmv (P2 ++ [z] ++ Q)).
      { rewrite !filter_app. cbn [filter]. rewrite Ez. cbn. rewrite (mv_none Q); auto. }
      assert (EL : 1 + length (filter mv Mi) = length (filter mv P1) + length (filter mv P2)).
      { rewrite <- app_length, <- EFP, app_length. reflexivity. }
      cbn [length] in L1'.
      destruct (Z_le_gt_dec ref (Z.of_nat (length P) + 1)) as [C2|C2].
      * (* before the first moved word *)
        replace (Z.to_nat (ref - (Z.of_nat (length P) + 1 + 1))) with 0 by lia. cbn [gap_left bind].
        assert (ET : (if (ref <? Z.of_nat (length P) + 1)%Z then ref else (Z.of_nat (length P) + 1)%Z) = ref).
        { destruct (Z.ltb_spec ref (Z.of_nat (length P) + 1)); lia. }
        rewrite ET.
        assert (FP1 : filter mv P1 = []).
        { assert (exists P3, P = P1 ++ P3) as [P3 EP3].
          { exists (firstn (length P - length P1) P2).
            assert (E : firstn (length P) (P ++ a :: Mi) = firstn (length P) (P1 ++ P2)) by congruence.
            rewrite !firstn_app, Nat.sub_diag, firstn_all in E. cbn in E. rewrite app_nil_r in E.
            rewrite E at 1. f_equal. apply firstn_all2. lia. }
          rewrite EP3, filter_app in FP. now apply app_eq_nil in FP. }
        apply Inv_tail in I1.
        destruct (place_moved hk1 P1 G2 [] (filter nmv P2 ++ Q) P1 (P2 ++ [z] ++ Q) ref I1) as [hk2 [E2 [S2 [D2 O2]]]]; auto.
        -- symmetry. now apply mv_none.
        -- rewrite Emovs1, !app_length. rewrite FP1 in EL. cbn [length] in *. lia.
        -- lia.
        -- exists hk2, P1, (P2 ++ [z] ++ Q). rewrite E2. repeat split; auto; try apply S2.
      * (* in the middle *)
        assert (exists Q1, P1 = P ++ a :: Q1) as [Q1 EQ1].
        { assert (E : firstn (length P1) (P ++ a :: Mi) = P1).
          { rewrite EP, firstn_app, Nat.sub_diag, firstn_all. cbn. now rewrite app_nil_r. }
          rewrite firstn_app in E. rewrite firstn_all2 in E by lia.
          destruct (length P1 - length P) as [|k] eqn:EK; [lia|]. cbn in E. rewrite <- E. eauto. }
        subst P1. apply Inv_split in I1. rewrite app_length in *. cbn [length] in *.
        rewrite filter_app in EFP. cbn [filter] in EFP. rewrite FP, Ea in EFP. cbn [app] in EFP.
        injection EFP as EFP.
        assert (I1' : Inv hk1 P [a] (Q1 ++ []) G2 (filter nmv P2 ++ Q)) by (now rewrite app_nil_r).
        destruct (gap_left_ok mv movs Hmovs Q1 hk1 P [a] [] G2 (filter nmv P2 ++ Q) [a] (filter mv P2 ++ [z])
          (Z.of_nat (length P) + 1)%Z (Z.of_nat (length P) + 1 + 1)%Z 1%Z I1') as [hk2 [G3 [E2 [I2 L2']]]];
          try discriminate; auto; cbn [length]; try lia.
        { rewrite Emovs1, EFP, <- app_assoc. reflexivity. }
        replace (Z.to_nat (ref - (Z.of_nat (length P) + 1 + 1))) with (length Q1) by lia.
        rewrite E2. cbn [bind].
        destruct (Z.ltb_spec ref (Z.of_nat (length P) + 1)); [lia|].
        destruct (place_moved hk2 (P ++ filter nmv Q1) G3 G2 (filter nmv P2 ++ Q) (P ++ a :: Q1) (P2 ++ [z] ++ Q)
          (Z.of_nat (length P) + 1 + Z.of_nat (length (filter nmv Q1))) I2) as [hk3 [E3 [S3 [D3 O3]]]]; auto.
        -- rewrite filter_app. cbn [filter]. rewrite Ea. cbn. now rewrite (mv_none P).
        -- rewrite Emovs1, !app_length, EFP, !app_length. cbn [length] in *. lia.
        -- rewrite app_length. lia.
        -- exists hk3, (P ++ a :: Q1), (P2 ++ [z] ++ Q). rewrite E3. repeat split; auto; try apply S3.
           rewrite app_length. cbn [length]. lia.
    + (* after the last moved word *)
      destruct (list_split Q (Z.to_nat (ref - 1 - Z.of_nat (length P + S (length Mi + 1))))) as [Qa [Qb [EQ LQ1]]]; [lia|].
      subst Q. rewrite app_length in *. rewrite filter_app in FQ. apply app_eq_nil in FQ as [FQ1 FQ2].
      replace (Z.to_nat (Z.of_nat (length P + S (length Mi + 1)) - ref)) with 0 by lia. cbn [gap_right bind].
      assert (EW3 : words = P ++ [a] ++ (Mi ++ [z] ++ Qa) ++ Qb).
      { rewrite EW2, <- !app_assoc. reflexivity. }
      assert (HI : Inv h P [a] ((Mi ++ [z] ++ Qa) ++ Qb) [] []) by (apply Inv_init; rewrite !app_nil_r; auto).
      assert (FM : filter mv (Mi ++ [z] ++ Qa) = filter mv Mi ++ [z]).
      { rewrite !filter_app, FQ1. cbn [filter]. now rewrite Ez. }
      destruct (gap_left_ok mv movs Hmovs (Mi ++ [z] ++ Qa) h P [a] Qb [] [] [a] []
          (Z.of_nat (length P) + 1)%Z (Z.of_nat (length P) + 1 + 1)%Z 1%Z HI) as [hk2 [G3 [E2 [I2 L2']]]];
          try discriminate; auto; cbn [length]; try lia.
      { rewrite FM, app_nil_r. auto. }
      replace (Z.to_nat (ref - (Z.of_nat (length P) + 1 + 1))) with (length (Mi ++ [z] ++ Qa))
        by (rewrite !app_length; cbn [length]; lia).
      rewrite E2. cbn [bind].
      destruct (Z.ltb_spec ref (Z.of_nat (length P) + 1)); [lia|].
      apply Inv_tail in I2.
      destruct (place_moved hk2 (P ++ filter nmv (Mi ++ [z] ++ Qa)) G3 [] Qb (P ++ [a] ++ (Mi ++ [z] ++ Qa)) Qb
          (Z.of_nat (length P) + 1 + Z.of_nat (length (filter nmv (Mi ++ [z] ++ Qa)))) I2) as [hk3 [E3 [S3 [D3 O3]]]]; auto.
      * rewrite EW3, <- !app_assoc. auto.
      * rewrite (filter_app nmv P). cbn [filter app]. rewrite Ea. cbn. now rewrite (mv_none P).
      * symmetry. now apply mv_none.
      * rewrite L2', FM, Emovs1, !app_length. cbn [length]. lia.
      * rewrite app_length. lia.
      * exists hk3, (P ++ [a] ++ (Mi ++ [z] ++ Qa)), Qb. rewrite E3. repeat split; auto; try apply S3.
        -- rewrite EW3, <- !app_assoc. auto.
        -- rewrite !app_length. cbn [length]. lia.
Qed.
End Move.

(** Effect of moving one word on the position of an empty node (in tenths). *)
Definition single_eord (my ref o : Z) : Z :=
  if (my + 1 <? ref)%Z then (if (10 * my <? o) && (o <? 10 * ref) then o - 10 else o)%Z
  else if (ref <? my)%Z then (if (10 * ref <? o) && (o <? 10 * my) then o + 10 else o)%Z
  else o.
Lemma shift_emp_eord lo hi d l : forall h0 e, NoDup l -> In e l ->
  h_eord (shift_emp h0 lo hi d l) e =
  (if (10 * lo <? h_eord h0 e) && (h_eord h0 e <? 10 * hi) then h_eord h0 e + d else h_eord h0 e)%Z.
Proof.
  induction l as [|b l IH]; intros h0 e ND He; [destruct He|]. inversion ND as [|? ? N1 N2]; subst.
  cbn [shift_emp]. set (h1 := if (_ : bool) then put_eord h0 b _ else h0).
  destruct He as [->|He].
  - rewrite (oe_eord _ _ _ (shift_emp_only lo hi d l h1) e N1). unfold h1.
    destruct (_ && _); cbn; upds; auto.
  - rewrite IH by auto.
    assert (E : h_eord h1 e = h_eord h0 e).
    { unfold h1. destruct (_ && _); auto. cbn. rewrite upd_other; congruence. }
    now rewrite E.
Qed.

Definition mvset (x : nat) (wc : bool) (y : nat) : bool := if wc then Nat.eqb y x else insubb T y x.

Lemma mvset_sib x wc : In x words -> forall c c', In c words -> In c' words -> par c = par c' -> par c <> par x ->
  mvset x wc c = mvset x wc c'.
Proof.
  intros Hx c c' Hc Hc' E Hn. unfold mvset.
  assert (c <> x) by congruence. assert (c' <> x) by congruence. destruct wc.
  - destruct (Nat.eqb_spec c x); destruct (Nat.eqb_spec c' x); congruence.
  - unfold insubb. destruct (Nat.eqb_spec c x); destruct (Nat.eqb_spec c' x); try congruence. cbn [orb].
    destruct (belowb T c x) eqn:E1, (belowb T c' x) eqn:E2; auto; exfalso.
    + apply (belowb_spec T W) in E1. apply (belowb_false T W) in E2. apply E2.
      rewrite (below_cases T c' x). rewrite (below_cases T c x) in E1. rewrite <- E. tauto.
    + apply (belowb_spec T W) in E2. apply (belowb_false T W) in E1. apply E1.
      rewrite (below_cases T c x). rewrite (below_cases T c' x) in E2. rewrite E. tauto.
Qed.

Lemma t_move_ext mv1 mv2 k : (forall y, In y words -> mv1 y = mv2 y) -> t_move T mv1 k = t_move T mv2 k.
Proof.
  intros E. unfold t_move. f_equal. f_equal; [|f_equal]; apply filter_ext_in'; intros y Hy.
  - rewrite E; auto. rewrite <- (firstn_skipn k words). apply in_app_iff; auto.
  - auto.
  - rewrite E; auto. rewrite <- (firstn_skipn k words). apply in_app_iff; auto.
Qed.

Lemma single_shift x ref : In x words -> (1 <= ref <= Z.of_nat (length words) + 1)%Z ->
  let mv := fun y => Nat.eqb y x in
  let my := h_ord h x in
  exists h',
    (if (my + 1 <? ref)%Z then
      bind (copy_left (Z.to_nat (ref - 1 - my)) h root my (my + 1)) (fun h _ =>
      bind (place_node h root x (ref - 1)) (fun h _ =>
      let h := shift_emp h my ref (-10) (h_emp h root) in
      sort_siblings h x))
    else if (ref <? my)%Z then
      bind (copy_right (Z.to_nat (my - ref)) h root my (my - 1)) (fun h _ =>
      bind (place_node h root x ref) (fun h _ =>
      let h := shift_emp h ref my 10 (h_emp h root) in
      sort_siblings h x))
    else sort_siblings h x) = (h', Ok tt) /\
    Repr h' (t_move T mv (Z.to_nat (ref - 1))) /\ framed h h' (touched h T) /\ same_static h h' /\
    (NoDup (h_emp h root) -> forall e, In e (h_emp h root) -> h_eord h' e = single_eord my ref (h_eord h e)).
Proof.
  intros Hx Href mv my.
  assert (mvx : mv x = true) by apply Nat.eqb_refl.
  assert (Hsib : forall c c', In c words -> In c' words -> par c = par c' -> par c <> par x -> mv c = mv c')
    by exact (mvset_sib x true Hx).
  destruct (leaf_words h T W HR x Hx) as [P [Q [EW [EO EF]]]]. fold my in EO.
  assert (NDW := wf_nodup T W). rewrite EW in NDW. apply NoDup_remove in NDW as [_ HxPQ].
  assert (FPQ : forall l, incl l (P ++ Q) -> filter mv l = [] /\ filter (fun y => negb (mv y)) l = l).
  { intros l Hl. split; [apply filter_none|apply filter_all]; intros y Hy; unfold mv;
    destruct (Nat.eqb_spec y x) as [->|]; auto; exfalso; auto. }
  assert (FM : filter mv words = [x]).
  { unfold mv. apply filter_eqb_single; auto. apply (wf_nodup T W). }
  assert (LW : length words = length P + S (length Q)) by (rewrite EW, app_length; auto).
  assert (Emov : forall hk L1 L2, words = L1 ++ L2 -> length L1 = Z.to_nat (ref - 1) -> shifted hk ->
     h_desc hk root = moved_list mv L1 L2 -> pos_ok hk 0 (moved_list mv L1 L2) ->
     forall hk2, only_eord hk hk2 (h_emp h root) ->
     exists h', sort_siblings hk2 x = (h', Ok tt) /\ Repr h' (t_move T mv (Z.to_nat (ref - 1))) /\
       framed h h' (touched h T) /\ same_static h h' /\ h_eord h' = h_eord hk2).
  { intros hk L1 L2 E1 E2 S2 D2 O2 hk2 HO. rewrite <- E2, (t_move_list mv L1 L2 E1).
    eapply (sorted_finish x _ hk hk2 (h_emp h root)); auto.
    - red; auto.
    - rewrite moved_perm, E1. reflexivity.
    - intros y Hy. now apply (moved_ch x mv). }
  destruct (Z.ltb_spec (my + 1) ref) as [C1|C1].
  - destruct (list_split Q (Z.to_nat (ref - 1 - my))) as [Q1 [Q2 [EQ LQ1]]]; [lia|]. subst Q.
    assert (HI : Inv h P [x] (Q1 ++ Q2) [] []) by (apply Inv_init; rewrite !app_nil_r; auto).
    destruct (copy_left_ok Q1 h P [x] Q2 [] [] my (my + 1)%Z HI) as [hk1 [G1 [E1 [I1 LG]]]];
      [discriminate|lia|cbn [length]; lia|].
    rewrite <- LQ1, E1. cbn [bind]. apply Inv_tail in I1.
    destruct (place_moved mv hk1 (P ++ Q1) G1 [] Q2 (P ++ x :: Q1) Q2 (ref - 1)%Z I1) as [hk2 [E2 [S2 [D2 O2]]]].
    + rewrite EW, <- app_assoc. auto.
    + rewrite filter_app. cbn [filter]. rewrite mvx. cbn [negb].
      rewrite (proj2 (FPQ P ltac:(intros y Hy; apply in_app_iff; auto))).
      rewrite (proj2 (FPQ Q1 ltac:(intros y Hy; rewrite !in_app_iff; auto))). auto.
    + symmetry. apply FPQ. intros y Hy; rewrite !in_app_iff; auto.
    + rewrite FM, LG. auto.
    + rewrite app_length. lia.
    + rewrite FM in E2. cbn [place_all] in E2.
      destruct (place_node hk1 root x (ref - 1)) as [hk3 [[]| |]]; cbn [bind] in E2; try discriminate.
      injection E2 as ->. cbn [bind].
      destruct (Emov hk2 (P ++ x :: Q1) Q2) with (hk2 := shift_emp hk2 my ref (-10) (h_emp hk2 root))
        as [h' [E3 [R3 [F3 [S3 O3]]]]]; auto.
      * rewrite EW, <- app_assoc. auto.
      * rewrite app_length. cbn [length]. lia.
      * rewrite <- (ss_emp _ _ (sh_static _ S2)). apply shift_emp_only.
      * exists h'. split; auto. split; auto. split; auto. split; auto.
        intros ND e He. rewrite O3, (ss_emp _ _ (sh_static _ S2)), shift_emp_eord by auto.
        rewrite (sh_eord _ S2). unfold single_eord. destruct (Z.ltb_spec (my + 1) ref); [|lia]. auto.
  - destruct (Z.ltb_spec ref my) as [C2|C2].
    + destruct (list_split P (Z.to_nat (ref - 1))) as [P1 [P2 [EP LP1]]]; [lia|]. subst P. rewrite app_length in *.
      assert (HI : Inv h (P1 ++ P2) [x] Q [] []) by (apply Inv_init; rewrite !app_nil_r; auto).
      destruct (copy_right_ok P2 h P1 [x] Q [] [] my (my - 1)%Z HI) as [hk1 [G1 [E1 [I1 LG]]]];
        [discriminate|lia|cbn [length]; lia|].
      replace (Z.to_nat (my - ref)) with (length P2) by lia. rewrite E1. cbn [bind]. apply Inv_tail in I1.
      destruct (place_moved mv hk1 P1 G1 [] (P2 ++ Q) P1 (P2 ++ x :: Q) ref I1) as [hk2 [E2 [S2 [D2 O2]]]].
      * rewrite EW, <- app_assoc. auto.
      * symmetry. apply FPQ. intros y Hy; rewrite !in_app_iff; auto.
      * rewrite filter_app. cbn [filter]. rewrite mvx. cbn [negb].
        rewrite (proj2 (FPQ P2 ltac:(intros y Hy; rewrite !in_app_iff; auto))).
        rewrite (proj2 (FPQ Q ltac:(intros y Hy; rewrite !in_app_iff; auto))). auto.
      * rewrite FM, LG. auto.
      * lia.
      * rewrite FM in E2. cbn [place_all] in E2.
        destruct (place_node hk1 root x ref) as [hk3 [[]| |]]; cbn [bind] in E2; try discriminate.
        injection E2 as ->. cbn [bind].
        destruct (Emov hk2 P1 (P2 ++ x :: Q)) with (hk2 := shift_emp hk2 ref my 10 (h_emp hk2 root))
          as [h' [E3 [R3 [F3 [S3 O3]]]]]; auto.
        -- rewrite EW, <- app_assoc. auto.
        -- rewrite <- (ss_emp _ _ (sh_static _ S2)). apply shift_emp_only.
        -- exists h'. split; auto. split; auto. split; auto. split; auto.
           intros ND e He. rewrite O3, (ss_emp _ _ (sh_static _ S2)), shift_emp_eord by auto.
           rewrite (sh_eord _ S2). unfold single_eord. destruct (Z.ltb_spec (my + 1) ref); [lia|].
           destruct (Z.ltb_spec ref my); [|lia]. auto.
    + assert (exists L1 L2, words = L1 ++ L2 /\ length L1 = Z.to_nat (ref - 1) /\ moved_list mv L1 L2 = words) as [L1 [L2 [E1 [E2 E3]]]].
      { assert (FP : filter (fun y => negb (mv y)) P = P) by (apply FPQ; intros y Hy; apply in_app_iff; auto).
        assert (FQ : filter (fun y => negb (mv y)) Q = Q) by (apply FPQ; intros y Hy; apply in_app_iff; auto).
        destruct (Z.eq_dec ref my) as [E|E].
        - exists P, (x :: Q). split; auto. split; [lia|]. unfold moved_list. rewrite <- EW, FM. cbn [filter].
          rewrite mvx. cbn [negb]. rewrite FP, FQ. auto.
        - exists (P ++ [x]), Q. split; [now rewrite <- app_assoc|]. split; [rewrite app_length; cbn [length]; lia|].
          unfold moved_list. rewrite <- app_assoc. cbn [app]. rewrite <- EW, FM, filter_app. cbn [filter]. rewrite mvx.
          cbn [negb]. rewrite FP, FQ, app_nil_r. auto. }
      destruct (Emov h L1 L2) with (hk2 := h) as [h' [E4 [R4 [F4 [S4 O4]]]]]; auto.
      * apply shifted_refl.
      * rewrite E3. apply (r_desc h T HR).
      * rewrite E3. apply (words_pos h T HR).
      * apply only_eord_refl.
      * exists h'. split; auto. split; auto. split; auto. split; auto. intros _ e He. rewrite O4. unfold single_eord.
        destruct (Z.ltb_spec (my + 1) ref); [lia|]. destruct (Z.ltb_spec ref my); [lia|]. auto.
Qed.

Lemma shift_before_ord_ok x ref wc : In x words -> (1 <= ref <= Z.of_nat (length words) + 1)%Z ->
  exists h', shift_before_ord h x ref wc = (h', Ok tt) /\
    Repr h' (t_move T (mvset x wc) (Z.to_nat (ref - 1))) /\ framed h h' (touched h T) /\ same_static h h' /\
    (wc || negb (nonempty (chs T x)) = true -> NoDup (h_emp h root) ->
       forall e, In e (h_emp h root) -> h_eord h' e = single_eord (h_ord h x) ref (h_eord h e)) /\
    (wc || negb (nonempty (chs T x)) = false -> h_eord h' = h_eord h).
Proof.
  intros Hx Href. unfold shift_before_ord. rewrite (r_root h T HR x (NW x Hx)).
  rewrite (ch_eq h T HR x (NW x Hx)).
  destruct (wc || negb (nonempty (chs T x))) eqn:EB.
  - destruct (single_shift x ref Hx Href) as [h' [E [R [F [S O]]]]]. exists h'. split; [exact E|].
    split; [|split; [|split; [|split]]]; auto; [|discriminate].
    rewrite (t_move_ext (mvset x wc) (fun y => Nat.eqb y x)); auto.
    intros y Hy. unfold mvset. destruct wc; auto. cbn [orb] in EB. apply negb_true_iff in EB.
    unfold insubb. rewrite (proj2 (belowb_false T W y x)); [apply orb_false_r|].
    intros HB. apply (subs_In T W) in HB. rewrite (chs_nil_subs T W x) in HB; [destruct HB|].
    destruct (chs T x); [auto|discriminate].
  - apply orb_false_iff in EB as [-> _]. rewrite (descendants_add_self_ok h T W HR x Hx).
    destruct (subtree_shift x Hx (mvset x false)) with (ref := ref) as [a [z [hk [L1 [L2 [N1 [N2 [E1 [E2 [E3 [S3 [D3 O3]]]]]]]]]]]]; auto.
    { unfold mvset, insubb. now rewrite Nat.eqb_refl. }
    change (filter (fun y => insubb T y x) words) with (filter (mvset x false) words).
    rewrite N1, N2. cbv zeta in E3 |- *.
    destruct (sorted_finish x (moved_list (mvset x false) L1 L2) hk hk []) as [h' [E4 [R4 [F4 [S4 O4]]]]]; auto.
    { apply only_eord_refl. }
    { intros y []. }
    { rewrite moved_perm, E1. reflexivity. }
    { intros y Hy. apply (moved_ch x (mvset x false)); auto. now apply (mvset_sib x false). }
    exists h'. split; [|rewrite <- E2, (t_move_list _ L1 L2 E1); split; [auto|split; [auto|split; [auto|split; [discriminate|]]]]].
    + rewrite <- E4. destruct (_ =? _)%Z.
      * destruct (copy_right _ _ _ _ _) as [h1 [t1| |]]; cbn [bind] in *; try discriminate.
        destruct (copy_left _ _ _ _ _) as [h2 [t2| |]]; cbn [bind] in *; try discriminate.
        rewrite E3. reflexivity.
      * destruct (gap_right _ _ _ _ _ _ _) as [h1 [t1| |]]; cbn [bind] in *; try discriminate.
        destruct (gap_left _ _ _ _ _ _ _) as [h2 [t2| |]]; cbn [bind] in *; try discriminate.
        rewrite E3. reflexivity.
    + intros _. rewrite O4. apply (sh_eord _ S3).
Qed.

Lemma wf_move x wc k : wf (t_move T (mvset x wc) k).
Proof.
  assert (exists L1 L2, words = L1 ++ L2 /\ firstn k words = L1 /\ skipn k words = L2) as [L1 [L2 [E1 [E2 E3]]]].
  { exists (firstn k words), (skipn k words). repeat split. symmetry. apply firstn_skipn. }
  unfold t_move. apply wf_perm. rewrite E2, E3, E1. apply moved_perm.
Qed.
End Shift.
