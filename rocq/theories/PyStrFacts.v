(** Facts about the string functions of PyStr. *)
From Coq Require Import List NArith ZArith Bool Lia Permutation Sorted.
From Verif Require Import PyStr.
Import ListNotations.

Lemma str_eqb_spec a b : reflect (a = b) (str_eqb a b).
Proof.
  revert b; induction a as [|x a IH]; intros [|y b]; simpl; try (constructor; congruence).
  destruct (N.eqb_spec x y) as [->|]; simpl.
  - destruct (IH b); constructor; congruence.
  - constructor; congruence.
Qed.
Lemma str_eqb_refl a : str_eqb a a = true.
Proof. destruct (str_eqb_spec a a); congruence. Qed.
Lemma str_eqb_eq a b : str_eqb a b = true <-> a = b.
Proof. destruct (str_eqb_spec a b); split; congruence. Qed.
Lemma str_eqb_neq a b : str_eqb a b = false <-> a <> b.
Proof. destruct (str_eqb_spec a b); split; congruence. Qed.
Lemma str_eqb_sym a b : str_eqb a b = str_eqb b a.
Proof. destruct (str_eqb_spec a b), (str_eqb_spec b a); congruence. Qed.

Lemma str_leb_refl a : str_leb a a = true.
Proof.
  induction a as [|x a IH]; simpl; auto.
  rewrite N.ltb_irrefl, N.eqb_refl; auto.
Qed.
Lemma str_leb_total a b : str_leb a b = true \/ str_leb b a = true.
Proof.
  revert b; induction a as [|x a IH]; intros [|y b]; simpl; auto.
  destruct (N.ltb_spec x y); auto.
  destruct (N.eqb_spec x y) as [->|].
  - rewrite N.ltb_irrefl, N.eqb_refl. auto.
  - right. destruct (N.ltb_spec y x); auto. lia.
Qed.
Lemma str_leb_trans a b d : str_leb a b = true -> str_leb b d = true -> str_leb a d = true.
Proof.
  revert b d; induction a as [|x a IH]; intros [|y b] [|z d]; simpl; auto; try discriminate.
  destruct (N.ltb_spec x y), (N.ltb_spec y z), (N.ltb_spec x z); auto; try lia;
    destruct (N.eqb_spec x y), (N.eqb_spec y z), (N.eqb_spec x z);
    try discriminate; try lia; eauto.
Qed.
Lemma str_leb_antisym a b : str_leb a b = true -> str_leb b a = true -> a = b.
Proof.
  revert b; induction a as [|x a IH]; intros [|y b]; simpl; auto; try discriminate.
  destruct (N.ltb_spec x y), (N.ltb_spec y x); try lia;
    destruct (N.eqb_spec x y), (N.eqb_spec y x); try discriminate; try lia.
  intros; f_equal; auto.
Qed.

Lemma has_char_In ch x : has_char ch x = true <-> In ch x.
Proof.
  unfold has_char. rewrite existsb_exists. split.
  - intros [y [H1 H2]]. apply N.eqb_eq in H2; subst; auto.
  - intros H; exists ch; split; auto. apply N.eqb_refl.
Qed.
Lemma has_char_false ch x : has_char ch x = false <-> ~ In ch x.
Proof. rewrite <- has_char_In. destruct (has_char ch x); split; congruence. Qed.

Lemma split1_Some ch x l r : split1 ch x = Some (l, r) -> x = l ++ ch :: r /\ ~ In ch l.
Proof.
  revert l r; induction x as [|a x IH]; simpl; intros l r; try discriminate.
  destruct (N.eqb_spec a ch) as [->|Hn].
  - intros [= <- <-]; simpl; auto.
  - destruct (split1 ch x) as [[l' r']|] eqn:E; try discriminate.
    intros [= <- <-]. destruct (IH _ _ eq_refl) as [-> Hl]. split; auto.
    simpl; intros [H|H]; congruence || auto.
Qed.
Lemma split1_None ch x : split1 ch x = None <-> ~ In ch x.
Proof.
  induction x as [|a x IH]; simpl.
  - split; auto.
  - destruct (N.eqb_spec a ch) as [->|Hn].
    + split; try discriminate. intros H; exfalso; auto.
    + destruct (split1 ch x) as [[l' r']|].
      * split; [discriminate|]. intros H; exfalso.
        assert (Some (l', r') = None) by (apply IH; auto). discriminate.
      * split; auto. intros _ [H|H]; [congruence|]. apply IH; auto.
Qed.
Lemma split1_app ch l r : ~ In ch l -> split1 ch (l ++ ch :: r) = Some (l, r).
Proof.
  induction l as [|a l IH]; simpl; intros H.
  - now rewrite N.eqb_refl.
  - destruct (N.eqb_spec a ch) as [->|]; [exfalso; auto|]. rewrite IH; auto.
Qed.

Lemma split_nonempty ch x : split ch x <> [].
Proof.
  destruct x as [|a x]; simpl; try discriminate.
  destruct (N.eqb a ch); try discriminate. destruct (split ch x); discriminate.
Qed.
Lemma split_nochar ch x : ~ In ch x -> split ch x = [x].
Proof.
  induction x as [|a x IH]; simpl; intros H; auto.
  destruct (N.eqb_spec a ch) as [->|]; [exfalso; auto|]. rewrite IH; auto.
Qed.
Lemma split_app ch l r : ~ In ch l -> split ch (l ++ ch :: r) = l :: split ch r.
Proof.
  induction l as [|a l IH]; simpl; intros H.
  - now rewrite N.eqb_refl.
  - destruct (N.eqb_spec a ch) as [->|]; [exfalso; auto|]. rewrite IH; auto.
Qed.
Lemma split_join ch l : l <> [] -> (forall x, In x l -> ~ In ch x) -> split ch (join [ch] l) = l.
Proof.
  induction l as [|x l IH]; intros Hne H; [congruence|].
  destruct l as [|y l].
  - simpl. apply split_nochar. apply H; simpl; auto.
  - change (join [ch] (x :: y :: l)) with (x ++ ch :: join [ch] (y :: l)).
    rewrite split_app by (apply H; simpl; auto). rewrite IH; try discriminate; auto.
    intros z Hz; apply H; simpl in *; tauto.
Qed.
Lemma join_split ch x : join [ch] (split ch x) = x.
Proof.
  induction x as [|a x IH]; simpl; auto.
  destruct (N.eqb_spec a ch) as [->|].
  - destruct (split ch x) as [|h t] eqn:E; [now apply split_nonempty in E|].
    simpl in *. now rewrite IH.
  - destruct (split ch x) as [|h t] eqn:E; [now apply split_nonempty in E|].
    destruct t; simpl in *; congruence.
Qed.
Lemma split_no_sep ch x p : In p (split ch x) -> ~ In ch p.
Proof.
  revert p; induction x as [|a x IH]; simpl; intros p.
  - intros [<-|[]]; auto.
  - destruct (N.eqb_spec a ch) as [->|].
    + intros [<-|H]; simpl; auto.
    + destruct (split ch x) as [|h t] eqn:E; [now apply split_nonempty in E|].
      intros [<-|H].
      * simpl; intros [H|H]; [congruence|]. eapply IH; simpl; eauto.
      * apply IH; simpl; auto.
Qed.
Lemma in_join ch l a : In a (join [ch] l) -> a = ch \/ exists x, In x l /\ In a x.
Proof.
  induction l as [|x l IH]; simpl; [tauto|].
  destruct l as [|y l].
  - intros H; right; exists x; simpl; auto.
  - intros H. apply in_app_or in H as [H|[H|H]].
    + right; exists x; auto.
    + auto.
    + destruct (IH H) as [->|[z [H1 H2]]]; auto. right; exists z; auto.
Qed.

Lemma starts_with_spec p x : starts_with p x = true <-> exists r, x = p ++ r.
Proof.
  revert x; induction p as [|a p IH]; intros x; simpl.
  - split; eauto.
  - destruct x as [|b x].
    + split; try discriminate. intros [r Hr]; discriminate.
    + rewrite andb_true_iff, N.eqb_eq, IH. split.
      * intros [-> [r ->]]; eauto.
      * intros [r Hr]. injection Hr as -> ->. eauto.
Qed.

Lemma lstrip_prefix x : exists l, x = l ++ lstrip x /\ forallb is_space l = true.
Proof.
  induction x as [|a x [l [H1 H2]]]; simpl.
  - exists []; auto.
  - destruct (is_space a) eqn:E.
    + exists (a :: l); simpl. rewrite E, H2. split; auto. congruence.
    + exists []; auto.
Qed.
Lemma lstrip_head x : match lstrip x with [] => True | a :: _ => is_space a = false end.
Proof.
  induction x as [|a x IH]; simpl; auto. destruct (is_space a) eqn:E; auto.
Qed.
Lemma lstrip_id a x : is_space a = false -> lstrip (a :: x) = a :: x.
Proof. simpl; intros ->; auto. Qed.
Lemma rstrip_id x : match rev x with [] => True | a :: _ => is_space a = false end -> rstrip x = x.
Proof.
  unfold rstrip. intros H. destruct (rev x) as [|a r] eqn:E.
  - assert (x = []) as -> by (rewrite <- (rev_involutive x), E; auto). auto.
  - rewrite lstrip_id by auto. rewrite <- E. apply rev_involutive.
Qed.
Lemma rstrip_suffix x : exists r, x = rstrip x ++ r /\ forallb is_space r = true.
Proof.
  unfold rstrip. destruct (lstrip_prefix (rev x)) as [l [H1 H2]].
  exists (rev l). split.
  - rewrite <- rev_app_distr, <- H1. now rewrite rev_involutive.
  - rewrite forallb_forall in *. intros y Hy. apply H2. now apply in_rev.
Qed.
Lemma rstrip_last x : match rev (rstrip x) with [] => True | a :: _ => is_space a = false end.
Proof. unfold rstrip. rewrite rev_involutive. apply lstrip_head. Qed.
Lemma rstrip_idem x : rstrip (rstrip x) = rstrip x.
Proof. apply rstrip_id, rstrip_last. Qed.
Lemma lstrip_app_space l x : forallb is_space l = true -> lstrip (l ++ x) = lstrip x.
Proof. induction l as [|a l IH]; simpl; auto. rewrite andb_true_iff. intros [-> H]; auto. Qed.
Lemma rstrip_app_space x r : forallb is_space r = true -> rstrip (x ++ r) = rstrip x.
Proof.
  intros H. unfold rstrip. rewrite rev_app_distr, lstrip_app_space; auto.
  rewrite forallb_forall in *. intros y Hy. apply H. now apply in_rev.
Qed.

(** Round trip of [str]/[int] on non-negative numbers. *)
Lemma digit_char n : (0 <= n < 10)%Z ->
  is_digit (Z.to_N (n + 48)) = true /\ digit_val (Z.to_N (n + 48)) = n.
Proof.
  intros H. unfold is_digit, digit_val. split.
  - apply andb_true_iff; split; apply N.leb_le; lia.
  - lia.
Qed.

Lemma digits_app acc b x y z :
  digits_to_Z acc b x = Some z -> forallb is_digit x = true ->
  digits_to_Z acc b (x ++ y) = digits_to_Z z (match x with [] => b | _ => true end) y.
Proof.
  revert acc b; induction x as [|a x IH]; simpl; intros acc b.
  - destruct b; [|discriminate]. intros [= ->]; auto.
  - rewrite andb_true_iff. intros H [Ha Hx]. rewrite Ha in *.
    rewrite (IH _ _ H Hx). destruct x; auto.
Qed.

Lemma digits_to_Z_true x acc : forallb is_digit x = true -> exists z, digits_to_Z acc true x = Some z.
Proof.
  revert acc; induction x as [|a x IH]; simpl; intros acc; eauto.
  rewrite andb_true_iff. intros [-> H]. eauto.
Qed.

Lemma nat_digits_spec f n acc :
  (0 <= n)%Z -> (n < 10 ^ Z.of_nat f)%Z -> f <> O ->
  exists ds, nat_digits f n acc = ds ++ acc /\ forallb is_digit ds = true /\ ds <> [] /\
             forall y, digits_to_Z 0 false (ds ++ y) = digits_to_Z n true y.
Proof.
  revert n acc; induction f as [|f IH]; intros n acc Hn Hf H0; [congruence|].
  cbn [nat_digits].
  assert (Hm : (0 <= n mod 10 < 10)%Z) by (apply Z.mod_pos_bound; lia).
  destruct (digit_char _ Hm) as [D1 D2].
  destruct (Z.ltb_spec n 10).
  - rewrite (Z.mod_small n 10) in * by lia.
    exists [Z.to_N (n + 48)]. cbn [forallb app]. rewrite D1. repeat split; auto; try discriminate.
    intros y; cbn [digits_to_Z]. rewrite D1, D2. reflexivity.
  - destruct f as [|f].
    { simpl in Hf. lia. }
    assert (0 <= n / 10)%Z by (apply Z.div_pos; lia).
    assert (n / 10 < 10 ^ Z.of_nat (S f))%Z.
    { apply Z.div_lt_upper_bound; try lia.
      replace (Z.of_nat (S (S f))) with (Z.succ (Z.of_nat (S f))) in Hf by lia.
      rewrite Z.pow_succ_r in Hf by lia. lia. }
    destruct (IH (n / 10)%Z (Z.to_N (n mod 10 + 48) :: acc)) as [ds [E1 [E2 [E3 E4]]]]; auto.
    exists (ds ++ [Z.to_N (n mod 10 + 48)]). rewrite E1, <- app_assoc. simpl app.
    repeat split; auto.
    + rewrite forallb_app, E2. cbn [forallb]. rewrite D1; auto.
    + destruct ds; discriminate.
    + intros y. rewrite <- app_assoc. cbn [app]. rewrite E4. cbn [digits_to_Z]. rewrite D1, D2.
      f_equal. pose proof (Z.div_mod n 10). lia.
Qed.

Lemma pow2_le_pow10 k : (0 <= k)%Z -> (2 ^ k <= 10 ^ k)%Z.
Proof. intros; apply Z.pow_le_mono_l; lia. Qed.

Lemma digits_bound n : (0 <= n)%Z -> (n < 10 ^ Z.of_nat (S (Z.to_nat (Z.log2_up (n + 1)))))%Z.
Proof.
  intros H.
  assert (0 <= Z.log2_up (n+1))%Z by apply Z.log2_up_nonneg.
  replace (Z.of_nat (S (Z.to_nat (Z.log2_up (n + 1))))) with (Z.succ (Z.log2_up (n+1))) by lia.
  rewrite Z.pow_succ_r by auto.
  destruct (Z.eq_dec n 0) as [->|].
  - simpl. lia.
  - assert (n + 1 <= 2 ^ Z.log2_up (n+1))%Z by (apply Z.log2_up_spec; lia).
    pose proof (pow2_le_pow10 (Z.log2_up (n+1)) ltac:(auto)). lia.
Qed.

Lemma is_digit_not_space a : is_digit a = true -> is_space a = false.
Proof.
  unfold is_digit, is_space. rewrite andb_true_iff, !N.leb_le. intros [H1 H2].
  repeat (apply orb_false_iff; split);
    try (apply andb_false_iff); rewrite ?N.leb_gt, ?N.eqb_neq; lia.
Qed.

Lemma str_of_Z_nonneg n : (0 <= n)%Z ->
  forallb is_digit (str_of_Z n) = true /\ str_of_Z n <> [] /\
  forall y, digits_to_Z 0 false (str_of_Z n ++ y) = digits_to_Z n true y.
Proof.
  intros H. unfold str_of_Z. destruct (Z.ltb_spec n 0); [lia|].
  destruct (nat_digits_spec (S (Z.to_nat (Z.log2_up (n + 1)))) n []) as [ds [E1 [E2 [E3 E4]]]];
    auto using digits_bound.
  rewrite E1, app_nil_r. auto.
Qed.

Lemma strip_digits x : forallb is_digit x = true -> strip x = x.
Proof.
  intros H. unfold strip.
  assert (lstrip x = x) as ->.
  { destruct x as [|a x]; auto. simpl in H. rewrite andb_true_iff in H. destruct H.
    apply lstrip_id, is_digit_not_space; auto. }
  apply rstrip_id. destruct (rev x) as [|a r] eqn:E; auto.
  apply is_digit_not_space. rewrite forallb_forall in H. apply H.
  apply in_rev. rewrite E; simpl; auto.
Qed.

Lemma py_int_str_of_Z n : (0 <= n)%Z -> py_int (str_of_Z n) = Some n.
Proof.
  intros H. destruct (str_of_Z_nonneg n H) as [H1 [H2 H3]].
  unfold py_int. rewrite strip_digits by auto.
  specialize (H3 []). rewrite app_nil_r in H3.
  destruct (str_of_Z n) as [|a x] eqn:E; [congruence|].
  simpl in H1. apply andb_true_iff in H1 as [Ha Hx].
  assert (a <> 45 /\ a <> 43)%N as [N1 N2].
  { unfold is_digit in Ha. rewrite andb_true_iff, !N.leb_le in Ha. lia. }
  apply N.eqb_neq in N1, N2. rewrite N1, N2. exact H3.
Qed.

Lemma str_of_Z_inj n m : (0 <= n)%Z -> (0 <= m)%Z -> str_of_Z n = str_of_Z m -> n = m.
Proof.
  intros Hn Hm E. pose proof (py_int_str_of_Z n Hn). rewrite E, py_int_str_of_Z in H; congruence.
Qed.
