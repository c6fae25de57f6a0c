(** Proofs about eval.Parsing. *)
From Coq Require Import String List NArith ZArith QArith Bool Lia Permutation.
From Verif Require Import PyStr PyStrFacts PyList PyListFacts PyExn TreeModel TreeSpec TreeRepr DeprelModel RehangModel ParsModel ParsSpec.
Import ListNotations.
Local Close Scope Q_scope.
Local Open Scope Z_scope.

Lemma olabel_eq a b : olabel_eqb a b = true <-> a = b.
Proof. destruct a, b; cbn; try (split; congruence). rewrite str_eqb_eq. split; congruence. Qed.
Lemma number_fun {A} (P : A -> Prop) l : forall n m, number P l n -> number P l m -> n = m.
Proof.
  induction l as [|x l IH]; intros n m H K; inversion H; subst; inversion K; subst; auto; try contradiction; f_equal; auto.
Qed.
Lemma number_app {A} (P : A -> Prop) l k n m : number P l n -> number P k m -> number P (l ++ k) (n + m).
Proof.
  intros H K. induction H; cbn [app]; [exact K| |apply num_no; auto]. replace (n + 1 + m) with (n + m + 1) by lia. apply num_yes; auto.
Qed.
Lemma number_ext {A} (P Q : A -> Prop) l n : (forall x, In x l -> (P x <-> Q x)) -> number P l n -> number Q l n.
Proof.
  intros E H. induction H as [|x l n Px H IH|x l n Px H IH]; [constructor|apply num_yes|apply num_no].
  - apply E; simpl; auto.
  - apply IH. intros; apply E; simpl; auto.
  - intros Qx. apply Px, E; simpl; auto.
  - apply IH. intros; apply E; simpl; auto.
Qed.
Lemma number_le {A} (P Q : A -> Prop) l n m : (forall x, P x -> Q x) -> number P l n -> number Q l m -> n <= m.
Proof.
  intros E H. revert m. induction H as [|x l n Px H IH|x l n Px H IH]; intros m K; inversion K; subst; auto; try lia.
  - assert (n <= n0) by auto. lia.
  - elim H2. auto.
  - assert (n <= n0) by auto. lia.
Qed.
Lemma number_bounds {A} (P : A -> Prop) l n : number P l n -> 0 <= n <= Z.of_nat (length l).
Proof. intros H. induction H; cbn [length]; lia. Qed.
Lemma number_all {A} (P : A -> Prop) l n : number P l n -> (n = Z.of_nat (length l) <-> forall x, In x l -> P x).
Proof.
  intros H. induction H as [|x l n Px H IH|x l n Px H IH]; cbn [length].
  - split; [contradiction|auto].
  - split.
    + intros E y [<-|Y]; auto. apply IH; auto. lia.
    + intros F. assert (n = Z.of_nat (length l)) by (apply IH; intros; apply F; simpl; auto). lia.
  - split.
    + intros E. apply number_bounds in H. lia.
    + intros F. elim Px. apply F; simpl; auto.
Qed.
Lemma number_perm {A} (P : A -> Prop) l k : Permutation l k -> forall n, number P l n -> number P k n.
Proof.
  induction 1 as [|x l k H IH|x y l|l k m H IH H' IH']; intros n N; auto.
  - inversion N; subst; [apply num_yes|apply num_no]; auto.
  - inversion N as [|? ? ? Py Ny|? ? ? Py Ny]; subst; inversion Ny; subst; do 2 first [apply num_yes; [assumption|]|apply num_no; [assumption|]]; assumption.
Qed.

Section St.
Variable st : lst.
(** the counters after these pairs *)
Definition counted (l : list (nat * nat)) (t t' : tally) : Prop :=
  number (same_deprel st) l (t_las t' - t_las t) /\ number (same_udeprel st) l (t_ulas t' - t_ulas t) /\
  number (same_head st) l (t_uas t' - t_uas t).
Lemma number_one {A} (P : A -> Prop) x l n b : (b = true <-> P x) -> number P l n -> number P (x :: l) (n + one b).
Proof.
  intros E H. destruct b; cbn [one].
  - apply num_yes; auto. apply E; auto.
  - rewrite Z.add_0_r. apply num_no; auto. intros Px. apply E in Px. discriminate.
Qed.
Lemma nodes_ok : forall pred gold t, length pred = length gold -> (forall x, In x pred \/ In x gold -> h_par (l_heap st) x <> None) ->
  exists t', parsing_nodes st t pred gold = (t', Ok tt) /\ counted (combine pred gold) t t' /\ t_total t' = t_total t.
Proof.
  induction pred as [|x pred IH]; intros [|y gold] t L P; try discriminate.
  - exists t. split; [reflexivity|]. split; [|reflexivity]. repeat split; rewrite Z.sub_diag; constructor.
  - cbn [parsing_nodes combine]. destruct (h_par (l_heap st) x) as [p|] eqn:Px; [|elim (P x); simpl; auto].
    destruct (h_par (l_heap st) y) as [q|] eqn:Py; [|elim (P y); simpl; auto]. injection L as L.
    assert (P' : forall z, In z pred \/ In z gold -> h_par (l_heap st) z <> None) by (intros z [Z|Z]; apply P; simpl; auto).
    cbv zeta. destruct (Z.eqb_spec (h_ord (l_heap st) p) (h_ord (l_heap st) q)) as [E|E].
    + assert (H : same_head st (x, y)) by (exists p, q; auto).
      match goal with |- context [parsing_nodes st ?u _ _] => destruct (IH gold u L P') as (t' & R & (A & B & C) & T) end.
      exists t'. split; [exact R|]. split; [|exact T]. cbn [t_las t_ulas t_uas] in A, B, C. split; [|split].
      * replace (t_las t' - t_las t) with (t_las t' - (t_las t + one (olabel_eqb (l_dep st x) (l_dep st y))) + one (olabel_eqb (l_dep st x) (l_dep st y))) by lia.
        apply number_one; auto. rewrite olabel_eq. unfold same_deprel. cbn [fst snd]. tauto.
      * replace (t_ulas t' - t_ulas t) with (t_ulas t' - (t_ulas t + one (olabel_eqb (udep st x) (udep st y))) + one (olabel_eqb (udep st x) (udep st y))) by lia.
        apply number_one; auto. rewrite olabel_eq. unfold same_udeprel. cbn [fst snd]. tauto.
      * replace (t_uas t' - t_uas t) with (t_uas t' - (t_uas t + 1) + 1) by lia. apply num_yes; auto.
    + assert (H : ~ same_head st (x, y)).
      { intros (p' & q' & A & B & C). cbn [fst snd] in A, B. rewrite Px in A. rewrite Py in B. congruence. }
      destruct (IH gold t L P') as (t' & R & (A & B & C) & T). exists t'. split; [exact R|]. split; [|exact T].
      split; [|split]; apply num_no; auto; intros [K _]; auto.
Qed.
Definition tallied (l : list (nat * nat)) (t t' : tally) : Prop := counted l t t' /\ t_total t' = t_total t + Z.of_nat (length l).
Lemma tree_ok tg t : comparable st tg -> exists t', parsing_tree st t (fst tg) (snd tg) = (t', Ok tt) /\ tallied (words_of st tg) t t'.
Proof.
  intros (C1 & C2 & L). unfold parsing_tree, words_of. destruct (Nat.eqb (fst tg) (snd tg)).
  - exists t. split; [reflexivity|]. split; [|cbn; lia]. repeat split; rewrite Z.sub_diag; constructor.
  - cbv zeta. rewrite L, Nat.eqb_refl. cbn [negb].
    match goal with |- context [parsing_nodes st ?u _ _] => destruct (nodes_ok (h_desc (l_heap st) (fst tg)) (h_desc (l_heap st) (snd tg)) u L) as (t' & R & K & T) end.
    + intros x [X|X]; [destruct (c_parents _ _ C1 x X) as (p & -> & _)|destruct (c_parents _ _ C2 x X) as (p & -> & _)]; discriminate.
    + exists t'. split; [exact R|]. split; [exact K|]. rewrite T. cbn [t_total]. rewrite combine_length, L, Nat.min_id. reflexivity.
Qed.
Lemma run_ok : forall l t, (forall tg, In tg l -> comparable st tg) -> exists t', parsing_run st t l = (t', Ok tt) /\ tallied (compared st l) t t'.
Proof.
  induction l as [|[x g] l IH]; intros t C; cbn [parsing_run].
  - exists t. split; [reflexivity|]. split; [|cbn; lia]. repeat split; rewrite Z.sub_diag; constructor.
  - destruct (tree_ok (x, g) t) as (t1 & R1 & (A1 & B1 & D1) & T1); [apply C; simpl; auto|]. cbn [fst snd] in R1. rewrite R1. cbn [bind].
    destruct (IH t1) as (t2 & R2 & (A2 & B2 & D2) & T2); [intros; apply C; simpl; auto|]. exists t2. split; [exact R2|].
    unfold compared in *. cbn [flat_map]. split; [split; [|split]|].
    + replace (t_las t2 - t_las t) with ((t_las t1 - t_las t) + (t_las t2 - t_las t1)) by lia. apply number_app; auto.
    + replace (t_ulas t2 - t_ulas t) with ((t_ulas t1 - t_ulas t) + (t_ulas t2 - t_ulas t1)) by lia. apply number_app; auto.
    + replace (t_uas t2 - t_uas t) with ((t_uas t1 - t_uas t) + (t_uas t2 - t_uas t1)) by lia. apply number_app; auto.
    + rewrite app_length, T2, T1. lia.
Qed.
End St.
(** ---- the theorems ---- *)
Lemma counts st l : (forall tg, In tg l -> comparable st tg) ->
  exists t, parsing_run st no_tally l = (t, Ok tt) /\ t_total t = Z.of_nat (length (compared st l)) /\
    number (same_head st) (compared st l) (t_uas t) /\ number (same_deprel st) (compared st l) (t_las t) /\ number (same_udeprel st) (compared st l) (t_ulas t).
Proof.
  intros C. destruct (run_ok st l no_tally C) as (t & R & (A & B & D) & T). exists t. cbn [no_tally t_las t_ulas t_uas t_total] in *. rewrite Z.sub_0_r in A, B, D.
  split; [exact R|]. split; [lia|]. auto.
Qed.
Lemma bounds st l t : (forall tg, In tg l -> comparable st tg) -> parsing_run st no_tally l = (t, Ok tt) ->
  0 <= t_las t <= t_ulas t /\ t_ulas t <= t_uas t <= t_total t.
Proof.
  intros C R. destruct (counts st l C) as (t' & R' & T & U & L & UL). rewrite R in R'. injection R' as <-.
  pose proof (number_bounds _ _ _ L). pose proof (number_bounds _ _ _ U).
  assert (t_las t <= t_ulas t) by (eapply number_le; [|exact L|exact UL]; intros x [A B]; split; auto; unfold udep; congruence).
  assert (t_ulas t <= t_uas t) by (eapply number_le; [|exact UL|exact U]; intros x [A B]; auto). lia.
Qed.
Lemma perfect st l t : (forall tg, In tg l -> comparable st tg) -> parsing_run st no_tally l = (t, Ok tt) ->
  (t_uas t = t_total t <-> forall xy, In xy (compared st l) -> same_head st xy) /\ (t_las t = t_total t <-> forall xy, In xy (compared st l) -> same_deprel st xy) /\
  (t_ulas t = t_total t <-> forall xy, In xy (compared st l) -> same_udeprel st xy).
Proof.
  intros C R. destruct (counts st l C) as (t' & R' & T & U & L & UL). rewrite R in R'. injection R' as <-. rewrite T. split; [|split]; apply number_all; auto.
Qed.
Definition swap (xy : nat * nat) : nat * nat := (snd xy, fst xy).
Lemma number_map {A B} (f : A -> B) (P : B -> Prop) l n : number (fun x => P (f x)) l n -> number P (map f l) n.
Proof. induction 1; cbn [map]; constructor; auto. Qed.
Lemma combine_swap : forall a b, combine b a = map swap (combine a b).
Proof. induction a as [|x a IH]; intros [|y b]; auto. cbn. rewrite IH. reflexivity. Qed.
Lemma compared_swap st l : compared st (map swap l) = map swap (compared st l).
Proof.
  unfold compared. induction l as [|[x g] l IH]; auto. cbn [map flat_map]. rewrite IH, map_app. f_equal. unfold words_of, swap at 1 2 3 4. cbn [fst snd].
  rewrite Nat.eqb_sym. destruct (Nat.eqb x g); auto. apply combine_swap.
Qed.
Lemma head_swap st x : same_head st (swap x) <-> same_head st x.
Proof. unfold same_head, swap. cbn [fst snd]. split; intros (p & q & A & B & D); exists q, p; auto. Qed.
Lemma tally_eq t u : t_las t = t_las u -> t_ulas t = t_ulas u -> t_uas t = t_uas u -> t_total t = t_total u -> t = u.
Proof. destruct t, u; cbn. congruence. Qed.
Lemma symmetric st l : (forall tg, In tg l -> comparable st tg) -> parsing_run st no_tally (map swap l) = parsing_run st no_tally l.
Proof.
  intros C. destruct (counts st l C) as (t & R & T & U & L & UL). destruct (counts st (map swap l)) as (t' & R' & T' & U' & L' & UL').
  { intros tg I. apply in_map_iff in I as ([x g] & <- & I). destruct (C _ I) as (A & B & D). split; [|split]; auto. }
  rewrite R, R'. f_equal. rewrite compared_swap in *. rewrite map_length in T'.
  assert (E : forall P, (forall x, P (swap x) <-> P x) -> forall n m, number P (compared st l) n -> number P (map swap (compared st l)) m -> m = n).
  { intros P X n m N M. eapply number_fun; [exact M|]. apply number_map. eapply number_ext; [|exact N]. intros x _. symmetry. apply X. }
  apply tally_eq.
  - apply (E (same_deprel st)); auto. intros x. unfold same_deprel. rewrite head_swap. cbn [swap fst snd]. split; intros [A B]; auto.
  - apply (E (same_udeprel st)); auto. intros x. unfold same_udeprel. rewrite head_swap. cbn [swap fst snd]. split; intros [A B]; auto.
  - apply (E (same_head st)); auto. apply head_swap.
  - congruence.
Qed.
Lemma any_order st l k : (forall tg, In tg l -> comparable st tg) -> Permutation l k -> parsing_run st no_tally k = parsing_run st no_tally l.
Proof.
  intros C P. destruct (counts st l C) as (t & R & T & U & L & UL). destruct (counts st k) as (t' & R' & T' & U' & L' & UL').
  { intros tg I. apply C. eapply Permutation_in; [apply Permutation_sym; exact P|exact I]. }
  assert (Q : Permutation (compared st k) (compared st l)) by (apply TreeRepr.Permutation_flat_map, Permutation_sym, P).
  rewrite R, R'. f_equal. apply tally_eq; try (eapply number_fun; [|eassumption]; eapply number_perm; [exact Q|assumption]).
  rewrite T, T'. f_equal. apply Permutation_length, Q.
Qed.
Lemma mismatch st t x g : x <> g -> length (h_desc (l_heap st) x) <> length (h_desc (l_heap st) g) -> parsing_tree st t x g = (t, Raise ValueError).
Proof.
  intros N L. unfold parsing_tree. apply Nat.eqb_neq in N. rewrite N. cbv zeta. apply Nat.eqb_neq in L. rewrite L. reflexivity.
Qed.
Lemma scores_none t : scores t = None <-> t_total t = 0.
Proof. unfold scores. destruct (Z.eqb_spec (t_total t) 0); split; congruence. Qed.
Lemma percent_mul a n : n <> 0 -> (percent a n * inject_Z n == inject_Z (100 * a))%Q.
Proof.
  intros N. unfold percent. change (Qmake (100 * a) 1) with (inject_Z (100 * a)). field. intros E. apply N. unfold Qeq, inject_Z in E. cbn in E. lia.
Qed.
Lemma percent_le a b n : 0 < n -> a <= b -> (percent a n <= percent b n)%Q.
Proof.
  intros N L. apply Qmult_le_r with (z := inject_Z n); [unfold Qlt, inject_Z; cbn; lia|]. rewrite !percent_mul by lia. rewrite <- Zle_Qle. lia.
Qed.
Lemma scores_ok st l t a b c : (forall tg, In tg l -> comparable st tg) -> parsing_run st no_tally l = (t, Ok tt) -> scores t = Some (a, b, c) ->
  (a * inject_Z (t_total t) == inject_Z (100 * t_uas t) /\ b * inject_Z (t_total t) == inject_Z (100 * t_las t) /\ c * inject_Z (t_total t) == inject_Z (100 * t_ulas t) /\
   0 <= b /\ b <= c /\ c <= a /\ a <= 100)%Q.
Proof.
  intros C R S. destruct (bounds st l t C R) as [[B1 B2] [B3 B4]]. unfold scores in S. destruct (Z.eqb_spec (t_total t) 0) as [E|E]; [discriminate|]. injection S as <- <- <-.
  split; [apply percent_mul; auto|]. split; [apply percent_mul; auto|]. split; [apply percent_mul; auto|].
  assert (Z0 : (percent 0 (t_total t) == 0)%Q) by (unfold percent; change (Qmake (100 * 0) 1) with 0%Q; unfold Qdiv; apply Qmult_0_l).
  assert (Z1 : (percent (t_total t) (t_total t) == 100)%Q).
  { unfold percent. change (Qmake (100 * t_total t) 1) with (inject_Z (100 * t_total t)). rewrite inject_Z_mult. change (inject_Z 100) with 100%Q. field. intros X; apply E; unfold Qeq, inject_Z in X; cbn in X; lia. }
  split; [rewrite <- Z0; apply percent_le; lia|]. split; [apply percent_le; lia|]. split; [apply percent_le; lia|]. rewrite <- Z1. apply percent_le; lia.
Qed.
