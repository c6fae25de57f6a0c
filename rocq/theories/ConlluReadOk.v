(** Reading the lines of a representable sentence: the outcome in all cases. *)
From Coq Require Import String List NArith ZArith Bool Lia Sorted Permutation.
From Verif Require Import PyStr PyStrFacts PyList PyListFacts PyExn TreeModel TreeSpec TreeFacts TreeRepr TreeOps TreeCalls
  DualDictModel DualDictSpec DualDictProofs DocModel MwtSpec MwtProofs ConlluModel ConlluSpec ConlluRe ConlluComments ConlluWrite
  ConlluAttach ConlluRead ConlluLines ConlluTree ConlluSent.
Import ListNotations.

Lemma list_choice {A} (P : nat -> A -> Prop) : forall n, (forall i, i < n -> exists a, P i a) ->
  exists l, length l = n /\ forall i a, nth_error l i = Some a -> P i a.
Proof.
  intros n. revert P. induction n as [|n IH]; intros P H.
  - exists []. split; auto. intros [|i] a; discriminate.
  - destruct (H 0) as [a Ha]; [lia|]. destruct (IH (fun i => P (S i))) as (l & L & Q); [intros; apply H; lia|].
    exists (a :: l). split; [simpl; lia|]. intros [|i] b E; simpl in E; [congruence|auto].
Qed.
Lemma Forall2_nth_intro {A B} (P : A -> B -> Prop) : forall l l', length l = length l' ->
  (forall i a b, nth_error l i = Some a -> nth_error l' i = Some b -> P a b) -> Forall2 P l l'.
Proof.
  induction l as [|a l IH]; intros [|b l'] L H; try discriminate; constructor.
  - apply (H 0); auto.
  - apply IH; [simpl in L; lia|]. intros i c d' E E'. apply (H (S i)); auto.
Qed.
Lemma nth_error_lt {A} (l : list A) i : i < length l -> exists a, nth_error l i = Some a.
Proof. intros H. destruct (nth_error l i) eqn:E; eauto. apply nth_error_None in E. lia. Qed.
Lemma nth_error_combine {A B} : forall (l : list A) (l' : list B) i a b, nth_error l i = Some a -> nth_error l' i = Some b ->
  In (a, b) (combine l l').
Proof. induction l as [|c l IH]; intros [|e l'] [|i] a b; simpl; try discriminate; [intros [= ->] [= ->]; auto|eauto]. Qed.
Lemma combine_nth_error {A B} : forall (l : list A) (l' : list B) a b, In (a, b) (combine l l') ->
  exists i, nth_error l i = Some a /\ nth_error l' i = Some b.
Proof.
  induction l as [|c l IH]; intros [|e l'] a b I; simpl in I; try tauto. destruct I as [[= -> ->]|I]; [exists 0; auto|].
  destruct (IH _ _ _ I) as (i & E). exists (S i). auto.
Qed.
Lemma nth_cols : forall ws i k w, nth_error ws k = Some w -> nth_error (cols_from i ws) k = Some (word_columns (i + k) w).
Proof.
  induction ws as [|w ws IH]; intros i [|k] w' E; try discriminate; cbn [cols_from nth_error] in *.
  - injection E as ->. now rewrite Nat.add_0_r.
  - rewrite (IH (S i) k w' E). do 2 f_equal. lia.
Qed.
Lemma cols_length : forall ws i, length (cols_from i ws) = length ws.
Proof. induction ws; intros; simpl; auto. Qed.
Lemma head_cols : forall ws i, map head_col (cols_from i ws) = map (fun w => Z.of_nat (wv_head w)) ws.
Proof.
  induction ws as [|w ws IH]; intros i; simpl; auto. rewrite IH. f_equal. unfold head_col.
  change (field (word_columns i w) 6) with (num (wv_head w)). now rewrite (proj2 (proj2 (num_spec _))).
Qed.

(** ---- cycles of HEADs ---- *)
Lemma iter_succ {A} k (f : A -> A) x : Nat.iter (S k) f x = Nat.iter k f (f x).
Proof. induction k as [|k IH]; auto. change (f (Nat.iter (S k) f x) = f (Nat.iter k f (f x))). now rewrite IH. Qed.
Lemma nth_ext_opt {A} : forall l l' : list A, (forall i, nth_error l i = nth_error l' i) -> l = l'.
Proof.
  induction l as [|a l IH]; intros [|b l'] H; auto; try (specialize (H 0); discriminate).
  pose proof (H 0) as H0. simpl in H0. injection H0 as ->. f_equal. apply IH. intros i. apply (H (S i)).
Qed.
Lemma map_ords (f : nat -> Z) : forall l k, (forall i x, nth_error l i = Some x -> f x = Z.of_nat (k + i)) ->
  map f l = map Z.of_nat (seq k (length l)).
Proof.
  induction l as [|a l IH]; intros k H; simpl; auto. f_equal.
  - rewrite (H 0 a eq_refl). now rewrite Nat.add_0_r.
  - apply IH. intros i x E. rewrite (H (S i) x E). f_equal. lia.
Qed.
Lemma reaches0_iter f i : reaches0 f i -> exists k, Nat.iter k f i = 0.
Proof.
  induction 1 as [|i H [k IH]]; [exists 0; auto|]. exists (S k). now rewrite iter_succ.
Qed.
Lemma iter_add {A} (f : A -> A) m n x : Nat.iter (m + n) f x = Nat.iter m f (Nat.iter n f x).
Proof. induction m; simpl; congruence. Qed.
Lemma iter_zero ws k : Nat.iter k (head_of ws) 0 = 0.
Proof. induction k as [|k IH]; simpl; auto. now rewrite IH. Qed.
Lemma cycle_not_reaches ws i : on_cycle ws i -> ~ reaches0 (head_of ws) i.
Proof.
  intros (Hi & m & Hm & E) R0. apply reaches0_iter in R0 as [k Ek].
  assert (C : forall j, Nat.iter (j * m) (head_of ws) i = i).
  { induction j as [|j IH]; auto. cbn [Nat.mul]. now rewrite iter_add, IH. }
  specialize (C k). replace (k * m) with ((k * m - k) + k) in C by nia. rewrite iter_add, Ek, iter_zero in C. lia.
Qed.

Section core.
  Variables (cfg : rcfg) (lower : str -> str) (canon : str -> option str) (d0 : doc) (ge : option str) (v : sentv).
  Hypothesis RV : representable lower canon v.
  Let r := h_next (d_h d0).
  Let ws := sv_words v.

  Lemma read_core : (rc_fix_cycles cfg = true -> forall i, 1 <= i <= length ws -> head_of ws i <> i) ->
    exists d o, read_tree_from_lines cfg canon lower d0 ge (conllu_lines v) = ((d, final_ge v ge), o) /\
      (forall y, y < r -> same_object (d_h d0) (d_h d) y) /\
      ((o = Ok (Some r) /\ consistent (d_h d) r /\ d_ri d r = final_ri v /\
        (exists ws', tokens lower d r (with_words v ws') /\ heads_fixed ws ws' /\ (rc_fix_cycles cfg = false -> ws' = ws)) /\
        Forall (fun w => wv_head w <= length ws) ws /\
        (forall y, y < r -> unchanged d0 d y) /\ (forall m, m < d_mnext d0 -> d_m d m = d_m d0 m)) \/
       (o = Raise ValueError /\
        (Exists (fun w => length ws < wv_head w) ws \/ (rc_fix_cycles cfg = false /\ exists i, i <= length ws /\ on_cycle ws i)))).
  Proof.
    intros NOSELF.
    destruct (conllu_block cfg lower canon d0 ge v RV) as (st & ns & es & E & IV). fold r in E, IV.
    rewrite (read_tree_unfold _ _ _ _ _ _ _ E). fold r.
    assert (NE : ns <> []).
    { pose proof (Forall2_length_eq _ _ _ (iv_words _ _ _ _ _ _ _ _ _ _ IV)) as L. rewrite cols_length in L.
      intros ->. unfold words_read in L. destruct (sv_words v); discriminate. }
    assert (MN : forall {B} (a b : B), match rd_nodes st with [_] => a | _ => b end = b).
    { intros B a b. rewrite (iv_nodes _ _ _ _ _ _ _ _ _ _ IV). destruct ns; [congruence|reflexivity]. }
    rewrite MN. clear MN. pose proof (rinv_loose _ _ _ _ _ _ _ _ _ _ IV) as LO.
    pose proof (prepared_cases lower _ _ _ _ _ _ _ _ _ _ IV NE) as PC.
    pose proof (prepared_frame lower r st) as PF.
    destruct (prepared lower r st) as [d nodes]. cbn [fst snd] in PC, PF.
    destruct PF as (P1 & P2 & P3 & P4 & P5 & P6 & P7).
    rewrite (iv_nodes _ _ _ _ _ _ _ _ _ _ IV) in P6. cbn [tl] in P6.
    rewrite (iv_parents _ _ _ _ _ _ _ _ _ _ IV). cbn [tl]. rewrite head_cols.
    rewrite (iv_mwts _ _ _ _ _ _ _ _ _ _ IV), (iv_ge _ _ _ _ _ _ _ _ _ _ IV).
    pose proof (iv_range _ _ _ _ _ _ _ _ _ _ IV) as RG.
    assert (RN : forall x, In x ns -> r < x) by (intros; apply RG, in_app_iff; auto).
    assert (RE : forall x, In x es -> r < x) by (intros; apply RG, in_app_iff; auto).
    (* attributes of the nodes *)
    assert (WA : forall i x w, nth_error ns i = Some x -> nth_error (words_read v) i = Some w ->
      h_ord (d_h (rd_d st)) x = Z.of_nat (S i) /\ wattr lower (d_at d x) w).
    { intros i x w Ex Ew. destruct (Forall2_nth_l _ _ _ (iv_words _ _ _ _ _ _ _ _ _ _ IV) i x Ex) as (f & Ef & W).
      rewrite (nth_cols _ _ _ _ Ew) in Ef. injection Ef as <-.
      assert (OKW : ok_word w).
      { apply nth_error_In in Ew. unfold words_read in Ew. pose proof (rv_words _ _ _ RV) as F. rewrite Forall_forall in F.
        destruct (sv_words v) as [|w0 l0]; [|now apply F]. destruct Ew as [<-|[]].
        unfold ok_word, artificial_word, column, opt_column, dict_column. simpl.
        repeat split; try discriminate; intros I; cbn in I; intuition discriminate. }
      destruct (word_read_wattr lower _ _ _ _ OKW W) as [O A]. split; auto.
      destruct (P7 x) as [->| ->]; auto. apply wattr_misc; auto. apply misc_rel_str. apply A. }
    assert (LN : length ns = length (words_read v)).
    { pose proof (Forall2_length_eq _ _ _ (iv_words _ _ _ _ _ _ _ _ _ _ IV)) as L. now rewrite cols_length in L. }
    (* empty nodes, whatever happens to the words *)
    assert (EM : forall d', (forall y, ~ In y ns -> d_at d' y = d_at d y) -> (forall y, ~ In y ns -> d_mwt d' y = d_mwt d y) ->
      (forall y, ~ In y (r :: ns) -> h_par (d_h d') y = h_par (d_h (rd_d st)) y) ->
      h_kind (d_h d') = h_kind (d_h (rd_d st)) -> h_eord (d_h d') = h_eord (d_h (rd_d st)) ->
      h_emp (d_h d') = h_emp (d_h (rd_d st)) -> Forall2 (empty_is lower d') (h_emp (d_h d') r) (sv_empties v)).
    { intros d' A1 A2 A3 A4 A5 A6. rewrite A6, (iv_emp _ _ _ _ _ _ _ _ _ _ IV).
      pose proof (iv_empties _ _ _ _ _ _ _ _ _ _ IV) as F.
      assert (LE : length es = length (sv_empties v)). { apply Forall2_length_eq in F. now rewrite map_length in F. }
      apply Forall2_nth_intro; auto. intros i x e Ex Ee.
      destruct (Forall2_nth_l _ _ _ F i x Ex) as (f & Ef & F1 & F2). rewrite nth_error_map, Ee in Ef. injection Ef as <-.
      assert (Ix : In x es) by (eapply nth_error_In; eauto).
      assert (Nx : ~ In x ns). { pose proof (iv_nodup _ _ _ _ _ _ _ _ _ _ IV) as N. apply NoDup_app_inv in N as (_ & _ & N). intros J. eapply N; eauto. }
      assert (Nrx : ~ In x (r :: ns)) by (intros [<-|J]; [apply RE in Ix; lia|auto]).
      destruct (iv_empty _ _ _ _ _ _ _ _ _ _ IV x Ix) as (K & PA & _ & _ & MW).
      pose proof (rv_empties _ _ _ RV) as FE. rewrite Forall_forall in FE. destruct (FE e (nth_error_In _ _ Ee)) as (B0 & B & C1 & C2 & C3 & C4 & C5 & C6 & C7).
      change (field (empty_columns e) 0) with (num (ev_after e) ++ s "." ++ num (ev_minor e)) in F1.
      rewrite tenths_num in F1 by auto.
      assert (F3 : h_eord (d_h (rd_d st)) x = (10 * Z.of_nat (ev_after e) + Z.of_nat (ev_minor e))%Z) by congruence.
      unfold empty_is. rewrite A4, A2, A3, A5, A1, P1, P6 by auto. rewrite K, MW, PA, F3, F2.
      unfold empty_attrs, field. cbn [nth empty_columns n_form n_lemma n_upos n_xpos n_feats n_deprel n_raw_deps n_deps n_misc].
      do 8 (split; [reflexivity|]). split; [apply misc_rel_text, misc_rel_opt, C5|]. split; [reflexivity|].
      split; [reflexivity|]. apply misc_rel_text, misc_rel_opt, C7. }
    destruct (iv_root _ _ _ _ _ _ _ _ _ _ IV) as (K0 & PA0 & CH0 & R0 & O0 & MW0).
    destruct PC as [(n & En & TX & -> & Hh)|(TX & -> & Hh)]; rewrite Hh.
    - (* only an artificial word *)
      assert (W0 : sv_words v = []).
      { destruct (sv_words v) as [|w [|w2 l]] eqn:EW; auto.
        - exfalso. apply (rv_real _ _ _ RV w EW).
          destruct (WA 0 n w) as [_ (_ & _ & _ & _ & _ & _ & _ & _ & M)]; [now rewrite En|unfold words_read; now rewrite EW|].
          apply misc_rel_text in M. rewrite <- M. clear - TX P7.
          destruct (P7 n) as [->| ->]; auto. unfold text_of_dd in *. cbn [set_misc n_misc dd_prop].
          unfold dd_str in *. destruct (dd_string (dd_prop (n_misc (d_at (rd_d st) n)))) eqn:Q; simpl in *; [rewrite Q|]; auto.
        - unfold words_read in LN. rewrite EW, En in LN. discriminate. }
      assert (M0 : sv_mwts v = []).
      { pose proof (rv_mwts _ _ _ RV) as F. rewrite W0 in F. destruct (sv_mwts v) as [|m l]; auto. inversion F as [|? ? (A & B & _) _]; subst. simpl in B. lia. }
      rewrite M0. cbn [tl combine attach_loop map mwt_loop].
      set (hB := put_desc (put_ch (d_h (rd_d st)) r []) r []).
      assert (DB : h_desc hB r = []) by (unfold hB; simpl; now upds).
      assert (LB : forall y, live hB r y -> y = r) by (unfold live; rewrite DB; simpl; tauto).
      assert (UN : forall y, y < r -> unchanged d0 (with_h d hB) y).
      { intros y Hy. destruct (iv_frame _ _ _ _ _ _ _ _ _ _ IV y Hy) as (F1 & F2 & F3 & F4 & F5). unfold unchanged. simpl.
        rewrite P1, P2, P5, P6 by (intros I; apply RN in I; lia). split; auto.
        unfold same_object in *. assert (y <> r) by lia. unfold hB. simpl. upds. auto. }
      do 2 eexists. split; [reflexivity|]. split; [intros y Hy; apply UN; auto|]. left. split; [auto|]. split.
      { change (d_h (with_h d hB)) with hB. destruct LO. split; rewrite ?DB; simpl; auto; try (intros ? []; fail).
        - constructor.
        - intros y L. apply LB in L. subst. now upds.
        - intros y L. apply LB in L. subst. apply lo_root; simpl; auto.
        - split; auto. intros ? [].
        - intros y L. apply LB in L. subst. apply lo_alloc; simpl; auto. }
      split; [simpl; rewrite P5; apply (iv_ri _ _ _ _ _ _ _ _ _ _ IV)|]. split.
      { exists []. split; [|split; [split; [unfold ws; now rewrite W0|intros [|i] w w' _ J; discriminate]|intros _; unfold ws; now rewrite W0]].
        split.
        - simpl. unfold hB. simpl. upds. constructor.
        - apply (EM (with_h d hB)); auto; try reflexivity.
        - exists []. simpl. rewrite P2, MW0, M0. split; auto.
        - simpl. unfold hB. simpl. upds. intros w m []. }
      split; [unfold ws; rewrite W0; constructor|]. split; auto. intros m Hm. simpl. rewrite P3. now rewrite (iv_m _ _ _ _ _ _ _ _ _ _ IV).
    - (* real words *)
      assert (WR : words_read v = ws).
      { unfold words_read, ws. destruct (sv_words v) as [|w l] eqn:EW; auto. exfalso.
        unfold words_read in LN. rewrite EW in LN. destruct ns as [|n [|]]; try discriminate.
        destruct (WA 0 n artificial_word) as [_ (_ & _ & _ & _ & _ & _ & _ & _ & M)]; [auto|unfold words_read; now rewrite EW|].
        apply misc_rel_text in M. apply (TX n eq_refl). rewrite <- (eq_refl : wv_misc artificial_word = EmptyYes), <- M.
        destruct (P7 n) as [->| ->]; auto. unfold text_of_dd in *. cbn [set_misc n_misc dd_prop].
        unfold dd_str in *. destruct (dd_string (dd_prop (n_misc (d_at (rd_d st) n)))) eqn:Q; simpl in *; [rewrite Q|]; auto. }
      rewrite WR in *. clear TX. cbn [tl].
      set (ps := map (fun w => Z.of_nat (wv_head w)) ws) in *.
      assert (LP : length ns = length ps) by (unfold ps; rewrite map_length; auto).
      assert (ORD : forall k x, nth_error (r :: ns) k = Some x -> h_ord (d_h (rd_d st)) x = Z.of_nat k).
      { intros [|k] x Ex; simpl in Ex; [injection Ex as <-; auto|].
        destruct (nth_error_lt ws k) as [w Ew]; [rewrite <- LN; apply nth_error_Some; congruence|].
        apply (WA k x w); auto. }
      assert (GIV : forall x q, given r ns ps x q -> exists i, 1 <= i <= length ws /\ h_ord (d_h (rd_d st)) x = Z.of_nat i /\
        h_ord (d_h (rd_d st)) q = Z.of_nat (head_of ws i)).
      { intros x q (p & I & Eq). apply combine_nth_error in I as (i & Ex & Ep). unfold ps in Ep. rewrite nth_error_map in Ep.
        destruct (nth_error ws i) as [w|] eqn:Ew; [|discriminate]. injection Ep as <-.
        exists (S i). assert (i < length ws) by (apply nth_error_Some; congruence). split; [lia|].
        split; [apply (ORD (S i) x); auto|]. simpl. rewrite Ew. apply ORD. rewrite py_nth_nonneg in Eq by lia. now rewrite Nat2Z.id in Eq. }
      assert (CYC : forall x y, tc (given r ns ps) x y -> exists i k, 1 <= i <= length ws /\ 1 <= k /\
        h_ord (d_h (rd_d st)) x = Z.of_nat i /\ h_ord (d_h (rd_d st)) y = Z.of_nat (Nat.iter k (head_of ws) i)).
      { intros x y H. induction H as [x y H|x y z H T IH].
        - destruct (GIV x y H) as (i & Hi & O1 & O2). exists i, 1. auto.
        - destruct (GIV x y H) as (i & Hi & O1 & O2). destruct IH as (j & k & Hj & Hk & O3 & O4).
          exists i, (S k). split; auto. split; [lia|]. split; auto. rewrite O4. f_equal.
          assert (j = head_of ws i) by lia. subst j. now rewrite iter_succ. }
      assert (CY : forall x, tc (given r ns ps) x x -> exists i, i <= length ws /\ h_ord (d_h (rd_d st)) x = Z.of_nat i /\ on_cycle ws i).
      { intros x T. destruct (CYC x x T) as (i & k & Hi & Hk & O1 & O2). exists i. split; [lia|]. split; auto. split; [lia|].
        exists k. split; auto. lia. }
      destruct (attach_all (d_h (rd_d st)) r ns ps (rc_fix_cycles cfg) LO LP) as (h & o & E1 & (done & todo & En & AI) & D).
      { intros FC x G. destruct (GIV x x G) as (i & Hi & O1 & O2). apply (NOSELF FC i Hi). lia. }
      rewrite E1.
      assert (FRH : forall y, y < r -> same_object (d_h d0) h y).
      { intros y Hy. destruct (iv_frame _ _ _ _ _ _ _ _ _ _ IV y Hy) as (F1 & _).
        assert (NI : ~ In y (r :: ns)) by (intros [->|I]; [lia|apply RN in I; lia]).
        destruct AI. unfold same_object in *.
        rewrite ?ai_par_out, ?ai_ch_out, ?ai_next, ?ai_kind, ?ai_ord, ?ai_root, ?ai_desc, ?ai_emp, ?ai_eord by auto. auto. }
      clear done todo En AI.
      destruct D as [(-> & AI & AT & HP)|(-> & D)].
      2:{ do 2 eexists. split; [reflexivity|]. split; [exact FRH|]. right. split; auto. destruct D as [(x & p & I & Ep)|(FC & x & T)].
          - left. apply Exists_exists. apply combine_nth_error in I as (i & _ & Eps). unfold ps in Eps. rewrite nth_error_map in Eps.
            destruct (nth_error ws i) as [w|] eqn:Ew; [|discriminate]. injection Eps as <-. exists w. split; [eapply nth_error_In; eauto|].
            rewrite py_nth_nonneg in Ep by lia. apply nth_error_None in Ep. rewrite Nat2Z.id in Ep. simpl in Ep. lia.
          - right. split; auto. destruct (CY x T) as (i & Hi & _ & C). eauto. }
      assert (DE : h_desc h r = ns) by (rewrite (ai_desc _ _ _ _ _ _ AI); apply LO).
      assert (CO : consistent h r).
      { destruct AT. split; auto.
        - rewrite DE, (ai_ord _ _ _ _ _ _ AI). apply map_ords. intros i x Ex. now apply (ORD (S i) x).
        - rewrite (ai_ord _ _ _ _ _ _ AI). auto. }
      pose proof (lo_nodup _ _ _ LO) as ND. inversion ND as [|? ? NR ND']; subst x l.
      assert (M0 : mst lower r ns ws (with_h d h) (with_h d h) [] []).
      { split; auto; simpl.
        - intros x w I. apply combine_nth_error in I as (i & Ex & Ew). now apply (WA i x w).
        - now rewrite P2.
        - intros w m I. rewrite P1. destruct (iv_word _ _ _ _ _ _ _ _ _ _ IV w I) as (_ & _ & _ & _ & ->). split; [discriminate|tauto]. }
      destruct (mwt_loop_ok lower r ns ws ND' LN (with_h d h) (sv_mwts v) (with_h d h) [] [] M0) as (d' & ms & E2 & M); simpl app.
      { apply (rv_mwts _ _ _ RV). }
      { apply (rv_morder _ _ _ RV). }
      { apply (rv_inner _ _ _ RV). }
      rewrite E2. simpl app in M. destruct M. simpl in *.
      do 2 eexists. split; [reflexivity|]. rewrite ms_h. split; [exact FRH|]. left. split; auto. split; [auto|].
      split; [rewrite ms_ri, P5; apply (iv_ri _ _ _ _ _ _ _ _ _ _ IV)|].
      assert (HR : forall i x w, nth_error ns i = Some x -> nth_error ws i = Some w -> wv_head w <= length ws /\
        exists q, h_par h x = Some q /\ (h_ord h q = Z.of_nat (wv_head w) \/
          (rc_fix_cycles cfg = true /\ h_ord h q = 0%Z /\ on_cycle ws (S i)))).
      { intros i x w Ex Ew.
        assert (Ep : nth_error ps i = Some (Z.of_nat (wv_head w))) by (unfold ps; now rewrite nth_error_map, Ew).
        destruct (HP x _ (nth_error_combine _ _ _ _ _ Ex Ep)) as (q & Eq & D).
        rewrite py_nth_nonneg, Nat2Z.id in Eq by lia. split.
        - assert (wv_head w < length (r :: ns)) by (apply nth_error_Some; congruence). simpl in *. lia.
        - destruct D as [D|(FC & D & T)]; [exists q|exists r]; split; auto; rewrite (ai_ord _ _ _ _ _ _ AI).
          + left. now apply ORD.
          + right. split; auto. split; auto. destruct (CY x T) as (j & _ & Oj & C).
            rewrite (ORD (S i) x) in Oj by auto. assert (j = S i) by lia. now subst. }
      split.
      { destruct (list_choice (fun i w' => forall x w, nth_error ns i = Some x -> nth_error ws i = Some w ->
            word_is lower d' x w' /\ (w' = w \/ (rc_fix_cycles cfg = true /\ w' = with_head w 0 /\ on_cycle ws (S i)))) (length ws)) as (ws' & L' & Q').
        { intros i Hi. destruct (nth_error_lt ws i Hi) as [w Ew]. destruct (nth_error_lt ns i) as [x Ex]; [lia|].
          destruct (HR i x w Ex Ew) as (_ & q & Pq & D).
          assert (A : wattr lower (d_at d' x) w) by (apply ms_words; eapply nth_error_combine; eauto).
          destruct A as (A1 & A2 & A3 & A4 & A5 & A6 & A7 & A8 & A9).
          assert (FT : text_of_dd lower (n_feats (d_at d' x)) = wv_feats w).
          { rewrite A5. apply misc_rel_text, misc_rel_opt. pose proof (rv_words _ _ _ RV) as F. rewrite Forall_forall in F.
            apply (F w). eapply nth_error_In; eauto. }
          assert (SD : underscore (shown_deps d' (d_at d' x)) = wv_deps w) by (unfold shown_deps; now rewrite A8, A7).
          apply misc_rel_text in A9.
          destruct D as [D|(FC & D & C)]; [exists w|exists (with_head w 0)]; intros x0 w0 Ex0 Ew0;
            assert (x0 = x) by congruence; assert (w0 = w) by congruence; subst x0 w0; (split; [|auto]);
            unfold word_is; rewrite ms_h; simpl; do 5 (split; [auto|]); (split; [eauto|]); auto. }
        exists ws'. split; [|split].
        - split; simpl.
          + rewrite ms_h. simpl. rewrite DE. apply Forall2_nth_intro; [lia|]. intros i x w' Ex Ew'.
            destruct (nth_error_lt ws i) as [w Ew]; [rewrite <- LN; apply nth_error_Some; congruence|]. now apply (Q' i w' Ew' x w).
          + apply EM; auto.
            * intros y Ny. rewrite ms_h. apply (ai_par_out _ _ _ _ _ _ AI); auto.
            * rewrite ms_h. apply (ai_kind _ _ _ _ _ _ AI).
            * rewrite ms_h. apply (ai_eord _ _ _ _ _ _ AI).
            * rewrite ms_h. apply (ai_emp _ _ _ _ _ _ AI).
          + exists ms. rewrite ms_list. split; auto. eapply Forall2_ext_l; [exact ms_is|]. intros m mv _ Imv (_ & Q1 & Q2 & Q3).
            unfold mwt_is. rewrite ms_h. simpl. rewrite DE. split; auto. split; auto. rewrite Q3.
            apply misc_rel_text, misc_rel_opt. pose proof (rv_mwts _ _ _ RV) as F. rewrite Forall_forall in F. apply (F mv Imv).
          + rewrite ms_h, ms_list. simpl. rewrite DE. auto.
        - split; auto. intros i w w' Ew Ew'. destruct (nth_error_lt ns i) as [x Ex]; [rewrite LN; apply nth_error_Some; congruence|].
          destruct (Q' i w' Ew' x w Ex Ew) as (_ & [->|(_ & Q)]); auto.
        - intros FC. apply nth_ext_opt. intros i. destruct (nth_error ws i) as [w|] eqn:Ew.
          + destruct (nth_error_lt ws' i) as [w' Ew']; [rewrite L'; apply nth_error_Some; congruence|].
            destruct (nth_error_lt ns i) as [x Ex]; [rewrite LN; apply nth_error_Some; congruence|].
            destruct (Q' i w' Ew' x w Ex Ew) as (_ & [->|(Q & _)]); [auto|congruence].
          + apply nth_error_None. apply nth_error_None in Ew. lia. }
      split.
      { apply Forall_forall. intros w I. apply In_nth_error in I as [i Ew].
        destruct (nth_error_lt ns i) as [x Ex]; [rewrite LN; apply nth_error_Some; congruence|]. now apply (HR i x w). }
      split.
      { intros y Hy. destruct (iv_frame _ _ _ _ _ _ _ _ _ _ IV y Hy) as (F1 & F2 & F3 & F4 & F5).
        assert (NI : ~ In y ns) by (intros I; apply RN in I; lia). unfold unchanged. rewrite ms_h. split; [now apply FRH|].
        rewrite ms_at, ms_mwt, ms_mwts, ms_ri, P1, P2, P5, P6 by (auto; lia). auto. }
      intros m Hm. rewrite ms_m; [rewrite P3; now rewrite (iv_m _ _ _ _ _ _ _ _ _ _ IV)|].
      rewrite P4. now rewrite (iv_mnext _ _ _ _ _ _ _ _ _ _ IV).
  Qed.
End core.
