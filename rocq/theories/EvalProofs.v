(** Proofs about find_lcs and eval.F1. *)
From Coq Require Import String List NArith ZArith QArith Bool Lia Lqa.
From Verif Require Import PyStr PyStrFacts PyList PyExn EvalModel EvalSpec.
Import ListNotations.
Local Close Scope Q_scope.
Local Open Scope nat_scope.

(** ---- subsequences ---- *)
Lemma subseq_nil_l {A} (x : list A) : subseq [] x.
Proof. induction x; constructor; auto. Qed.
Lemma subseq_nil_r {A} (l : list A) : subseq l [] -> l = [].
Proof. inversion 1; auto. Qed.
Lemma subseq_refl {A} (x : list A) : subseq x x.
Proof. induction x; constructor; auto. Qed.
Lemma subseq_trans {A} (a b c : list A) : subseq a b -> subseq b c -> subseq a c.
Proof.
  intros H1 H2; revert a H1; induction H2; intros l0 H1; auto.
  - inversion H1; subst; constructor; auto.
  - constructor; auto.
Qed.
Lemma subseq_app {A} (a b c d : list A) : subseq a b -> subseq c d -> subseq (a ++ c) (b ++ d).
Proof. induction 1; simpl; intros; auto; constructor; auto. Qed.
Lemma subseq_app_r {A} (a b c : list A) : subseq a c -> subseq a (b ++ c).
Proof. intros; induction b; simpl; auto; constructor; auto. Qed.
Lemma subseq_app_l {A} (a b c : list A) : subseq a b -> subseq a (b ++ c).
Proof. intros. rewrite <- (app_nil_r a). apply subseq_app; auto using subseq_nil_l. Qed.
Lemma subseq_length {A} (a b : list A) : subseq a b -> length a <= length b.
Proof. induction 1; simpl; lia. Qed.
Lemma subseq_full {A} (a b : list A) : subseq a b -> length b <= length a -> a = b.
Proof.
  induction 1; simpl; intros; auto.
  - f_equal; apply IHsubseq; lia.
  - apply subseq_length in H; lia.
Qed.
Lemma subseq_tail {A} (a : A) l x : subseq (a :: l) x -> subseq l x.
Proof. remember (a :: l) as z. induction 1; inversion Heqz; subst; constructor; auto. Qed.
Lemma subseq_cons {A} (a : A) l x : subseq (a :: l) (a :: x) -> subseq l x.
Proof. inversion 1; subst; auto. eapply subseq_tail; eauto. Qed.
Lemma subseq_cons_neq {A} (a b : A) l x : a <> b -> subseq (a :: l) (b :: x) -> subseq (a :: l) x.
Proof. intros N; inversion 1; subst; congruence. Qed.
Lemma subseq_filter {A} (f : A -> bool) a b : subseq a b -> subseq (filter f a) (filter f b).
Proof. induction 1; simpl; try destruct (f a); auto; constructor; auto. Qed.
Lemma filter_subseq {A} (f : A -> bool) l : subseq (filter f l) l.
Proof. induction l; simpl; try destruct (f a); constructor; auto. Qed.
Lemma subseq_rev {A} (a b : list A) : subseq a b -> subseq (rev a) (rev b).
Proof.
  induction 1; simpl.
  - constructor.
  - apply subseq_app; auto using subseq_refl.
  - apply subseq_app_l; auto.
Qed.
Lemma occurrences_subseq t a b : subseq a b -> occurrences t a <= occurrences t b.
Proof. induction 1; simpl; lia. Qed.

(** ---- the length computed by the table, on reversed lists ---- *)
Fixpoint len (x : list str) : list str -> nat :=
  match x with
  | [] => fun _ => 0
  | a :: x' => fix go y := match y with
                           | [] => 0
                           | b :: y' => if str_eqb a b then S (len x' y') else Nat.max (go y') (len x' (b :: y'))
                           end
  end.
Lemma len_nil_r x : len x [] = 0.
Proof. destruct x; auto. Qed.
Lemma len_cons a x b y :
  len (a :: x) (b :: y) = if str_eqb a b then S (len x y) else Nat.max (len (a :: x) y) (len x (b :: y)).
Proof. reflexivity. Qed.
Lemma len_upper x : forall y l, subseq l x -> subseq l y -> length l <= len x y.
Proof.
  induction x as [|a x IHx]; intros y l Hx Hy.
  - apply subseq_nil_r in Hx; subst; simpl; lia.
  - induction y as [|b y IHy].
    + apply subseq_nil_r in Hy; subst; simpl; lia.
    + rewrite len_cons. destruct (str_eqb_spec a b) as [->|N].
      * destruct l as [|c l]; [simpl; lia|]. simpl. apply le_n_S. apply IHx.
        -- inversion Hx; subst; auto. eapply subseq_tail; eauto.
        -- inversion Hy; subst; auto. eapply subseq_tail; eauto.
      * inversion Hx; subst.
        -- inversion Hy; subst; [congruence|]. specialize (IHy H2). lia.
        -- specialize (IHx _ _ H1 Hy). lia.
Qed.

(** ---- the table ---- *)
Lemma row_spec a xr : forall y yr prev left,
  left = len (a :: xr) yr ->
  prev = map (fun k => len xr (rev (firstn k y) ++ yr)) (seq 0 (S (length y))) ->
  row a y prev left = map (fun k => len (a :: xr) (rev (firstn k y) ++ yr)) (seq 1 (length y)).
Proof.
  induction y as [|b y IH]; intros yr prev left Hl Hp; auto.
  cbn [row length]. rewrite Hp. cbn [seq map length firstn rev app].
  set (v := if str_eqb a b then _ else _).
  assert (Hv : v = len (a :: xr) (b :: yr)) by (subst v; rewrite len_cons, Hl; reflexivity).
  f_equal; auto.
  rewrite (IH (b :: yr)).
  - rewrite <- (seq_shift (length y) 1), map_map. apply map_ext. intros k. cbn [firstn rev]. now rewrite <- app_assoc.
  - auto.
  - cbn [length seq map]. simpl. f_equal.
    rewrite <- (seq_shift (length y) 1), map_map. apply map_ext. intros k. simpl. now rewrite <- app_assoc.
Qed.
Lemma rows_spec y : forall x xr prev,
  prev = map (fun k => len xr (rev (firstn k y))) (seq 0 (S (length y))) ->
  rows x y prev = map (fun i => map (fun k => len (rev (firstn i x) ++ xr) (rev (firstn k y))) (seq 0 (S (length y))))
                      (seq 1 (length x)).
Proof.
  induction x as [|a x IH]; intros xr prev Hp; auto.
  cbn [rows length seq map firstn rev app].
  assert (Hr : 0 :: row a y prev 0 = map (fun k => len (a :: xr) (rev (firstn k y))) (seq 0 (S (length y)))).
  { cbn [seq map firstn rev]. rewrite len_nil_r. f_equal.
    rewrite (row_spec a xr y []); auto.
    - apply map_ext; intros; now rewrite app_nil_r.
    - rewrite Hp. apply map_ext; intros; now rewrite app_nil_r. }
  f_equal; auto.
  rewrite (IH (a :: xr) _ Hr). rewrite <- (seq_shift (length x) 1), map_map.
  apply map_ext; intros i. cbn [firstn rev]. now rewrite <- app_assoc.
Qed.
Lemma nth_map_seq {B} (f : nat -> B) d n k : k < n -> nth k (map f (seq 0 n)) d = f k.
Proof.
  intros. rewrite (nth_indep _ _ (f 0)) by (rewrite map_length, seq_length; lia).
  rewrite map_nth, seq_nth; auto.
Qed.
Lemma cell_spec x y i j : i <= length x -> j <= length y ->
  cell (table x y) i j = len (rev (firstn i x)) (rev (firstn j y)).
Proof.
  intros Hi Hj. unfold cell, table.
  set (z := repeat 0 _).
  assert (Hz : z = map (fun k => len [] (rev (firstn k y))) (seq 0 (S (length y)))).
  { subst z. replace (length y + 1) with (length (seq 0 (S (length y)))) by (rewrite seq_length; lia).
    generalize (seq 0 (S (length y))). clear. induction l; simpl in *; congruence. }
  rewrite (rows_spec y x [] z Hz).
  assert (E : z :: map (fun i => map (fun k => len (rev (firstn i x) ++ []) (rev (firstn k y))) (seq 0 (S (length y)))) (seq 1 (length x))
            = map (fun i => map (fun k => len (rev (firstn i x)) (rev (firstn k y))) (seq 0 (S (length y)))) (seq 0 (S (length x)))).
  { rewrite Hz. cbn [seq map firstn rev]. f_equal. apply map_ext; intros. now rewrite app_nil_r. }
  rewrite E. rewrite nth_map_seq by lia. rewrite nth_map_seq by lia. auto.
Qed.

Lemma firstn_S_snoc {A} (l : list A) m a : nth_error l m = Some a -> firstn (S m) l = firstn m l ++ [a].
Proof.
  revert m; induction l; intros [|m]; simpl; intros H; try discriminate.
  - injection H as ->; auto.
  - change (a0 :: firstn (S m) l = a0 :: (firstn m l ++ [a])). f_equal; auto.
Qed.
Lemma py_set_last {A} n (v : A) l : py_set (repeat None (S n) ++ map Some l) (Z.of_nat (S n) - 1) (Some v)
  = Some (repeat None n ++ map Some (v :: l)).
Proof.
  unfold py_set, py_index. rewrite app_length, repeat_length, map_length.
  destruct (0 <=? Z.of_nat (S n) - 1)%Z eqn:E1; [|apply Z.leb_gt in E1; lia].
  destruct (Z.of_nat (S n) - 1 <? Z.of_nat (S n + length l))%Z eqn:E2; [|apply Z.ltb_ge in E2; lia].
  replace (Z.to_nat (Z.of_nat (S n) - 1)) with n by lia. f_equal.
  clear. induction n; simpl in *; auto. f_equal. auto.
Qed.

Lemma back_spec x y : forall fl m n tl,
  m + n <= fl -> m <= length x -> n <= length y ->
  exists l, back fl x y (table x y) m n (Z.of_nat (len (rev (firstn m x)) (rev (firstn n y))))
                 (repeat None (len (rev (firstn m x)) (rev (firstn n y))) ++ map Some tl) = Ok (map Some (l ++ tl)) /\
            subseq l (firstn m x) /\ subseq l (firstn n y) /\
            length l = len (rev (firstn m x)) (rev (firstn n y)).
Proof.
  induction fl as [|fl IH]; intros m n tl Hf Hm Hn.
  - assert (m = 0) by lia. assert (n = 0) by lia. subst. exists []. simpl. repeat split; constructor.
  - destruct m as [|m]; [|destruct n as [|n]].
    + exists []. simpl. repeat split; auto using subseq_nil_l.
    + exists []. replace (firstn 0 y) with (@nil str) by auto. cbn [rev back].
      rewrite len_nil_r. simpl. repeat split; auto using subseq_nil_l.
    + destruct (nth_error x m) as [a|] eqn:Ea; [|apply nth_error_None in Ea; lia].
      destruct (nth_error y n) as [b|] eqn:Eb; [|apply nth_error_None in Eb; lia].
      cbn [back]. rewrite Ea, Eb.
      rewrite !cell_spec by lia.
      pose proof (firstn_S_snoc _ _ _ Ea) as Fa. pose proof (firstn_S_snoc _ _ _ Eb) as Fb.
      assert (Ra : rev (firstn (S m) x) = a :: rev (firstn m x)) by (rewrite Fa, rev_app_distr; auto).
      assert (Rb : rev (firstn (S n) y) = b :: rev (firstn n y)) by (rewrite Fb, rev_app_distr; auto).
      destruct (str_eqb_spec a b) as [<-|N].
      * assert (L : len (rev (firstn (S m) x)) (rev (firstn (S n) y)) = S (len (rev (firstn m x)) (rev (firstn n y)))).
        { rewrite Ra, Rb, len_cons, str_eqb_refl. auto. }
        rewrite L, py_set_last.
        destruct (IH m n (a :: tl)) as (l & E & S1 & S2 & S3); try lia.
        exists (l ++ [a]).
        replace (Z.of_nat (S (len (rev (firstn m x)) (rev (firstn n y)))) - 1)%Z
          with (Z.of_nat (len (rev (firstn m x)) (rev (firstn n y)))) by lia.
        rewrite E. repeat split.
        -- now rewrite <- app_assoc.
        -- rewrite Fa. apply subseq_app; auto using subseq_refl.
        -- rewrite Fb. apply subseq_app; auto using subseq_refl.
        -- rewrite app_length; simpl; lia.
      * assert (L : len (rev (firstn (S m) x)) (rev (firstn (S n) y))
                    = Nat.max (len (rev (firstn (S m) x)) (rev (firstn n y))) (len (rev (firstn m x)) (rev (firstn (S n) y)))).
        { rewrite Ra, Rb, len_cons. destruct (str_eqb_spec a b); congruence. }
        destruct (_ <? _) eqn:C; [apply Nat.ltb_lt in C | apply Nat.ltb_ge in C].
        -- rewrite L, Nat.max_r by lia.
           destruct (IH m (S n) tl) as (l & E & S1 & S2 & S3); try lia.
           exists l. rewrite E. repeat split; auto.
           rewrite Fa. apply subseq_app_l; auto.
        -- rewrite L, Nat.max_l by lia.
           destruct (IH (S m) n tl) as (l & E & S1 & S2 & S3); try lia.
           exists l. rewrite E. repeat split; auto.
           rewrite Fb. apply subseq_app_l; auto.
Qed.
Lemma stored_Some l : stored (map Some l) = Ok l.
Proof. induction l; simpl; auto. now rewrite IHl. Qed.

Lemma lcs_table_ok x y : exists l, lcs_table x y = Ok l /\ longest_common l x y.
Proof.
  destruct (back_spec x y (length x + length y) (length x) (length y) []) as (l & E & S1 & S2 & S3); auto.
  exists l. unfold lcs_table. rewrite cell_spec by auto. cbn [map] in E. rewrite app_nil_r in E. rewrite E.
  cbn [rbind]. rewrite !firstn_all in *. rewrite app_nil_r, stored_Some. split; auto. repeat split; auto.
  intros l' H1 H2. rewrite S3. rewrite <- (rev_length l'). apply len_upper; apply subseq_rev; auto.
Qed.

Lemma prefix_split : forall x y, exists z x' y',
  x = z ++ x' /\ y = z ++ y' /\ length z = prefix_len x y /\
  (match x', y' with a :: _, b :: _ => str_eqb a b = false | _, _ => True end).
Proof.
  induction x as [|a x IH]; intros y.
  - exists [], [], y. simpl. auto.
  - destruct y as [|b y].
    + exists [], (a :: x), []. simpl; auto.
    + simpl. destruct (str_eqb a b) eqn:E.
      * apply str_eqb_eq in E; subst. destruct (IH y) as (z & x' & y' & -> & -> & H & H').
        exists (b :: z), x', y'. simpl. auto.
      * exists [], (a :: x), (b :: y). simpl. auto.
Qed.
Lemma longest_common_prefix z l x y : longest_common l x y -> longest_common (z ++ l) (z ++ x) (z ++ y).
Proof.
  intros (S1 & S2 & S3). repeat split; try (apply subseq_app; auto using subseq_refl).
  induction z as [|a z IH]; simpl; auto.
  intros l' H1 H2. destruct l' as [|b l']; [simpl; lia|]. simpl. apply le_n_S. apply IH.
  - inversion H1; subst; auto. eapply subseq_tail; eauto.
  - inversion H2; subst; auto. eapply subseq_tail; eauto.
Qed.
Lemma longest_nil_l y : longest_common [] [] y.
Proof. repeat split; auto using subseq_nil_l. intros l H _. apply subseq_nil_r in H; subst; auto. Qed.
Lemma longest_nil_r x : longest_common [] x [].
Proof. repeat split; auto using subseq_nil_l. intros l _ H. apply subseq_nil_r in H; subst; auto. Qed.

Theorem find_lcs_ok x y : exists l, find_lcs x y = Ok l /\ longest_common l x y.
Proof.
  unfold find_lcs. destruct x as [|a x0]; [exists []; split; auto using longest_nil_l|].
  destruct y as [|b y0]; [exists []; split; auto using longest_nil_r|].
  cbn [find_lcs_rec]. destruct (str_eqb a b) eqn:E; [|apply lcs_table_ok].
  set (x := a :: x0). set (y := b :: y0).
  destruct (prefix_split x y) as (z & x' & y' & Hx & Hy & Hz & D).
  rewrite <- Hz. rewrite Hx, Hy. rewrite !firstn_app, !firstn_all, !skipn_app, !skipn_all, !Nat.sub_diag.
  cbn [firstn skipn app]. rewrite !app_length.
  destruct (_ <? _) eqn:C.
  - apply Nat.ltb_lt in C. destruct x' as [|a' x']; [simpl in C; lia|].
    destruct y' as [|b' y']; [simpl in C; lia|].
    rewrite D. destruct (lcs_table_ok (a' :: x') (b' :: y')) as (l & El & Hl).
    rewrite El. cbn [rbind]. exists (z ++ l). split; [now rewrite app_nil_r|]. apply longest_common_prefix; auto.
  - apply Nat.ltb_ge in C. exists (z ++ []). split; [now rewrite !app_nil_r|]. apply longest_common_prefix.
    destruct x' as [|a' x']; [apply longest_nil_l|]. destruct y' as [|b' y']; [apply longest_nil_r|].
    simpl in C. lia.
Qed.
Lemma longest_self l x : longest_common l x x -> l = x.
Proof. intros (S1 & _ & S3). apply subseq_full; auto using subseq_refl. Qed.

(** ---- the focused alignment ---- *)
Lemma skip_until_ok t : forall tokens un nf, subseq (t :: nf) tokens ->
  exists skipped rest, skip_until t tokens un = Ok (t :: rest, un ++ skipped) /\
                       tokens = skipped ++ t :: rest /\ subseq nf rest.
Proof.
  induction tokens as [|a tokens IH]; intros un nf H; [inversion H|].
  simpl. destruct (str_eqb_spec t a) as [->|N].
  - exists [], tokens. rewrite app_nil_r. repeat split; auto. eapply subseq_cons; eauto.
  - apply subseq_cons_neq in H; auto.
    destruct (IH (un ++ [a]) nf H) as (sk & rest & E & -> & H').
    exists (a :: sk), rest. rewrite E. rewrite <- app_assoc. simpl. auto.
Qed.
Lemma advance_ok : forall nf pred gold, subseq nf pred -> subseq nf gold ->
  exists d nf' pred' gold', advance nf pred gold = Ok (nf', pred', gold') /\
    nf = d ++ nf' /\ pred = d ++ pred' /\ gold = d ++ gold' /\ subseq nf' pred' /\ subseq nf' gold' /\
    (match nf, pred, gold with t :: _, p :: _, g :: _ => t = p -> t = g -> d <> [] | _, _, _ => True end).
Proof.
  induction nf as [|t nf IH]; intros pred gold H1 H2; simpl.
  - exists [], [], pred, gold. repeat split; auto.
  - destruct pred as [|p pred]; [inversion H1|].
    destruct gold as [|g gold]; [inversion H2|].
    destruct (str_eqb_spec t p) as [<-|N1].
    + destruct (str_eqb_spec t g) as [<-|N2].
      * destruct (IH pred gold) as (d & nf' & pred' & gold' & E & -> & -> & -> & A & B & _);
          try (eapply subseq_cons; eauto).
        exists (t :: d), nf', pred', gold'. simpl. rewrite E. repeat split; auto; discriminate.
      * exists [], (t :: nf), (t :: pred), (g :: gold). simpl. repeat split; auto; congruence.
    + exists [], (t :: nf), (p :: pred), (g :: gold). simpl. repeat split; auto; congruence.
Qed.

(** [z] merges the non-focused alignment [nf] with the rest of the alignment. *)
Lemma align_ok : forall fl nf pred gold common,
  length nf <= fl -> subseq nf pred -> subseq nf gold ->
  exists l z, align fl nf pred gold common = Ok (common ++ l) /\ subseq z pred /\ subseq z gold /\
    (forall f, (forall t, In t nf -> f t = false) ->
       filter f z = filter f l /\
       exists e, length (filter (fun t => negb (f t)) z) = length nf + length e /\ filter (fun t => negb (f t)) l = e) /\
    subseq nf z /\ (pred = gold -> z = pred).
Proof.
  induction fl as [|fl IH]; intros nf pred gold common Hf H1 H2.
  - assert (nf = []) by (destruct nf; simpl in *; auto; lia). subst nf.
    destruct pred as [|p pred'] eqn:Ep; [|destruct gold as [|g gold'] eqn:Eg].
    + exists [], []. simpl. repeat split; auto using subseq_nil_l, subseq_refl. now rewrite app_nil_r.
      exists []; auto.
    + exists [], []. simpl. repeat split; auto using subseq_nil_l, subseq_refl. now rewrite app_nil_r.
      exists []; auto.
    + destruct (find_lcs_ok pred gold) as (l & E & L). exists l, l. simpl. rewrite Ep, Eg in E. rewrite E. simpl.
      destruct L as (L1 & L2 & L3). rewrite Ep in *. rewrite Eg in *. repeat split; auto using subseq_nil_l.
      * exists (filter (fun t => negb (f t)) l). auto.
      * intros EQ. rewrite <- EQ in *. apply longest_self. repeat split; auto.
  - destruct pred as [|p pred'] eqn:Ep; [|destruct gold as [|g gold'] eqn:Eg].
    + apply subseq_nil_r in H1; subst.
      exists [], []. simpl. repeat split; auto using subseq_nil_l, subseq_refl. now rewrite app_nil_r.
      exists []; auto.
    + apply subseq_nil_r in H2; subst.
      exists [], []. simpl. repeat split; auto using subseq_nil_l, subseq_refl. now rewrite app_nil_r.
      exists []; auto.
    + rewrite <- Ep, <- Eg in *.
      destruct nf as [|t nf].
      * destruct (find_lcs_ok pred gold) as (l & E & L). exists l, l. rewrite Ep, Eg in *. simpl. rewrite E. simpl.
        destruct L as (L1 & L2 & L3). repeat split; auto using subseq_nil_l.
        -- exists (filter (fun t => negb (f t)) l). auto.
        -- intros EQ. rewrite <- EQ in *. apply longest_self. repeat split; auto.
      * destruct (skip_until_ok t pred [] nf H1) as (sp & rp & E1 & P1 & S1).
        destruct (skip_until_ok t gold [] nf H2) as (sg & rg & E2 & P2 & S2).
        destruct (find_lcs_ok sp sg) as (l1 & E3 & L).
        destruct (advance_ok (t :: nf) (t :: rp) (t :: rg)) as (d & nf' & pred2 & gold2 & E4 & D1 & D2 & D3 & D4 & D5 & D6);
          try (constructor; auto).
        specialize (D6 eq_refl eq_refl).
        assert (Len : length nf' <= fl).
        { assert (length (t :: nf) = length d + length nf') by (rewrite D1, app_length; auto).
          destruct d; [congruence|]. simpl in *. lia. }
        destruct (IH nf' pred2 gold2 (common ++ l1) Len D4 D5) as (l2 & z2 & E5 & Z1 & Z2 & Z3 & Z4 & Z5).
        destruct L as (L1 & L2 & L3).
        exists (l1 ++ l2), (l1 ++ d ++ z2).
        assert (Rp : pred = sp ++ d ++ pred2) by (rewrite <- D2; auto).
        assert (Rg : gold = sg ++ d ++ gold2) by (rewrite <- D3; auto).
        repeat split.
        -- rewrite Ep, Eg in *. cbn [align]. rewrite E1. cbn [rbind]. rewrite E2. cbn [rbind app]. rewrite E3. cbn [rbind].
           rewrite E4. cbn [rbind]. rewrite E5. now rewrite app_assoc.
        -- rewrite Rp. repeat apply subseq_app; auto using subseq_refl.
        -- rewrite Rg. repeat apply subseq_app; auto using subseq_refl.
        -- destruct (Z3 f) as (F1 & _); [intros; apply H; rewrite D1; apply in_or_app; auto|].
           rewrite !filter_app, F1.
           replace (filter f d) with (@nil str); auto.
           assert (Hd : forall u, In u d -> f u = false) by (intros; apply H; rewrite D1; apply in_or_app; auto).
           clear -Hd. induction d; simpl in *; auto. rewrite Hd by auto. apply IHd; auto.
        -- destruct (Z3 f) as (_ & e & F1 & F2); [intros; apply H; rewrite D1; apply in_or_app; auto|].
           exists (filter (fun t => negb (f t)) (l1 ++ l2)). split; auto.
           rewrite !filter_app, !app_length, F1, F2.
           assert (Hd : forall u, In u d -> f u = false) by (intros; apply H; rewrite D1; apply in_or_app; auto).
           assert (Fd : filter (fun t => negb (f t)) d = d).
           { clear -Hd. induction d; simpl in *; auto. rewrite Hd by auto. simpl. f_equal. apply IHd; auto. }
           rewrite Fd, D1, app_length. lia.
        -- rewrite D1. apply subseq_app_r. apply subseq_app; auto using subseq_refl.
        -- intros EQ.
           assert (sp = sg /\ rp = rg) as (<- & <-).
           { clear -E1 E2 EQ. subst gold. rewrite E1 in E2. simpl in E2. split; congruence. }
           assert (l1 = sp) by (apply longest_self; repeat split; auto).
           assert (pred2 = gold2).
           { rewrite D2 in D3. now apply app_inv_head in D3. }
           rewrite Rp, H, (Z5 H0). auto.
Qed.

(** ---- the counted lists ---- *)
Lemma filter_false {A} (f : A -> bool) l : filter f (filter (fun t => negb (f t)) l) = [].
Proof. induction l; simpl; auto. destruct (f a) eqn:E; simpl; auto. now rewrite E. Qed.
Lemma filter_In_false {A} (f : A -> bool) l t : In t (filter (fun t => negb (f t)) l) -> f t = false.
Proof. intros H; apply filter_In in H. destruct (f t); auto; now destruct H. Qed.
Lemma subseq_In {A} (a b : list A) t : subseq a b -> In t a -> In t b.
Proof. induction 1; simpl; intuition. Qed.

Theorem matched_none pred gold : exists common,
  matched None pred gold = Ok (common, pred, gold) /\ longest_common common pred gold.
Proof.
  destruct (find_lcs_ok pred gold) as (l & E & L). exists l. unfold matched. rewrite E. auto.
Qed.
Theorem matched_focus (f : str -> bool) (pred gold : list str) : exists z nf : list str,
  matched (Some f) pred gold = Ok (filter f z, filter f pred, filter f gold) /\
  subseq z pred /\ subseq z gold /\
  filter (fun t => negb (f t)) z = nf /\
  longest_common nf (filter (fun t => negb (f t)) pred) (filter (fun t => negb (f t)) gold) /\
  (pred = gold -> z = pred).
Proof.
  unfold matched. destruct (find_lcs_ok (filter (fun t => negb (f t)) pred) (filter (fun t => negb (f t)) gold)) as (nf & E & L).
  destruct (align_ok (length nf) nf pred gold []) as (l & z & Ea & Z1 & Z2 & Z3 & Z4 & Z5); auto.
  { eapply subseq_trans; [exact (proj1 L) | apply filter_subseq]. }
  { eapply subseq_trans; [exact (proj1 (proj2 L)) | apply filter_subseq]. }
  assert (Hnf : forall t, In t nf -> f t = false).
  { intros t Ht. apply (filter_In_false f pred). exact (subseq_In _ _ _ (proj1 L) Ht). }
  destruct (Z3 f Hnf) as (F1 & _).
  exists z, nf. rewrite E. cbn [rbind]. rewrite Ea. cbn [rbind app]. rewrite F1. repeat split; auto; try apply L.
  symmetry. apply subseq_full.
  - apply (subseq_filter (fun t => negb (f t))) in Z4.
    replace (filter (fun t => negb (f t)) nf) with nf in Z4; auto.
    clear -Hnf. induction nf; simpl in *; auto. rewrite Hnf by auto. simpl. f_equal. apply IHnf; auto.
  - apply L; apply subseq_filter; auto.
Qed.

Lemma count_up_spec l : forall c t, count_up c l t = c t + occurrences t l.
Proof.
  induction l as [|x l IH]; intros c t; simpl; [lia|].
  rewrite IH. destruct (str_eqb x t); lia.
Qed.

(** What the block keeps true of its counters *)
Definition sound (st : f1st) : Prop :=
  f_correct st <= f_pred st /\ f_correct st <= f_gold st /\
  forall t, f_ncommon st t <= f_npred st t /\ f_ncommon st t <= f_ngold st t.
Lemma f1_tree_ok focus st pg : sound st ->
  exists st', f1_tree focus st pg = Ok st' /\ sound st'.
Proof.
  intros (A & B & C). destruct pg as (pred, gold).
  assert (H : exists z p g, matched focus pred gold = Ok (z, p, g) /\ subseq z p /\ subseq z g).
  { destruct focus as [f|].
    - destruct (matched_focus f pred gold) as (z & nf & E & S1 & S2 & _).
      exists (filter f z), (filter f pred), (filter f gold). auto using subseq_filter.
    - destruct (matched_none pred gold) as (z & E & S1 & S2 & _). exists z, pred, gold. auto. }
  destruct H as (z & p & g & E & S1 & S2).
  unfold f1_tree. cbn [fst snd]. rewrite E. cbn [rbind]. eexists; split; eauto.
  pose proof (subseq_length _ _ S1). pose proof (subseq_length _ _ S2).
  split; [|split]; cbn [f_correct f_pred f_gold f_ncommon f_npred f_ngold]; try lia.
  intros t. rewrite !count_up_spec. specialize (C t).
  pose proof (occurrences_subseq t _ _ S1). pose proof (occurrences_subseq t _ _ S2). lia.
Qed.
Lemma f1_trees_ok focus l : forall st, sound st -> exists st', f1_trees focus st l = Ok st' /\ sound st'.
Proof.
  induction l as [|pg l IH]; intros st H; simpl; eauto.
  destruct (f1_tree_ok focus st pg H) as (st1 & -> & H1). cbn [rbind]. auto.
Qed.
Lemma sound_init : sound f1_init.
Proof. repeat split; simpl; lia. Qed.

(** identical predicted and gold trees *)
Definition perfect (st : f1st) : Prop :=
  f_correct st = f_pred st /\ f_correct st = f_gold st /\
  forall t, f_ncommon st t = f_npred st t /\ f_ncommon st t = f_ngold st t.
Lemma f1_tree_same focus st x : perfect st -> exists st', f1_tree focus st (x, x) = Ok st' /\ perfect st' /\
  f_pred st' = f_pred st + length (match focus with None => x | Some f => filter f x end).
Proof.
  intros (A & B & C).
  assert (H : matched focus x x = let y := match focus with None => x | Some f => filter f x end in Ok (y, y, y)).
  { destruct focus as [f|].
    - destruct (matched_focus f x x) as (z & nf & E & _ & _ & _ & _ & S). rewrite (S eq_refl) in E. auto.
    - destruct (matched_none x x) as (z & E & S). now rewrite (longest_self _ _ S) in E. }
  unfold f1_tree. cbn [fst snd]. rewrite H. cbn [rbind]. eexists; split; eauto.
  split; auto. repeat split; cbn [f_correct f_pred f_gold f_ncommon f_npred f_ngold]; try lia;
  rewrite !count_up_spec; destruct (C t); lia.
Qed.
Lemma f1_trees_same focus l : forall st, perfect st -> exists st',
  f1_trees focus st (map (fun x => (x, x)) l) = Ok st' /\ perfect st' /\
  f_pred st' = f_pred st + length (match focus with None => concat l | Some f => filter f (concat l) end).
Proof.
  induction l as [|x l IH]; intros st H.
  - exists st. simpl. split; auto. split; auto. destruct focus; simpl; lia.
  - destruct (f1_tree_same focus st x H) as (st1 & E & H1 & L1). cbn [map f1_trees]. rewrite E. cbn [rbind].
    destruct (IH st1 H1) as (st2 & E2 & H2 & L2). exists st2. rewrite E2. split; auto. split; auto.
    rewrite L2, L1. destruct focus; cbn [concat]; rewrite ?filter_app, app_length; lia.
Qed.
Lemma perfect_init : perfect f1_init.
Proof. repeat split; simpl; lia. Qed.

(** ---- the scores ---- *)
Lemma or1_nat n : (or1 (qn n) == qn (Nat.max 1 n))%Q.
Proof.
  unfold or1. destruct n; [reflexivity|].
  destruct (Qeq_bool _ _) eqn:E.
  - apply Qeq_bool_iff in E. unfold qn, Qeq in E. simpl in E. lia.
  - rewrite Nat.max_r by lia. reflexivity.
Qed.
Lemma qn_le a b : a <= b -> (qn a <= qn b)%Q.
Proof. intros. unfold qn. rewrite <- Zle_Qle. lia. Qed.
Lemma qn_pos n : 1 <= n -> (0 < qn n)%Q.
Proof. intros. unfold qn. change 0%Q with (inject_Z 0). rewrite <- Zlt_Qlt. lia. Qed.
Lemma qn_nonneg n : (0 <= qn n)%Q.
Proof. change 0%Q with (qn 0). apply qn_le; lia. Qed.
Lemma ratio_bounds c p : c <= p -> (0 <= qn c / or1 (qn p) <= 1)%Q.
Proof.
  intros H. rewrite or1_nat. assert (P : (0 < qn (Nat.max 1 p))%Q) by (apply qn_pos; lia). split.
  - apply Qle_shift_div_l; auto. rewrite Qmult_0_l. apply qn_nonneg.
  - apply Qle_shift_div_r; auto. rewrite Qmult_1_l. apply qn_le. lia.
Qed.
Lemma harmonic p r : (0 <= p <= 1 -> 0 <= r <= 1 -> 0 <= 2 * p * r / or1 (p + r) <= 1)%Q.
Proof.
  intros Hp Hr. unfold or1. destruct (Qeq_bool (p + r) 0) eqn:E.
  - apply Qeq_bool_iff in E. assert (p == 0)%Q by lra. assert (r == 0)%Q by lra.
    setoid_rewrite H. setoid_rewrite H0. split; vm_compute; discriminate.
  - assert (N : (0 < p + r)%Q).
    { apply Qeq_bool_neq in E. lra. }
    assert (A : (0 <= p * r)%Q) by (apply Qmult_le_0_compat; tauto).
    assert (B : (0 <= p * (1 - r))%Q) by (apply Qmult_le_0_compat; lra).
    assert (C : (0 <= r * (1 - p))%Q) by (apply Qmult_le_0_compat; lra).
    split.
    + apply Qle_shift_div_l; auto. lra.
    + apply Qle_shift_div_r; auto. lra.
Qed.
Theorem scores_bounded c p g : c <= p -> c <= g ->
  (0 <= precision c p <= 1 /\ 0 <= recall c g <= 1 /\ 0 <= f1_score c p g <= 1)%Q.
Proof.
  intros. pose proof (ratio_bounds c p H). pose proof (ratio_bounds c g H0).
  split; auto. split; auto. apply harmonic; auto.
Qed.
Lemma ratio_one n : 1 <= n -> (qn n / or1 (qn n) == 1)%Q.
Proof.
  intros. rewrite or1_nat, Nat.max_r by lia. field. intros E. pose proof (qn_pos n H). lra.
Qed.
Lemma ratio_one_inv c p : c <= p -> (qn c / or1 (qn p) == 1)%Q -> c = p /\ 1 <= p.
Proof.
  intros H. rewrite or1_nat. intros E.
  assert (P : (0 < qn (Nat.max 1 p))%Q) by (apply qn_pos; lia).
  assert (E2 : (qn c == qn (Nat.max 1 p))%Q).
  { transitivity (qn c / qn (Nat.max 1 p) * qn (Nat.max 1 p))%Q; [field; lra | rewrite E; lra]. }
  unfold qn, Qeq in E2. cbn [Qnum Qden inject_Z] in E2. lia.
Qed.
Theorem f1_one_iff c p g : c <= p -> c <= g ->
  ((f1_score c p g == 1)%Q <-> (1 <= c /\ c = p /\ c = g)).
Proof.
  intros Hp Hg. split.
  - unfold f1_score. intros E. pose proof (ratio_bounds c p Hp) as B1. pose proof (ratio_bounds c g Hg) as B2.
    fold (precision c p) in B1. fold (recall c g) in B2.
    set (a := precision c p) in *. set (b := recall c g) in *.
    assert (a == 1 /\ b == 1)%Q as (Ea & Eb).
    { unfold or1 in E. destruct (Qeq_bool (a + b) 0) eqn:Z.
      - apply Qeq_bool_iff in Z. assert (a == 0)%Q by lra. rewrite H in E. exfalso.
        assert (2 * 0 * b / 1 == 0)%Q by field. lra.
      - apply Qeq_bool_neq in Z.
        assert (E2 : (2 * a * b == a + b)%Q).
        { transitivity (2 * a * b / (a + b) * (a + b))%Q; [field; auto | rewrite E; lra]. }
        assert (B : (0 <= a * (1 - b))%Q) by (apply Qmult_le_0_compat; lra).
        assert (C : (0 <= b * (1 - a))%Q) by (apply Qmult_le_0_compat; lra).
        assert (D : (a == a * b)%Q) by lra. assert (F : (b == a * b)%Q) by lra.
        assert (G : (a == b)%Q) by lra.
        assert (N : ~ (a == 0)%Q) by (intros N; rewrite N in G; lra).
        assert (K : (a == 1)%Q).
        { apply (Qmult_inj_l _ _ a N). rewrite <- G in D. lra. }
        split; lra. }
    destruct (ratio_one_inv c p Hp Ea). destruct (ratio_one_inv c g Hg Eb). lia.
  - intros (H & <- & <-). unfold f1_score, precision, recall.
    assert (R := ratio_one c H). unfold or1 at 3.
    destruct (Qeq_bool _ _) eqn:Z.
    + apply Qeq_bool_iff in Z. exfalso. rewrite !R in Z. lra.
    + rewrite !R. reflexivity.
Qed.

(** ---- what is counted ---- *)
Lemma filter_true {A} (f : A -> bool) l : (forall x, f x = true) -> filter f l = l.
Proof. intros; induction l; simpl; auto. rewrite H. f_equal; auto. Qed.
Lemma filter_none_true (l : list str) : filter (focused None) l = l.
Proof. apply filter_true; auto. Qed.
Lemma filter_none_neg (l : list str) : filter (fun t => negb (focused None t)) l = [].
Proof. induction l; simpl; auto. Qed.
Lemma matched_alignment focus pred gold : exists z,
  matched focus pred gold = Ok (filter (focused focus) z, filter (focused focus) pred, filter (focused focus) gold) /\
  alignment focus z (pred, gold).
Proof.
  destruct focus as [f|].
  - destruct (matched_focus f pred gold) as (z & nf & E & S1 & S2 & S3 & S4 & S5).
    exists z. split; auto. constructor; simpl; auto; try discriminate. rewrite S3; auto.
  - destruct (matched_none pred gold) as (z & E & L). exists z. rewrite !filter_none_true. split; auto.
    constructor; simpl; try apply L; auto.
    + rewrite !filter_none_neg. apply longest_nil_l.
    + intros ->. apply longest_self; auto.
Qed.
Lemma occurrences_app t a b : occurrences t (a ++ b) = occurrences t a + occurrences t b.
Proof. induction a; simpl; lia. Qed.
Lemma f1_trees_counts focus l : forall st, exists st' zs,
  f1_trees focus st l = Ok st' /\ Forall2 (alignment focus) zs l /\
  let F x := filter (focused focus) (concat x) in
  f_correct st' = f_correct st + length (F zs) /\
  f_pred st' = f_pred st + length (F (map fst l)) /\
  f_gold st' = f_gold st + length (F (map snd l)) /\
  forall t, f_ncommon st' t = f_ncommon st t + occurrences t (F zs) /\
            f_npred st' t = f_npred st t + occurrences t (F (map fst l)) /\
            f_ngold st' t = f_ngold st t + occurrences t (F (map snd l)).
Proof.
  induction l as [|(p, g) l IH]; intros st.
  - exists st, []. simpl. repeat split; auto.
  - destruct (matched_alignment focus p g) as (z & E & A).
    cbn [f1_trees]. unfold f1_tree. cbn [fst snd]. rewrite E. cbn [rbind].
    match goal with |- context [f1_trees focus ?s l] => destruct (IH s) as (st' & zs & E' & A' & C1 & C2 & C3 & C4) end.
    exists st', (z :: zs). split; auto. split; [constructor; auto|].
    cbn [f_correct f_pred f_gold f_ncommon f_npred f_ngold] in *. cbn [concat map fst snd].
    rewrite !filter_app, !app_length. repeat split; try lia;
    rewrite ?occurrences_app; destruct (C4 t) as (X & Y & Z); rewrite ?X, ?Y, ?Z, count_up_spec; lia.
Qed.
Theorem f1_counts focus l : exists st zs,
  f1_trees focus f1_init l = Ok st /\ Forall2 (alignment focus) zs l /\
  let F x := filter (focused focus) (concat x) in
  f_correct st = length (F zs) /\ f_pred st = length (F (map fst l)) /\ f_gold st = length (F (map snd l)) /\
  forall t, f_ncommon st t = occurrences t (F zs) /\
            f_npred st t = occurrences t (F (map fst l)) /\ f_ngold st t = occurrences t (F (map snd l)).
Proof. destruct (f1_trees_counts focus l f1_init) as (st & zs & H). exists st, zs. exact H. Qed.
Theorem f1_sound focus l : exists st, f1_trees focus f1_init l = Ok st /\
  f_correct st <= f_pred st /\ f_correct st <= f_gold st /\
  (forall t, f_ncommon st t <= f_npred st t /\ f_ncommon st t <= f_ngold st t) /\
  (0 <= precision (f_correct st) (f_pred st) <= 1)%Q /\
  (0 <= recall (f_correct st) (f_gold st) <= 1)%Q /\
  (0 <= f1_score (f_correct st) (f_pred st) (f_gold st) <= 1)%Q.
Proof.
  destruct (f1_trees_ok focus l f1_init sound_init) as (st & E & A & B & C).
  exists st. split; auto. split; auto. split; auto. split; auto.
  destruct (scores_bounded (f_correct st) (f_pred st) (f_gold st)); auto.
Qed.
Theorem f1_identical focus l : exists st,
  f1_trees focus f1_init (map (fun x => (x, x)) l) = Ok st /\
  f_correct st = length (filter (focused focus) (concat l)) /\
  f_pred st = f_correct st /\ f_gold st = f_correct st /\
  ((exists t, In t (concat l) /\ focused focus t = true) ->
   (f1_score (f_correct st) (f_pred st) (f_gold st) == 1)%Q).
Proof.
  destruct (f1_trees_same focus l f1_init perfect_init) as (st & E & (A & B & _) & L).
  simpl in L.
  assert (L' : f_pred st = length (filter (focused focus) (concat l))).
  { rewrite L. destruct focus; auto. now rewrite filter_none_true. }
  exists st. split; auto. split; [congruence|]. split; auto. split; auto.
  intros (t & H1 & H2). apply f1_one_iff; try lia. split; [|lia].
  rewrite A, L'. assert (In t (filter (focused focus) (concat l))) by (apply filter_In; auto).
  destruct (filter (focused focus) (concat l)); [contradiction | simpl; lia].
Qed.
