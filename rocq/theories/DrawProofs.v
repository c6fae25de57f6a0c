(** Proofs about drawn trees (C71). *)
From Coq Require Import String List NArith ZArith Bool Lia Sorted Permutation.
From Verif Require Import PyStr PyList PyListFacts PyExn TreeModel TreeSpec TreeFacts TreeOps ReaderProofs DrawModel DrawSpec.
Import ListNotations.
Local Open Scope nat_scope.

(** ---- Pictures ---- *)
Lemma cell_some P i l c : nth_error P i = Some l -> cell P i c = nth_error l c.
Proof. unfold cell. now intros ->. Qed.
Lemma node_at_unique P i c c' : node_at P i c -> node_at P i c' -> c = c'.
Proof.
  intros [A1 A2] [B1 B2]. destruct (Nat.lt_total c c') as [L|[E|L]]; auto; [now apply B2 in L|now apply A2 in L].
Qed.
Lemma one_of_disjoint a l k : is_one_of a l -> is_one_of a k -> (forall x, In x l -> In x k -> False) -> False.
Proof. intros (x & E & I) (y & E2 & J) D. rewrite E in E2. injection E2 as <-. eauto. Qed.
Ltac disjoint := let x := fresh in intros x; cbn; let H1 := fresh in let H2 := fresh in intros H1 H2; intuition (subst; discriminate).
Lemma shows_unique P i j j' : shows P i j -> shows P i j' -> j = j'.
Proof.
  intros (c & k & N1 & N2 & L & H & V) (c' & k' & N1' & N2' & L' & H' & V'). pose proof (node_at_unique _ _ _ _ N1 N1') as <-.
  assert (KK : k = k').
  { destruct (Nat.lt_total k k') as [X|[E|X]]; auto; exfalso.
    - assert (O : is_one_of (cell P i k') [cH; cCross]) by (apply H; lia). destruct V' as [(_ & C & _)|(_ & C & _)]; apply (one_of_disjoint _ _ _ O C); disjoint.
    - assert (O : is_one_of (cell P i k) [cH; cCross]) by (apply H'; lia). destruct V as [(_ & C & _)|(_ & C & _)]; apply (one_of_disjoint _ _ _ O C); disjoint. }
  subst k'. destruct N2 as [S1 _], N2' as [S2 _].
  destruct V as [(A & C & B)|(A & C & B)], V' as [(A' & C' & B')|(A' & C' & B')]; try (exfalso; apply (one_of_disjoint _ _ _ C C'); disjoint).
  - destruct (Nat.lt_total j j') as [X|[E|X]]; auto; exfalso.
    + apply (one_of_disjoint _ _ _ S2 (B j' ltac:(lia))); disjoint.
    + apply (one_of_disjoint _ _ _ S1 (B' j ltac:(lia))); disjoint.
  - destruct (Nat.lt_total j j') as [X|[E|X]]; auto; exfalso.
    + apply (one_of_disjoint _ _ _ S1 (B' j ltac:(lia))); disjoint.
    + apply (one_of_disjoint _ _ _ S2 (B j' ltac:(lia))); disjoint.
Qed.
(** Lines may be continued. *)
Definition continues (P P2 : list str) : Prop := forall i l, nth_error P i = Some l -> exists t, nth_error P2 i = Some (l ++ t).
Lemma cell_ext P P2 i c a : continues P P2 -> cell P i c = Some a -> cell P2 i c = Some a.
Proof.
  intros E. unfold cell. destruct (nth_error P i) as [l|] eqn:N; [|discriminate]. destruct (E i l N) as (t & ->). intros C.
  rewrite nth_error_app1; auto. apply nth_error_Some. congruence.
Qed.
Lemma one_of_ext P P2 i c k : continues P P2 -> is_one_of (cell P i c) k -> is_one_of (cell P2 i c) k.
Proof. intros E (a & C & I). exists a. split; auto. now apply (cell_ext P). Qed.
Lemma node_at_ext P P2 i c : continues P P2 -> node_at P i c -> node_at P2 i c.
Proof.
  intros E [A B]. split; [now apply (one_of_ext P)|]. intros c' L O. apply (B c' L). destruct A as (a & CA & _). destruct O as (b & CB & IB). exists b. split; auto.
  revert CA CB. unfold cell. destruct (nth_error P i) as [l|] eqn:N; [|discriminate]. destruct (E i l N) as (t & ->). intros CA CB.
  assert (c < length l) by (apply nth_error_Some; congruence). rewrite nth_error_app1 in CB by lia. exact CB.
Qed.
Lemma shows_ext P P2 i j : continues P P2 -> shows P i j -> shows P2 i j.
Proof.
  intros E (c & k & N1 & N2 & L & H & V). exists c, k. split; [now apply (node_at_ext P)|]. split; [now apply (node_at_ext P)|]. split; auto. split; [intros e He; apply (one_of_ext P); auto|].
  destruct V as [(A & C & B)|(A & C & B)]; [left|right]; (split; [exact A|]); (split; [now apply (one_of_ext P)|]); intros n Hn; apply (one_of_ext P); auto.
Qed.
Lemma continues_trans P Q R : continues P Q -> continues Q R -> continues P R.
Proof. intros A B i l N. destruct (A i l N) as (t & N2). destruct (B i _ N2) as (t2 & N3). exists (t ++ t2). now rewrite app_assoc. Qed.
Lemma continues_refl P : continues P P.
Proof. intros i l N. exists []. now rewrite app_nil_r. Qed.

(** ---- Ends of lines ---- *)
Lemma ends_app l a : ends_open (l ++ [a]) = existsb (N.eqb a) [cH; cTop; cBot; cCross; cAfter; cBefore].
Proof. unfold ends_open. now rewrite last_opt_app. Qed.
Lemma ends_app2 l k : k <> [] -> ends_open (l ++ k) = ends_open k.
Proof.
  intros H. destruct (exists_last H) as (k' & a & ->). rewrite app_assoc, !ends_app. reflexivity.
Qed.
Definition plain (l : str) : Prop := forall a, In a l -> a = SPACE \/ a = cV.
Definition hline (l : str) : Prop := forall a, In a l -> a = cH \/ a = cCross.
Lemma plain_app l k : plain l -> plain k -> plain (l ++ k).
Proof. intros A B a I. apply in_app_iff in I as [I|I]; auto. Qed.
Lemma hline_app l k : hline l -> hline k -> hline (l ++ k).
Proof. intros A B a I. apply in_app_iff in I as [I|I]; auto. Qed.
Lemma plain_repeat n : plain (repeat SPACE n).
Proof. intros a I. apply repeat_spec in I. auto. Qed.
Lemma hline_repeat n : hline (repeat cH n).
Proof. intros a I. apply repeat_spec in I. auto. Qed.
Lemma plain_V : plain [cV].
Proof. intros a [<-|[]]; auto. Qed.
Lemma hline_X : hline [cCross].
Proof. intros a [<-|[]]; auto. Qed.
Lemma plain_closed l : plain l -> ends_open l = false.
Proof.
  intros P. destruct (list_eq_dec N.eq_dec l []) as [->|NE]; [reflexivity|]. destruct (exists_last NE) as (k & a & ->). rewrite ends_app.
  destruct (P a) as [->| ->]; [apply in_app_iff; right; now left| |]; reflexivity.
Qed.
Lemma hline_open p a l : hline l -> In a [cTop; cBot; cAfter; cBefore] -> ends_open (p ++ a :: l) = true.
Proof.
  intros H C. destruct (list_eq_dec N.eq_dec l []) as [->|NE].
  - rewrite ends_app. cbn in C. intuition (subst; reflexivity).
  - destruct (exists_last NE) as (k & b & ->). replace (p ++ a :: k ++ [b]) with ((p ++ a :: k) ++ [b]) by (rewrite <- app_assoc; reflexivity). rewrite ends_app.
    destruct (H b) as [->| ->]; [apply in_app_iff; right; now left| |]; reflexivity.
Qed.
Definition loose (l : str) : Prop := forall a, In a l -> In a [SPACE; cV; cH; cCross].
Lemma loose_app l k : loose l -> loose k -> loose (l ++ k).
Proof. intros A B a I. apply in_app_iff in I as [I|I]; auto. Qed.
Lemma loose_nil : loose [].
Proof. intros a []. Qed.
Lemma pad_loose m l : exists k, pad m l = l ++ k /\ loose k.
Proof. unfold pad. eexists. split; [reflexivity|]. intros a I. apply repeat_spec in I as ->. destruct (ends_open l); cbn; auto. Qed.
Lemma vert_loose o b : loose (vert_sym o b).
Proof. unfold vert_sym, line, blank. intros a I. destruct b; apply in_app_iff in I as [I|[<-|[]]]; try (apply repeat_spec in I as ->); cbn; auto. Qed.
Lemma pad_length m l : length l <= m -> length (pad m l) = m.
Proof. intros H. unfold pad. rewrite app_length, repeat_length. lia. Qed.

(** ---- One round of the loop, line by line ---- *)
Section rounds.
  Variables (o : dopts) (h : heap) (text : nat -> str) (v vi lo hi m : nat).
  Lemma step_rows_length : forall all i P, length P = length all -> length (fst (step_rows o h text v vi lo hi m i all P)) = length P.
  Proof.
    induction all as [|y all IH]; intros i [|l P] E; cbn [step_rows]; auto; try discriminate. injection E as E. specialize (IH (S i) P E).
    destruct (step_rows o h text v vi lo hi m (S i) all P) as [P' st]. cbn [fst] in IH. destruct (_ && _); [destruct (step_row _ _ _ _ _ _ _ _ _ _ _)|]; cbn; now rewrite IH.
  Qed.
  Lemma step_rows_nth : forall all i P j y l, length P = length all -> nth_error all j = Some y -> nth_error P j = Some l ->
    nth_error (fst (step_rows o h text v vi lo hi m i all P)) j =
    Some (if (lo <=? i + j) && (i + j <=? hi) then fst (step_row o h text v vi lo hi m (i + j) y l) else l).
  Proof.
    induction all as [|y0 all IH]; intros i [|l0 P] j y l E Y L; try (destruct j; discriminate). cbn [step_rows]. injection E as E.
    destruct j as [|j].
    - injection Y as <-. injection L as <-. rewrite Nat.add_0_r. destruct (step_rows _ _ _ _ _ _ _ _ _ _ _) as [P' st].
      destruct (_ && _); [destruct (step_row _ _ _ _ _ _ _ _ _ _ _)|]; reflexivity.
    - specialize (IH (S i) P j y l E Y L). rewrite <- Nat.add_succ_comm. destruct (step_rows _ _ _ _ _ _ _ _ _ _ _) as [P' st].
      destruct ((lo <=? i) && (i <=? hi)); [destruct (step_row o h text v vi lo hi m i y0 l0)|]; exact IH.
  Qed.
  Definition inner_child (y : nat) : Prop := y <> v /\ the_parent h y = Some v /\ h_ch h y <> [].
  Lemma step_row_stack idx y l c : In c (snd (step_row o h text v vi lo hi m idx y l)) <-> c = y /\ inner_child y.
  Proof.
    unfold step_row, inner_child. destruct (Nat.eqb_spec y v) as [->|N]; [cbn; tauto|]. destruct (the_parent h y) as [p|]; [|cbn; intuition discriminate].
    destruct (Nat.eqb_spec p v) as [->|N2]; [|cbn; intuition congruence]. destruct (h_ch h y) as [|a k]; cbn; intuition (auto; congruence).
  Qed.
  Lemma step_rows_stack : forall all i P c, length P = length all ->
    (In c (snd (step_rows o h text v vi lo hi m i all P)) <-> inner_child c /\ exists j, nth_error all j = Some c /\ lo <= i + j <= hi).
  Proof.
    induction all as [|y0 all IH]; intros i [|l0 P] c E; try discriminate; cbn [step_rows].
    - cbn. split; [tauto|]. intros (_ & [|j] & J & _); discriminate.
    - injection E as E. specialize (IH (S i) P c E). destruct (step_rows _ _ _ _ _ _ _ _ _ _ _) as [P' st]. cbn [snd] in IH.
      destruct ((lo <=? i) && (i <=? hi)) eqn:R.
      + apply andb_true_iff in R as [R1 R2]. apply Nat.leb_le in R1, R2. pose proof (step_row_stack i y0 l0 c) as S0. destruct (step_row _ _ _ _ _ _ _ _ _ _ _) as [l' st1]. cbn [snd] in *. rewrite in_app_iff, IH, S0. split.
        * intros [[-> I]|(I & j & J & B)]; [split; auto; exists 0; cbn; split; auto; lia|]. split; auto. exists (S j). cbn. split; auto. lia.
        * intros (I & [|j] & J & B); [injection J as ->; auto|]. right. split; auto. exists j. cbn in J. split; auto. lia.
      + apply andb_false_iff in R. rewrite !Nat.leb_gt in R. cbn [snd]. rewrite IH. split; intros (I & j & J & B); (split; [exact I|]).
        * exists (S j). cbn. split; auto. lia.
        * destruct j as [|j]; [lia|]. exists j. cbn in J. split; auto. lia.
  Qed.
  Lemma step_rows_NoDup : forall all i P, length P = length all -> NoDup all -> NoDup (snd (step_rows o h text v vi lo hi m i all P)).
  Proof.
    induction all as [|y0 all IH]; intros i [|l0 P] E ND; try discriminate; cbn [step_rows]; [constructor|]. injection E as E. inversion ND; subst.
    pose proof (step_rows_stack all (S i) P) as ST. specialize (IH (S i) P E H2). destruct (step_rows _ _ _ _ _ _ _ _ _ _ _) as [P' st]. cbn [snd] in *.
    destruct ((lo <=? i) && (i <=? hi)); [|exact IH].
    unfold step_row. destruct (Nat.eqb y0 v); [exact IH|]. destruct (match the_parent h y0 with Some p => Nat.eqb p v | None => false end); [|exact IH]. destruct (h_ch h y0); [exact IH|].
    cbn. constructor; auto. intros J. apply ST in J as (_ & j & J & _); auto. apply nth_error_In in J. contradiction.
  Qed.
End rounds.

(** ---- The loop ---- *)
Section loop.
  Variables (o : dopts) (h : heap) (text : nat -> str) (all : list nat) (x : nat) (sub : nat -> Prop).
  Hypothesis HINTS : o_hints o = true.
  Hypothesis ND : NoDup all.
  Hypothesis SX : sub x.
  Hypothesis SROW : forall y, sub y -> In y all.
  Hypothesis SCH : forall y c, sub y -> (In c (h_ch h y) <-> In c all /\ the_parent h c = Some y).
  Hypothesis SSUB : forall y c, sub y -> In c (h_ch h y) -> sub c.
  Hypothesis SPAR : forall y, sub y -> y <> x -> exists p, the_parent h y = Some p /\ sub p.
  Hypothesis XPAR : forall p, the_parent h x = Some p -> ~ sub p.
  Hypothesis SNOSELF : forall y, sub y -> the_parent h y <> Some y.
  Hypothesis IND : forall Q : nat -> Prop, Q x -> (forall y c, sub y -> Q y -> In c (h_ch h y) -> Q c) -> forall y, sub y -> Q y.
  Hypothesis INDEX : forall y i, nth_error all i = Some y -> index_of h all 0 y = Some i.
  Hypothesis HULL : forall v, sub v -> exists a l z, list_call h v (h_ch h v) true false false = a :: l /\ last_opt (a :: l) = Some z /\
    In a (v :: h_ch h v) /\ In z (v :: h_ch h v) /\
    forall c, In c (v :: h_ch h v) -> forall i j k, nth_error all i = Some a -> nth_error all j = Some c -> nth_error all k = Some z -> i <= j <= k.

  Definition tx (y : nat) : str := if classic o then text y else [].
  Lemma row_eq i j y : nth_error all i = Some y -> nth_error all j = Some y -> i = j.
  Proof. intros A B. apply (NoDup_nth_error all); auto; [apply nth_error_Some|]; congruence. Qed.
  Definition family (v c : nat) : Prop := c = v \/ In c (h_ch h v).
  Definition corner (v i : nat) (a : char) : Prop :=
    exists vi, nth_error all vi = Some v /\
     ((vi < i /\ (a = cAfter \/ (a = cBot /\ forall c n, In c (h_ch h v) -> nth_error all n = Some c -> n <= i))) \/
      (i < vi /\ (a = cBefore \/ (a = cTop /\ forall c n, In c (h_ch h v) -> nth_error all n = Some c -> i <= n)))).
  Lemma corner_sign v i a : corner v i a -> In a [cTop; cBot; cAfter; cBefore].
  Proof. intros (vi & _ & [(_ & [->|[-> _]])|(_ & [->|[-> _]])]); cbn; auto. Qed.
  Definition pending (col : nat -> nat) (y i : nat) (l : str) : Prop :=
    exists v pre a mid, the_parent h y = Some v /\ l = pre ++ a :: mid /\ plain pre /\ length pre = col v /\ corner v i a /\ hline mid.
  Definition finished (col : nat -> nat) (D : list nat) (y i : nat) (l : str) : Prop :=
    exists v pre a mid w rest, the_parent h y = Some v /\ l = (pre ++ a :: mid) ++ w :: tx y ++ rest /\ plain pre /\ length pre = col v /\ corner v i a /\ hline mid /\
      In w node_signs /\ loose rest /\ (In y D -> length (pre ++ a :: mid) = col y).
  Definition finished_top (col : nat -> nat) (l : str) : Prop :=
    exists w rest, l = line o ++ w :: tx x ++ rest /\ In w node_signs /\ loose rest /\ col x = o_indent o.
  Definition reached (D : list nat) (y : nat) : Prop := exists v, the_parent h y = Some v /\ In v D.
  Inductive status (col : nat -> nat) (D S : list nat) (y i : nat) (l : str) : Prop :=
  | st_start : y = x -> D = [] -> l = [] -> status col D S y i l
  | st_top : y = x -> In x D -> finished_top col l -> status col D S y i l
  | st_unseen : y <> x -> ~ reached D y -> plain l -> status col D S y i l
  | st_pending : y <> x -> reached D y -> In y S -> pending col y i l -> status col D S y i l
  | st_done : y <> x -> reached D y -> (In y D \/ h_ch h y = []) -> finished col D y i l -> status col D S y i l.
  Definition spans (v i : nat) : Prop :=
    exists c1 c2 i1 i2, family v c1 /\ family v c2 /\ nth_error all i1 = Some c1 /\ nth_error all i2 = Some c2 /\ i1 <= i <= i2.
  Record inv (col : nat -> nat) (D S : list nat) (P : list str) : Prop := {
    in_len : length P = length all;
    in_rows : forall i y l, nth_error all i = Some y -> nth_error P i = Some l -> status col D S y i l;
    in_bars : forall v i y, In v D -> spans v i -> nth_error all i = Some y -> ~ family v y -> is_one_of (cell P i (col v)) [cV; cCross];
    in_sub : forall y, In y (S ++ D) -> sub y;
    in_nodup : NoDup (S ++ D);
    in_stack : forall y, In y S -> (y = x /\ D = []) \/ (y <> x /\ reached D y /\ h_ch h y <> []);
    in_x : In x (S ++ D);
    in_init : D = [] -> forall l, In l P -> l = [];
    in_done : forall y, In y D -> y = x \/ reached D y
  }.
  Lemma inv_start : inv (fun _ => 0) [] [x] (repeat [] (length all)).
  Proof.
    split.
    - now rewrite repeat_length.
    - intros i y l Y L. apply nth_error_In, repeat_spec in L. subst l. destruct (Nat.eq_dec y x) as [->|N]; [now apply st_start|]. apply st_unseen; auto; [intros (v & _ & [])|intros a []].
    - intros v i y [].
    - intros y [<-|[]]. exact SX.
    - constructor; [intros []|constructor].
    - intros y [<-|[]]. now left.
    - now left.
    - intros _ l L. now apply repeat_spec in L.
    - intros y [].
  Qed.
  Lemma unreached_child col D S P v c i l : inv col D S P -> In v S -> sub v -> In c (h_ch h v) -> nth_error all i = Some c -> nth_error P i = Some l -> plain l /\ c <> x.
  Proof.
    intros I VS SV CH N L. assert (CV : the_parent h c = Some v) by (now apply (SCH v c SV)).
    assert (CX : c <> x) by (intros ->; now apply (XPAR v)).
    assert (VD : ~ In v D).
    { pose proof (in_nodup _ _ _ _ I) as NDD. apply in_split in VS as (s1 & s2 & ->). rewrite <- app_assoc in NDD. apply NoDup_remove_2 in NDD. rewrite !in_app_iff in NDD. cbn in NDD. intros J. apply NDD. auto. }
    assert (NR : ~ reached D c) by (intros (u & E & J); rewrite CV in E; injection E as <-; contradiction).
    split; auto. destruct (in_rows _ _ _ _ I i c l N L); auto; contradiction.
  Qed.

  Ltac app_eq := repeat (rewrite <- app_assoc || (progress cbn [app])); reflexivity.
  (** One round: the children of v are drawn. *)
  Section round.
    Variables (col : nat -> nat) (D S st : list nat) (P : list str) (v vi m : nat).
    Hypothesis I : inv col D S P.
    Hypothesis VS : In v S.
    Hypothesis VI : nth_error all vi = Some v.
    Definition col' : nat -> nat := upd col v (m + o_indent o).
    Variable S' : list nat.
    Hypothesis SS : forall y, In y S -> y <> v -> In y S'.
    Lemma sv : sub v.
    Proof. apply (in_sub _ _ _ _ I). apply in_app_iff. now left. Qed.
    Lemma v_not_D : ~ In v D.
    Proof.
      pose proof (in_nodup _ _ _ _ I) as NDD. pose proof VS as V. apply in_split in V as (s1 & s2 & E). rewrite E, <- app_assoc in NDD. cbn in NDD. apply NoDup_remove_2 in NDD.
      rewrite !in_app_iff in NDD. intros J. apply NDD. auto.
    Qed.
    Lemma col_D u : In u D -> col' u = col u.
    Proof. intros J. unfold col', upd. destruct (Nat.eqb_spec u v) as [->|]; auto. now apply v_not_D in J. Qed.
    Lemma col_v : col' v = m + o_indent o.
    Proof. unfold col', upd. now rewrite Nat.eqb_refl. Qed.
    Lemma reached_mono y : reached D y -> reached (v :: D) y.
    Proof. intros (u & E & J). exists u. split; auto. now right. Qed.
    Lemma reached_inv y : the_parent h y <> Some v -> reached (v :: D) y -> reached D y.
    Proof. intros N (u & E & [<-|J]); [congruence|]. now exists u. Qed.
    Lemma first_round : D = [] -> v = x.
    Proof. intros E. destruct (in_stack _ _ _ _ I v VS) as [[H _]|(_ & (u & _ & J) & _)]; auto. rewrite E in J. destruct J. Qed.
    Lemma pad_open l : ends_open l = true -> pad m l = l ++ repeat cH (m - length l).
    Proof. unfold pad. now intros ->. Qed.
    Lemma pad_closed l : ends_open l = false -> pad m l = l ++ repeat SPACE (m - length l).
    Proof. unfold pad. now intros ->. Qed.
    (** A line that has nothing to do with v *)
    Lemma other_row y i l l' : sub v -> y <> v -> the_parent h y <> Some v -> nth_error all i = Some y -> status col D S y i l ->
      l' = l \/ (length l <= m /\ l' = pad m l ++ vert_sym o (ends_open (pad m l))) ->
      status col' (v :: D) S' y i l' /\ (l' <> l -> is_one_of (nth_error l' (m + o_indent o)) [cV; cCross]).
    Proof.
      intros SV NV NP Y ST E.
      assert (CELL : forall l1 a b, length l1 = m -> length a = o_indent o -> In b [cV; cCross] -> is_one_of (nth_error (l1 ++ a ++ [b]) (m + o_indent o)) [cV; cCross]).
      { intros l1 a b L1 LA B. exists b. split; auto. rewrite app_assoc. rewrite nth_error_app2 by (rewrite app_length; lia). rewrite app_length. replace (m + o_indent o - (length l1 + length a)) with 0 by lia. reflexivity. }
      assert (CELL2 : forall l1 b, length l1 <= m -> is_one_of (nth_error (pad m l1 ++ vert_sym o b) (m + o_indent o)) [cV; cCross]).
      { intros l1 b L1. destruct b; apply CELL; cbn; auto; try (now apply pad_length); apply repeat_length. }
      destruct ST as [EX ED EL|EX XD FT|NX NR PL|NX RE JS PE|NX RE DN FI].
      - exfalso. apply NV. rewrite EX. symmetry. now apply first_round.
      - destruct FT as (w & rest & -> & W & R & CX). assert (CX' : col' x = o_indent o) by (rewrite col_D; auto).
        destruct E as [->|[LE ->]]; [split; [|congruence]; apply st_top; [exact EX|now right|]; exists w, rest; auto|].
        split; [|intros _; apply CELL2; auto]. destruct (pad_loose m (line o ++ w :: tx x ++ rest)) as (k & EK & LK).
        apply st_top; [exact EX|now right|]. exists w, (rest ++ k ++ vert_sym o (ends_open (pad m (line o ++ w :: tx x ++ rest)))).
        split; [rewrite EK at 1; app_eq|]. split; auto. split; auto using loose_app, vert_loose.
      - assert (NR' : ~ reached (v :: D) y) by (intros J; apply NR; now apply reached_inv).
        destruct E as [->|[LE ->]]; [split; [now apply st_unseen|congruence]|]. rewrite (pad_closed _ (plain_closed _ PL)).
        assert (PP : plain (l ++ repeat SPACE (m - length l))) by (apply plain_app; auto using plain_repeat). rewrite (plain_closed _ PP). split.
        + apply st_unseen; auto. apply plain_app; auto. apply plain_app; [apply plain_repeat|apply plain_V].
        + intros _. cbn [vert_sym]. apply CELL; [|apply repeat_length|cbn; auto]. rewrite app_length, repeat_length. lia.
      - assert (JS' : In y S') by auto. destruct PE as (u & pre & a & mid & EU & EL & PL & LP & CO & HM). assert (UD : In u D) by (destruct RE as (u' & E1 & E2); rewrite EU in E1; injection E1 as ->; exact E2).
        assert (LP' : length pre = col' u) by (rewrite col_D; auto).
        destruct E as [->|[LE ->]].
        + split; [|congruence]. apply st_pending; auto using reached_mono. exists u, pre, a, mid. auto 10.
        + assert (OP : ends_open l = true) by (rewrite EL; apply hline_open; auto; apply (corner_sign _ _ _ CO)). rewrite (pad_open _ OP).
          assert (OP2 : ends_open (l ++ repeat cH (m - length l)) = true).
          { rewrite EL at 1. rewrite <- app_assoc. cbn. apply hline_open; [|apply (corner_sign _ _ _ CO)]. apply hline_app; auto using hline_repeat. }
          rewrite OP2. split.
          * apply st_pending; auto using reached_mono. exists u, pre, a, (mid ++ repeat cH (m - length l) ++ line o ++ [cCross]). split; [exact EU|]. split; [|split; [exact PL|split; [exact LP'|split; [exact CO|]]]].
            { rewrite EL at 1. cbn [vert_sym]. app_eq. }
            apply hline_app; auto. apply hline_app; [apply hline_repeat|]. apply hline_app; [apply hline_repeat|apply hline_X].
          * intros _. cbn [vert_sym]. apply CELL; [|apply repeat_length|cbn; auto]. rewrite app_length, repeat_length. lia.
      - destruct FI as (u & pre & a & mid & w & rest & EU & EL & PL & LP & CO & HM & W & R & CY). assert (UD : In u D) by (destruct RE as (u' & E1 & E2); rewrite EU in E1; injection E1 as ->; exact E2).
        assert (LP' : length pre = col' u) by (rewrite col_D; auto).
        assert (CY' : In y (v :: D) -> length (pre ++ a :: mid) = col' y) by (intros [J|J]; [congruence|]; rewrite col_D by auto; auto).
        assert (DN' : In y (v :: D) \/ h_ch h y = []) by (destruct DN; [left; now right|now right]).
        destruct E as [->|[LE ->]].
        + split; [|congruence]. apply st_done; auto using reached_mono. exists u, pre, a, mid, w, rest. auto 12.
        + split; [|intros _; apply CELL2; auto]. destruct (pad_loose m l) as (k & EK & LK).
          apply st_done; auto using reached_mono. exists u, pre, a, mid, w, (rest ++ k ++ vert_sym o (ends_open (pad m l))). split; [exact EU|]. split; [|split; [exact PL|split; [exact LP'|split; [exact CO|split; [exact HM|split; [exact W|split; [|exact CY']]]]]]].
          { rewrite EK at 1. rewrite EL at 1. app_eq. }
          auto using loose_app, vert_loose.
    Qed.
    (** The line of v *)
    Lemma draw_sign b1 b2 : exists w, draw_sym o b1 b2 = line o ++ [w] /\ In w node_signs.
    Proof. unfold draw_sym, horiz. destruct b1, b2; eexists; (split; [reflexivity|cbn; auto]). Qed.
    Lemma own_row l b1 b2 : length l <= m -> (D = [] -> m = 0) -> status col D S v vi l ->
      status col' (v :: D) S' v vi (pad m l ++ draw_sym o b1 b2 ++ tx v).
    Proof.
      intros LE M0 ST. destruct (draw_sign b1 b2) as (w & -> & W). assert (VD := v_not_D).
      destruct ST as [EX ED ->|EX XD FT|NX NR PL|NX RE JS PE|NX RE DN FI].
      - rewrite M0 by auto. cbn [length] in *. assert (m = 0) by auto. apply st_top; [exact EX|left; exact EX|]. exists w, []. cbn. rewrite app_nil_r, <- EX. split; [now rewrite <- app_assoc|].
        split; auto. split; [intros a []|]. rewrite col_v. lia.
      - rewrite <- EX in XD. contradiction.
      - destruct (in_stack _ _ _ _ I v VS) as [[H _]|(_ & H & _)]; contradiction.
      - destruct PE as (u & pre & a & mid & EU & EL & PL & LP & CO & HM). assert (UD : In u D) by (destruct RE as (u' & E1 & E2); rewrite EU in E1; injection E1 as ->; exact E2).
        assert (OP : ends_open l = true) by (rewrite EL; apply hline_open; auto; apply (corner_sign _ _ _ CO)). rewrite (pad_open _ OP).
        apply st_done; [exact NX|now apply reached_mono|left; now left|]. exists u, pre, a, (mid ++ repeat cH (m - length l) ++ line o), w, []. split; [exact EU|]. split; [|split; [exact PL|split; [|split; [exact CO|split; [|split; [exact W|split; [intros b []|]]]]]]].
        + rewrite EL at 1. rewrite app_nil_r. app_eq.
        + now rewrite col_D.
        + apply hline_app; auto. apply hline_app; apply hline_repeat.
        + intros _. rewrite col_v. rewrite app_length. cbn [length]. rewrite !app_length. unfold line. rewrite !repeat_length. rewrite EL, app_length in *. cbn [length] in *. lia.
      - exfalso. destruct DN as [J|J]; [contradiction|]. destruct (in_stack _ _ _ _ I v VS) as [[H _]|(_ & _ & H)]; contradiction.
    Qed.
    (** The line of a child of v *)
    Lemma child_row y i l tb : sub v -> In y (h_ch h v) -> nth_error all i = Some y -> y <> x -> length l <= m -> plain l ->
      (tb = true -> (vi < i /\ forall c n, In c (h_ch h v) -> nth_error all n = Some c -> n <= i) \/ (i < vi /\ forall c n, In c (h_ch h v) -> nth_error all n = Some c -> i <= n)) ->
      (h_ch h y <> [] -> In y S') ->
      status col' (v :: D) S' y i (match h_ch h y with [] => (pad m l ++ space_sym o (Nat.ltb i vi) tb) ++ horiz o ++ tx y | _ => pad m l ++ space_sym o (Nat.ltb i vi) tb end).
    Proof.
      intros SV CH Y NX LE PL TB INS. assert (PY : the_parent h y = Some v) by (now apply (SCH v y SV)).
      assert (NE : i <> vi). { intros ->. rewrite Y in VI. injection VI as ->. now apply (SNOSELF v SV). }
      assert (RE : reached (v :: D) y) by (exists v; split; auto; now left).
      set (a := if tb then (if Nat.ltb i vi then cTop else cBot) else if Nat.ltb i vi then cBefore else cAfter).
      assert (ES : space_sym o (Nat.ltb i vi) tb = blank o ++ [a]) by (unfold space_sym, a; rewrite HINTS; now destruct tb, (Nat.ltb i vi)).
      assert (CO : corner v i a).
      { exists vi. split; auto. unfold a. destruct (Nat.ltb_spec i vi) as [L|L].
        - right. split; auto. destruct tb; [|now left]. right. split; auto. destruct (TB eq_refl) as [[B _]|[_ B]]; [lia|exact B].
        - left. split; [lia|]. destruct tb; [|now left]. right. split; auto. destruct (TB eq_refl) as [[_ B]|[B _]]; [exact B|lia]. }
      rewrite ES, (pad_closed _ (plain_closed _ PL)).
      assert (PP : plain (l ++ repeat SPACE (m - length l) ++ blank o)) by (apply plain_app; auto; apply plain_app; apply plain_repeat).
      assert (LL : length (l ++ repeat SPACE (m - length l) ++ blank o) = col' v) by (rewrite col_v, !app_length; unfold blank; rewrite !repeat_length; lia).
      assert (E1 : (l ++ repeat SPACE (m - length l)) ++ blank o ++ [a] = (l ++ repeat SPACE (m - length l) ++ blank o) ++ a :: []) by (now rewrite <- !app_assoc).
      rewrite E1. destruct (h_ch h y) as [|z k] eqn:EC.
      - apply st_done; [exact NX|exact RE|now right|]. exists v, (l ++ repeat SPACE (m - length l) ++ blank o), a, (line o), cLeaf, []. split; [exact PY|]. split; [|split; [exact PP|split; [exact LL|split; [exact CO|split; [apply hline_repeat|split; [cbn; auto|split; [intros b []|]]]]]]].
        + unfold horiz. rewrite app_nil_r. app_eq.
        + intros [J|J].
          * subst y. exfalso. now apply (SNOSELF v SV).
          * exfalso. destruct (in_done _ _ _ _ I y J) as [EX|(u & EU & UD)]; [contradiction|]. rewrite PY in EU. injection EU as <-. now apply v_not_D.
      - apply st_pending; [exact NX|exact RE|apply INS; congruence|]. exists v, (l ++ repeat SPACE (m - length l) ++ blank o), a, []. split; [exact PY|]. split; [reflexivity|]. split; [exact PP|split; [exact LL|split; [exact CO|intros b []]]].
    Qed.
  End round.

  Lemma max_length_in Q l : In l Q -> length l <= max_length Q.
  Proof.
    unfold max_length. assert (G : forall (ns : list nat) a, a <= fold_left Nat.max ns a /\ forall n, In n ns -> n <= fold_left Nat.max ns a).
    { induction ns as [|n0 ns IH]; intros a; cbn; [split; [auto|intros n []]|]. destruct (IH (Nat.max a n0)) as [A B]. split; [lia|]. intros n [<-|J]; [lia|auto]. }
    intros J. apply G. now apply in_map.
  Qed.
  Lemma range_in (P : list str) lo hi i l : nth_error P i = Some l -> lo <= i <= hi -> In l (firstn (S hi - lo) (skipn lo P)).
  Proof.
    intros N B. assert (L : i < length P) by (apply nth_error_Some; congruence). apply nth_error_In with (n := i - lo).
    rewrite <- N. revert i B N L. revert hi. revert P. induction lo as [|lo IH]; intros P hi i B N L.
    - rewrite skipn_O, !Nat.sub_0_r. revert hi i B N L. induction P as [|p P IHP]; intros hi i B N L; [cbn in L; lia|]. cbn [firstn]. destruct i as [|i]; [reflexivity|]. destruct hi as [|hi]; [lia|]. cbn [nth_error]. cbn in N, L. apply IHP; auto; lia.
    - destruct P as [|p P]; [cbn in L; lia|]. destruct i as [|i]; [lia|]. destruct hi as [|hi]; [lia|]. cbn [skipn nth_error]. cbn in N, L. rewrite !Nat.sub_succ in *. rewrite <- (IH P hi i); auto; try lia.
  Qed.
  Lemma range_in_all (P : list str) lo hi l : In l (firstn (S hi - lo) (skipn lo P)) -> In l P.
  Proof. intros J. rewrite <- (firstn_skipn lo P). apply in_app_iff. right. rewrite <- (firstn_skipn (S hi - lo) (skipn lo P)). apply in_app_iff. now left. Qed.
  Lemma max_length_nil Q : (forall l, In l Q -> l = []) -> max_length Q = 0.
  Proof. unfold max_length. induction Q as [|q Q IH]; intros E; [reflexivity|]. cbn. rewrite (E q) by now left. cbn. apply IH. intros l J. apply E. now right. Qed.

  Lemma step_inv col D S0 P v vi lo hi a k z : inv col D (S0 ++ [v]) P -> nth_error all vi = Some v ->
    nth_error all lo = Some a -> nth_error all hi = Some z -> In a (v :: h_ch h v) -> In z (v :: h_ch h v) ->
    (forall c n, In c (v :: h_ch h v) -> nth_error all n = Some c -> lo <= n <= hi) ->
    let m := max_length (firstn (S hi - lo) (skipn lo P)) in
    k = m ->
    let '(P', st) := step_rows o h text v vi lo hi k 0 all P in
    inv (upd col v (m + o_indent o)) (v :: D) (S0 ++ st) P' /\ continues P P'.
  Proof.
    intros I VI LO HI FA FZ HU m ->.
    assert (VS : In v (S0 ++ [v])) by (apply in_app_iff; right; now left).
    assert (SV : sub v) by (apply (in_sub _ _ _ _ I); apply in_app_iff; now left).
    pose proof (in_len _ _ _ _ I) as LEN.
    pose proof (step_rows_length o h text v vi lo hi m all 0 P LEN) as LEN'.
    pose proof (step_rows_nth o h text v vi lo hi m all 0 P) as NTH.
    pose proof (step_rows_stack o h text v vi lo hi m all 0 P) as STK.
    pose proof (step_rows_NoDup o h text v vi lo hi m all 0 P LEN ND) as NDS.
    destruct (step_rows o h text v vi lo hi m 0 all P) as [P' st]. cbn [fst snd] in *.
    assert (VD : ~ In v D) by (apply (v_not_D col D (S0 ++ [v]) P v I VS)).
    assert (SS : forall y, In y (S0 ++ [v]) -> y <> v -> In y (S0 ++ st)).
    { intros y J N. apply in_app_iff in J as [J|[J|[]]]; [|congruence]. apply in_app_iff. now left. }
    assert (STC : forall c, In c st -> In c (h_ch h v) /\ h_ch h c <> [] /\ the_parent h c = Some v).
    { intros c J. apply STK in J as ((N & PC & NC) & j & J & _); auto. split; auto. apply (SCH v c SV). split; auto. now apply nth_error_In in J. }
    assert (CST : forall c, In c (h_ch h v) -> h_ch h c <> [] -> In c st).
    { intros c J N. pose proof (proj1 (SCH v c SV) J) as [CA CP]. apply STK; auto. split; [split; [|split; auto]|].
      - intros ->. now apply (SNOSELF v SV).
      - apply In_nth_error in CA as (n & CN). exists n. split; auto. cbn. apply (HU c); auto. now right. }
    assert (ROW : forall i y l, nth_error all i = Some y -> nth_error P i = Some l ->
      exists l', nth_error P' i = Some l' /\ status (upd col v (m + o_indent o)) (v :: D) (S0 ++ st) y i l' /\ (exists t, l' = l ++ t) /\
        (lo <= i <= hi -> ~ family v y -> is_one_of (nth_error l' (m + o_indent o)) [cV; cCross])).
    { intros i y l Y L. specialize (NTH i y l LEN Y L). cbn [Nat.add] in NTH. pose proof (in_rows _ _ _ _ I i y l Y L) as ST.
      destruct ((lo <=? i) && (i <=? hi)) eqn:R.
      - apply andb_true_iff in R as [R1 R2]. apply Nat.leb_le in R1, R2.
        assert (LE : length l <= m) by (apply max_length_in; apply (range_in P lo hi i); auto; lia).
        revert NTH. unfold step_row. destruct (Nat.eqb_spec y v) as [->|NV].
        + pose proof (row_eq _ _ _ Y VI) as ->. cbn [fst]. intros NTH. eexists. split; [exact NTH|]. split; [|split].
          * apply (own_row col D (S0 ++ [v]) P v vi m I VS (S0 ++ st) l); auto. intros E. apply max_length_nil. intros l0 J. apply (in_init _ _ _ _ I E). now apply range_in_all in J.
          * unfold pad. eexists. rewrite <- app_assoc. reflexivity.
          * intros _ N. exfalso. apply N. now left.
        + destruct (match the_parent h y with Some p => p =? v | None => false end) eqn:EP.
          * assert (PY : the_parent h y = Some v) by (destruct (the_parent h y) as [p|]; [|discriminate]; apply Nat.eqb_eq in EP; congruence).
            assert (CH : In y (h_ch h v)) by (apply (SCH v y SV); split; auto; now apply nth_error_In in Y).
            destruct (unreached_child col D (S0 ++ [v]) P v y i l I VS SV CH Y L) as [PL NX].
            assert (TB : (i =? lo) || (i =? hi) = true -> (vi < i /\ forall c n, In c (h_ch h v) -> nth_error all n = Some c -> n <= i) \/ (i < vi /\ forall c n, In c (h_ch h v) -> nth_error all n = Some c -> i <= n)).
            { assert (NE : i <> vi) by (intros ->; rewrite Y in VI; injection VI as ->; congruence).
              pose proof (HU v vi (or_introl eq_refl) VI) as BV. intros E. apply orb_true_iff in E as [E|E]; apply Nat.eqb_eq in E.
              - right. split; [lia|]. intros c n C1 C2. pose proof (HU c n (or_intror C1) C2). lia.
              - left. split; [lia|]. intros c n C1 C2. pose proof (HU c n (or_intror C1) C2). lia. }
            pose proof (child_row col D (S0 ++ [v]) P v vi m I VS VI (S0 ++ st) y i l _ SV CH Y NX LE PL TB) as CR.
            assert (INS : h_ch h y <> [] -> In y (S0 ++ st)) by (intros N; apply in_app_iff; right; auto). specialize (CR INS).
            assert (FAM : ~ family v y -> False) by (intros N; apply N; now right).
            destruct (h_ch h y) as [|c0 k0]; cbn [fst]; intros NTH; (eexists; split; [exact NTH|]; split; [exact CR|]; split; [unfold pad; eexists; rewrite <- !app_assoc; reflexivity|intros _ N; now destruct (FAM N)]).
          * cbn [fst]. intros NTH. assert (NP : the_parent h y <> Some v) by (intros E; rewrite E, Nat.eqb_refl in EP; discriminate).
            destruct (other_row col D (S0 ++ [v]) P v m I VS (S0 ++ st) SS y i l (pad m l ++ vert_sym o (ends_open (pad m l))) SV NV NP Y ST (or_intror (conj LE eq_refl))) as [ST' CE].
            eexists. split; [exact NTH|]. split; [exact ST'|]. split; [unfold pad; eexists; rewrite <- app_assoc; reflexivity|]. intros _ _. apply CE. intros E. apply (f_equal (@length char)) in E. rewrite app_length, pad_length in E by auto. unfold vert_sym, line, blank in E. destruct (ends_open (pad m l)); rewrite app_length, repeat_length in E; cbn [length] in E; lia.
      - apply andb_false_iff in R. rewrite !Nat.leb_gt in R.
        assert (NV : y <> v). { intros ->. pose proof (HU v i (or_introl eq_refl) Y). lia. }
        assert (NP : the_parent h y <> Some v). { intros E. assert (CH : In y (h_ch h v)) by (apply (SCH v y SV); split; auto; now apply nth_error_In in Y). pose proof (HU y i (or_intror CH) Y). lia. }
        destruct (other_row col D (S0 ++ [v]) P v m I VS (S0 ++ st) SS y i l l SV NV NP Y ST (or_introl eq_refl)) as [ST' _].
        exists l. split; [exact NTH|]. split; [exact ST'|]. split; [exists []; now rewrite app_nil_r|]. intros B. lia. }
    assert (CONT : continues P P').
    { intros i l L. assert (LI : i < length all) by (rewrite <- LEN; apply nth_error_Some; congruence). destruct (nth_error all i) as [y|] eqn:Y; [|apply nth_error_None in Y; lia].
      destruct (ROW i y l Y L) as (l' & N & _ & (t & ->) & _). now exists t. }
    split; [|exact CONT]. split.
    - congruence.
    - intros i y l' Y L'. destruct (nth_error P i) as [l|] eqn:L; [|apply nth_error_None in L; assert (i < length P') by (apply nth_error_Some; congruence); lia].
      destruct (ROW i y l Y L) as (l2 & N & ST & _). rewrite L' in N. injection N as <-. exact ST.
    - intros u i y U SP Y NF. destruct (nth_error P i) as [l|] eqn:L.
      2:{ apply nth_error_None in L. assert (i < length all) by (apply nth_error_Some; congruence). lia. }
      destruct (ROW i y l Y L) as (l2 & N & _ & _ & CE). unfold upd. destruct (Nat.eqb_spec u v) as [->|NU].
      + rewrite (cell_some _ _ _ _ N). apply CE; auto. destruct SP as (c1 & c2 & i1 & i2 & F1 & F2 & N1 & N2 & B).
        assert (G : forall c n, family v c -> nth_error all n = Some c -> lo <= n <= hi) by (intros c n [->|F] E; [apply (HU v); auto; now left|apply (HU c); auto; now right]).
        pose proof (G c1 i1 F1 N1). pose proof (G c2 i2 F2 N2). lia.
      + destruct U as [U|U]; [congruence|]. apply (one_of_ext P); auto. now apply (in_bars _ _ _ _ I u i y).
    - intros y J. rewrite <- app_assoc in J. apply in_app_iff in J as [J|J]; [apply (in_sub _ _ _ _ I); rewrite !in_app_iff; auto|]. apply in_app_iff in J as [J|[<-|J]]; auto.
      + apply (SSUB v); auto. now apply STC.
      + apply (in_sub _ _ _ _ I). rewrite !in_app_iff. auto.
    - pose proof (in_nodup _ _ _ _ I) as NDD. rewrite <- app_assoc in NDD. cbn in NDD. rewrite <- app_assoc.
      assert (NS : forall c, In c st -> ~ In c (S0 ++ v :: D)).
      { intros c J K. destruct (STC c J) as (CH & NC & PC). assert (NX : c <> x) by (intros ->; now apply (XPAR v PC)). apply in_app_iff in K as [K|[K|K]].
        - destruct (in_stack _ _ _ _ I c) as [[E _]|(_ & (u & EU & UD) & _)]; [apply in_app_iff; now left|contradiction|]. rewrite PC in EU. injection EU as <-. contradiction.
        - subst c. now apply (SNOSELF v SV).
        - destruct (in_done _ _ _ _ I c K) as [E|(u & EU & UD)]; [contradiction|]. rewrite PC in EU. injection EU as <-. contradiction. }
      apply (Permutation_NoDup (l := st ++ S0 ++ v :: D)); [apply Permutation_app_swap_app|]. apply NoDup_app; auto.
    - intros y J. right. apply in_app_iff in J as [J|J].
      + assert (NY : y <> v). { intros ->. pose proof (in_nodup _ _ _ _ I) as NDD. rewrite <- app_assoc in NDD. cbn in NDD. apply NoDup_remove_2 in NDD. apply NDD. apply in_app_iff. now left. }
        destruct (in_stack _ _ _ _ I y) as [[E1 E2]|(E1 & E2 & E3)]; [apply in_app_iff; now left| |].
        * exfalso. apply NY. rewrite E1. symmetry. now apply (first_round col D (S0 ++ [v]) P v I VS).
        * split; auto. split; auto. now apply reached_mono.
      + destruct (STC y J) as (CH & NC & PC). split; [intros ->; now apply (XPAR v PC)|]. split; auto. exists v. split; auto. now left.
    - pose proof (in_x _ _ _ _ I) as IX. rewrite !in_app_iff in *. cbn in *. tauto.
    - discriminate.
    - intros y [<-|J].
      + destruct (in_stack _ _ _ _ I v VS) as [[E _]|(_ & E & _)]; [now left|]. right. now apply reached_mono.
      + destruct (in_done _ _ _ _ I y J) as [E|E]; [now left|]. right. now apply reached_mono.
  Qed.
  Lemma inv_perm col D S1 S2 P : Permutation S1 S2 -> inv col D S1 P -> inv col D S2 P.
  Proof.
    intros PE I. assert (IN : forall y, In y S2 -> In y S1) by (intros y; apply Permutation_in; now symmetry). assert (IN2 : forall y, In y S1 -> In y S2) by (intros y; now apply Permutation_in). split.
    - apply (in_len _ _ _ _ I).
    - intros i y l Y L. destruct (in_rows _ _ _ _ I i y l Y L); [now apply st_start|now apply st_top|now apply st_unseen|apply st_pending; auto|now apply st_done].
    - apply (in_bars _ _ _ _ I).
    - intros y J. apply (in_sub _ _ _ _ I). rewrite in_app_iff in *. destruct J; auto.
    - apply (Permutation_NoDup (l := S1 ++ D)); [now apply Permutation_app_tail|apply (in_nodup _ _ _ _ I)].
    - intros y J. apply (in_stack _ _ _ _ I). auto.
    - pose proof (in_x _ _ _ _ I) as IX. rewrite in_app_iff in *. destruct IX; auto.
    - apply (in_init _ _ _ _ I).
    - apply (in_done _ _ _ _ I).
  Qed.
  Lemma loop_inv : forall fl col D S P, inv col D S P -> length all <= fl + length D ->
    exists col' D' P', draw_loop fl o h text all P S = Ok P' /\ inv col' D' [] P'.
  Proof.
    induction fl as [|f IH]; intros col D S P I FL; cbn [draw_loop]; destruct (last_opt S) as [v|] eqn:LS.
    - exfalso. apply last_opt_In in LS. assert (LD : length (v :: D) <= length all).
      { apply NoDup_incl_length; [|intros y J; apply SROW; apply (in_sub _ _ _ _ I); apply in_app_iff; destruct J as [<-|J]; auto]. constructor; [now apply (v_not_D col D S P v I)|]. apply (NoDup_app_r S). apply (in_nodup _ _ _ _ I). }
      cbn in LD. lia.
    - apply last_opt_None in LS as ->. exists col, D, P. auto.
    - apply last_snoc in LS as (S0 & ->).
      assert (SV : sub v) by (apply (in_sub _ _ _ _ I); rewrite !in_app_iff; left; right; now left).
      destruct (HULL v SV) as (a & l & z & EL & EZ & FA & FZ & HU). rewrite EL, EZ.
      assert (FS : forall c, In c (v :: h_ch h v) -> sub c) by (intros c [<-|J]; auto; now apply (SSUB v)).
      destruct (In_nth_error all v (SROW v SV)) as (vi & VI). destruct (In_nth_error all a (SROW a (FS a FA))) as (lo & LO). destruct (In_nth_error all z (SROW z (FS z FZ))) as (hi & HI).
      rewrite (INDEX _ _ VI), (INDEX _ _ LO), (INDEX _ _ HI).
      pose proof (step_inv col D S0 P v vi lo hi a _ z I VI LO HI FA FZ (fun c n J N => HU c J lo n hi LO N HI) eq_refl) as ST.
      destruct (step_rows _ _ _ _ _ _ _ _ _ _ _) as [P' st]. destruct ST as [I' _]. rewrite removelast_last.
      apply (IH (upd col v (max_length (firstn (S hi - lo) (skipn lo P)) + o_indent o)) (v :: D)); [|cbn [length]; lia]. destruct (o_mincross o); [|exact I']. apply (inv_perm _ _ _ _ _ (Permutation_sym (sort_on_perm _ _)) I').
    - apply last_opt_None in LS as ->. exists col, D, P. auto.
  Qed.

  (** ---- The result ---- *)
  Section result.
    Variables (col : nat -> nat) (D : list nat) (P : list str).
    Hypothesis I : inv col D [] P.
    Lemma all_done y : sub y -> In y D \/ h_ch h y = [].
    Proof.
      apply (IND (fun y => In y D \/ h_ch h y = [])).
      - left. apply (in_x _ _ _ _ I).
      - intros v c SV Q CH. assert (VD : In v D) by (destruct Q as [Q|Q]; auto; rewrite Q in CH; destruct CH).
        assert (SC : sub c) by (now apply (SSUB v)). destruct (In_nth_error all c (SROW c SC)) as (i & Y). assert (PC : the_parent h c = Some v) by (now apply (SCH v c SV)).
        assert (LI : i < length P) by (rewrite (in_len _ _ _ _ I); apply nth_error_Some; congruence). destruct (nth_error P i) as [l|] eqn:L; [|apply nth_error_None in L; lia].
        destruct (in_rows _ _ _ _ I i c l Y L) as [EX _ _|EX _ _|NX NR _|_ _ [] _|_ _ DN _]; auto.
        + exfalso. subst c. now apply (XPAR v PC).
        + exfalso. subst c. now apply (XPAR v PC).
        + exfalso. apply NR. now exists v.
    Qed.
    Lemma row_line i y : nth_error all i = Some y -> exists l, nth_error P i = Some l.
    Proof. intros Y. assert (LI : i < length P) by (rewrite (in_len _ _ _ _ I); apply nth_error_Some; congruence). destruct (nth_error P i) as [l|] eqn:L; [now exists l|apply nth_error_None in L; lia]. Qed.
    Lemma row_finished i y l : sub y -> y <> x -> nth_error all i = Some y -> nth_error P i = Some l -> finished col D y i l.
    Proof.
      intros SY NX Y L. destruct (SPAR y SY NX) as (p & PY & SP). assert (CH : In y (h_ch h p)) by (apply (SCH p y SP); auto).
      assert (PD : In p D) by (destruct (all_done p SP) as [J|J]; auto; rewrite J in CH; destruct CH).
      destruct (in_rows _ _ _ _ I i y l Y L) as [EX _ _|EX _ _|_ NR _|_ _ [] _|_ _ _ F]; try contradiction; auto. exfalso. apply NR. now exists p.
    Qed.
    Lemma row_top i l : nth_error all i = Some x -> nth_error P i = Some l -> finished_top col l.
    Proof.
      intros Y L. pose proof (in_x _ _ _ _ I) as XD. cbn in XD. destruct (in_rows _ _ _ _ I i x l Y L) as [_ E _|_ _ F|N _ _|N _ _ _|N _ _ _]; try contradiction; auto. rewrite E in XD. destruct XD.
    Qed.
    Lemma not_sign l w r : (forall a, In a l -> ~ In a node_signs) -> In w node_signs -> forall i, nth_error P i = Some (l ++ w :: r) -> node_at P i (length l).
    Proof.
      intros N W i L. split.
      - exists w. split; auto. rewrite (cell_some _ _ _ _ L). rewrite nth_error_app2 by lia. now rewrite Nat.sub_diag.
      - intros c LT (b & C & B). rewrite (cell_some _ _ _ _ L), nth_error_app1 in C by lia. apply nth_error_In in C. now apply (N b).
    Qed.
    Lemma stem_signs pre a mid : plain pre -> In a [cTop; cBot; cAfter; cBefore] -> hline mid -> forall b, In b (pre ++ a :: mid) -> ~ In b node_signs.
    Proof.
      intros PL A HM b J K. apply in_app_iff in J as [J|[->|J]].
      - destruct (PL b J) as [->| ->]; cbn in K; intuition discriminate.
      - cbn in A, K. intuition (subst; discriminate).
      - destruct (HM b J) as [->| ->]; cbn in K; intuition discriminate.
    Qed.
    Lemma node_col j p : sub p -> In p D -> nth_error all j = Some p -> node_at P j (col p).
    Proof.
      intros SP PD J. destruct (row_line j p J) as (l & L). destruct (Nat.eq_dec p x) as [->|NX].
      - destruct (row_top j l J L) as (w & rest & -> & W & _ & ->). replace (o_indent o) with (length (line o)) by apply repeat_length. apply (not_sign _ w (tx x ++ rest)); auto.
        intros a Ja K. apply repeat_spec in Ja as ->. cbn in K. intuition discriminate.
      - destruct (row_finished j p l SP NX J L) as (u & pre & a & mid & w & rest & _ & -> & PL & _ & CO & HM & W & _ & CP). rewrite <- (CP PD). apply (not_sign _ w (tx p ++ rest)); auto. apply stem_signs; auto. now apply corner_sign in CO.
    Qed.
    Lemma result_shows i j y p : sub y -> y <> x -> the_parent h y = Some p -> nth_error all i = Some y -> nth_error all j = Some p -> shows P i j.
    Proof.
      intros SY NX PY Y J. destruct (SPAR y SY NX) as (p' & PY' & SP). rewrite PY in PY'. injection PY' as <-.
      assert (CH : In y (h_ch h p)) by (apply (SCH p y SP); auto).
      assert (PD : In p D) by (destruct (all_done p SP) as [K|K]; auto; rewrite K in CH; destruct CH).
      destruct (row_line i y Y) as (l & L). destruct (row_finished i y l SY NX Y L) as (u & pre & a & mid & w & rest & EU & -> & PL & LP & CO & HM & W & _ & _).
      rewrite PY in EU. injection EU as <-. exists (length (pre ++ a :: mid)), (col p).
      split; [apply (not_sign _ w (tx y ++ rest)); auto; apply stem_signs; auto; now apply corner_sign in CO|].
      split; [now apply node_col|]. split; [rewrite app_length; cbn; lia|].
      assert (CA : cell P i (col p) = Some a).
      { rewrite (cell_some _ _ _ _ L), <- LP. rewrite <- app_assoc. rewrite nth_error_app2 by lia. now rewrite Nat.sub_diag. }
      split.
      { intros e He. rewrite (cell_some _ _ _ _ L). rewrite nth_error_app1 by lia. rewrite nth_error_app2 by lia. rewrite app_length in He. cbn [length] in He.
        destruct (e - length pre) as [|d] eqn:ED; [lia|]. cbn [nth_error]. destruct (nth_error mid d) as [b|] eqn:B; [|apply nth_error_None in B; lia]. exists b. split; auto. apply nth_error_In in B. destruct (HM b B) as [->| ->]; cbn; auto. }
      assert (BETWEEN : forall n, j < n < i \/ i < n < j -> forall yn, nth_error all n = Some yn -> is_one_of (cell P n (col p)) [cV; cCross] \/
        exists b, cell P n (col p) = Some b /\ corner p n b).
      { intros n B yn N. assert (DF : family p yn \/ ~ family p yn).
        { unfold family. destruct (Nat.eq_dec yn p); [left; auto|]. destruct (in_dec Nat.eq_dec yn (h_ch h p)); [left; auto|right; tauto]. }
        destruct DF as [[->|F]|NF].
        - pose proof (row_eq _ _ _ N J). lia.
        - right. assert (SN : sub yn) by (now apply (SSUB p)). pose proof (proj1 (SCH p yn SP) F) as [_ PN]. assert (NX2 : yn <> x) by (intros ->; now apply (XPAR p PN)).
          destruct (row_line n yn N) as (l2 & L2). destruct (row_finished n yn l2 SN NX2 N L2) as (u & pre2 & a2 & mid2 & w2 & rest2 & EU & -> & PL2 & LP2 & CO2 & _).
          rewrite PN in EU. injection EU as <-. exists a2. split; auto. rewrite (cell_some _ _ _ _ L2), <- LP2. rewrite <- app_assoc. rewrite nth_error_app2 by lia. now rewrite Nat.sub_diag.
        - left. apply (in_bars _ _ _ _ I p n yn); auto. destruct B as [B|B]; [exists p, y, j, i|exists y, p, i, j]; unfold family; repeat split; auto; lia. }
      assert (ROWN : forall n, j < n < i \/ i < n < j -> exists yn, nth_error all n = Some yn).
      { intros n B. assert (i < length all) by (apply nth_error_Some; congruence). assert (j < length all) by (apply nth_error_Some; congruence). destruct (nth_error all n) as [yn|] eqn:E; [now exists yn|]. apply nth_error_None in E. lia. }
      destruct CO as (vi & VI & CO). pose proof (row_eq _ _ _ VI J) as ->. destruct CO as [(LT & A)|(LT & A)]; [left|right].
      - split; auto. split; [exists a; split; auto; destruct A as [->|[-> _]]; cbn; auto|]. intros n Hn. destruct (ROWN n (or_introl Hn)) as (yn & N).
        destruct (BETWEEN n (or_introl Hn) yn N) as [(b & E & B)|(b & E & (vi2 & VI2 & CO2))].
        + exists b. split; auto. cbn in *. tauto.
        + pose proof (row_eq _ _ _ VI2 J) as ->. exists b. split; auto. destruct CO2 as [(_ & [->|[-> M]])|(X & _)]; [cbn; auto| |lia].
          exfalso. pose proof (M y i CH Y). lia.
      - split; auto. split; [exists a; split; auto; destruct A as [->|[-> _]]; cbn; auto|]. intros n Hn. destruct (ROWN n (or_intror Hn)) as (yn & N).
        destruct (BETWEEN n (or_intror Hn) yn N) as [(b & E & B)|(b & E & (vi2 & VI2 & CO2))].
        + exists b. split; auto. cbn in *. tauto.
        + pose proof (row_eq _ _ _ VI2 J) as ->. exists b. split; auto. destruct CO2 as [(X & _)|(_ & [->|[-> M]])]; [lia|cbn; auto|].
          exfalso. pose proof (M y i CH Y). lia.
    Qed.
    Lemma result_top i j P2 : continues P P2 -> nth_error all i = Some x -> ~ shows P2 i j.
    Proof.
      intros CO Y (c & k & NA & _ & LT & _ & V). destruct (row_line i x Y) as (l & L). pose proof (row_top i l Y L) as (w & rest & E & W & _ & _).
      assert (N2 : node_at P i (length (line o))).
      { apply (not_sign _ w (tx x ++ rest)); [|auto|now rewrite <- E]. intros a Ja K. apply repeat_spec in Ja as ->. cbn in K. intuition discriminate. }
      pose proof (node_at_unique _ _ _ _ NA (node_at_ext _ _ _ _ CO N2)) as ->.
      assert (O : is_one_of (cell P2 i k) [cH]).
      { apply (one_of_ext P); auto. exists cH. split; [|now left]. rewrite (cell_some _ _ _ _ L), E. rewrite nth_error_app1 by auto. unfold line in *. rewrite repeat_length in LT. apply nth_error_repeat. lia. }
      destruct V as [(_ & C & _)|(_ & C & _)]; apply (one_of_disjoint _ _ _ O C); disjoint.
    Qed.
    (** Lines of nodes in the tree: drawing and text; other lines: only vertical lines *)
    Lemma plain_drawing l : plain l -> only_drawing l.
    Proof. intros PL a J. destruct (PL a J) as [->| ->]; cbn; auto 10. Qed.
    Lemma loose_drawing l : loose l -> only_drawing l.
    Proof. intros PL a J. specialize (PL a J). cbn in *. intuition auto. Qed.
    Lemma hline_drawing l : hline l -> only_drawing l.
    Proof. intros PL a J. destruct (PL a J) as [->| ->]; cbn; auto 10. Qed.
    Lemma drawing_app l k : only_drawing l -> only_drawing k -> only_drawing (l ++ k).
    Proof. intros A B a J. apply in_app_iff in J as [J|J]; auto. Qed.
    Lemma result_line i y l : nth_error all i = Some y -> nth_error P i = Some l -> sub y -> exists g r, l = g ++ tx y ++ r /\ only_drawing g /\ only_drawing r.
    Proof.
      intros Y L SY. assert (SG : forall w, In w node_signs -> only_drawing [w]) by (intros w W a [<-|[]]; apply in_app_iff; now right). destruct (Nat.eq_dec y x) as [->|NX].
      - destruct (row_top i l Y L) as (w & rest & -> & W & R & _). exists (line o ++ [w]), rest. split; [now rewrite <- app_assoc|]. split; [|now apply loose_drawing]. apply drawing_app; auto. apply hline_drawing, hline_repeat.
      - destruct (row_finished i y l SY NX Y L) as (u & pre & a & mid & w & rest & _ & -> & PL & _ & CO & HM & W & R & _). exists (pre ++ a :: mid ++ [w]), rest. split; [app_eq|]. split; [|now apply loose_drawing].
        apply drawing_app; [now apply plain_drawing|]. intros b [<-|J]; [apply corner_sign in CO; cbn in *; intuition (subst; auto 12)|]. revert b J. apply drawing_app; auto. now apply hline_drawing.
    Qed.
    Lemma result_other i y l : nth_error all i = Some y -> nth_error P i = Some l -> ~ sub y -> only_drawing l.
    Proof.
      intros Y L NS. assert (NX : y <> x) by (intros ->; contradiction).
      assert (NR : ~ reached D y). { intros (v & PY & VD). apply NS. assert (SV : sub v) by (apply (in_sub _ _ _ _ I); exact VD). apply (SSUB v); auto. apply (SCH v y SV). split; auto. now apply nth_error_In in Y. }
      destruct (in_rows _ _ _ _ I i y l Y L) as [EX _ _|EX _ _|_ _ PL|_ RE _ _|_ RE _ _]; try contradiction. now apply plain_drawing.
    Qed.
  End result.
End loop.
