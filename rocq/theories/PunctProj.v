(** Proofs about ud.FixPunct: punctuation marks that are not neighbours of each other are attached projectively. *)
From Coq Require Import String List NArith ZArith Bool Lia Sorted Permutation.
From Verif Require Import PyStr PyStrFacts PyList PyListFacts PyExn TreeModel TreeSpec TreeFacts TreeRepr TreeOps TreeCalls
  TreeQuery TreeProps DeprelModel DeprelProofs RehangModel RehangSpec RehangProofs RehangFix RehangProj RehangDeproj
  CorefSpec DrawSpec DrawTree PunctModel PunctProofs PunctFix PunctThms.
Import ListNotations.
Local Open Scope Z_scope.

Section Heap.
Variables (h : heap) (r : nat).
Hypothesis C : consistent h r.
Lemma same_ord x y : live h r x -> live h r y -> h_ord h x = h_ord h y -> x = y.
Proof. intros Lx Ly E. pose proof (live_index h r C x Lx) as A. pose proof (live_index h r C y Ly) as B. rewrite E in A. congruence. Qed.
(** node.descendants(add_self=1): the nodes of the subtree, in order *)
Lemma sub_hull x : live h r x -> exists l a z, descendants_add_self h x = Ok l /\ (exists k, l = a :: k) /\ last_opt l = Some z /\
  (forall y, In y l <-> live h r y /\ in_subtree h y x) /\ NoDup l /\
  forall y, In y l -> h_ord h a <= h_ord h y <= h_ord h z.
Proof.
  intros L. destruct (sub_words h r x C L) as (l & E & INC & IN). assert (IN' : forall y, In y l <-> live h r y /\ in_subtree h y x) by exact IN.
  assert (J : In x l) by (apply IN'; split; auto; now left).
  destruct l as [|a k] eqn:El; [destruct J|]. rewrite <- El in *. destruct (last_some l) as (z & EZ & JZ); [rewrite El; discriminate|].
  exists l, a, z. split; auto. split; [eauto|]. split; auto. split; auto. split.
  - clear -INC. induction INC as [|b l S IH F]; constructor; auto. intros J. rewrite Forall_forall in F. specialize (F b J). lia.
  - intros y Hy. pose proof (hull_min h l a k INC El y Hy) as A. pose proof (hull_max h l z INC EZ y Hy) as B.
    assert (LY : live h r y) by (apply IN'; auto). assert (LA : live h r a) by (apply IN'; rewrite El; now left). assert (LZ : live h r z) by (apply IN'; auto).
    rewrite (proj1 (DrawTree.live_pos h r C y LY)) in A, B. rewrite (proj1 (DrawTree.live_pos h r C a LA)) in A. rewrite (proj1 (DrawTree.live_pos h r C z LZ)) in B. lia.
Qed.
Lemma up_dec x a : live h r x -> live h r a -> up h x a \/ ~ up h x a.
Proof.
  intros Lx La. destruct (is_descendant_prop h r C x a Lx La) as (b & _ & B). destruct b; [left; now apply B|right]. intros U. apply B in U. discriminate.
Qed.
(** as many nodes as places *)
Lemma no_holes (l : list nat) a z : (forall y, In y l -> live h r y) -> NoDup l -> (forall y, In y l -> a <= h_ord h y <= z) ->
  Z.of_nat (length l) = z - a + 1 -> forall w, live h r w -> a <= h_ord h w <= z -> In w l.
Proof.
  intros HL ND HB HN w Lw Hw. set (rng := map (fun i => a + Z.of_nat i) (seq 0 (length l))).
  assert (N1 : NoDup (map (h_ord h) l)).
  { clear HB HN. induction ND as [|y l N1 N2 IH]; cbn; [constructor|]. constructor.
    - intros X. apply in_map_iff in X as (y' & E & J). apply N1. rewrite (same_ord y y'); auto; apply HL; [now left|now right].
    - apply IH. intros y' J. apply HL. now right. }
  assert (I1 : incl (map (h_ord h) l) rng).
  { intros v X. apply in_map_iff in X as (y & <- & J). specialize (HB y J). unfold rng. apply in_map_iff. exists (Z.to_nat (h_ord h y - a)). split; [lia|]. apply in_seq. lia. }
  assert (I2 : incl rng (map (h_ord h) l)).
  { apply NoDup_length_incl; auto. unfold rng. rewrite !map_length, seq_length. lia. }
  assert (J : In (h_ord h w) (map (h_ord h) l)).
  { apply I2. unfold rng. apply in_map_iff. exists (Z.to_nat (h_ord h w - a)). split; [lia|]. apply in_seq. lia. }
  apply in_map_iff in J as (y & E & J). rewrite <- (same_ord y w); auto.
Qed.
End Heap.

Section Proj.
Variables (r : nat) (form : nat -> str) (st0 : lst).
Hypothesis C0 : consistent (l_heap st0) r.
Notation words := (h_desc (l_heap st0) r).
Notation lv := (lv r st0).
Notation punct := (punct st0).
Notation inv := (inv r st0).
Notation safe := (PunctProofs.safe r st0 (fun _ => False)).
Notation clean := (PunctFix.clean r st0).
Notation pos x := (h_ord (l_heap st0) x).
Notation ups st := (up (l_heap st)).
Notation subt st := (in_subtree (l_heap st)).
Hypothesis HR : punct r = false.
(** No two neighbouring marks; the first word of the sentence is no final mark; some word is no mark. *)
Hypothesis ISO : forall x y, In x words -> In y words -> pos y = pos x + 1 -> punct x = true -> punct y = false.
Hypothesis FIN : forall x, In x words -> pos x = 1 -> punct x = true -> in_final (form x) = false.
Hypothesis SOME : exists w, In w words /\ punct w = false.

Definition between (a w b : nat) : Prop := pos a < pos w < pos b \/ pos b < pos w < pos a.
Definition proj_at (st : lst) (x c : nat) : Prop := forall w, In w words -> between x w c -> ups st w c.
Definition others (x : nat) (st st' : lst) : Prop := forall y, y <> x -> lv y -> par st' y = par st y.

Lemma par_lv st x p : inv st -> lv x -> par st x = Some p -> lv p /\ In x words.
Proof.
  intros I L E. destruct (parent_live _ r x p (inv_cons _ _ st I) (proj2 (inv_live _ _ st x I) L) E) as [A B].
  split; [now apply (inv_live _ _ st p I)|]. now rewrite (inv_words _ _ st I) in B.
Qed.
Lemma up_kept x st st' : inv st -> clean st -> punct x = true -> others x st st' ->
  forall w c, w <> x -> lv w -> ups st w c -> ups st' w c.
Proof.
  intros I CL PX K w c N L U. revert N L. induction U as [w p Ep|w p c Ep U IH]; intros N L.
  - apply up_1. change (par st' w = Some p). now rewrite K.
  - destruct (par_lv st w p I L Ep) as [Lp Hw]. apply (up_S _ w p); [change (par st' w = Some p); now rewrite K|].
    apply IH; auto. intros ->. specialize (CL w x Hw Ep). congruence.
Qed.
Lemma sub_kept x st st' : inv st -> clean st -> punct x = true -> others x st st' ->
  forall w c, w <> x -> lv w -> subt st w c -> subt st' w c.
Proof. intros I CL PX K w c N L [->|U]; [now left|right]. eapply up_kept; eauto. Qed.
Lemma others_sym x st st' : others x st st' -> others x st' st.
Proof. intros K y N L. symmetry. now apply K. Qed.
Lemma same_pos x y : lv x -> lv y -> pos x = pos y -> x = y.
Proof. apply same_ord. exact C0. Qed.

Section One.
Variable (x : nat).
Hypotheses (Hx : In x words) (PX : punct x = true).
Lemma lvx : lv x. Proof. now right. Qed.

Lemma assign_one st c : inv st -> clean st -> lv c -> punct c = false ->
  safe (fun st' _ => others x st st' /\ clean st' /\ par st' x = Some c) (assign_parent st x (Some c)).
Proof.
  intros I CL L PC. eapply safe_weak; [apply (assign_ok' r st0 (fun _ => False) True (or_intror Logic.I) x Hx PX st c I (fun _ => CL) L (fun _ => PC))|].
  cbv beta. intros st' _ I' [[K1 K2] K3]. split; [exact K1|]. split; [exact (K2 Logic.I)|auto].
Qed.
Lemma will_proj st c : inv st -> clean st -> In c words -> punct c = false ->
  safe (fun st' b => others x st st' /\ clean st' /\ (b = true -> proj_at st x c) /\ (pos c = pos x - 1 \/ pos c = pos x + 1 -> b = true)) (will_be_projective st x c).
Proof.
  intros I CL Hc PC. unfold will_be_projective. eapply safe_bind; [apply assign_one; auto; now right|]. cbv beta. intros st' _ I' (K & CL' & EP).
  assert (C' := inv_cons _ _ st' I'). assert (Hx' : In x (h_desc (l_heap st') r)) by now rewrite (inv_words _ _ st' I').
  assert (Hc' : In c (h_desc (l_heap st') r)) by now rewrite (inv_words _ _ st' I').
  assert (OO : forall y, lv y -> h_ord (l_heap st') y = pos y) by (intros y Ly; now apply (inv_ord r st0 C0 st' y I')).
  destruct (nonprojective_prop (l_heap st') r C' x c Hx' EP) as (b & Eb & Hb).
  unfold query. rewrite Eb. cbn [rbind]. destruct b.
  - apply safe_ok; auto. split; auto. split; auto. split; [discriminate|]. intros A. exfalso. destruct (proj1 Hb eq_refl) as (w & Hw & BW & _).
    rewrite (inv_words _ _ st' I') in Hw. rewrite !OO in BW; try (now right). lia.
  - assert (PA : proj_at st x c).
    { intros w Hw BW. assert (Lw : lv w) by now right. destruct (up_dec (l_heap st') r C' w c) as [U|U]; [now apply (inv_live _ _ st' w I')|now right| |].
      - apply (up_kept x st' st I' CL' PX (others_sym x st st' K)); auto. intros ->. destruct BW; lia.
      - exfalso. assert (false = true); [|discriminate]. apply Hb. exists w. split; [now rewrite (inv_words _ _ st' I')|]. rewrite !OO by (now right). split; auto. }
    destruct (causes_ok r st0 st' x I' Hx) as [g Eg]. rewrite Eg. cbn [rbind]. apply safe_ok; auto. split; auto. split; auto. split; auto. intros A.
    destruct g; auto. exfalso. unfold causes_gap in Eg. destruct (gap_prop (l_heap st') r C' x Hx') as (b1 & E1 & H1). rewrite E1 in Eg. cbn [rbind] in Eg.
    destruct b1; [|discriminate]. unfold the_parent in Eg. unfold par in EP. rewrite EP in Eg. cbn [rbind] in Eg.
    destruct (gap_prop (l_heap st') r C' c Hc') as (b2 & E2 & H2). rewrite E2 in Eg. cbn [rbind] in Eg. destruct b2; [discriminate|].
    assert (false = true); [|discriminate]. apply H2. destruct (proj1 H1 eq_refl) as (X & a & d & LX & La & Ld & NX & Sa & Sd & OA).
    assert (NC : ~ subt st' c X) by (intros [->|S]; apply NX; right; [now apply up_1|eapply up_S; eauto]).
    exists X, a, d. repeat split; auto.
    + apply (inv_live _ _ st' a I') in La. apply (inv_live _ _ st' d I') in Ld. rewrite !OO in * by (auto; now right).
      assert (pos a <> pos c) by (intros EQ; apply NC; rewrite <- (same_pos a c); auto; now right). lia.
    + apply (inv_live _ _ st' a I') in La. apply (inv_live _ _ st' d I') in Ld. rewrite !OO in * by (auto; now right).
      assert (pos d <> pos c) by (intros EQ; apply NC; rewrite <- (same_pos d c); auto; now right). lia.
Qed.
Definition good (l : list nat) : Prop := forall y, In y l -> In y words /\ punct y = false.
Lemma filter_proj : forall l st, inv st -> clean st -> good l ->
  safe (fun st' l' => others x st st' /\ clean st' /\ incl l' l /\ (forall c, In c l' -> proj_at st x c) /\
          (forall c, In c l -> pos c = pos x - 1 \/ pos c = pos x + 1 -> In c l')) (filter_path st x l).
Proof.
  induction l as [|c l IH]; intros st I CL G; cbn [filter_path].
  - apply safe_ok; auto. split; [intros y; auto|]. split; auto. split; [apply incl_refl|]. split; intros c [].
  - destruct (G c (or_introl eq_refl)) as [Hc PC]. eapply safe_bind; [apply will_proj; auto|]. cbv beta. intros st1 b I1 (K1 & CL1 & P1 & A1).
    eapply safe_bind; [apply IH; auto; intros y Hy; apply G; now right|]. cbv beta. intros st2 l' I2 (K2 & CL2 & L2 & P2 & A2).
    assert (K : others x st st2) by (intros y N L; rewrite K2; auto).
    assert (P : forall d, In d l' -> proj_at st x d).
    { intros d Hd w Hw BW. specialize (P2 d Hd w Hw BW). apply (up_kept x st1 st I1 CL1 PX (others_sym x st st1 K1)) in P2; auto; [|now right]. intros ->. destruct BW; lia. }
    apply safe_ok; auto. split; auto. split; auto. split; [|split].
    + destruct b; [intros y [<-|Hy]; [now left|right; auto]|intros y Hy; right; auto].
    + destruct b; [intros y [<-|Hy]; auto|auto].
    + intros y [<-|Hy] A; [rewrite (A1 A); now left|]. destruct b; [right|]; auto.
Qed.

(** ---- climbing ---- *)
Lemma ord_st st y : inv st -> lv y -> ord st y = pos y.
Proof. intros I. now apply inv_ord. Qed.
Lemma left_of_sem st c : inv st -> lv c -> exists b, left_of st c x = Ok b /\ (b = true -> forall y, lv y -> subt st y c -> pos y <= pos x).
Proof.
  intros I L. unfold left_of. destruct (sub_hull _ r (inv_cons _ _ st I) c (proj2 (inv_live _ _ st c I) L)) as (l & a & z & -> & _ & EZ & IN & _ & HB).
  cbn [rbind]. rewrite EZ. eexists. split; [reflexivity|]. intros B y Ly Sy. apply negb_true_iff, Z.ltb_ge in B.
  assert (J : In y l) by (apply IN; split; auto; now apply (inv_live _ _ st y I)). specialize (HB y J).
  unfold ord in B. assert (ord st y <= ord st x) by (unfold ord; lia).
  rewrite !ord_st in H; auto using lvx.
Qed.
Lemma right_of_sem st c : inv st -> lv c -> exists b, right_of st c x = Ok b /\ (b = true -> forall y, lv y -> subt st y c -> pos x <= pos y).
Proof.
  intros I L. unfold right_of. destruct (sub_hull _ r (inv_cons _ _ st I) c (proj2 (inv_live _ _ st c I) L)) as (l & a & z & -> & (k & ->) & _ & IN & _ & HB).
  cbn [rbind]. eexists. split; [reflexivity|]. intros B y Ly Sy. apply negb_true_iff, Z.ltb_ge in B.
  assert (J : In y (a :: k)) by (apply IN; split; auto; now apply (inv_live _ _ st y I)). specialize (HB y J).
  unfold ord in B. assert (ord st x <= ord st y) by (unfold ord; lia). rewrite !ord_st in H; auto using lvx.
Qed.
Lemma left_path_in st : inv st -> clean st -> forall f c n, In c words -> punct c = false -> steps (l_heap st) c n r -> (n <= f)%nat ->
  exists l, left_path f st x c = Ok l /\ good l /\ In c l /\
    forall P b, subt st c P -> lv b -> subt st b P -> pos x < pos b -> forall m, In m l -> subt st m P.
Proof.
  intros I CL. assert (SG : forall c, In c words -> punct c = false -> exists l, Ok [c] = Ok l /\ good l /\ In c l /\
    forall P b, subt st c P -> lv b -> subt st b P -> pos x < pos b -> forall m, In m l -> subt st m P).
  { intros c Hc PC. exists [c]. split; auto. split; [intros y [<-|[]]; auto|]. split; [now left|]. intros P b S _ _ _ m [<-|[]]. exact S. }
  induction f as [|f IH]; intros c n Hc PC S Hn; (inversion S as [|? p m ? Ep S']; subst; [exfalso; apply (c_rootout _ r C0); exact Hc|]); [lia|].
  cbn [left_path]. unfold the_parent. rewrite Ep. cbn [rbind]. destruct (par_lv st c p I (or_intror Hc) Ep) as [Lp _].
  rewrite (lv_root r st0 st p I Lp). destruct (Nat.eqb_spec p r) as [->|Np]; cbn [negb andb]; [auto|].
  destruct (ord st p <? ord st x); [|auto]. destruct (left_of_sem st c I (or_intror Hc)) as (b & -> & B). cbn [rbind]. destruct b; [|auto].
  destruct (IH p m (lv_word r st0 p Lp Np)) as (l & -> & A1 & A2 & A3); auto; [now apply (CL c)|lia|]. cbn [rbind]. eexists. split; [reflexivity|].
  split; [intros y [<-|Hy]; auto|]. split; [now left|]. intros P b Sc Lb Sb Ob q [<-|Hq]; auto. apply (A3 P b); auto.
  destruct Sc as [->|U].
  - specialize (B eq_refl b Lb Sb). lia.
  - inversion U as [? ? E1|? ? ? E1 U']; subst; rewrite Ep in E1; injection E1 as E1; subst; [now left|now right].
Qed.
Lemma right_path_in st : inv st -> clean st -> forall f c n, In c words -> punct c = false -> steps (l_heap st) c n r -> (n <= f)%nat ->
  exists l, right_path f st x c = Ok l /\ good l /\ In c l /\
    forall P a, subt st c P -> lv a -> subt st a P -> pos a < pos x -> forall m, In m l -> subt st m P.
Proof.
  intros I CL. assert (SG : forall c, In c words -> punct c = false -> exists l, Ok [c] = Ok l /\ good l /\ In c l /\
    forall P a, subt st c P -> lv a -> subt st a P -> pos a < pos x -> forall m, In m l -> subt st m P).
  { intros c Hc PC. exists [c]. split; auto. split; [intros y [<-|[]]; auto|]. split; [now left|]. intros P b S _ _ _ m [<-|[]]. exact S. }
  induction f as [|f IH]; intros c n Hc PC S Hn; (inversion S as [|? p m ? Ep S']; subst; [exfalso; apply (c_rootout _ r C0); exact Hc|]); [lia|].
  cbn [right_path]. unfold the_parent. rewrite Ep. cbn [rbind]. destruct (par_lv st c p I (or_intror Hc) Ep) as [Lp _].
  rewrite (lv_root r st0 st p I Lp). destruct (Nat.eqb_spec p r) as [->|Np]; cbn [negb andb]; [auto|].
  destruct (ord st x <? ord st p); [|auto]. destruct (right_of_sem st c I (or_intror Hc)) as (b & -> & B). cbn [rbind]. destruct b; [|auto].
  destruct (IH p m (lv_word r st0 p Lp Np)) as (l & -> & A1 & A2 & A3); auto; [now apply (CL c)|lia|]. cbn [rbind]. eexists. split; [reflexivity|].
  split; [intros y [<-|Hy]; auto|]. split; [now left|]. intros P b Sc Lb Sb Ob q [<-|Hq]; auto. apply (A3 P b); auto.
  destruct Sc as [->|U].
  - specialize (B eq_refl b Lb Sb). lia.
  - inversion U as [? ? E1|? ? ? E1 U']; subst; rewrite Ep in E1; injection E1 as E1; subst; [now left|now right].
Qed.

(** Where the mark is put: on a word, projectively, and inside every subtree that surrounds it. *)
Definition surrounds (st : lst) (P : nat) : Prop :=
  (forall l, lv l -> pos l = pos x - 1 -> subt st l P) /\ (forall n, lv n -> pos n = pos x + 1 -> subt st n P) /\
  exists a b, lv a /\ lv b /\ subt st a P /\ subt st b P /\ a <> x /\ b <> x /\ pos a < pos x < pos b.
Definition placed (st : lst) (p : nat) : Prop :=
  In p words /\ punct p = false /\ proj_at st x p /\ forall P, lv P -> surrounds st P -> subt st p P.

Lemma neighbour_l q : lv q -> pos q = pos x - 1 -> punct q = false.
Proof. intros [->|Hq] E; auto. destruct (punct q) eqn:PQ; auto. assert (punct x = false) by (apply (ISO q x); auto; lia). congruence. Qed.
Lemma neighbour_r q : In q words -> pos q = pos x + 1 -> punct q = false.
Proof. intros Hq E. now apply (ISO x q). Qed.
Lemma at_least_two : pos x = 1 -> Z.of_nat (length words) >= 2.
Proof.
  intros E. destruct SOME as (w & Hw & PW). pose proof (word_pos _ r C0 w Hw) as B. assert (pos w <> 1); [|lia].
  intros E2. assert (w = x) by (apply same_pos; [now right|now right|lia]). subst w. congruence.
Qed.

Lemma subord_proj st : inv st -> clean st ->
  safe (fun st' _ => others x st st' /\ clean st' /\ exists p, par st' x = Some p /\ placed st p) (fix_subord form st (fun _ => None) x).
Proof.
  intros I CL. unfold fix_subord. destruct (inv_parent r st0 st x I Hx) as (p & Ep & Lp). assert (PP : punct p = false) by now apply (CL x).
  assert (Lx := lvx). assert (C1 := inv_cons _ _ st I).
  eapply safe_query; [unfold the_parent; rewrite Ep; reflexivity|]. cbv beta.
  destruct (prev_live r st0 C0 st x I Hx) as (q & Eq & Lq & Oq). eapply safe_query; [exact Eq|]. cbv beta.
  assert (PQ := neighbour_l q Lq Oq).
  destruct (str_eqb (form x) (s ".") && Nat.eqb p q) eqn:DOT.
  { apply andb_true_iff in DOT as [D1 D2]. apply str_eqb_eq in D1. apply Nat.eqb_eq in D2. subst q. apply safe_ok; auto. split; [intros y; auto|]. split; auto. exists p. split; auto.
    assert (Np : p <> r).
    { intros ->. rewrite (c_ord0 _ r C0) in Oq. assert (X : in_final (form x) = false) by (apply FIN; auto; lia). rewrite D1 in X. discriminate. }
    split; [now apply (lv_word r st0)|]. split; auto. split; [intros w Hw [B|B]; lia|]. intros P LP (A & _). auto. }
  clear DOT.
  assert (PAIR : exists b, paired_already st x p = Ok b /\ (b = true -> placed st p)).
  { unfold paired_already. destruct (sub_hull _ r C1 p (proj2 (inv_live _ _ st p I) Lp)) as (l & a & z & -> & (k & ->) & EZ & IN & ND & HB). cbn [rbind]. rewrite EZ.
    eexists. split; [reflexivity|]. intros B. repeat (apply andb_true_iff in B as [B ?]). apply orb_true_iff in B. rewrite !Nat.eqb_eq in B.
    apply Z.eqb_eq in H3. unfold parent_is in H, H0. assert (JA : In a (a :: k)) by now left. assert (JZ : In z (a :: k)) by now apply last_In.
    destruct (proj1 (IN a) JA) as [LA _]. destruct (proj1 (IN z) JZ) as [LZ _].
    assert (Np : p <> r).
    { intros ->. assert (Jr : In r (a :: k)) by (apply IN; split; [now left|now left]). specialize (HB r Jr). rewrite (c_ord0 _ r C1) in HB.
      pose proof (PunctProofs.live_pos _ r C1 a LA). assert (a = r) by (apply (same_ord _ r C1); [auto|now left|rewrite (c_ord0 _ r C1); lia]). subst a. rewrite (c_top _ r C1) in H0. discriminate. }
    assert (Hp := lv_word r st0 p Lp Np).
    assert (FULL : forall w, lv w -> h_ord (l_heap st) a <= h_ord (l_heap st) w <= h_ord (l_heap st) z -> subt st w p).
    { intros w Lw OW. apply (proj2 (proj1 (IN w) (no_holes _ r C1 (a :: k) _ _ (fun y J => proj1 (proj1 (IN y) J)) ND HB H3 w (proj2 (inv_live _ _ st w I) Lw) OW))). }
    assert (OO : forall y, lv y -> h_ord (l_heap st) y = pos y) by (intros y Ly; now apply (inv_ord r st0 C0 st y I)).
    apply (inv_live _ _ st a I) in LA. apply (inv_live _ _ st z I) in LZ. rewrite (OO a LA), (OO z LZ) in FULL.
    assert (Jp : In p (a :: k)) by (apply IN; split; [now apply (inv_live _ _ st p I)|now left]). assert (HBp := HB p Jp). rewrite (OO a LA), (OO z LZ), (OO p Lp) in HBp.
    assert (NXP : x <> p) by (intros ->; congruence). assert (OXP : pos x <> pos p) by (intros EQ; apply NXP; now apply same_pos).
    assert (OXA : pos a <= pos x <= pos z) by (destruct B as [->| ->]; lia).
    split; auto. split; auto. split.
    - intros w Hw BW. assert (Lw : lv w) by now right. destruct (FULL w Lw) as [->|U]; [rewrite (OO w Lw); destruct BW; lia|exfalso; destruct BW; lia|exact U].
    - intros P LP (NL & NN & c & d & Lc & Ld & Sc & Sd & Nc & Nd & OC).
      (* the neighbour of x on the inner side *)
      assert (NB : exists w, lv w /\ subt st w p /\ subt st w P).
      { destruct B as [EX|EX].
        - subst a. destruct (next_live r st0 C0 st x I Lx) as [[_ On]|(w & _ & Hw & Ow)].
          + pose proof (PunctProofs.live_pos _ r C0 z LZ). exfalso. lia.
          + exists w. assert (Lw : lv w) by now right. split; auto. split; auto. apply FULL; auto. rewrite (OO w Lw). lia.
        - subst z. exists q. split; auto. split; auto. apply FULL; auto. rewrite (OO q Lq). lia. }
      destruct NB as (w & Lw & Wp & WP).
      assert (CASE : subt st p P \/ ups st P p).
      { destruct Wp as [->|Wp]; [left; exact WP|]. destruct WP as [->|WP]; [right; exact Wp|]. apply (up_comparable _ w); auto. }
      destruct CASE as [S|U]; [exact S|exfalso].
      assert (IC : In c (a :: k)) by (apply IN; split; [now apply (inv_live _ _ st c I)|right; destruct Sc as [->|Sc]; [auto|eapply up_trans; eauto]]).
      assert (ID : In d (a :: k)) by (apply IN; split; [now apply (inv_live _ _ st d I)|right; destruct Sd as [->|Sd]; [auto|eapply up_trans; eauto]]).
      apply HB in IC. apply HB in ID. rewrite (OO a LA), (OO z LZ), (OO c Lc) in IC. rewrite (OO a LA), (OO z LZ), (OO d Ld) in ID. destruct B as [<-|<-]; lia. }
  destruct PAIR as (b & Eb & Hb). eapply safe_query; [exact Eb|]. cbv beta. destruct b.
  { apply safe_ok; auto. split; [intros y; auto|]. split; auto. exists p. split; auto. }
  clear Eb Hb.
  assert (EL : left_cand (fuel (l_heap st)) st (fun _ => None) x (Some q) = Ok (Some q)).
  { destruct (fuel (l_heap st)); cbn [left_cand]; rewrite (inv_upos r st0 st q I), PQ, andb_false_r; reflexivity. }
  eapply safe_query; [exact EL|]. cbv beta. clear EL.
  set (nx := if in_final (form x) then None else next_node (l_heap st) x).
  assert (NX : forall c, nx = Some c -> In c words /\ pos c = pos x + 1 /\ punct c = false).
  { intros c. unfold nx. destruct (in_final (form x)); [discriminate|]. destruct (next_live r st0 C0 st x I Lx) as [[-> _]|(w & -> & Hw & Ow)]; [discriminate|].
    intros EQ. injection EQ as <-. split; auto. split; auto. now apply neighbour_r. }
  assert (SOMEC : q <> r \/ exists c, nx = Some c).
  { destruct (Nat.eq_dec q r) as [->|]; [right|now left]. rewrite (c_ord0 _ r C0) in Oq. unfold nx. rewrite (FIN x Hx) by (auto; lia).
    destruct (next_live r st0 C0 st x I Lx) as [[_ On]|(w & -> & _)]; [|eauto]. pose proof (at_least_two). lia. }
  assert (ER : right_cand (fuel (l_heap st)) st (fun _ => None) x nx = Ok nx).
  { destruct nx as [c|]; [destruct (NX c eq_refl) as (_ & _ & PC)|]; destruct (fuel (l_heap st)); cbn [right_cand]; rewrite ?(inv_upos r st0 st c I), ?PC; reflexivity. }
  eapply safe_query; [exact ER|]. cbv beta. clear ER.
  assert (AL : exists lp, (if is_root (l_heap st) q then Ok [] else left_path (fuel (l_heap st)) st x q) = Ok lp /\ good lp /\ (q <> r -> In q lp) /\
     forall P, lv P -> surrounds st P -> forall m, In m lp -> subt st m P).
  { rewrite (lv_root r st0 st q I Lq). destruct (Nat.eqb_spec q r) as [->|Nq].
    - exists []. split; auto. split; [intros y []|]. split; [contradiction|]. intros P _ _ m [].
    - destruct (steps_root r st0 st q I Lq) as (n0 & S1 & S2). destruct (left_path_in st I CL _ q n0 (lv_word r st0 q Lq Nq) PQ S1 S2) as (lp & E1 & E2 & E3 & E4).
      exists lp. split; auto. split; auto. split; auto. intros P LP (NL & NN & c & d & Lc & Ld & Sc & Sd & Nc & Nd & OC). apply (E4 P d); auto. apply OC. }
  destruct AL as (lp & Elp & Glp & Hlp & Slp). eapply safe_query; [exact Elp|]. cbv beta. clear Elp.
  assert (AR : exists rp, match nx with None => Ok [] | Some c => right_path (fuel (l_heap st)) st x c end = Ok rp /\ good rp /\ (forall c, nx = Some c -> In c rp) /\
     forall P, lv P -> surrounds st P -> forall m, In m rp -> subt st m P).
  { destruct nx as [c|].
    - destruct (NX c eq_refl) as (Hc & Oc & PC). destruct (steps_root r st0 st c I (or_intror Hc)) as (n0 & S1 & S2).
      destruct (right_path_in st I CL _ c n0 Hc PC S1 S2) as (rp & E1 & E2 & E3 & E4). exists rp. split; auto. split; auto. split; [intros c' EQ; injection EQ as <-; auto|].
      intros P LP (NL & NN & a & d & La & Ld & Sa & Sd & Na & Nd & OC). apply (E4 P a); auto; [|apply OC]. apply NN; auto. now right.
    - exists []. split; auto. split; [intros y []|]. split; [discriminate|]. intros P _ _ m []. }
  destruct AR as (rp & Erp & Grp & Hrp & Srp). eapply safe_query; [exact Erp|]. cbv beta. clear Erp.
  eapply safe_bind; [apply filter_proj; auto|]. cbv beta. intros st1 lp' I1 (K1 & CL1 & L1 & P1 & A1).
  eapply safe_bind; [apply filter_proj; auto|]. cbv beta. intros st2 rp' I2 (K2 & CL2 & L2 & P2 & A2).
  eapply safe_bind; [apply (assign_one st2 p); auto|]. cbv beta. intros st3 _ I3 (K3 & CL3 & E3).
  assert (K : others x st st3) by (intros y N L; rewrite K3, K2, K1; auto).
  assert (GOOD : forall c, In c (lp' ++ rp') -> placed st c).
  { intros c Hc. apply in_app_iff in Hc as [Hc|Hc].
    - destruct (Glp c (L1 c Hc)) as [G1 G2]. unfold placed. auto 10.
    - destruct (Grp c (L2 c Hc)) as [G1 G2]. split; auto. split; auto. split.
      + intros w Hw BW. specialize (P2 c Hc w Hw BW). apply (up_kept x st1 st I1 CL1 PX (others_sym x st st1 K1)) in P2; auto; [|now right]. intros ->. destruct BW; lia.
      + intros P LP SP. apply Srp; auto. }
  assert (SEL : exists c path, select st3 lp' rp' = Ok (Some (c, path)) /\ In c (lp' ++ rp') /\ incl path (lp' ++ rp')).
  { assert (H1 : incl lp' words) by (intros y Hy; apply (Glp y); auto). assert (H2 : incl rp' words) by (intros y Hy; apply (Grp y); auto).
    unfold select. 
    assert (B1 : forall y, last_opt lp' = Some y -> In y words) by (intros y Hy; apply H1; now apply last_In).
    assert (B2 : forall y, last_opt rp' = Some y -> In y words) by (intros y Hy; apply H2; now apply last_In).
    destruct (below_ok r st0 st3 (last_opt lp') (last_opt rp') I3 B1 B2) as [b1 E1]. destruct (below_ok r st0 st3 (last_opt rp') (last_opt lp') I3 B2 B1) as [b2 E2].
    rewrite E1, E2. cbn [rbind].
    assert (D1 : forall y, last_opt lp' = Some y -> In y (lp' ++ rp')) by (intros y Hy; apply in_app_iff; left; now apply last_In).
    assert (D2 : forall y, last_opt rp' = Some y -> In y (lp' ++ rp')) by (intros y Hy; apply in_app_iff; right; now apply last_In).
    assert (D3 : last_opt lp' <> None \/ last_opt rp' <> None).
    { destruct SOMEC as [Nq|(c & Ec)].
      - left. assert (J : In q lp') by (apply A1; auto). destruct (last_some lp') as (z & -> & _); [intros ->; destruct J|discriminate].
      - right. assert (J : In c rp') by (apply A2; auto; right; now apply NX). destruct (last_some rp') as (z & -> & _); [intros ->; destruct J|discriminate]. }
    assert (I1' : incl lp' (lp' ++ rp')) by (intros y Hy; apply in_app_iff; now left). assert (I2' : incl rp' (lp' ++ rp')) by (intros y Hy; apply in_app_iff; now right).
    destruct b1, b2, (last_opt lp') as [u|], (last_opt rp') as [v|]; try (exfalso; destruct D3; congruence); eexists; eexists; (split; [reflexivity|]); split; auto using incl_refl. }
  destruct SEL as (cand & path & Es & Hs & Hpath). eapply safe_query; [exact Es|]. cbv beta.
  eapply (safe_bind _ _ _ (fun st' _ => others x st st' /\ clean st' /\ exists p, par st' x = Some p /\ placed st p)).
  { destruct (mem p path) eqn:MP.
    - apply safe_ok; auto. split; auto. split; auto. exists p. split; auto. apply GOOD, Hpath. now apply mem_In.
    - destruct (GOOD cand Hs) as (Hc & PC & _). eapply safe_weak; [apply assign_one; auto; now right|]. cbv beta. intros st' _ I' (K' & CL' & E').
      split; [intros y N L; rewrite K'; auto|]. split; auto. exists cand. split; auto. }
  cbv beta. intros st4 _ I4 K4. apply safe_ok; [|exact K4].
  destruct I4 as [Q1 Q2 Q3 Q4]. constructor; auto. intros y. cbn. unfold upd. destruct (Nat.eqb_spec y x) as [->|]; auto.
Qed.
End One.

(** ---- all marks ---- *)
Definition around (st : lst) (P x : nat) : Prop :=
  (forall l, lv l -> pos l = pos x - 1 -> subt st l P) /\ (forall n, lv n -> pos n = pos x + 1 -> subt st n P) /\
  exists a b, lv a /\ lv b /\ punct a = false /\ punct b = false /\ subt st a P /\ subt st b P /\ pos a < pos x < pos b.
Definition settled (st : lst) (x : nat) : Prop :=
  exists p, par st x = Some p /\ In p words /\ punct p = false /\ proj_at st x p /\ forall P, lv P -> around st P x -> ups st x P.
Lemma near_l x l : In x words -> punct x = true -> lv l -> pos l = pos x - 1 -> punct l = false.
Proof. intros Hx PX Ll E. now apply (neighbour_l x Hx PX). Qed.
Lemma near_r x n : In x words -> punct x = true -> lv n -> pos n = pos x + 1 -> punct n = false.
Proof. intros Hx PX [->|Hn] E; auto. now apply (neighbour_r x Hx PX). Qed.
Lemma around_kept st st' x y P : inv st -> clean st -> punct y = true -> others y st st' -> In x words -> punct x = true -> around st P x -> around st' P x.
Proof.
  intros I CL PY K Hx PX (A & B & a & b & La & Lb & Pa & Pb & Sa & Sb & OA). split; [|split].
  - intros l Ll El. assert (PL := near_l x l Hx PX Ll El). apply (sub_kept y st st' I CL PY K); auto. congruence.
  - intros n Ln En. assert (PN := near_r x n Hx PX Ln En). apply (sub_kept y st st' I CL PY K); auto. congruence.
  - exists a, b. repeat (split; [assumption|]). split; [apply (sub_kept y st st' I CL PY K); auto; congruence|]. split; [apply (sub_kept y st st' I CL PY K); auto; congruence|exact OA].
Qed.
Lemma settle_step y st st' p : In y words -> punct y = true -> inv st -> clean st -> inv st' -> clean st' -> others y st st' -> par st' y = Some p -> placed y st p ->
  settled st' y /\ forall x, In x words -> punct x = true -> settled st x -> settled st' x.
Proof.
  intros Hy PY I CL I' CL' K EP (Hp & PP & PR & SU). assert (Ly : lv y) by now right.
  assert (Npy : p <> y) by congruence.
  assert (INTO : forall P, lv P -> surrounds y st P -> ups st' y P).
  { intros P LP S. specialize (SU P LP S). apply (sub_kept y st st' I CL PY K) in SU; [|auto|now right]. eapply up_in_subtree; [apply up_1; exact EP|exact SU]. }
  split.
  - exists p. split; auto. split; auto. split; auto. split.
    + intros w Hw BW. apply (up_kept y st st' I CL PY K); [|now right|now apply PR]. intros ->. destruct BW; lia.
    + intros P LP AR. apply INTO; auto. apply (around_kept st' st y y P I' CL' PY (others_sym y st st' K) Hy PY) in AR.
      destruct AR as (A & B & a & b & La & Lb & Pa & Pb & Sa & Sb & OA). split; auto. split; auto. exists a, b. repeat (split; [assumption|]). split; [congruence|]. split; [congruence|exact OA].
  - intros x Hx PX (q & Eq & Hq & Pq & PRq & SUq). destruct (Nat.eq_dec x y) as [->|Nxy].
    { exists p. split; auto. split; auto. split; auto. split.
      + intros w Hw BW. apply (up_kept y st st' I CL PY K); [|now right|now apply PR]. intros ->. destruct BW; lia.
      + intros P LP AR. apply INTO; auto. apply (around_kept st' st y y P I' CL' PY (others_sym y st st' K) Hy PY) in AR.
        destruct AR as (A & B & a & b & La & Lb & Pa & Pb & Sa & Sb & OA). split; auto. split; auto. exists a, b. repeat (split; [assumption|]). split; [congruence|]. split; [congruence|exact OA]. }
    assert (Lx : lv x) by now right. assert (Lq : lv q) by now right. assert (Nqy : q <> y) by congruence.
    exists q. split; [rewrite K; auto|]. split; auto. split; auto. split.
    + intros w Hw BW. destruct (Nat.eq_dec w y) as [->|Nwy].
      * apply INTO; auto.
        assert (NEAR : forall l, lv l -> punct l = false -> (pos l = pos y - 1 \/ pos l = pos y + 1) -> subt st l q).
        { intros l Ll Pl El. assert (Nlx : pos l <> pos x) by (intros EQ; apply (same_pos l x) in EQ; auto; congruence).
          destruct (Z.eq_dec (pos l) (pos q)) as [EQ|NE]; [left; now apply same_pos|]. right.
          assert (BL : between x l q) by (unfold between in *; lia). apply PRq; auto. apply (live_ord_pos _ r C0); auto.
          pose proof (PunctProofs.live_pos _ r C0 x Lx). pose proof (PunctProofs.live_pos _ r C0 q Lq). destruct BL; lia. }
        assert (SX : subt st x q) by (right; now apply up_1). assert (SQ : subt st q q) by now left.
        split; [intros l Ll El; apply NEAR; auto; now apply (near_l y)|]. split; [intros l Ll El; apply NEAR; auto; now apply (near_r y)|].
        destruct BW as [BW|BW]; [exists x, q|exists q, x]; auto 12.
      * apply (up_kept y st st' I CL PY K); auto. now right.
    + intros P LP AR. apply (around_kept st' st x y P I' CL' PY (others_sym y st st' K) Hx PX) in AR. apply (up_kept y st st' I CL PY K); auto.
Qed.
Lemma marks_ok st1 : inv st1 -> clean st1 ->
  exists st3, for_each (fun st x => if upos_punct st x && negb (is_some ((fun _ : Z => @None ptype) (ord st x))) then fix_subord form st (fun _ => None) x else (st, Ok tt)) (h_desc (l_heap st1) r) st1 = (st3, Ok tt) /\
    inv st3 /\ clean st3 /\ forall x, In x words -> punct x = true -> settled st3 x.
Proof.
  intros I1 CL1. rewrite (inv_words _ _ st1 I1).
  destruct (for_each_prog (fun done st => inv st /\ clean st /\ forall x, In x words -> In x done -> punct x = true -> settled st x)
     (fun st x => if upos_punct st x && negb (is_some ((fun _ : Z => @None ptype) (ord st x))) then fix_subord form st (fun _ => None) x else (st, Ok tt)) words [] st1) as (st3 & E3 & I3 & CL3 & S3).
  - intros pre x post st Ek (I & CL & S). cbn [app] in *. assert (Hx : In x words) by (rewrite Ek; apply in_app_iff; right; now left).
    cbn [is_some negb]. rewrite andb_true_r, (inv_upos r st0 st x I). destruct (punct x) eqn:PX.
    + destruct (subord_proj x Hx PX st I CL) as [I' Q]. destruct (fix_subord form st (fun _ => None) x) as [st' [[]|e|]]; cbn [fst snd] in *; try contradiction.
      destruct Q as (K & CL' & p & EP & PL). exists st'. split; auto. split; auto. split; auto. destruct (settle_step x st st' p Hx PX I CL I' CL' K EP PL) as [A B].
      intros z Hz Jz PZ. apply in_app_iff in Jz as [Jz|[<-|[]]]; auto.
    + exists st. split; auto. split; auto. split; auto. intros z Hz Jz PZ. apply in_app_iff in Jz as [Jz|[<-|[]]]; auto. congruence.
  - split; auto. split; auto. intros x _ [].
  - exists st3. cbn [app] in *. split; auto.
Qed.
End Proj.

Lemma in_final_sub f : in_final f = true -> exists a b, s ".?!" = a ++ f ++ b.
Proof.
  unfold in_final. cbn [existsb]. rewrite !orb_true_iff, !str_eqb_eq. intros H.
  repeat (destruct H as [->|H]); try discriminate; [exists [], (s ".?!")|exists [], (s "?!")|exists (s "."), (s "!")|exists (s ".?"), []|exists [], (s "!")|exists (s "."), []|exists [], []]; reflexivity.
Qed.

Section Whole.
Variables (chk : bool) (form : nat -> str) (r : nat) (st : lst).
Hypothesis C : consistent (l_heap st) r.
Hypothesis RU : l_upos st r = Some (s "<ROOT>").
Hypothesis RF : form r = s "<ROOT>".
Notation words := (h_desc (l_heap st) r).
Notation PUNCT x := (l_upos st x = Some (s "PUNCT")).

Lemma isolated_prop :
  (forall x o c, In x words -> In (o, c) paired_punct -> form x <> o) ->
  (forall x y, In x words -> In y words -> h_ord (l_heap st) y = h_ord (l_heap st) x + 1 -> PUNCT x -> ~ PUNCT y) ->
  (forall x a b, In x words -> h_ord (l_heap st) x = 1 -> PUNCT x -> s ".?!" <> a ++ form x ++ b) ->
  (exists w, In w words /\ ~ PUNCT w) ->
  exists st', fix_punct chk form st r = (st', Ok tt) /\
    (forall x, In x words -> PUNCT x -> is_nonprojective (l_heap st') x = Ok false /\
       exists p, h_par (l_heap st') x = Some p /\ In p words /\ ~ PUNCT p) /\
    (forall z p, In z words -> h_par (l_heap st') z = Some p ->
       (forall w, In w words -> ~ PUNCT w ->
          (h_ord (l_heap st) z < h_ord (l_heap st) w < h_ord (l_heap st) p \/ h_ord (l_heap st) p < h_ord (l_heap st) w < h_ord (l_heap st) z) ->
          up (l_heap st') w p) ->
       is_nonprojective (l_heap st') z = Ok false).
Proof.
  intros NP ISO FIN SOME.
  assert (NPU : forall x, ~ PUNCT x <-> punct st x = false).
  { intros x. unfold punct. destruct (ostr_eqb (l_upos st x) (s "PUNCT")) eqn:EQ.
    - apply ostr_eqb_eq in EQ. split; [contradiction|discriminate].
    - split; auto. intros _ X. apply ostr_eqb_eq in X. congruence. }
  assert (YPU : forall x, PUNCT x <-> punct st x = true) by (intros x; unfold punct; now rewrite ostr_eqb_eq).
  assert (NE : words <> []) by (destruct SOME as (w & Hw & _); intros X; rewrite X in Hw; destruct Hw).
  destruct (root_punct chk form r st RU RF) as [R1 R2]. unfold fix_punct.
  destruct (first_step chk form r st C R1) as (st1 & E1 & A1 & A2 & A3 & A4 & A5). rewrite E1. cbn [bind].
  assert (I1 := first_inv r st st1 A1 A3). assert (W1 := inv_words _ _ st1 I1). rewrite (fix_pairs_none chk form r st NP) by (rewrite W1; apply incl_refl). cbn [bind].
  assert (CL : clean r st st1).
  { intros x p Hx Ep. specialize (A4 x p Hx Ep). unfold is_punct in A4. unfold punct, upos_punct in *. destruct (ostr_eqb (l_upos st p) (s "PUNCT")); [discriminate|auto]. }
  destruct (marks_ok r form st C R2) with (st1 := st1) as (st3 & E3 & I3 & CL3 & S3); auto.
  { intros x y Hx Hy O PX. apply NPU. apply (ISO x y); auto. now apply YPU. }
  { intros x Hx O PX. destruct (in_final (form x)) eqn:F; auto. exfalso. apply in_final_sub in F as (a & b & F). apply (FIN x a b); auto. now apply YPU. }
  { destruct SOME as (w & Hw & PW). exists w. split; auto. now apply NPU. }
  match goal with |- context [for_each ?f ?l ?u] => replace (for_each f l u) with (st3, @Ok unit tt) by (symmetry; exact E3) end. cbn [bind].
  destruct (finish r st C st3 I3 NE) as (st' & c & EF & F1 & F2 & F3 & F4 & F5 & F6 & F7 & F8 & F9 & F10). rewrite EF.
  assert (C' := rh_consistent _ _ _ F1). assert (W' := rh_words _ _ _ F1). assert (C3 := inv_cons _ _ st3 I3).
  assert (OO : forall y, lv r st y -> h_ord (l_heap st') y = h_ord (l_heap st) y) by (intros y Ly; now apply (rehung_ord _ _ r)).
  assert (CC : h_par (l_heap st') c = Some r /\ In c words).
  { assert (J : In c (h_ch (l_heap st') r)) by (rewrite F5; now left). apply (child_In _ r c r C' (or_introl eq_refl)) in J as [J1 J2]. split; auto. now rewrite W' in J1. }
  destruct CC as [CC Hc].
  assert (RD : forall y, {par st3 y = Some r} + {par st3 y <> Some r}) by (intros y; repeat decide equality).
  assert (UPTO : forall w p, lv r st w -> p <> r -> up (l_heap st3) w p -> up (l_heap st') w p).
  { intros w p Lw Np U. revert Lw Np. induction U as [w p Ep|w p a Ep U IH]; intros Lw Np; destruct (par_lv r st st3 w _ I3 Lw Ep) as [Lp Hw].
    - apply up_1. change (par st' w = Some p). rewrite F10; auto. unfold par. rewrite Ep. congruence.
    - destruct (RD w) as [E|N].
      + unfold par in E. assert (p = r) by congruence. subst p. exfalso. inversion U as [? ? X|? ? ? X]; subst; rewrite (c_top _ _ C3) in X; discriminate.
      + apply (up_S _ w p); [|now apply IH]. change (par st' w = Some p). rewrite F10; auto. }
  assert (UPFROM : forall w p, lv r st w -> p <> r -> p <> c -> up (l_heap st') w p -> up (l_heap st3) w p).
  { intros w p Lw Np Nc U. revert Lw Np Nc. assert (L' : forall y, live (l_heap st') r y <-> lv r st y) by (intros y; apply rehung_live; exact F1).
    induction U as [w p Ep|w p a Ep U IH]; intros Lw Np Nc; destruct (parent_live _ r w p C' (proj2 (L' w) Lw) Ep) as [Lp Hw]; rewrite W' in Hw; apply L' in Lp.
    - destruct (Nat.eq_dec w c) as [->|Nw]; [congruence|]. destruct (RD w) as [E|N]; [specialize (F9 w Hw Nw E); unfold par in F9; congruence|]. apply up_1. change (par st3 w = Some p). rewrite <- F10; auto.
    - destruct (Nat.eq_dec w c) as [->|Nw].
      { assert (p = r) by congruence. subst p. exfalso. inversion U as [? ? X|? ? ? X]; subst; rewrite (c_top _ _ C') in X; discriminate. }
      destruct (RD w) as [E|N].
      { specialize (F9 w Hw Nw E). unfold par in F9. assert (p = c) by congruence. subst p. exfalso. inversion U as [? ? X|? ? ? X U']; subst; rewrite CC in X; injection X as X; [congruence|].
        subst. inversion U' as [? ? X|? ? ? X]; subst; rewrite (c_top _ _ C') in X; discriminate. }
      apply (up_S _ w p); [|now apply IH]. change (par st3 w = Some p). rewrite <- F10; auto. }
  assert (ALLC : forall w, In w words -> w <> c -> up (l_heap st') w c).
  { intros w Hw Nw. assert (U : up (l_heap st') w r) by (apply (c_connected _ _ C'); now rewrite W').
    assert (L' : forall y, live (l_heap st') r y <-> lv r st y) by (intros y; apply rehung_live; exact F1).
    assert (Lw : live (l_heap st') r w) by (right; now rewrite W').
    clear - U Nw Lw F5 C'. remember r as t eqn:Et in U. revert Nw Lw Et. induction U as [w p Ep|w p a Ep U IH]; intros Nw Lw Et; subst.
    - exfalso. destruct (parent_live _ r w r C' Lw Ep) as [_ Hw]. assert (J : In w (h_ch (l_heap st') r)) by (apply (child_In _ r w r C' (or_introl eq_refl)); auto). rewrite F5 in J. destruct J as [J|[]]; congruence.
    - destruct (parent_live _ r w p C' Lw Ep) as [Lp _]. destruct (Nat.eq_dec p c) as [->|Np]; [now apply up_1|]. eapply up_S; eauto. }
  assert (NONP : forall x p, In x words -> h_par (l_heap st') x = Some p -> lv r st p ->
     (forall w, In w words -> (h_ord (l_heap st) x < h_ord (l_heap st) w < h_ord (l_heap st) p \/ h_ord (l_heap st) p < h_ord (l_heap st) w < h_ord (l_heap st) x) -> up (l_heap st') w p) ->
     is_nonprojective (l_heap st') x = Ok false).
  { intros x p Hx Ep Lp H. destruct (nonprojective_prop (l_heap st') r C' x p) as (b & Eb & Hb); auto; [now rewrite W'|]. destruct b; auto. exfalso.
    destruct (proj1 Hb eq_refl) as (w & Hw & BW & NU). rewrite W' in Hw. rewrite !OO in BW; auto; try (now right). }
  exists st'. split; auto. split.
  - intros x Hx PX. apply YPU in PX. destruct (S3 x Hx PX) as (p & EP & Hp & PP & PR & _).
    assert (Np : p <> r) by (intros ->; apply (c_rootout _ _ C); auto).
    assert (EP' : h_par (l_heap st') x = Some p) by (change (par st' x = Some p); rewrite F10; auto; congruence).
    split; [|exists p; split; auto; split; auto; now apply NPU].
    apply (NONP x p); auto; [now right|]. intros w Hw BW. apply UPTO; [now right|exact Np|]. now apply PR.
  - intros z p Hz Ep H. assert (Lp : lv r st p).
    { destruct (parent_live _ r z p C') as [L _]; auto; [right; now rewrite W'|]. apply (rehung_live _ _ r p F1) in L. exact L. }
    apply (NONP z p); auto. intros w Hw BW.
    destruct (Nat.eq_dec p r) as [->|Np]; [apply (c_connected _ _ C'); now rewrite W'|].
    destruct (Nat.eq_dec p c) as [->|Nc]; [apply ALLC; auto; intros ->; destruct BW; lia|].
    destruct (punct st w) eqn:PW; [|apply H; auto; now apply NPU].
    destruct (Nat.eq_dec z c) as [->|Nz]; [congruence|].
    assert (Ez : par st3 z = Some p).
    { destruct (RD z) as [E|N]; [specialize (F9 z Hz Nz E); unfold par in F9; congruence|]. rewrite <- F10; auto. }
    assert (PP : punct st p = false) by now apply (CL3 z).
    destruct (punct st z) eqn:PZ.
    { destruct (S3 z Hz PZ) as (q & EQ & _ & _ & PR & _). assert (q = p) by congruence. subst q. apply UPTO; [now right|exact Np|]. now apply PR. }
    destruct (S3 w Hw PW) as (q & _ & _ & _ & _ & SU). apply UPTO; [now right|exact Np|]. apply SU; [exact Lp|].
    assert (SZ : in_subtree (l_heap st3) z p) by (right; now apply up_1). assert (SP : in_subtree (l_heap st3) p p) by now left.
    assert (NEAR : forall l, lv r st l -> punct st l = false -> (h_ord (l_heap st) l = h_ord (l_heap st) w - 1 \/ h_ord (l_heap st) l = h_ord (l_heap st) w + 1) -> in_subtree (l_heap st3) l p).
    { intros l Ll Pl El. destruct (Z.eq_dec (h_ord (l_heap st) l) (h_ord (l_heap st) p)) as [EQ|N1]; [left; now apply (same_ord _ r C)|].
      destruct (Z.eq_dec (h_ord (l_heap st) l) (h_ord (l_heap st) z)) as [EQ|N2]; [assert (l = z) by (apply (same_ord _ r C); auto; now right); subst l; exact SZ|].
      right. apply UPFROM; auto. assert (Hl : In l words).
      { apply (live_ord_pos _ r C); auto. pose proof (PunctProofs.live_pos _ r C z (or_intror Hz)). pose proof (PunctProofs.live_pos _ r C p Lp). destruct BW; lia. }
      apply H; auto; [now apply NPU|]. lia. }
    split; [|split].
    + intros l Ll El. apply NEAR; auto. destruct Ll as [->|Hl]; auto. destruct (punct st l) eqn:PL; auto. exfalso. apply (ISO l w); auto; [lia|now apply YPU|now apply YPU].
    + intros l Ll El. apply NEAR; auto. destruct Ll as [->|Hl]; auto. destruct (punct st l) eqn:PL; auto. exfalso. apply (ISO w l); auto; now apply YPU.
    + assert (Lz : lv r st z) by now right. destruct BW as [BW|BW]; [exists z, p|exists p, z]; auto 12.
Qed.
End Whole.
