(** Proofs about ud.FixPunct: subordinate punctuation, the single child of the root, and the whole block. *)
From Coq Require Import String List NArith ZArith Bool Lia Permutation.
From Verif Require Import PyStr PyStrFacts PyList PyListFacts PyExn TreeModel TreeSpec TreeFacts TreeRepr TreeOps TreeCalls
  TreeQuery TreeProps DeprelModel DeprelProofs RehangModel RehangSpec RehangProofs RehangFix RehangProj RehangDeproj PunctModel PunctProofs.
Import ListNotations.
Local Open Scope Z_scope.

Section Subord.
Variables (r : nat) (chk : bool) (form : nat -> str) (st0 : lst).
Hypothesis C0 : consistent (l_heap st0) r.
Variable (E : exn -> Prop).
Notation words := (h_desc (l_heap st0) r).
Notation lv := (lv r st0).
Notation punct := (punct st0).
Notation inv := (inv r st0).
Notation safe := (safe r st0 E).
Hypothesis HR : punct r = false.
(** Either an exception is expected or ([cl]) no word hangs on punctuation all the time. *)
Variable (cl : Prop).
Hypothesis D : E CycleError \/ cl.

(** No word hangs on a word with UPOS PUNCT. *)
Definition clean (st : lst) : Prop := forall x p, In x words -> par st x = Some p -> punct p = false.

Lemma clean_leaf st x b : inv st -> clean st -> punct x = true -> lv b -> in_subtree (l_heap st) b x -> b = x.
Proof.
  intros I CL PX Lb [H|U]; auto. exfalso. revert Lb. induction U as [b p Ep|b p a Ep U IH]; intros Lb.
  - destruct (parent_live _ r b p (inv_cons _ _ st I) (proj2 (inv_live _ _ st b I) Lb) Ep) as [_ Hb]. rewrite (inv_words _ _ st I) in Hb.
    specialize (CL b p Hb Ep). congruence.
  - apply IH; auto. destruct (parent_live _ r b p (inv_cons _ _ st I) (proj2 (inv_live _ _ st b I) Lb) Ep) as [L _]. now apply (inv_live _ _ st p I).
Qed.
Lemma lv_word x : lv x -> x <> r -> In x words.
Proof. intros [->|H] N; [contradiction|auto]. Qed.
Lemma lv_root st x : inv st -> lv x -> is_root (l_heap st) x = Nat.eqb x r.
Proof.
  intros I L. destruct (c_kinds _ r (inv_cons _ _ st I)) as [K KR]. unfold is_root. destruct (Nat.eqb_spec x r) as [->|N]; [now rewrite KR|].
  apply lv_word in L; auto. rewrite <- (inv_words _ _ st I) in L. now rewrite (K x L).
Qed.

Lemma left_cand_ok st pt x : inv st -> forall f c, lv c -> h_ord (l_heap st0) c <= Z.of_nat f ->
  exists oc, left_cand f st pt x (Some c) = Ok oc /\ forall c', oc = Some c' -> lv c' /\ punct c' = false.
Proof.
  intros I. induction f as [|f IH]; intros c L Hf; cbn [left_cand]; rewrite (inv_ord r st0 C0 st c I L), (inv_upos r st0 st c I).
  - replace (0 <? h_ord (l_heap st0) c) with false by (symmetry; apply Z.ltb_ge; lia). cbn [andb]. exists (Some c). split; auto. intros c' EQ. injection EQ as <-. split; auto.
    destruct L as [->|Hc]; auto. pose proof (word_pos (l_heap st0) r C0 c Hc). lia.
  - destruct (0 <? h_ord (l_heap st0) c) eqn:E0; cbn [andb].
    + destruct (punct c) eqn:PC; [|exists (Some c); split; auto; intros c' EQ; now injection EQ as <-].
      destruct (_ && _); [exists None; split; auto; discriminate|]. apply Z.ltb_lt in E0. assert (Hc := live_ord_pos _ r C0 c L E0).
      destruct (prev_live r st0 C0 st c I Hc) as (q & -> & Lq & Oq). cbn [rbind]. apply IH; auto. lia.
    + exists (Some c). split; auto. intros c' EQ. injection EQ as <-. split; auto. apply Z.ltb_ge in E0.
      destruct L as [->|Hc]; auto. pose proof (word_pos (l_heap st0) r C0 c Hc). lia.
Qed.
Lemma right_cand_ok st pt x : inv st -> forall f oc, (forall c, oc = Some c -> In c words /\ Z.of_nat (length words) - h_ord (l_heap st0) c < Z.of_nat f) ->
  exists oc', right_cand f st pt x oc = Ok oc' /\ forall c', oc' = Some c' -> In c' words /\ punct c' = false.
Proof.
  intros I. induction f as [|f IH]; intros [c|] H; cbn [right_cand]; try (exists None; split; auto; discriminate);
    destruct (H c eq_refl) as [Hc Hf]; rewrite (inv_upos r st0 st c I); (destruct (punct c) eqn:PC; [|exists (Some c); split; auto; intros c' EQ; now injection EQ as <-]);
    (destruct (_ && _); [exists None; split; auto; discriminate|]).
  - exfalso. pose proof (word_pos (l_heap st0) r C0 c Hc). lia.
  - destruct (next_live r st0 C0 st c I (word_lv _ _ c Hc)) as [[-> On]|(q & -> & Hq & Oq)].
    + apply IH. discriminate.
    + apply IH. intros d EQ. injection EQ as <-. split; auto. lia.
Qed.
Lemma left_of_ok st c x : inv st -> lv c -> exists b, left_of st c x = Ok b.
Proof.
  intros I L. unfold left_of. apply (inv_live _ _ st c I) in L. destruct (sub_list _ r (inv_cons _ _ st I) c L) as (l & -> & N). cbn [rbind].
  destruct (last_some l N) as (z & -> & _). eauto.
Qed.
Lemma right_of_ok st c x : inv st -> lv c -> exists b, right_of st c x = Ok b.
Proof.
  intros I L. unfold right_of. apply (inv_live _ _ st c I) in L. destruct (sub_list _ r (inv_cons _ _ st I) c L) as (l & -> & N). cbn [rbind].
  destruct l; [contradiction|eauto].
Qed.
Definition allowed (l : list nat) : Prop := incl l words /\ (cl -> forall y, In y l -> punct y = false).
(** The two climbing loops are alike. *)
Lemma left_path_ok st x : inv st -> (cl -> clean st) -> forall f c n, In c words -> (cl -> punct c = false) -> steps (l_heap st) c n r -> (n <= f)%nat ->
  exists l, left_path f st x c = Ok l /\ allowed l.
Proof.
  intros I CL. assert (SG : forall c, In c words -> (cl -> punct c = false) -> allowed [c]).
  { intros c Hc PC. split; [intros y [<-|[]]; auto|]. intros HC y [<-|[]]; auto. }
  induction f as [|f IH]; intros c n Hc PC S Hn; (inversion S as [|? p m ? Ep S']; subst; [exfalso; apply (c_rootout _ r C0); exact Hc|]); [lia|].
  cbn [left_path]. unfold the_parent. rewrite Ep. cbn [rbind]. destruct (inv_parent r st0 st c I Hc) as (q & Eq & Lp). assert (q = p) by congruence. subst q.
  rewrite (lv_root st p I Lp). destruct (Nat.eqb_spec p r) as [->|Np]; cbn [negb andb]; [eauto|].
  destruct (ord st p <? ord st x); [|eauto]. destruct (left_of_ok st c x I (word_lv _ _ c Hc)) as [b ->]. cbn [rbind]. destruct b; [|eauto].
  destruct (IH p m (lv_word p Lp Np)) as (l & -> & A1 & A2); auto; [intros HC; now apply (CL HC c)|lia|]. cbn [rbind]. eexists. split; [reflexivity|].
  split; [intros y [<-|Hy]; auto|]. intros HC y [<-|Hy]; auto.
Qed.
Lemma right_path_ok st x : inv st -> (cl -> clean st) -> forall f c n, In c words -> (cl -> punct c = false) -> steps (l_heap st) c n r -> (n <= f)%nat ->
  exists l, right_path f st x c = Ok l /\ allowed l.
Proof.
  intros I CL. assert (SG : forall c, In c words -> (cl -> punct c = false) -> allowed [c]).
  { intros c Hc PC. split; [intros y [<-|[]]; auto|]. intros HC y [<-|[]]; auto. }
  induction f as [|f IH]; intros c n Hc PC S Hn; (inversion S as [|? p m ? Ep S']; subst; [exfalso; apply (c_rootout _ r C0); exact Hc|]); [lia|].
  cbn [right_path]. unfold the_parent. rewrite Ep. cbn [rbind]. destruct (inv_parent r st0 st c I Hc) as (q & Eq & Lp). assert (q = p) by congruence. subst q.
  rewrite (lv_root st p I Lp). destruct (Nat.eqb_spec p r) as [->|Np]; cbn [negb andb]; [eauto|].
  destruct (ord st x <? ord st p); [|eauto]. destruct (right_of_ok st c x I (word_lv _ _ c Hc)) as [b ->]. cbn [rbind]. destruct b; [|eauto].
  destruct (IH p m (lv_word p Lp Np)) as (l & -> & A1 & A2); auto; [intros HC; now apply (CL HC c)|lia|]. cbn [rbind]. eexists. split; [reflexivity|].
  split; [intros y [<-|Hy]; auto|]. intros HC y [<-|Hy]; auto.
Qed.

(** Only the parent of x may have changed, and the tree stays clean. *)
Definition kept_but (x : nat) (st st' : lst) : Prop :=
  (forall y, y <> x -> lv y -> par st' y = par st y) /\ (cl -> clean st').
Lemma kept_refl x st : (cl -> clean st) -> kept_but x st st.
Proof. split; auto. Qed.
Lemma kept_trans x a b c : kept_but x a b -> kept_but x b c -> kept_but x a c.
Proof. intros [A1 A2] [B1 B2]. split; auto. intros y N L. rewrite B1; auto. Qed.
Lemma kept_moved x b st st' : (cl -> clean st) -> (cl -> punct b = false) -> moved r st0 st x b st' -> kept_but x st st'.
Proof.
  intros CL PB (A & B & _). split; auto. intros HC y p Hy Ep. destruct (Nat.eq_dec y x) as [->|N]; [rewrite A in Ep; injection Ep as <-; auto|].
  rewrite B in Ep by (auto using word_lv). now apply (CL HC y).
Qed.

Section OneNode.
Variable (x : nat).
Hypotheses (Hx : In x words) (PX : punct x = true).
Lemma assign_ok' st b : inv st -> (cl -> clean st) -> lv b -> (cl -> punct b = false) ->
  safe (fun st' _ => kept_but x st st' /\ par st' x = Some b) (assign_parent st x (Some b)).
Proof.
  intros I CL L PB. eapply safe_weak; [apply safe_assign; auto|cbv beta; intros st' _ I' M; split; [eapply kept_moved; eauto|apply M]].
  intros S. destruct D as [D'|HC]; auto. apply (clean_leaf st x b I (CL HC) PX L) in S. subst b. specialize (PB HC). congruence.
Qed.
Lemma will_ok st c : inv st -> (cl -> clean st) -> lv c -> (cl -> punct c = false) ->
  safe (fun st' _ => kept_but x st st') (will_be_projective st x c).
Proof.
  intros I CL L PC. unfold will_be_projective. eapply safe_bind; [apply assign_ok'; auto|]. cbv beta. intros st' _ I' [K _].
  destruct (nonproj_ok r st0 st' x I' Hx) as [b Eb]. destruct (causes_ok r st0 st' x I' Hx) as [g Eg].
  unfold query. rewrite Eb. cbn [rbind]. destruct b; [now apply safe_ok|]. rewrite Eg. now apply safe_ok.
Qed.
Lemma filter_path_ok : forall l st, inv st -> (cl -> clean st) -> allowed l ->
  safe (fun st' l' => kept_but x st st' /\ incl l' l) (filter_path st x l).
Proof.
  induction l as [|c l IH]; intros st I CL [A1 A2]; cbn [filter_path].
  - apply safe_ok; auto. split; [now apply kept_refl|apply incl_refl].
  - eapply safe_bind; [apply will_ok; auto|].
    + apply word_lv. apply A1. now left.
    + intros HC. apply A2; auto. now left.
    + cbv beta. intros st' b I' K. eapply safe_bind; [apply IH; auto|].
      * apply K.
      * split; [intros y Hy; apply A1; now right|]. intros HC y Hy. apply A2; auto. now right.
      * cbv beta. intros st'' l' I'' [K' L']. apply safe_ok; auto. split; [eapply kept_trans; eauto|].
        destruct b; [intros y [<-|Hy]; [now left|right; auto]|intros y Hy; right; auto].
Qed.
Lemma below_ok st a b : inv st -> (forall y, a = Some y -> In y words) -> (forall y, b = Some y -> In y words) -> exists v, below st a b = Ok v.
Proof.
  intros I HA HB. destruct a as [a|], b as [b|]; cbn [below]; eauto.
  destruct (is_descendant_prop (l_heap st) r (inv_cons _ _ st I) a b) as (v & -> & _); eauto; right; rewrite (inv_words _ _ st I); auto.
Qed.
Lemma last_In {A} (l : list A) z : last_opt l = Some z -> In z l.
Proof. intros H. destruct l as [|a l]; [discriminate|]. destruct (last_some (a :: l)) as (w & W1 & W2); [discriminate|]. congruence. Qed.
Lemma select_ok st lp rp : inv st -> incl lp words -> incl rp words -> exists sel, select st lp rp = Ok sel /\
  forall c path, sel = Some (c, path) -> In c (lp ++ rp).
Proof.
  intros I H1 H2. unfold select.
  assert (A1 : forall y, last_opt lp = Some y -> In y words) by (intros y Hy; apply H1; now apply last_In).
  assert (A2 : forall y, last_opt rp = Some y -> In y words) by (intros y Hy; apply H2; now apply last_In).
  destruct (below_ok st (last_opt lp) (last_opt rp) I A1 A2) as [b1 ->]. destruct (below_ok st (last_opt rp) (last_opt lp) I A2 A1) as [b2 ->]. cbn [rbind].
  assert (B1 : forall y, last_opt lp = Some y -> In y (lp ++ rp)) by (intros y Hy; apply in_app_iff; left; now apply last_In).
  assert (B2 : forall y, last_opt rp = Some y -> In y (lp ++ rp)) by (intros y Hy; apply in_app_iff; right; now apply last_In).
  destruct b1, b2, (last_opt lp) as [a|], (last_opt rp) as [b|]; eexists; (split; [reflexivity|]); intros c path EQ; try discriminate; injection EQ as <- <-; auto.
Qed.
Lemma paired_ok st p : inv st -> lv p -> exists b, paired_already st x p = Ok b.
Proof.
  intros I L. unfold paired_already. apply (inv_live _ _ st p I) in L. destruct (sub_list _ r (inv_cons _ _ st I) p L) as (l & -> & N). cbn [rbind].
  destruct (last_some l N) as (z & EL & _). destruct l as [|a l]; [contradiction|]. rewrite EL. eauto.
Qed.
Lemma steps_root st c : inv st -> lv c -> exists n, steps (l_heap st) c n r /\ (n <= fuel (l_heap st))%nat.
Proof.
  intros I L. apply (inv_live _ _ st c I) in L. destruct (steps_bound r (l_heap st) c (inv_cons _ _ st I) L) as (n & A & B). exists n. split; auto. unfold fuel. lia.
Qed.

Lemma fix_subord_ok st pt : inv st -> (cl -> clean st) -> safe (fun st' _ => kept_but x st st') (fix_subord form st pt x).
Proof.
  intros I CL. unfold fix_subord. destruct (inv_parent r st0 st x I Hx) as (p & Ep & Lp). assert (PP : cl -> punct p = false) by (intros HC; now apply (CL HC x)).
  eapply safe_query; [unfold the_parent; rewrite Ep; reflexivity|]. cbv beta.
  destruct (prev_live r st0 C0 st x I Hx) as (q & Eq & Lq & Oq). eapply safe_query; [exact Eq|]. cbv beta.
  destruct (_ && _); [apply safe_ok; auto using kept_refl|].
  destruct (paired_ok st p I Lp) as [b Eb]. eapply safe_query; [exact Eb|]. cbv beta. destruct b; [apply safe_ok; auto using kept_refl|]. clear Eb.
  assert (NW := few_words (l_heap st0) r C0). assert (EF := inv_fuel r st0 st I).
  destruct (left_cand_ok st pt x I (fuel (l_heap st)) q Lq) as (lc & El & Hl).
  { pose proof (live_pos (l_heap st0) r C0 q Lq). rewrite EF. lia. }
  eapply safe_query; [exact El|]. cbv beta. clear El Eq.
  destruct (right_cand_ok st pt x I (fuel (l_heap st)) (if in_final (form x) then None else next_node (l_heap st) x)) as (rc & Er & Hr).
  { intros c EQ. destruct (in_final (form x)); [discriminate|]. destruct (next_live r st0 C0 st x I (word_lv _ _ x Hx)) as [[En _]|(w & En & Hw & Ow)]; [congruence|].
    assert (c = w) by congruence. subst c. split; auto. pose proof (word_pos (l_heap st0) r C0 w Hw). rewrite EF. lia. }
  eapply safe_query; [exact Er|]. cbv beta. clear Er.
  assert (AL : exists lp, match lc with None => Ok [] | Some c => if is_root (l_heap st) c then Ok [] else left_path (fuel (l_heap st)) st x c end = Ok lp /\ allowed lp).
  { assert (AN : allowed []) by (split; [intros ? []|intros _ ? []]). destruct lc as [c|]; [|eauto]. destruct (Hl c eq_refl) as [Lc PC]. rewrite (lv_root st c I Lc).
    destruct (Nat.eqb_spec c r); [eauto|]. destruct (steps_root st c I Lc) as (n0 & S1 & S2). apply (left_path_ok st x I CL _ c n0); auto. now apply lv_word. }
  destruct AL as (lp & Elp & Alp). eapply safe_query; [exact Elp|]. cbv beta. clear Elp.
  assert (AR : exists rp, match rc with None => Ok [] | Some c => right_path (fuel (l_heap st)) st x c end = Ok rp /\ allowed rp).
  { assert (AN : allowed []) by (split; [intros ? []|intros _ ? []]). destruct rc as [c|]; [|eauto]. destruct (Hr c eq_refl) as [Hc PC].
    destruct (steps_root st c I (word_lv _ _ c Hc)) as (n0 & S1 & S2). apply (right_path_ok st x I CL _ c n0); auto. }
  destruct AR as (rp & Erp & Arp). eapply safe_query; [exact Erp|]. cbv beta. clear Erp Hl Hr lc rc.
  eapply safe_bind; [apply filter_path_ok; auto|]. cbv beta. intros st1 lp' I1 [K1 L1].
  eapply safe_bind; [apply filter_path_ok; auto; apply K1|]. cbv beta. intros st2 rp' I2 [K2 L2].
  eapply safe_bind; [apply (assign_ok' st2 p); auto; apply K2|]. cbv beta. intros st3 _ I3 [K3 _].
  assert (K : kept_but x st st3) by (eapply kept_trans; [exact K1|eapply kept_trans; eauto]).
  destruct (select_ok st3 lp' rp' I3) as (sel & Es & Hs).
  { intros y Hy. apply Alp. auto. } { intros y Hy. apply Arp. auto. }
  eapply safe_query; [exact Es|]. cbv beta. destruct sel as [[cand path]|]; [|now apply safe_ok].
  specialize (Hs cand path eq_refl). assert (HC : In cand words /\ (cl -> punct cand = false)).
  { apply in_app_iff in Hs as [Hs|Hs]; [apply L1 in Hs|apply L2 in Hs]; (split; [now apply Alp + now apply Arp|intros HC; now apply Alp + now apply Arp]). }
  destruct HC as [Hc PC].
  eapply (safe_bind _ _ _ (fun st' _ => kept_but x st st')).
  { destruct (mem p path); [now apply safe_ok|]. eapply safe_weak; [apply assign_ok'; auto using word_lv; apply K|]. cbv beta. intros st' _ I' [K' _]. eapply kept_trans; eauto. }
  cbv beta. intros st4 _ I4 K4. apply safe_ok; [|exact K4].
  destruct I4 as [A1 A2 A3 A4]. constructor; auto. intros y. cbn. unfold upd. destruct (Nat.eqb_spec y x) as [->|]; auto.
Qed.
End OneNode.

Lemma safe_for_each (P : lst -> Prop) f l : forall st, (forall x st, In x l -> inv st -> P st -> safe (fun st' _ => P st') (f st x)) ->
  inv st -> P st -> safe (fun st' _ => P st') (for_each f l st).
Proof.
  induction l as [|x l IH]; intros st H I HP; cbn [for_each]; [now apply safe_ok|].
  eapply safe_bind; [apply H; auto; now left|]. cbv beta. intros st' _ I' HP'. apply IH; auto. intros y st1 Hy. apply H. now right.
Qed.
(** The third step of the block. *)
Lemma subord_all_ok st1 pt : inv st1 -> (cl -> clean st1) ->
  safe (fun st' _ => (cl -> clean st') /\ forall y, lv y -> punct y = false -> par st' y = par st1 y)
    (for_each (fun st x => if upos_punct st x && negb (is_some (pt (ord st x))) then fix_subord form st pt x else (st, Ok tt)) (h_desc (l_heap st1) r) st1).
Proof.
  intros I CL. apply safe_for_each; auto. rewrite (inv_words _ _ st1 I). intros x st Hx I' [P1 P2]. rewrite (inv_upos r st0 st x I').
  destruct (punct x) eqn:PX; cbn [andb]; [|now apply safe_ok]. destruct (negb _); [|now apply safe_ok].
  eapply safe_weak; [apply fix_subord_ok; auto|]. cbv beta. intros st' _ I'' [K1 K2]. split; auto. intros y Ly PY. rewrite K1; auto. intros ->. congruence.
Qed.
End Subord.
