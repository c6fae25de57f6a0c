(** Proofs about segment.Merge and util.JoinSentence. *)
From Coq Require Import String List NArith ZArith Bool Lia Permutation.
From Verif Require Import PyStr PyStrFacts PyList PyListFacts PyExn TreeModel TreeSpec TreeProps TreeOps TreeCalls
  DualDictModel DualDictSpec DualDictProofs DocModel MwtSpec MwtProofs TextSpace StealModel StealSpec TokModel TokSpec TokProofs TokJoin TokTree TokToken
  ResegModel ResegSpec ResegProofs.
Import ListNotations.

Local Arguments dd_set : simpl never.
Local Arguments dd_get : simpl never.

Definition rt (g : bundle1 * list bundle1) : nat * list nat := (b_root (fst g), map b_root (snd g)).
Lemma flat_rt gs : flat (map rt gs) = map b_root (flat gs).
Proof. unfold flat. induction gs as [|[p l] gs IH]; auto. cbn [map flat_map fst snd rt app]. rewrite map_app, IH. auto. Qed.
Lemma last_opt_last {A} (l : list A) z : last_opt l = Some z -> exists l0, l = l0 ++ [z].
Proof.
  destruct l as [|x l]; [discriminate|]. intros H. destruct (@exists_last _ (x :: l)) as (l0&y&E); [discriminate|]. rewrite E in *.
  rewrite last_opt_app in H. injection H as ->. eauto.
Qed.

(** A function giving the tokens of each sentence *)
Lemma all_tokens d l : (forall r, In r l -> sound_sentence d r) -> exists tok, forall r, In r l -> tokened d r (tok r).
Proof.
  intros H. exists (fun r => match token_descendants d r with Ok ts => ts | _ => [] end). intros r I.
  destruct (tokened_of d r (H r I)) as (ts&E&T). rewrite E. auto.
Qed.

Lemma last_words (d0 : doc) l p : (forall b, In b (p :: l) -> h_desc (d_h d0) b <> []) ->
  last_opt (flat_map (h_desc (d_h d0)) (p :: l)) = last_opt (h_desc (d_h d0) (last l p)).
Proof.
  intros NE. destruct (list_eq_dec Nat.eq_dec l []) as [->|N]; [simpl; rewrite app_nil_r; auto|].
  destruct (exists_last N) as (l0&z&->). rewrite last_last. change (p :: l0 ++ [z]) with ((p :: l0) ++ [z]) in *.
  rewrite flat_map_app. cbn [flat_map]. rewrite app_nil_r. assert (NZ : h_desc (d_h d0) z <> []) by (apply NE; apply in_or_app; simpl; auto).
  destruct (exists_last NZ) as (k&y&->). rewrite app_assoc, !last_opt_app. auto.
Qed.
Lemma last_map {A B} (f : A -> B) l p : last (map f l) (f p) = f (last l p).
Proof. induction l as [|x l IH]; auto. cbn [map last]. destruct l; auto. Qed.

Definition semi (d : doc) (b c : bundle1) : Prop := ends_semicolon d (b_root b).
(** The groups are as long as possible. *)
Definition maximal (J : bundle1 -> bundle1 -> Prop) (gs : list (bundle1 * list bundle1)) : Prop :=
  forall pre b l c k post, gs = pre ++ (b, l) :: (c, k) :: post -> ~ J (last l b) c.
Lemma chain_snoc {A} (J : A -> A -> Prop) : forall l b c, chain J (b :: l) -> J (last l b) c -> chain J (b :: l ++ [c]).
Proof.
  induction l as [|x l IH]; intros b c H K; [simpl in *; auto|]. destruct H as [H1 H2]. cbn [app]. split; [auto|]. apply IH; auto.
  replace (last l x) with (last (x :: l) b); auto. clear. cbn [last]. destruct l as [|y l]; auto. revert x b y. induction l as [|z l IH]; intros; auto. cbn [last]. apply (IH x b z).
Qed.

Lemma last_in {A} (l : list A) p : In (last l p) (p :: l).
Proof.
  destruct l as [|x l]; [simpl; auto|]. destruct (@exists_last _ (x :: l)) as (l0&z&E); [discriminate|]. rewrite E, last_last. right. apply in_or_app. simpl. auto.
Qed.

Section merge.
  Variables (d0 : doc) (tok : nat -> list token).
  Notation st := (state d0 tok).

  Lemma merge_steps : forall rest d gs1 p l, st d (map rt (gs1 ++ (p, l) :: map (fun b => (b, [])) rest)) -> d_at d = d_at d0 ->
    (forall b, In b (p :: l ++ rest) -> h_desc (d_h d0) (b_root b) <> [] /\
       forall w, last_opt (h_desc (d_h d0) (b_root b)) = Some w -> n_form (d_at d0 w) <> None /\ n_form (d_at d0 w) <> Some []) ->
    chain (semi d0) (p :: l) ->
    exists d' l2 gs2, merge_loop d p rest = (d', Ok (map fst ((p, l ++ l2) :: gs2))) /\ st d' (map rt (gs1 ++ (p, l ++ l2) :: gs2)) /\ d_at d' = d_at d0 /\
      flat ((p, l ++ l2) :: gs2) = p :: l ++ rest /\ (forall b k, In (b, k) ((p, l ++ l2) :: gs2) -> chain (semi d0) (b :: k)) /\
      maximal (semi d0) ((p, l ++ l2) :: gs2).
  Proof.
    induction rest as [|b rest IH]; intros d gs1 p l S A F L.
    { exists d, [], []. rewrite !app_nil_r in *. split; [auto|]. split; [auto|]. split; [auto|].
      split; [unfold flat; simpl; rewrite app_nil_r; auto|]. split; [intros b k [E|[]]; injection E as <- <-; auto|].
      intros [|? [|? ?]] ? ? ? ? ? E; discriminate. }
    cbn [merge_loop]. assert (Ip : In (rt (p, l)) (map rt (gs1 ++ (p, l) :: map (fun b => (b, [])) (b :: rest)))).
    { apply in_map. apply in_or_app. simpl. auto. }
    assert (Ib : In (rt (b, [])) (map rt (gs1 ++ (p, l) :: map (fun b => (b, [])) (b :: rest)))).
    { apply in_map. apply in_or_app. simpl. auto. }
    unfold rt in Ip, Ib. cbn [fst snd map] in Ip, Ib.
    pose proof (g_desc _ _ _ _ _ (s_groups _ _ _ _ S _ _ Ip)) as Dp. pose proof (g_desc _ _ _ _ _ (s_groups _ _ _ _ S _ _ Ib)) as Db.
    cbn [flat_map] in Db. rewrite app_nil_r in Db.
    assert (LW : last_opt (h_desc (d_h d) (b_root p)) = last_opt (h_desc (d_h d0) (b_root (last l p)))).
    { rewrite Dp, <- last_map. apply last_words. intros r I. change (b_root p :: map b_root l) with (map b_root (p :: l)) in I.
      apply in_map_iff in I as (c&<-&I). apply F. change (p :: l ++ b :: rest) with ((p :: l) ++ b :: rest). apply in_or_app. auto. }
    assert (IL : In (last l p) (p :: l ++ b :: rest)).
    { change (p :: l ++ b :: rest) with ((p :: l) ++ b :: rest). apply in_or_app. left. apply last_in. }
    destruct (F _ IL) as [NE FL]. assert (exists w, last_opt (h_desc (d_h d0) (b_root (last l p))) = Some w) as (w&EW).
    { destruct (exists_last NE) as (k&y&->). rewrite last_opt_app. eauto. }
    destruct (FL w EW) as [F1 F2]. destruct (n_form (d_at d0 w)) as [f|] eqn:EF; [|tauto].
    assert (NF : f <> []) by (intros ->; apply F2; exact EF || reflexivity). destruct (exists_last NF) as (f0&c&->).
    assert (NB : h_desc (d_h d0) (b_root b) <> []) by (apply F; right; apply in_or_app; simpl; auto).
    assert (ES : should_merge_bundles d p b = Ok (N.eqb c semicolon)).
    { unfold should_merge_bundles. rewrite LW, EW, Db. destruct (h_desc (d_h d0) (b_root b)) as [|y k]; [tauto|].
      unfold should_merge_tokens. rewrite A, EF, last_opt_app. auto. }
    rewrite ES, bind_ok. destruct (N.eqb_spec c semicolon) as [EC|NC].
    - rewrite map_app in S. cbn [map] in S. destruct (state_step d0 tok d (map rt gs1) (b_root p) (map b_root l) (b_root b) (map rt (map (fun b => (b, [])) rest))) as (d'&E&S'&A').
      { exact S. } { auto. }
      rewrite E, bind_ok. destruct (IH d' gs1 p (l ++ [b])) as (d2&l2&gs2&E2&S2&A2&FL2&LK&MX).
      + rewrite map_app. cbn [map]. unfold rt at 2. cbn [fst snd]. rewrite map_app. exact S'.
      + congruence.
      + intros b' I. apply F. rewrite <- app_assoc in I. auto.
      + apply chain_snoc; auto. exists w, f0. rewrite EF, EC. auto.
      + exists d2, (b :: l2), gs2. rewrite <- (app_assoc l [b] l2) in *. rewrite <- (app_assoc l [b] rest) in FL2. cbn [app] in *. auto 10.
    - destruct (IH d (gs1 ++ [(p, l)]) b []) as (d2&l2&gs2&E2&S2&A2&FL2&LK&MX).
      + rewrite <- app_assoc. exact S.
      + auto.
      + intros b' I. apply F. right. apply in_or_app. right. auto.
      + simpl. auto.
      + rewrite E2, bind_ok. exists d2, [], ((b, [] ++ l2) :: gs2). rewrite <- app_assoc in S2. rewrite !app_nil_r. split; [auto|]. split; [auto|]. split; [auto|].
        split; [unfold flat in *; cbn [flat_map fst snd] in *; rewrite FL2; auto|]. split.
        * intros b' k [E'|I]; [injection E' as <- <-; auto|auto].
        * intros pre b' k c' k' post EE. destruct pre as [|g pre].
          -- injection EE as <- <- <- <- <-. intros (w'&f'&W1&W2). rewrite EW in W1. injection W1 as <-. rewrite EF in W2. injection W2 as W2.
             apply app_inj_tail in W2 as [_ W2]. apply NC. auto.
          -- injection EE as _ EE. apply (MX pre b' k c' k' post EE).
  Qed.
End merge.

(** Every tree is the tree of one bundle. *)
Lemma merge_prop d bundles : bundles <> [] -> NoDup (map b_root bundles) ->
  (forall b, In b bundles -> sound_sentence d (b_root b) /\ h_desc (d_h d) (b_root b) <> [] /\
     forall w, last_opt (h_desc (d_h d) (b_root b)) = Some w -> n_form (d_at d w) <> Some []) ->
  exists d' gs, merge_document d bundles = (d', Ok (map fst gs)) /\
    flat_map (fun g => fst g :: snd g) gs = bundles /\
    (forall b l, In (b, l) gs -> chain (fun x _ => ends_semicolon d (b_root x)) (b :: l) /\ appended d d' (b_root b) (map b_root l)) /\
    (forall pre b l c k post, gs = pre ++ (b, l) :: (c, k) :: post -> ~ ends_semicolon d (b_root (last l b))) /\
    (forall w, d_at d' w = d_at d w) /\ (forall w, d_mwt d' w = d_mwt d w) /\ (forall m, d_m d' m = d_m d m).
Proof.
  intros NE ND H. destruct bundles as [|b rest]; [tauto|].
  destruct (all_tokens d (map b_root (b :: rest))) as (tok&T).
  { intros r I. apply in_map_iff in I as (c&<-&I). apply H. auto. }
  destruct (merge_steps d tok rest d [] b []) as (d'&l2&gs2&E&S&A&F&L&M); auto.
  - cbn [app]. replace (map rt ((b, []) :: map (fun b => (b, [])) rest)) with (map (fun r => (r, @nil nat)) (map b_root (b :: rest))).
    + apply state_start; auto.
    + cbn [map]. f_equal. rewrite !map_map. apply map_ext. auto.
  - cbn [app]. intros c I. destruct (H c I) as (S0&N0&F0). split; [auto|]. intros w W. split; [|apply F0; auto].
    apply (so_forms _ _ S0). apply last_opt_last in W as (k&->). apply in_or_app. simpl. auto.
  - simpl. auto.
  - cbn [app] in *. exists d', ((b, l2) :: gs2). split; [exact E|]. split; [exact F|]. split; [|split; [exact M|]].
    + intros b' k I. split; [apply (L b' k I)|]. apply (group_appended d tok d' _ _ _ S).
      * apply (in_map rt) in I. exact I.
      * intros r Ir. apply T. change (b_root b' :: map b_root k) with (map b_root (b' :: k)) in Ir. apply in_map_iff in Ir as (c&<-&Ic). apply in_map.
        rewrite <- F. unfold flat. apply in_flat_map. exists (b', k). auto.
    + rewrite A, (s_mwt _ _ _ _ S), (s_m _ _ _ _ S). auto.
Qed.

(** ---- util.JoinSentence ---- *)
Lemma command_ok name value d w : is_command name value d w = true <-> has_command name value d w.
Proof.
  unfold is_command, has_command, misc_of. destruct value as [v|].
  - destruct (misc_get (n_misc (d_at d w)) name) as [| |y]; simpl; try (split; discriminate). rewrite str_eqb_eq. split; congruence.
  - destruct (misc_get (n_misc (d_at d w)) name) as [| |[|c y]]; simpl; split; intros; auto; try discriminate.
Qed.
Lemma commands_ok name value d r : filter (is_command name value d) (h_desc (d_h d) r) = [] <-> ~ has_commands name value d r.
Proof.
  split.
  - intros E (w&I&C). apply command_ok in C. assert (J : In w (filter (is_command name value d) (h_desc (d_h d) r))) by (apply filter_In; auto). rewrite E in J. destruct J.
  - intros N. apply filter_none. intros w I. destruct (is_command name value d w) eqn:E; auto. elim N. exists w. split; [auto|]. apply command_ok. auto.
Qed.
Lemma clear_ok name : forall l d, (forall x, In x l -> good (n_misc (d_at d x))) ->
  let d' := clear_commands d name l in
  skel d d' /\ d_ri d' = d_ri d /\ d_mwt d' = d_mwt d /\ d_m d' = d_m d /\
  (forall w, ~ In w l -> d_at d' w = d_at d w) /\
  (forall w, good (n_misc (d_at d w)) -> good (n_misc (d_at d' w))) /\
  (forall w, same_but_misc (d_at d' w) (d_at d w)) /\
  (forall w k, k <> name -> misc_of d' w k = misc_of d w k) /\ (forall w, In w l -> misc_of d' w name = VStr []).
Proof.
  induction l as [|x l IH]; intros d G; cbn [clear_commands].
  - cbv zeta. split; [apply skel_refl|]. repeat (split; [solve [auto]|]). split; [intros w; repeat split|]. split; [auto|]. intros w [].
  - destruct (put_misc_ok d x name (VStr []) (G x (or_introl eq_refl))) as (S1&F1&B1&G1&K1); [discriminate|].
    set (d1 := put_misc d x name (VStr [])) in *.
    assert (GG : forall w, good (n_misc (d_at d w)) -> good (n_misc (d_at d1 w))).
    { intros w Gw. destruct (Nat.eq_dec w x) as [->|N]; [auto|rewrite F1; auto]. }
    destruct (IH d1) as (S2&R2&M2&MM2&F2&G2&B2&K2&C2); [intros y I; apply GG; apply G; simpl; auto|].
    cbv zeta. split; [eapply skel_trans; eauto|]. split; [rewrite R2; auto|]. split; [rewrite M2; auto|]. split; [rewrite MM2; auto|].
    split; [intros w N; rewrite F2, F1; [auto|intros ->; apply N; simpl; auto|intros C; apply N; simpl; auto]|]. split; [auto|]. split; [|split].
    + intros w. specialize (B2 w). destruct (Nat.eq_dec w x) as [->|N]; [|rewrite F1 in B2; auto]. unfold same_but_misc in *. intuition congruence.
    + intros w k N. rewrite K2 by auto. destruct (Nat.eq_dec w x) as [->|Nx]; [|unfold misc_of; rewrite F1; auto]. rewrite K1.
      apply str_eqb_neq in N. rewrite N. auto.
    + intros w I. destruct (in_dec Nat.eq_dec w l) as [J|J]; [auto|]. destruct I as [<-|I]; [|tauto].
      unfold misc_of. rewrite F2 by auto. pose proof (K1 name) as K. rewrite str_eqb_refl in K. exact K.
Qed.

Section bymisc.
  Variables (name : str) (value : option str) (d0 : doc) (tok : nat -> list token).
  Hypothesis Hname : name <> SpaceAfter.
  Notation st := (state d0 tok).
  Notation cmd := (has_command name value d0).
  Notation cmds := (has_commands name value d0).
  (** what has become of a word *)
  Definition word_after (d : doc) (w : nat) (cleared : Prop) : Prop :=
    same_but_misc (d_at d w) (d_at d0 w) /\ (forall k, k <> name -> misc_of d w k = misc_of d0 w k) /\
    (cleared -> misc_of d w name = VStr []) /\ (~ cleared -> misc_of d w name = misc_of d0 w name).

  Lemma heads_in (gs : list (bundle1 * list bundle1)) b : In b (map fst gs) -> In b (flat gs).
  Proof. intros I. apply in_map_iff in I as ((b'&l)&<-&I). apply in_flat_map. exists (b', l). simpl. auto. Qed.
  Lemma misc_steps : forall rest d gs cur prev, st d (map rt (gs ++ map (fun b => (b, [])) rest)) ->
    (forall w, good (n_misc (d_at d0 w)) -> good (n_misc (d_at d w))) ->
    (forall b w, In b rest -> In w (h_desc (d_h d0) (b_root b)) -> good (n_misc (d_at d0 w))) ->
    (forall w, word_after d w ((exists b, In b (flat gs) /\ In w (h_desc (d_h d0) (b_root b))) /\ cmd w)) ->
    (forall b w, In b rest -> In w (h_desc (d_h d0) (b_root b)) -> d_at d w = d_at d0 w) ->
    cur = map fst gs ++ rest -> prev = match last_opt gs with None => None | Some g => Some (b_root (fst g)) end ->
    (gs = [] -> match rest with [] => True | b :: _ => ~ cmds (b_root b) end) ->
    (forall b l, In (b, l) gs -> ~ cmds (b_root b) /\ forall c, In c l -> cmds (b_root c)) ->
    (forall b, In b (flat gs ++ rest) -> consistent (d_h d0) (b_root b)) ->
    exists d' gs', join_by_misc name value d cur prev rest = (d', Ok (map fst gs')) /\ st d' (map rt gs') /\ flat gs' = flat gs ++ rest /\
      (forall w, word_after d' w ((exists b, In b (flat gs') /\ In w (h_desc (d_h d0) (b_root b))) /\ cmd w)) /\
      (forall b l, In (b, l) gs' -> ~ cmds (b_root b) /\ forall c, In c l -> cmds (b_root c)).
  Proof.
    induction rest as [|b rest IH]; intros d gs cur prev S GG G0 WA UN EC EP FST HG CO.
    { exists d, gs. cbn [map] in S. rewrite !app_nil_r in *. subst cur. cbn [join_by_misc]. auto 10. }
    cbn [join_by_misc]. assert (Ib : In (rt (b, [])) (map rt (gs ++ map (fun b => (b, [])) (b :: rest)))) by (apply in_map; apply in_or_app; simpl; auto).
    pose proof (s_groups _ _ _ _ S _ _ Ib) as Gb. pose proof (g_desc _ _ _ _ _ Gb) as Db. cbn [flat_map fst snd map] in Db. rewrite app_nil_r in Db.
    assert (EF : filter (is_command name value d) (h_desc (d_h d) (b_root b)) = filter (is_command name value d0) (h_desc (d_h d0) (b_root b))).
    { rewrite Db. apply filter_ext_in'. intros w I. unfold is_command. rewrite (UN b w) by (simpl; auto). auto. }
    rewrite EF. destruct (filter (is_command name value d0) (h_desc (d_h d0) (b_root b))) as [|c0 cs] eqn:EL.
    - apply commands_ok in EL. destruct (IH d (gs ++ [(b, [])]) cur (Some (b_root b))) as (d'&gs'&E&S'&F'&W'&H'); auto.
      + rewrite <- app_assoc. exact S.
      + intros b' w I. apply G0. simpl. auto.
      + intros w. destruct (WA w) as (A1&A2&A3&A4). split; [auto|]. split; [auto|]. split.
        * intros ((b'&I1&I2)&C). rewrite flat_app in I1. apply in_app_or in I1 as [I1|I1]; [apply A3; eauto|]. simpl in I1. destruct I1 as [<-|[]].
          elim EL. exists w. auto.
        * intros N. apply A4. intros ((b'&I1&I2)&C). apply N. split; [|auto]. exists b'. rewrite flat_app. split; [apply in_or_app; auto|auto].
      + intros b' w I. apply UN. simpl. auto.
      + rewrite EC, map_app, <- app_assoc. auto.
      + rewrite last_opt_app. auto.
      + intros E. destruct gs; discriminate.
      + intros b' l I. apply in_app_or in I as [I|[I|[]]]; [auto|]. injection I as <- <-. split; [auto|intros c []].
      + intros b' I. apply CO. rewrite flat_app in I. rewrite <- app_assoc in I. exact I.
      + exists d', gs'. split; [exact E|]. split; [auto|]. rewrite flat_app in F'. rewrite <- app_assoc in F'. auto.
    - rewrite <- EL. assert (HC : cmds (b_root b)).
      { assert (J : In c0 (filter (is_command name value d0) (h_desc (d_h d0) (b_root b)))) by (rewrite EL; simpl; auto).
        apply filter_In in J as [J1 J2]. exists c0. split; [auto|]. apply command_ok. auto. }
      destruct (last_opt gs) as [[p l]|] eqn:LG.
      2:{ exfalso. assert (gs = []). { destruct gs as [|g gs]; auto. destruct (@exists_last _ (g :: gs)) as (k&z&E); [discriminate|]. rewrite E, last_opt_app in LG. discriminate. }
          specialize (FST H). tauto. }
      subst prev. cbn [fst]. apply last_opt_last in LG as (gs1&->).
      assert (S1 : st d (map rt gs1 ++ (b_root p, map b_root l) :: (b_root b, []) :: map rt (map (fun b => (b, [])) rest))).
      { rewrite <- app_assoc in S. rewrite map_app in S. exact S. }
      destruct (state_step d0 tok d (map rt gs1) (b_root p) (map b_root l) (b_root b) _ S1) as (d1&E1&S2&A1).
      { intros E. rewrite E in EL. discriminate. }
      rewrite E1, bind_ok. set (cl := filter (is_command name value d0) (h_desc (d_h d0) (b_root b))) in *.
      assert (ICL : forall w, In w cl <-> In w (h_desc (d_h d0) (b_root b)) /\ cmd w).
      { intros w. unfold cl. rewrite filter_In, command_ok. tauto. }
      destruct (clear_ok name cl d1) as (K1&K2&K3&K4&K5&K6&K7&K8&K9).
      { intros x I. rewrite A1. apply GG. apply ICL in I as [I _]. apply (G0 b); simpl; auto. }
      set (d2 := clear_commands d1 name cl) in *.
      assert (SP : same_print d0 d2).
      { intros w. pose proof (s_print _ _ _ _ S2 w) as [P1 P2]. split; [rewrite <- P1; apply (K7 w)|]. rewrite K8 by auto. auto. }
      pose proof (state_attrs d0 tok d1 d2 _ K1 K2 K3 K4 SP S2) as S3.
      assert (ND : NoDup (map b_root (flat gs1 ++ p :: l ++ b :: rest))).
      { pose proof (s_once _ _ _ _ S) as O. rewrite flat_rt in O. rewrite <- app_assoc, flat_app in O.
        replace (flat ([(p, l)] ++ map (fun b => (b, [])) (b :: rest))) with (p :: l ++ b :: rest) in O; [auto|].
        unfold flat. cbn [app map flat_map fst snd]. f_equal. f_equal. f_equal. clear. induction rest as [|x r IH]; simpl; congruence. }
      assert (DISJ : forall b' w, In b' (flat gs1 ++ p :: l ++ rest) -> In w (h_desc (d_h d0) (b_root b')) -> ~ In w (h_desc (d_h d0) (b_root b))).
      { intros b' w I J K. assert (CB : consistent (d_h d0) (b_root b')).
        { apply CO. rewrite flat_app. unfold flat at 2. cbn [flat_map fst snd]. rewrite app_nil_r, <- app_assoc. cbn [app].
          rewrite !in_app_iff in *. simpl in *. rewrite !in_app_iff in *. simpl. tauto. }
        assert (CC : consistent (d_h d0) (b_root b)) by (apply CO; apply in_or_app; simpl; auto).
        assert (b_root b' = b_root b). { rewrite <- (c_roots _ _ CB w), <- (c_roots _ _ CC w); [auto|right; auto..]. }
        replace (flat gs1 ++ p :: l ++ b :: rest) with ((flat gs1 ++ p :: l) ++ b :: rest) in ND by (rewrite <- app_assoc; auto).
        rewrite map_app in ND. cbn [map] in ND. apply NoDup_remove_2 in ND. apply ND. rewrite <- map_app, <- H. apply in_map. rewrite <- app_assoc. exact I. }
      assert (EFL : flat (gs1 ++ [(p, l ++ [b])]) = flat (gs1 ++ [(p, l)]) ++ [b]).
      { rewrite !flat_app. unfold flat at 2 4. cbn [flat_map fst snd]. rewrite !app_nil_r, <- app_assoc. auto. }
      destruct (IH d2 (gs1 ++ [(p, l ++ [b])]) (drop_bundle cur b) (Some (b_root p))) as (d'&gs'&E&S'&F'&W'&H'); auto.
      + rewrite <- app_assoc. rewrite map_app. cbn [map app]. unfold rt at 2. cbn [fst snd]. rewrite map_app. exact S3.
      + intros w Gw. apply K6. rewrite A1. auto.
      + intros b' w I. apply G0. simpl. auto.
      + intros w. rewrite EFL. destruct (WA w) as (A2&A3&A4&A5). split; [|split; [|split]].
        * pose proof (K7 w) as B. rewrite A1 in B. clear - A2 B. unfold same_but_misc in *. intuition congruence.
        * intros k N. rewrite K8 by auto. unfold misc_of at 1. rewrite A1. apply A3. auto.
        * intros ((b'&I1&I2)&C). apply in_app_or in I1 as [I1|[<-|[]]]; [|apply K9; apply ICL; auto].
          unfold misc_of. rewrite K5; [rewrite A1; apply A4; eauto|]. intros X. apply ICL in X as [X _]. revert X. apply (DISJ b'); auto.
          rewrite flat_app in I1. unfold flat at 2 in I1. cbn [flat_map fst snd] in I1. rewrite app_nil_r in I1.
          rewrite !in_app_iff in *. simpl in *. rewrite in_app_iff. tauto.
        * intros N. unfold misc_of at 1. rewrite K5; [rewrite A1; apply A5|].
          -- intros ((b'&I1&I2)&C). apply N. split; [|auto]. exists b'. split; [apply in_or_app; auto|auto].
          -- intros X. apply ICL in X as [X1 X2]. apply N. split; [|auto]. exists b. split; [apply in_or_app; simpl; auto|auto].
      + intros b' w I J. rewrite K5; [rewrite A1; apply (UN b'); simpl; auto|]. intros C. apply ICL in C as [C _]. revert C. apply (DISJ b'); auto.
        apply in_or_app. right. right. apply in_or_app. auto.
      + rewrite EC. unfold drop_bundle. rewrite filter_app. cbn [filter]. rewrite Nat.eqb_refl. cbn [negb]. f_equal.
        * rewrite filter_all; [rewrite !map_app; auto|]. intros x I. apply heads_in in I.
          apply negb_true_iff, Nat.eqb_neq. intros X.
          replace (flat gs1 ++ p :: l ++ b :: rest) with ((flat (gs1 ++ [(p, l)])) ++ b :: rest) in ND
            by (rewrite flat_app; unfold flat at 2; cbn [flat_map fst snd]; rewrite app_nil_r, <- app_assoc; auto).
          rewrite map_app in ND. cbn [map] in ND. apply NoDup_remove_2 in ND. apply ND. apply in_or_app. left. rewrite <- X. apply in_map. auto.
        * apply filter_all. intros x I. apply negb_true_iff, Nat.eqb_neq. intros X.
          replace (flat gs1 ++ p :: l ++ b :: rest) with ((flat gs1 ++ p :: l) ++ b :: rest) in ND by (rewrite <- app_assoc; auto).
          rewrite map_app in ND. cbn [map] in ND. apply NoDup_remove_2 in ND. apply ND. apply in_or_app. right. rewrite <- X. apply in_map. auto.
      + rewrite last_opt_app. auto.
      + intros E. destruct gs1; discriminate.
      + intros b' k I. apply in_app_or in I as [I|[I|[]]]; [apply HG; apply in_or_app; auto|]. injection I as <- <-.
        destruct (HG p l) as [H1 H2]; [apply in_or_app; simpl; auto|]. split; [auto|]. intros c I. apply in_app_or in I as [I|[<-|[]]]; auto.
      + intros b' I. apply CO. rewrite EFL, <- app_assoc in I. exact I.
      + exists d', gs'. split; [exact E|]. split; [auto|]. split; [|auto]. rewrite F', EFL, <- app_assoc. auto.
  Qed.
End bymisc.

Lemma join_misc_prop name value d bundles : name <> s "SpaceAfter" -> NoDup (map b_root bundles) ->
  (forall b, In b bundles -> sound_sentence d (b_root b) /\ forall w, In w (h_desc (d_h d) (b_root b)) -> misc_ok (n_misc (d_at d w))) ->
  (forall b rest, bundles = b :: rest -> ~ has_commands name value d (b_root b)) ->
  exists d' gs, join_by_misc name value d bundles None bundles = (d', Ok (map fst gs)) /\
    flat_map (fun g => fst g :: snd g) gs = bundles /\
    (forall b l, In (b, l) gs -> ~ has_commands name value d (b_root b) /\ (forall c, In c l -> has_commands name value d (b_root c)) /\
       appended d d' (b_root b) (map b_root l)) /\
    (forall w, same_but_misc (d_at d' w) (d_at d w)) /\
    (forall w k, k <> name -> misc_of d' w k = misc_of d w k) /\
    (forall b w, In b bundles -> In w (h_desc (d_h d) (b_root b)) ->
       (has_command name value d w -> misc_of d' w name = VStr []) /\ (~ has_command name value d w -> misc_of d' w name = misc_of d w name)) /\
    (forall w, d_mwt d' w = d_mwt d w) /\ (forall m, d_m d' m = d_m d m).
Proof.
  intros NM ND H F0. destruct (all_tokens d (map b_root bundles)) as (tok&T).
  { intros r I. apply in_map_iff in I as (c&<-&I). apply H. auto. }
  destruct (misc_steps name value d tok NM bundles d [] bundles None) as (d'&gs&E&S&F&W&G); auto.
  - cbn [app]. replace (map rt (map (fun b => (b, [])) bundles)) with (map (fun r => (r, @nil nat)) (map b_root bundles)).
    + apply state_start; auto.
    + rewrite !map_map. apply map_ext. auto.
  - intros b w I J. apply good_ok. apply (H b I). auto.
  - intros w. split; [repeat split|]. split; [auto|]. split; [intros ((b&[]&_)&_)|auto].
  - intros _. destruct bundles as [|b rest]; [exact I|]. apply (F0 b rest eq_refl).
  - intros b l [].
  - intros b I. apply (H b I).
  - cbn [flat flat_map app] in F. exists d', gs. split; [exact E|]. split; [exact F|]. split; [|split; [|split; [|split]]].
    + intros b k I. destruct (G b k I) as [G1 G2]. split; [auto|]. split; [auto|]. apply (group_appended d tok d' _ _ _ S).
      * apply (in_map rt) in I. exact I.
      * intros r Ir. apply T. change (b_root b :: map b_root k) with (map b_root (b :: k)) in Ir. apply in_map_iff in Ir as (c&<-&Ic). apply in_map.
        rewrite <- F. apply in_flat_map. exists (b, k). auto.
    + intros w. apply W.
    + intros w. apply W.
    + intros b w I J. destruct (W w) as (_&_&W3&W4). split; intros C; [apply W3|apply W4; tauto]. split; [|auto]. exists b. rewrite F. auto.
    + rewrite (s_mwt _ _ _ _ S), (s_m _ _ _ _ S). auto.
Qed.

Lemma first_marked name value d b rest : has_commands name value d (b_root b) ->
  join_by_misc name value d (b :: rest) None (b :: rest) = (d, Raise AttributeError).
Proof.
  intros (w&I&C). cbn [join_by_misc]. destruct (filter (is_command name value d) (h_desc (d_h d) (b_root b))) eqn:E; [|auto].
  apply commands_ok in E. elim E. exists w. auto.
Qed.
Lemma by_id_none x d bs : forall rest, join_by_id x d bs None rest = if existsb (fun b => has_id b x) rest then (d, Raise AttributeError) else (d, Ok bs).
Proof. induction rest as [|b rest IH]; simpl; auto. destruct (has_id b x); simpl; auto. Qed.
Lemma by_id_prop x d bs :
  ((exists b, In b bs /\ b_id b = Some x) -> join_by_id x d bs None bs = (d, Raise AttributeError)) /\
  (~ (exists b, In b bs /\ b_id b = Some x) -> join_by_id x d bs None bs = (d, Ok bs)).
Proof.
  rewrite by_id_none. assert (H : existsb (fun b => has_id b x) bs = true <-> exists b, In b bs /\ b_id b = Some x).
  { rewrite existsb_exists. split; intros (b&I&E); exists b; (split; [auto|]); unfold has_id in *.
    - destruct (b_id b) as [y|]; [|discriminate]. apply str_eqb_eq in E. congruence.
    - rewrite E. apply str_eqb_refl. }
  destruct (existsb (fun b => has_id b x) bs); split; intros C; auto; [elim C; apply H; auto|apply H in C; discriminate].
Qed.
Lemma merge_empty : (forall d, merge_document d [] = (d, Raise IndexError)) /\
  (forall d b c rest, h_desc (d_h d) (b_root b) = [] \/ h_desc (d_h d) (b_root c) = [] -> merge_document d (b :: c :: rest) = (d, Raise IndexError)).
Proof.
  split; [auto|]. intros d b c rest H. simpl. unfold should_merge_bundles.
  destruct H as [-> | ->]; [auto|]. destruct (last_opt (h_desc (d_h d) (b_root b))); auto.
Qed.
