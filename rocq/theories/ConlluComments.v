(** The comment lines printed by the writer. *)
From Coq Require Import String List NArith ZArith Bool Lia.
From Verif Require Import PyStr PyStrFacts PyList PyListFacts PyExn TreeModel DualDictModel DocModel ConlluModel ConlluSpec.
Import ListNotations.

Lemma shown_sent_id_is env ri x : sent_id_is env ri x -> shown_sent_id env ri = x.
Proof.
  unfold shown_sent_id. intros [y E|b E1 E2 E3|b z E1 E2 E3 N]; [now rewrite E| |]; rewrite E1.
  - assert (match ri_zone ri with Some (c :: z) => s "/" ++ c :: z | _ => [] end = []) as -> by (destruct E3 as [->| ->]; auto).
    destruct E2 as [->|[-> ->]]; rewrite app_nil_r; auto.
  - rewrite E3. destruct z; [congruence|]. destruct E2 as [->|[-> ->]]; auto.
Qed.
Lemma interleave_left {A} (l : list A) : interleave l [] l.
Proof. induction l; constructor; auto. Qed.
Lemma interleave_right {A} (l : list A) : interleave [] l l.
Proof. induction l; constructor; auto. Qed.
Lemma interleave_app {A} (a b c a' b' c' : list A) :
  interleave a b c -> interleave a' b' c' -> interleave (a ++ a') (b ++ b') (c ++ c').
Proof. induction 1; intros; simpl; auto; constructor; auto. Qed.
Lemma interleave_map {A B} (f : A -> B) : forall a b out, interleave (map f a) (map f b) out ->
  exists l, out = map f l /\ interleave a b l.
Proof.
  intros a b out H. remember (map f a) as a1 eqn:Ea. remember (map f b) as b1 eqn:Eb. revert a b Ea Eb.
  induction H as [|x l1 l2 l H IH|x l1 l2 l H IH]; intros a b Ea Eb.
  - destruct a; [|discriminate]. destruct b; [|discriminate]. exists []. split; auto. constructor.
  - destruct a as [|y a]; [discriminate|]. injection Ea as -> Ea.
    destruct (IH a b Ea Eb) as [m [-> I]]. exists (y :: m). split; auto. constructor; auto.
  - destruct b as [|y b]; [discriminate|]. injection Eb as -> Eb.
    destruct (IH a b Ea Eb) as [m [-> I]]. exists (y :: m). split; auto. constructor; auto.
Qed.
Lemma map_res_Forall2 {A B} (f : A -> res B) : forall l l', map_res f l = Ok l' <-> Forall2 (fun x y => f x = Ok y) l l'.
Proof.
  induction l as [|x l IH]; intros l'; simpl.
  - split; [intros [= <-]; constructor|inversion 1; auto].
  - split.
    + destruct (f x) as [y| |] eqn:E; try discriminate. simpl.
      destruct (map_res f l) as [ys| |] eqn:E2; try discriminate. simpl. intros [= <-]. constructor; auto. now apply IH.
    + inversion 1; subst. rewrite H2. simpl. apply IH in H4. rewrite H4. auto.
Qed.
Lemma rbind_Ok {A B} (m : res A) (f : A -> res B) x : rbind m f = Ok x -> exists y, m = Ok y /\ f y = Ok x.
Proof. destruct m; simpl; try discriminate. eauto. Qed.
Lemma Forall2_length_eq {A B} (P : A -> B -> Prop) l l' : Forall2 P l l' -> length l = length l'.
Proof. induction 1; simpl; auto. Qed.

Lemma upto_le c l : upto c l <= length l.
Proof.
  induction l as [|x l IH]; simpl; auto. destruct (upto c l); [destruct (str_eqb x c)|]; lia.
Qed.
Lemma upto_0 c l : upto c l = 0 <-> ~ In c l.
Proof.
  induction l as [|x l IH]; simpl; [tauto|]. destruct (upto c l) eqn:E.
  - destruct (str_eqb_spec x c); split; try tauto; try discriminate.
  - split; [discriminate|]. intros N. exfalso. apply N. right.
    destruct (in_dec (list_eq_dec N.eq_dec) c l) as [|M]; auto. apply IH in M. discriminate.
Qed.

Notation printed_lines := (flat_map print_comment).
Lemma flat_map_app' {A B} (f : A -> list B) l l' : flat_map f (l ++ l') = flat_map f l ++ flat_map f l'.
Proof. induction l; simpl; auto. now rewrite IHl, app_assoc. Qed.
Lemma firstn_split {A} (l : list A) k i : k <= i -> firstn i l = firstn k l ++ firstn (i - k) (skipn k l).
Proof.
  revert l i; induction k as [|k IH]; intros l i H; simpl; [now rewrite Nat.sub_0_r|].
  destruct i; [lia|]. destruct l; simpl; [now rewrite firstn_nil|]. f_equal. apply IH. lia.
Qed.
Lemma flush_ok l k i : printed_lines (firstn (Nat.max k i) l) = printed_lines (firstn k l) ++ flush l k i.
Proof.
  unfold flush. destruct (Nat.le_gt_cases k i).
  - rewrite Nat.max_r by auto. rewrite (firstn_split l k i) by auto. apply flat_map_app'.
  - rewrite Nat.max_l by lia. replace (i - k) with 0 by lia. simpl. now rewrite app_nil_r.
Qed.

(** what [place] of comment_lines adds for a special comment *)
Definition addition (raw : list str) (c line : str) : list str := if Nat.eqb (upto c raw) 0 then [line] else [].
Definition placed (raw : list str) (l : list (option str)) (c line : str) (k : nat) : list str * nat :=
  match upto c raw with
  | O => ([line], k)
  | i => (flush l k i, Nat.max k i)
  end.
Lemma placed_ok raw l c line k ms out : k <= length l -> length raw = length l ->
  interleave (printed_lines (firstn k l)) ms out ->
  let (o, k') := placed raw l c line k in
  k' <= length l /\ interleave (printed_lines (firstn k' l)) (ms ++ addition raw c line) (out ++ o).
Proof.
  intros Hk Hl I. unfold placed, addition. pose proof (upto_le c raw) as Hu. destruct (upto c raw) as [|n] eqn:E.
  - split; auto. simpl. rewrite <- (app_nil_r (printed_lines (firstn k l))). apply interleave_app; auto.
    apply interleave_right.
  - split; [lia|]. rewrite flush_ok. apply interleave_app; auto. simpl. apply interleave_left.
Qed.

(** The comments added by the writer, in order; [ge] and [t] are the values of global.Entity
    and text. *)
Definition added_lines (cfg : wcfg) (env : wenv) (ri : rinfo) (ge : option str) (t : str) : list str :=
  let raw := splitlines (ri_comment ri) in
  (if wc_sent_id cfg then
     (if truthy (ri_newdoc ri) then
        addition raw P_NEWDOC (HASH :: pardoc (s " newdoc") (ri_newdoc ri)) ++
        match ge with Some x => addition raw P_GE (s "# global.Entity = " ++ x) | None => [] end
      else []) ++
     (if truthy (ri_newpar ri) then addition raw P_NEWPAR (HASH :: pardoc (s " newpar") (ri_newpar ri)) else []) ++
     addition raw P_SENT_ID (s "# sent_id = " ++ shown_sent_id env ri)
   else []) ++
  (if wc_text cfg then addition raw P_TEXT (s "# text = " ++ t) else []).

Lemma comment_lines_ok cfg env d r l ge t :
  let ri := d_ri d r in
  let raw := splitlines (ri_comment ri) in
  map_res (render cfg env d r) raw = Ok l -> hd_error l <> Some None ->
  (wc_sent_id cfg = true -> truthy (ri_newdoc ri) = true -> shown_ge env = Ok ge) ->
  (wc_text cfg = true -> ~ In P_TEXT raw -> shown_text d r = Ok t) ->
  exists out, comment_lines cfg env d r = Ok out /\
    interleave (printed_lines l) (added_lines cfg env ri ge t) out.
Proof.
  intros ri raw ML HD HG HT. unfold comment_lines. fold ri. fold raw. rewrite ML. cbn [rbind].
  assert (LL : length raw = length l) by (apply map_res_Forall2 in ML; eapply Forall2_length_eq; eauto).
  (* the first line *)
  assert (S0 : exists out0 k0, match l with
                | [] => Ok ([], 0)
                | None :: _ => Raise AttributeError
                | Some c :: _ => Ok (if starts_with (s " global.columns") c then ([HASH :: c], 1) else ([], 0))
                end = Ok (out0, k0) /\ k0 <= length l /\ interleave (printed_lines (firstn k0 l)) [] out0).
  { destruct l as [|[c|] l'].
    - exists [], 0. simpl. repeat split; auto. constructor.
    - destruct (starts_with (s " global.columns") c) eqn:SW.
      + exists [HASH :: c], 1. simpl. repeat split; auto; [lia|].
        destruct c as [|a c]; [discriminate|]. simpl. repeat constructor.
      + exists [], 0. simpl. repeat split; auto; [lia|constructor].
    - simpl in HD. congruence. }
  destruct S0 as (out0 & k0 & E0 & K0 & I0).
  match goal with |- context [rbind ?m _] => replace m with (Ok (out0, k0)) by (symmetry; exact E0) end.
  cbn [rbind]. clear E0.
  change (fun (c missing0 : str) (k : nat) => match upto c raw with
    | 0 => ([missing0], k) | S _ as i => (flush l k i, Nat.max k i) end) with (placed raw l).
  (* the text *)
  assert (ST : exists o5, (if wc_text cfg then
           match upto P_TEXT raw with
           | O => rbind (shown_text d r) (fun t => Ok [s "# text = " ++ t])
           | _ => Ok []
           end
         else Ok []) = Ok o5 /\ o5 = if wc_text cfg then addition raw P_TEXT (s "# text = " ++ t) else []).
  { destruct (wc_text cfg) eqn:WT; [|eauto]. unfold addition. destruct (upto P_TEXT raw) eqn:U; [|eauto].
    apply upto_0 in U. rewrite HT by auto. simpl. eauto. }
  destruct ST as (o5 & E5 & EQ5).
  (* the other special comments *)
  assert (SM : exists o4 k4, (if wc_sent_id cfg then
           rbind (if truthy (ri_newdoc ri) then
                    let (o1, k1) := placed raw l P_NEWDOC (HASH :: pardoc (s " newdoc") (ri_newdoc ri)) k0 in
                    rbind (shown_ge env) (fun ge =>
                    Ok (match ge with
                        | Some x => let (o2, k2) := placed raw l P_GE (s "# global.Entity = " ++ x) k1 in (o1 ++ o2, k2)
                        | None => (o1, k1)
                        end))
                  else Ok ([], k0)) (fun '(o2, k2) =>
           let (o3, k3) := if truthy (ri_newpar ri)
                           then placed raw l P_NEWPAR (HASH :: pardoc (s " newpar") (ri_newpar ri)) k2
                           else ([], k2) in
           let (o4, k4) := placed raw l P_SENT_ID (s "# sent_id = " ++ shown_sent_id env ri) k3 in
           Ok (o2 ++ o3 ++ o4, k4))
         else Ok ([], k0)) = Ok (o4, k4) /\ k4 <= length l /\
      interleave (printed_lines (firstn k4 l))
                 (if wc_sent_id cfg then
     (if truthy (ri_newdoc ri) then
        addition raw P_NEWDOC (HASH :: pardoc (s " newdoc") (ri_newdoc ri)) ++
        match ge with Some x => addition raw P_GE (s "# global.Entity = " ++ x) | None => [] end
      else []) ++
     (if truthy (ri_newpar ri) then addition raw P_NEWPAR (HASH :: pardoc (s " newpar") (ri_newpar ri)) else []) ++
     addition raw P_SENT_ID (s "# sent_id = " ++ shown_sent_id env ri)
   else []) (out0 ++ o4)).
  { destruct (wc_sent_id cfg) eqn:WS.
    2:{ exists [], k0. rewrite app_nil_r. auto. }
    (* newdoc and global.Entity *)
    assert (S2 : exists o2 k2, (if truthy (ri_newdoc ri) then
                    let (o1, k1) := placed raw l P_NEWDOC (HASH :: pardoc (s " newdoc") (ri_newdoc ri)) k0 in
                    rbind (shown_ge env) (fun ge =>
                    Ok (match ge with
                        | Some x => let (o2, k2) := placed raw l P_GE (s "# global.Entity = " ++ x) k1 in (o1 ++ o2, k2)
                        | None => (o1, k1)
                        end))
                  else Ok ([], k0)) = Ok (o2, k2) /\ k2 <= length l /\
       interleave (printed_lines (firstn k2 l)) (if truthy (ri_newdoc ri) then
        addition raw P_NEWDOC (HASH :: pardoc (s " newdoc") (ri_newdoc ri)) ++
        match ge with Some x => addition raw P_GE (s "# global.Entity = " ++ x) | None => [] end
      else []) (out0 ++ o2)).
    { destruct (truthy (ri_newdoc ri)) eqn:TD.
      2:{ exists [], k0. rewrite app_nil_r. auto. }
      pose proof (placed_ok raw l P_NEWDOC (HASH :: pardoc (s " newdoc") (ri_newdoc ri)) k0 [] out0 K0 LL I0) as P1.
      destruct (placed raw l P_NEWDOC _ k0) as [o1 k1]. destruct P1 as [K1 I1].
      rewrite HG by auto. cbn [rbind]. destruct ge as [x|].
      - pose proof (placed_ok raw l P_GE (s "# global.Entity = " ++ x) k1 _ _ K1 LL I1) as P2.
        destruct (placed raw l P_GE _ k1) as [o2 k2]. destruct P2 as [K2 I2].
        exists (o1 ++ o2), k2. rewrite app_assoc. auto.
      - exists o1, k1. rewrite app_nil_r. auto. }
    destruct S2 as (o2 & k2 & E2 & K2 & I2). rewrite E2. cbn [rbind]. clear E2.
    (* newpar *)
    assert (S3 : exists o3 k3, (if truthy (ri_newpar ri)
                           then placed raw l P_NEWPAR (HASH :: pardoc (s " newpar") (ri_newpar ri)) k2
                           else ([], k2)) = (o3, k3) /\ k3 <= length l /\
       interleave (printed_lines (firstn k3 l))
         ((if truthy (ri_newdoc ri) then
        addition raw P_NEWDOC (HASH :: pardoc (s " newdoc") (ri_newdoc ri)) ++
        match ge with Some x => addition raw P_GE (s "# global.Entity = " ++ x) | None => [] end
      else []) ++ (if truthy (ri_newpar ri) then addition raw P_NEWPAR (HASH :: pardoc (s " newpar") (ri_newpar ri)) else []))
         ((out0 ++ o2) ++ o3)).
    { destruct (truthy (ri_newpar ri)) eqn:TP.
      2:{ exists [], k2. rewrite !app_nil_r. auto. }
      pose proof (placed_ok raw l P_NEWPAR (HASH :: pardoc (s " newpar") (ri_newpar ri)) k2 _ _ K2 LL I2) as P3.
      destruct (placed raw l P_NEWPAR _ k2) as [o3 k3]. exists o3, k3. destruct P3 as [K3 I3]. auto. }
    destruct S3 as (o3 & k3 & E3 & K3 & I3). rewrite E3. clear E3.
    pose proof (placed_ok raw l P_SENT_ID (s "# sent_id = " ++ shown_sent_id env ri) k3 _ _ K3 LL I3) as P4.
    destruct (placed raw l P_SENT_ID _ k3) as [o4 k4]. destruct P4 as [K4 I4].
    exists (o2 ++ o3 ++ o4), k4. do 2 (split; [auto|]).
    rewrite <- !app_assoc in I4. exact I4. }
  destruct SM as (o4 & k4 & E4 & K4 & I4).
  match goal with |- context [rbind ?m (fun '(o, k) => rbind _ _)] => replace m with (Ok (o4, k4)) by (symmetry; exact E4) end.
  cbn [rbind].
  match goal with |- context [rbind ?m (fun o5 => Ok _)] => replace m with (Ok o5) by (symmetry; exact E5) end.
  cbn [rbind]. eexists. split; [reflexivity|].
  unfold added_lines. cbv zeta. fold raw.
  match goal with |- interleave _ (_ ++ ?q) _ => replace q with o5 by exact EQ5 end.
  rewrite <- (firstn_all l) at 1.
  replace (firstn (length l) l) with (firstn (Nat.max k4 (length l)) l) by (rewrite Nat.max_r; auto).
  rewrite flush_ok.
  replace (out0 ++ o4 ++ o5 ++ flush l k4 (length l)) with ((out0 ++ o4) ++ (o5 ++ flush l k4 (length l))) by (rewrite !app_assoc; auto).
  apply interleave_app; auto.
  rewrite <- (app_nil_l (flush l k4 (length l))) at 1.
  rewrite <- (app_nil_r o5) at 1.
  apply interleave_app; [apply interleave_right|apply interleave_left].
Qed.

(** Conversely, if the comments are printed at all then the conditions hold. *)
Lemma comment_lines_inv cfg env d r out :
  let ri := d_ri d r in
  let raw := splitlines (ri_comment ri) in
  comment_lines cfg env d r = Ok out ->
  exists l ge t, map_res (render cfg env d r) raw = Ok l /\ hd_error l <> Some None /\
  (wc_sent_id cfg = true -> truthy (ri_newdoc ri) = true -> shown_ge env = Ok ge) /\
  (wc_text cfg = true -> ~ In P_TEXT raw -> shown_text d r = Ok t).
Proof.
  intros ri raw. unfold comment_lines. fold ri. fold raw.
  destruct (map_res _ raw) as [l| |] eqn:ML; try discriminate. cbn [rbind].
  destruct (match l with [] => _ | _ => _ end) as [[out0 k0]| |] eqn:E0; try discriminate. cbn [rbind].
  assert (HD : hd_error l <> Some None) by (destruct l as [|[c|] l']; simpl; congruence).
  change (fun (c missing0 : str) (k : nat) => match upto c raw with
    | 0 => ([missing0], k) | S _ as i => (flush l k i, Nat.max k i) end) with (placed raw l).
  intros H.
  assert (exists ge, wc_sent_id cfg = true -> truthy (ri_newdoc ri) = true -> shown_ge env = Ok ge) as [ge HG].
  { destruct (wc_sent_id cfg); [|exists None; discriminate].
    destruct (truthy (ri_newdoc ri)); [|exists None; discriminate].
    apply rbind_Ok in H as (y1 & H1 & _). apply rbind_Ok in H1 as (y2 & H2 & _).
    destruct (upto P_NEWDOC raw); apply rbind_Ok in H2 as (ge & H3 & _); eauto. }
  assert (exists t, wc_text cfg = true -> ~ In P_TEXT raw -> shown_text d r = Ok t) as [t HT].
  { destruct (wc_text cfg); [|exists []; discriminate].
    destruct (upto P_TEXT raw) eqn:U.
    - apply rbind_Ok in H as ([o4 k4] & _ & H). apply rbind_Ok in H as (o5 & H & _). apply rbind_Ok in H as (t & H & _). eauto.
    - exists []. intros _ N. apply upto_0 in N. congruence. }
  exists l, ge, t. auto.
Qed.
