(** From the lines to the tree: attaching the words. *)
From Coq Require Import String List NArith ZArith Bool Lia Sorted Permutation.
From Verif Require Import PyStr PyStrFacts PyList PyListFacts PyExn TreeModel TreeSpec TreeFacts TreeRepr TreeOps TreeCalls
  DualDictModel DualDictSpec DualDictProofs DocModel MwtSpec MwtProofs ConlluModel ConlluSpec ConlluRe ConlluComments ConlluWrite
  ConlluAttach ConlluRead ConlluLines.
Import ListNotations.

(** words that are not attached yet *)
Record loose (h : heap) (r : nat) (ns : list nat) : Prop := {
  lo_desc : h_desc h r = ns;
  lo_nodup : NoDup (r :: ns);
  lo_alloc : forall x, In x (r :: ns) -> x < h_next h;
  lo_kind : forall x, In x ns -> h_kind h x = KNode;
  lo_kindroot : h_kind h r = KRoot;
  lo_root : forall x, In x (r :: ns) -> h_root h x = r;
  lo_par : forall x, In x (r :: ns) -> h_par h x = None;
  lo_ch : forall x, In x (r :: ns) -> h_ch h x = []
}.
Lemma rinv_loose d0 r st ns es wf ef mf ri ge : rinv d0 r st ns es wf ef mf ri ge -> loose (d_h (rd_d st)) r ns.
Proof.
  intros []. destruct iv_root as (K & P & C & R & _ & _).
  assert (RG : forall x, In x ns -> r < x < h_next (d_h (rd_d st))) by (intros; apply iv_range, in_app_iff; auto).
  split; auto.
  - constructor; [intros I; apply RG in I; lia|]. apply NoDup_app_inv in iv_nodup. tauto.
  - intros x [<-|I]; auto. apply RG in I. lia.
  - intros x I. now apply iv_word.
  - intros x [<-|I]; auto. now apply iv_word.
  - intros x [<-|I]; auto. now apply iv_word.
  - intros x [<-|I]; auto. now apply iv_word.
Qed.
Lemma ainv_attached h0 h r ns : loose h0 r ns -> ainv h0 h r ns ns [] -> attached h r.
Proof.
  intros [] []. assert (D : h_desc h r = ns) by (rewrite ai_desc; auto).
  inversion lo_nodup0 as [|? ? NR ND]; subst. set (ns := h_desc h0 r) in *.
  split; rewrite ?D; auto.
  - intros x I. destruct (ai_done x I) as (q & E & Iq). exists q. split; auto. unfold live. rewrite D. destruct Iq; auto.
  - apply ai_todo. simpl; auto.
  - intros y Ly. apply ai_ch. unfold live in Ly. rewrite D in Ly. simpl. destruct Ly; auto.
  - intros x I. assert (E : ended h x) by (apply ai_ended; simpl; auto).
    induction E as [x E|x p E H IH]; destruct (ai_done x I) as (q & E' & Iq); [congruence|].
    assert (p = q) by congruence. subst q. destruct Iq as [<-|Iq]; [now constructor|]. eapply up_S; eauto.
  - intros y Ly. rewrite ai_root. apply lo_root0. unfold live in Ly. rewrite D in Ly. simpl. destruct Ly; auto.
  - split; [intros x I|]; rewrite ai_kind; auto.
  - intros y Ly. rewrite ai_next. apply lo_alloc0. unfold live in Ly. rewrite D in Ly. simpl. destruct Ly; auto.
Qed.
Lemma ainv_start h0 r ns : loose h0 r ns -> ainv h0 h0 r ns [] ns.
Proof.
  intros []. split; auto.
  - intros x [].
  - intros x I. apply ended_top. auto.
Qed.

Lemma attach_all h0 r ns ps fix_cycles : loose h0 r ns -> length ns = length ps ->
  (fix_cycles = true -> forall x, ~ given r ns ps x x) ->
  exists h o, attach_loop fix_cycles h0 r (r :: ns) (combine ns ps) = (h, o) /\
    (exists done todo, ns = done ++ todo /\ ainv h0 h r ns done todo) /\
    ((o = Ok tt /\ ainv h0 h r ns ns [] /\ attached h r /\
      forall x p, In (x, p) (combine ns ps) -> exists q, py_nth (r :: ns) p = Some q /\
          (h_par h x = Some q \/ (fix_cycles = true /\ h_par h x = Some r /\ tc (given r ns ps) x x))) \/
     (o = Raise ValueError /\
        ((exists x p, In (x, p) (combine ns ps) /\ py_nth (r :: ns) p = None) \/
         (fix_cycles = false /\ exists x, tc (given r ns ps) x x)))).
Proof.
  intros LO LE NS.
  destruct (attach_loop_ok h0 r ns ps fix_cycles (lo_nodup _ _ _ LO) (lo_alloc _ _ _ LO) NS ns ps [] [] h0)
    as (h & o & done & todo & E & En & A & D); auto; [now apply ainv_start|simpl; tauto|].
  exists h, o. split; auto. split; [eauto|]. destruct D as [(-> & -> & D)|D]; auto. left.
  rewrite app_nil_r in En. subst done. do 2 (split; [auto|]). split; auto. eapply ainv_attached; eauto.
Qed.

(** ---- multi-word tokens do not touch the tree ---- *)
Lemma remove_old_h : forall l d, d_h (fst (remove_old d l)) = d_h d /\ snd (remove_old d l) <> Diverge.
Proof.
  induction l as [|w l IH]; intros d; simpl; [split; [auto|discriminate]|].
  destruct (d_mwt d w) as [m|]; auto. unfold mwt_remove.
  destruct (forget_fields (m_words (d_m d m)) d) as (F & _).
  destruct (list_remove m (d_mwts (forget d (m_words (d_m d m))) (m_root (d_m (forget d (m_words (d_m d m))) m)))) as [l'|]; cbn [bind].
  - destruct (IH (put_mwts (forget d (m_words (d_m d m))) (m_root (d_m (forget d (m_words (d_m d m))) m)) l')) as (A & B). rewrite A. auto.
  - simpl. split; [auto|discriminate].
Qed.
Lemma create_h d r ws form misc : d_h (fst (create_multiword_token d r ws form misc)) = d_h d /\
  snd (create_multiword_token d r ws form misc) <> Diverge.
Proof.
  unfold create_multiword_token, create_mwt. destruct (remove_old_h ws d) as (A & B).
  destruct (remove_old d ws) as [d' [u|e|]]; simpl in A, B; cbn [bind]; [|split; [auto|discriminate]|congruence].
  match goal with |- context [belong ?x ?m ws] => destruct (belong_fields m ws x) as (F & _) end. simpl in F.
  destruct (last_opt ws) as [w|]; [|simpl; split; [congruence|discriminate]].
  match goal with |- context [dd_get ?x ?k] => destruct (dd_get x k) as [dd v] end.
  split; [|discriminate]. simpl. match goal with |- d_h (clear_space_after ?x ws) = _ => destruct (clear_fields ws x) as (G & _); rewrite G end.
  destruct (val_is v No); simpl; congruence.
Qed.
Lemma mwt_loop_h r nodes : forall l d, d_h (fst (mwt_loop d r nodes l)) = d_h d /\ snd (mwt_loop d r nodes l) <> Diverge.
Proof.
  induction l as [|f l IH]; intros d; cbn [mwt_loop]; [split; [auto|discriminate]|].
  destruct (split MINUS (field f 0)) as [|a [|b [|c t]]]; try (split; [auto|discriminate]).
  destruct (py_int a) as [a'|]; [|split; [auto|discriminate]]. destruct (py_int b) as [b'|]; [|split; [auto|discriminate]].
  match goal with |- context [create_multiword_token d r ?ws ?f ?m] => destruct (create_h d r ws f m) as (A & B);
    destruct (create_multiword_token d r ws f m) as [d' [m'|e|]] end; simpl in A, B; cbn [bind].
  - destruct (IH d') as (C & D). split; [congruence|auto].
  - simpl. split; [auto|discriminate].
  - congruence.
Qed.

(** ---- the end of read_tree_from_lines ---- *)
Definition prepared (lower : str -> str) (r : nat) (st : rd) : doc * list nat :=
  match rd_nodes st with
  | [r'; n] =>
    let a := d_at (rd_d st) n in
    let d := put_at (rd_d st) n (set_misc a (Some (fst (dd_str lower (dd_prop (n_misc a)))))) in
    if str_eqb (misc_str lower (n_misc a)) EmptyYes
    then (with_h d (put_desc (put_ch (d_h d) r []) r []), [r'])
    else (d, [r'; n])
  | l => (rd_d st, l)
  end.
Lemma read_tree_unfold cfg canon lower d0 ge lines st :
  let r := h_next (d_h d0) in
  read_lines cfg canon r (mkRd (fst (doc_new_root d0)) ge [r] [0%Z] []) lines = (st, Ok tt) ->
  read_tree_from_lines cfg canon lower d0 ge lines =
    match rd_nodes st with
    | [_] => ((rd_d st, rd_ge st), Ok None)
    | _ =>
      let (d, nodes) := prepared lower r st in
      match attach_loop (rc_fix_cycles cfg) (d_h d) r nodes (combine (tl nodes) (tl (rd_parents st))) with
      | (h, Raise e) => ((with_h d h, rd_ge st), Raise e)
      | (h, Diverge) => ((with_h d h, rd_ge st), Diverge)
      | (h, Ok _) =>
        match mwt_loop (with_h d h) r nodes (rd_mwts st) with
        | (d, Ok _) => ((d, rd_ge st), Ok (Some r))
        | (d, Raise e) => ((d, rd_ge st), Raise e)
        | (d, Diverge) => ((d, rd_ge st), Diverge)
        end
      end
    end.
Proof.
  intros r E. unfold read_tree_from_lines.
  rewrite (surjective_pairing (doc_new_root d0)). change (snd (doc_new_root d0)) with r. rewrite E. reflexivity.
Qed.
Lemma prepared_cases lower d0 r st ns es wf ef mf ri ge : rinv d0 r st ns es wf ef mf ri ge -> ns <> [] ->
  (exists n, ns = [n] /\ text_of_dd lower (n_misc (d_at (rd_d st) n)) = EmptyYes /\ snd (prepared lower r st) = [r] /\
     d_h (fst (prepared lower r st)) = put_desc (put_ch (d_h (rd_d st)) r []) r []) \/
  ((forall n, ns = [n] -> text_of_dd lower (n_misc (d_at (rd_d st) n)) <> EmptyYes) /\
   snd (prepared lower r st) = r :: ns /\ d_h (fst (prepared lower r st)) = d_h (rd_d st)).
Proof.
  intros IV NE. unfold prepared. rewrite (iv_nodes _ _ _ _ _ _ _ _ _ _ IV).
  destruct ns as [|n [|n2 ns]]; [congruence| |right; split; [discriminate|auto]].
  unfold text_of_dd, misc_str. destruct (str_eqb_spec (snd (dd_str lower (dd_prop (n_misc (d_at (rd_d st) n))))) EmptyYes) as [E|N].
  - left. exists n. auto.
  - right. split; [congruence|auto].
Qed.
(** what preparation leaves alone *)
Lemma prepared_frame lower r st : let d := fst (prepared lower r st) in
  d_mwt d = d_mwt (rd_d st) /\ d_mwts d = d_mwts (rd_d st) /\ d_m d = d_m (rd_d st) /\ d_mnext d = d_mnext (rd_d st) /\
  d_ri d = d_ri (rd_d st) /\
  (forall y, ~ In y (tl (rd_nodes st)) -> d_at d y = d_at (rd_d st) y) /\
  (forall y, d_at d y = d_at (rd_d st) y \/
     d_at d y = set_misc (d_at (rd_d st) y) (Some (fst (dd_str lower (dd_prop (n_misc (d_at (rd_d st) y))))))).
Proof.
  unfold prepared. destruct (rd_nodes st) as [|r' [|n [|n2 ns]]]; cbn [fst tl].
  1,2,4: repeat split; auto.
  destruct (str_eqb (misc_str lower (n_misc (d_at (rd_d st) n))) EmptyYes); cbn [fst with_h put_at d_mwt d_mwts d_m d_mnext d_ri d_at];
    do 5 (split; [auto|]); split; intros y.
  1,3: intros N; assert (y <> n) by (simpl in N; intuition); now upds.
  all: destruct (Nat.eq_dec y n) as [->|]; upds; auto.
Qed.

(** Any input whatsoever. *)
Lemma read_any cfg canon lower d0 ge lines : rc_fix_cycles cfg = false ->
  exists d ge' o, read_tree_from_lines cfg canon lower d0 ge lines = ((d, ge'), o) /\
    match o with
    | Ok (Some r) => attached (d_h d) r /\ h_next (d_h d0) <= r /\
                     (forall y, y < h_next (d_h d0) -> same_object (d_h d0) (d_h d) y)
    | Ok None => True
    | Raise _ => True
    | Diverge => False
    end.
Proof.
  intros FC. set (r := h_next (d_h d0)).
  destruct (any_lines d0 r cfg canon lines _ _ _ _ _ _ _ _ (rinv_start d0 r ge eq_refl)) as (st & o & E & H).
  destruct o as [[]|e|]; [| |tauto].
  2:{ unfold read_tree_from_lines. rewrite (surjective_pairing (doc_new_root d0)). change (snd (doc_new_root d0)) with r. rewrite E.
      do 3 eexists. split; [reflexivity|]. exact I. }
  destruct H as (ns & es & wf & ef & mf & ri & ge' & IV).
  rewrite (read_tree_unfold _ _ _ _ _ _ _ E). fold r.
  destruct ns as [|n0 ns0].
  { rewrite (iv_nodes _ _ _ _ _ _ _ _ _ _ IV). do 3 eexists. split; [reflexivity|]. exact I. }
  set (ns := n0 :: ns0) in *.
  assert (MN : forall {B} (a b : B), match rd_nodes st with [_] => a | _ => b end = b).
  { intros B a b. rewrite (iv_nodes _ _ _ _ _ _ _ _ _ _ IV). reflexivity. }
  rewrite MN. clear MN. pose proof (rinv_loose _ _ _ _ _ _ _ _ _ _ IV) as LO.
  pose proof (prepared_cases lower _ _ _ _ _ _ _ _ _ _ IV (fun A : ns = [] => ltac:(discriminate A))) as PC.
  destruct (prepared lower r st) as [d nodes]. cbn [fst snd] in PC.
  assert (FR : forall y, y < r -> same_object (d_h d0) (d_h (rd_d st)) y) by (intros y Hy; apply (iv_frame _ _ _ _ _ _ _ _ _ _ IV y Hy)).
  assert (FIN : forall h, attached h r -> (forall y, y < r -> same_object (d_h d0) h y) ->
    exists d1 ge1 o, match mwt_loop (with_h d h) r nodes (rd_mwts st) with
        | (d, Ok _) => ((d, rd_ge st), Ok (Some r))
        | (d, Raise e) => ((d, rd_ge st), Raise e)
        | (d, Diverge) => ((d, rd_ge st), Diverge)
        end = ((d1, ge1), o) /\
      match o with
      | Ok (Some r0) => attached (d_h d1) r0 /\ r <= r0 /\ (forall y, y < r -> same_object (d_h d0) (d_h d1) y)
      | Ok None => True | Raise _ => True | Diverge => False
      end).
  { intros h AT FRh. destruct (mwt_loop_h r nodes (rd_mwts st) (with_h d h)) as (A & B).
    destruct (mwt_loop (with_h d h) r nodes (rd_mwts st)) as [d1 [u|e|]]; simpl in A, B; try (now congruence);
      do 3 eexists; (split; [reflexivity|]); auto; rewrite A; auto. }
  destruct PC as [(n & En & TX & -> & Hh)|(_ & -> & Hh)]; rewrite Hh.
  - cbn [tl combine attach_loop]. apply FIN.
    + destruct LO. rewrite En in *. set (hB := put_desc (put_ch (d_h (rd_d st)) r []) r []).
      assert (DB : h_desc hB r = []) by (unfold hB; simpl; now upds).
      assert (LB : forall y, live hB r y -> y = r) by (unfold live; rewrite DB; simpl; tauto).
      split; rewrite ?DB; simpl; auto; try (intros ? []; fail).
      * constructor.
      * apply lo_par0; simpl; auto.
      * intros y L. apply LB in L. subst. now upds.
      * intros y L. apply LB in L. subst. apply lo_root0; simpl; auto.
      * split; auto. intros ? [].
      * intros y L. apply LB in L. subst. apply lo_alloc0; simpl; auto.
    + intros y Hy. specialize (FR y Hy). unfold same_object in *. simpl. assert (y <> r) by lia. upds. auto.
  - cbn [tl]. rewrite (iv_parents _ _ _ _ _ _ _ _ _ _ IV). cbn [tl].
    destruct (attach_all (d_h (rd_d st)) r ns (map head_col wf) (rc_fix_cycles cfg) LO) as (h & o & E1 & (done & todo & En & AI) & D).
    + rewrite map_length. eapply Forall2_length_eq. apply (iv_words _ _ _ _ _ _ _ _ _ _ IV).
    + congruence.
    + rewrite E1. destruct D as [(-> & AI' & AT & _)|(-> & _)].
      * apply FIN; auto. intros y Hy. specialize (FR y Hy). destruct AI. unfold same_object in *.
        assert (NI : ~ In y (r :: ns)).
        { intros [->|I]; [lia|]. assert (r < y) by (apply (iv_range _ _ _ _ _ _ _ _ _ _ IV), in_app_iff; auto). lia. }
        rewrite ?ai_par_out, ?ai_ch_out, ?ai_next, ?ai_kind, ?ai_ord, ?ai_root, ?ai_desc, ?ai_emp, ?ai_eord by auto. auto.
      * do 3 eexists. split; [reflexivity|]. exact I.
Qed.
