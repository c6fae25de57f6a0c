(** The order of the words of a document, and the runs of words of a mention. *)
From Coq Require Import String List NArith ZArith Bool Lia Sorting.Sorted Sorting.Permutation.
From Verif Require Import PyStr PyList PyListFacts PyExn TreeModel TreeSpec TreeOps EmptySpec DualDictModel BundleModel BundleSpec BundleProofs
  CorefModel CorefSpec CorefSpan CorefOrder CorefIOModel CorefIOSpec CorefIOEvents.
Import ListNotations.

Section Place.
Variables (c : coref) (d : nat) (z : str) (roots : list nat).
Notation h := (co_h c).
Hypothesis TD : trees_of_document c.
Hypothesis DR : document_roots c d roots.
Definition doc_nodes : list nat := flat_map (descendants_and_empty h) roots.
Notation pos := (ix doc_nodes).

Lemma dr_good r : In r roots -> good_tree h r.
Proof. apply DR. Qed.
Lemma dr_in r w : In r roots -> (In w (descendants_and_empty h r) <-> in_tree h r w).
Proof. intros H. destruct (dr_good r H) as [G1 G2]. apply (dae_order h r G1 G2). Qed.
Lemma dr_root r w : In r roots -> In w (descendants_and_empty h r) -> h_root h w = r.
Proof. intros H W. apply dr_in in W; auto. destruct (dr_good r H) as [G1 G2]. apply in_tree_root; auto. Qed.
Lemma nodup_flat {A B} (f : A -> list B) l : NoDup l -> (forall a, In a l -> NoDup (f a)) ->
  (forall a b x, In a l -> In b l -> In x (f a) -> In x (f b) -> a = b) -> NoDup (flat_map f l).
Proof.
  induction l as [|a l IH]; cbn; intros ND H D; [constructor|]. inversion ND as [|? ? N1 N2]; subst. apply nodup_app; auto.
  - apply IH; auto. intros b e x Hb He. apply D; right; auto.
  - intros x Hx X. apply in_flat_map in X. destruct X as (b & Hb & X). apply N1. assert (E : a = b) by (apply (D a b x); auto). rewrite E. exact Hb.
Qed.
Lemma trees_nodup : NoDup (flat_map (b_trees (co_doc c)) (d_bundles (co_doc c) d)).
Proof.
  destruct TD as [W _]. pose proof (doc_world_inv _ W) as I. apply nodup_flat.
  - apply (i_bundles _ I).
  - intros b _. apply (i_nodup _ I).
  - intros a b t _ _ Ha Hb. apply (i_tree _ I) in Ha, Hb. destruct Ha as [Ha _], Hb as [Hb _]. congruence.
Qed.
Lemma roots_nodup : NoDup roots.
Proof. destruct DR as [E _]. pose proof trees_nodup as N. rewrite <- E in N. apply NoDup_map_inv in N. exact N. Qed.
Lemma nodes_nodup : NoDup doc_nodes.
Proof.
  apply nodup_flat.
  - apply roots_nodup.
  - intros r Hr. destruct (dr_good r Hr) as [G1 G2]. eapply increasing_nodup. apply (dae_order h r G1 G2).
  - intros a b x Ha Hb Xa Xb. apply dr_root in Xa, Xb; auto. congruence.
Qed.
Lemma placed_root w : placed_node c d z w -> In (h_root h w) roots /\ In w (descendants_and_empty h (h_root h w)).
Proof.
  intros (IT & C & G & b & (Hb & Ht) & _). destruct DR as [E _].
  assert (X : In (co_tree c (h_root h w)) (map (co_tree c) roots)) by (rewrite E; apply in_flat_map; exists b; auto).
  apply in_map_iff in X. destruct X as (r & ER & Hr). apply (proj2 TD) in ER. subst r. split; auto. apply dr_in; auto.
Qed.
Lemma placed_in w : placed_node c d z w -> In w doc_nodes.
Proof. intros H. apply placed_root in H. unfold doc_nodes. apply in_flat_map. exists (h_root h w). auto. Qed.
Lemma later_pos l1 l2 x y : doc_nodes = l1 ++ l2 -> In x l1 -> In y l2 -> pos x < pos y.
Proof.
  intros E Hx Hy. assert (S : StronglySorted (fun a b => pos a < pos b) (l1 ++ l2)) by (rewrite <- E; apply sorted_ix; apply nodes_nodup).
  apply sorted_app_iff in S. destruct S as (_ & _ & S). auto.
Qed.
Lemma before_pos x y : placed_node c d z x -> placed_node c d z y -> node_before c d x y -> pos x < pos y.
Proof.
  intros Px Py B. destruct (placed_root x Px) as [Rx Dx]. destruct (placed_root y Py) as [Ry Dy]. unfold node_before, word_before in B. cbn [fst snd] in B.
  destruct B as [[ET EP]|(b & b' & Hb & Hb' & (l1 & l2 & l3 & EB))].
  - apply (proj2 TD) in ET. apply in_split in Rx. destruct Rx as (r1 & r2 & ER). rewrite <- ET in Dy.
    destruct (in_split _ _ Dx) as (u & v & ED). assert (G : good_tree h (h_root h x)) by (apply dr_good; rewrite ER, in_app_iff; right; left; auto).
    destruct G as [G1 G2]. destruct (dae_order h _ G1 G2) as [S _]. rewrite ED in S, Dy. unfold increasing in S. apply sorted_app_iff in S. destruct S as (S1 & S2 & S3).
    apply in_app_iff in Dy. destruct Dy as [Dy|[Dy|Dy]].
    + specialize (S3 y x Dy (or_introl eq_refl)). cbv beta in S3. lia.
    + subst y. lia.
    + apply (later_pos (flat_map (descendants_and_empty h) r1 ++ u ++ [x]) (v ++ flat_map (descendants_and_empty h) r2)).
      * unfold doc_nodes. rewrite ER, flat_map_app. cbn [flat_map]. rewrite ED, <- !app_assoc. reflexivity.
      * rewrite !in_app_iff. right. right. left. auto.
      * rewrite in_app_iff. auto.
  - destruct DR as [E _]. rewrite EB, flat_map_app in E. cbn [flat_map] in E. rewrite flat_map_app in E. cbn [flat_map] in E.
    destruct (in_split _ _ Hb) as (u & v & EU). rewrite EU in E.
    set (V := v ++ flat_map (b_trees (co_doc c)) l2 ++ b_trees (co_doc c) b' ++ flat_map (b_trees (co_doc c)) l3).
    set (U := flat_map (b_trees (co_doc c)) l1 ++ u).
    assert (E2 : map (co_tree c) roots = U ++ co_tree c (h_root h x) :: V) by (rewrite E; unfold U, V; rewrite <- !app_assoc; reflexivity).
    apply map_eq_app in E2. destruct E2 as (r1 & r2 & ER & E3 & E4). apply map_eq_cons in E4. destruct E4 as (r & r3 & ER2 & E5 & E6).
    apply (proj2 TD) in E5. subst r2 r.
    assert (Y : In (co_tree c (h_root h y)) (map (co_tree c) r3)) by (rewrite E6; unfold V; rewrite !in_app_iff; auto).
    apply in_map_iff in Y. destruct Y as (r & EY & Hr). apply (proj2 TD) in EY. subst r.
    apply (later_pos (flat_map (descendants_and_empty h) r1 ++ descendants_and_empty h (h_root h x)) (flat_map (descendants_and_empty h) r3)).
    + unfold doc_nodes. rewrite ER, flat_map_app. cbn [flat_map]. rewrite <- app_assoc. reflexivity.
    + rewrite in_app_iff. auto.
    + apply in_flat_map. exists (h_root h y). auto.
Qed.
Lemma pos_before x y : placed_node c d z x -> placed_node c d z y -> pos x < pos y -> node_before c d x y.
Proof.
  intros Px Py L. destruct (nb_order c d z TD x y y Px Py Py) as (_ & _ & [O|[O|O]]); auto.
  - apply before_pos in O; auto. lia.
  - subst. lia.
Qed.
End Place.

(** ---- runs ---- *)
Fixpoint runs_of (f : nat -> bool) (l : list nat) : list (list nat) :=
  match l with
  | [] => []
  | x :: l =>
    if f x then
      match l with
      | y :: _ => if f y then match runs_of f l with r :: rs => (x :: r) :: rs | [] => [[x]] end else [x] :: runs_of f l
      | [] => [[x]]
      end
    else runs_of f l
  end.
Lemma runs_one f run : run <> [] -> Forall (fun x => f x = true) run -> runs_of f run = [run].
Proof.
  induction run as [|x run IH]; intros N F; [congruence|]. inversion F as [|? ? F1 F2]; subst. destruct run as [|y run]; [cbn [runs_of]; rewrite F1; auto|].
  assert (E : runs_of f (y :: run) = [y :: run]) by (apply IH; auto; discriminate).
  inversion F2 as [|? ? F3 F4]; subst. remember (y :: run) as k eqn:K. cbn [runs_of]. rewrite F1, E, K, F3. reflexivity.
Qed.
Lemma runs_more' f run y l : run <> [] -> Forall (fun x => f x = true) run -> f y = false -> runs_of f (run ++ y :: l) = run :: runs_of f l.
Proof.
  induction run as [|x run IH]; intros N F Y; [congruence|]. inversion F as [|? ? F1 F2]; subst. destruct run as [|x2 run].
  - cbn [app runs_of]. rewrite F1, Y. reflexivity.
  - inversion F2 as [|? ? F3 F4]; subst. assert (X : runs_of f ((x2 :: run) ++ y :: l) = (x2 :: run) :: runs_of f l) by (apply IH; auto; discriminate).
    change ((x :: x2 :: run) ++ y :: l) with (x :: (x2 :: run) ++ y :: l). remember ((x2 :: run) ++ y :: l) as k eqn:K. cbn [runs_of].
    rewrite F1, X, K. cbn [app]. rewrite F3. reflexivity.
Qed.
Lemma runs_fun P f l rs : (forall x, P x <-> f x = true) -> maximal_runs P l rs -> rs = runs_of f l.
Proof.
  intros D. assert (ND : forall x, ~ P x -> f x = false) by (intros x N; destruct (f x) eqn:F; auto; exfalso; apply N; apply D; auto).
  induction 1 as [|x l rs N _ IH|run NE F|run y l rs NE F N _ IH].
  - reflexivity.
  - cbn [runs_of]. rewrite (ND x N). exact IH.
  - symmetry. apply runs_one; auto. eapply Forall_impl; [|exact F]. intros a. apply D.
  - rewrite runs_more'; auto; [rewrite IH; reflexivity|]. eapply Forall_impl; [|exact F]. intros a. apply D.
Qed.
Lemma runs_concat f l : concat (runs_of f l) = filter f l.
Proof.
  induction l as [|x l IH]; auto. cbn [runs_of filter]. destruct (f x) eqn:F; auto. destruct l as [|y l]; auto. destruct (f y) eqn:G.
  - assert (X : runs_of f (y :: l) <> []) by (intros X; rewrite X in IH; cbn in IH; rewrite G in IH; discriminate).
    destruct (runs_of f (y :: l)) as [|r rs]; [congruence|]. cbn [concat] in *. rewrite <- IH. reflexivity.
  - cbn [concat app]. rewrite IH. reflexivity.
Qed.
Lemma runs_maximal f l : maximal_runs (fun x => f x = true) l (runs_of f l).
Proof.
  assert (X : forall n l, length l <= n -> maximal_runs (fun x => f x = true) l (runs_of f l)).
  { induction n as [|n IH]; intros k L; [destruct k; [constructor|cbn in L; lia]|].
    destruct k as [|x k]; [constructor|]. destruct (f x) eqn:F.
    - assert (S : exists run rest, x :: k = run ++ rest /\ run <> [] /\ Forall (fun x => f x = true) run /\ (rest = [] \/ exists y t, rest = y :: t /\ f y = false)).
      { clear L. assert (S : forall k, exists run rest, k = run ++ rest /\ Forall (fun x => f x = true) run /\ (rest = [] \/ exists y t, rest = y :: t /\ f y = false)).
        { induction k0 as [|y k0 (run & rest & E & A & B)]; [exists [], []; auto|]. destruct (f y) eqn:G.
          - exists (y :: run), rest. rewrite E. auto.
          - exists [], (y :: k0). split; auto. split; auto. right. eauto. }
        destruct (S k) as (run & rest & E & A & B). exists (x :: run), rest. rewrite E. split; auto. split; [discriminate|]. auto. }
      destruct S as (run & rest & E & NE & A & B). rewrite E in *. destruct B as [->|(y & t & -> & G)].
      + rewrite app_nil_r. rewrite runs_one; auto. constructor; auto.
      + rewrite runs_more'; auto. constructor; auto; [rewrite G; discriminate|]. apply IH. rewrite app_length in L. cbn in L. lia.
    - cbn [runs_of]. rewrite F. constructor; [rewrite F; discriminate|]. apply IH. cbn in L. lia. }
  apply (X (length l)). auto.
Qed.
Lemma runs_infix f l run : In run (runs_of f l) -> run <> [] /\ (exists u v, l = u ++ run ++ v) /\ forall x, In x run -> f x = true.
Proof.
  intros H. pose proof (runs_maximal f l) as M. revert run H. induction M as [|x l rs N _ IH|r NE F|r y l rs NE F N _ IH]; intros run H.
  - destruct H.
  - destruct (IH run H) as (A & (u & v & ->) & B). split; auto. split; auto. exists (x :: u), v. reflexivity.
  - destruct H as [<-|[]]. rewrite Forall_forall in F. split; auto. split; auto. exists [], []. rewrite app_nil_r. reflexivity.
  - destruct H as [<-|H].
    + rewrite Forall_forall in F. split; auto. split; auto. exists [], (y :: l). reflexivity.
    + destruct (IH run H) as (A & (u & v & ->) & B). split; auto. split; auto. exists (r ++ y :: u), v. rewrite <- app_assoc. reflexivity.
Qed.
