(** Proofs about documents, bundles and zones. *)
From Coq Require Import String List NArith ZArith Bool Lia Sorting.Sorted.
From Verif Require Import PyStr PyStrFacts PyList PyListFacts PyExn TreeModel BundleModel BundleSpec.
Import ListNotations.

Lemma upd_same {A} (f : nat -> A) k v : upd f k v k = v.
Proof. unfold upd. now rewrite Nat.eqb_refl. Qed.
Lemma upd_other {A} (f : nat -> A) k v x : x <> k -> upd f k v x = f x.
Proof. unfold upd. intros N. destruct (Nat.eqb_spec x k); congruence. Qed.
Ltac upc x k := destruct (Nat.eq_dec x k) as [->|?]; [rewrite ?upd_same in *|rewrite ?upd_other in * by auto].

Lemma NoDup_snoc {A} (l : list A) x : NoDup l -> ~ In x l -> NoDup (l ++ [x]).
Proof.
  induction 1 as [|y l N ND IH]; cbn [app]; intros H; [constructor; [intros []|constructor]|]. constructor.
  - intros Q. apply in_app_iff in Q as [Q|[Q|[]]]; [auto|subst; apply H; left; auto].
  - apply IH. intros Q. apply H. right; auto.
Qed.

Lemma zone_is_spec s z t : zone_is s z t = true <-> t_zone s t = Some z.
Proof.
  unfold zone_is. destruct (t_zone s t) as [y|]; [|split; discriminate].
  rewrite str_eqb_eq. split; congruence.
Qed.
Definition ok_zone (z : str) : Prop := z <> PyStr.s "all" /\ valid_zone z = true.
Lemma check_zone_ok s b z : check_zone s b z = Ok tt -> ok_zone z /\ forall t, In t (b_trees s b) -> t_zone s t <> Some z.
Proof.
  unfold check_zone, ok_zone. destruct (valid_zone z); [|discriminate]. cbn [negb]. destruct (str_eqb_spec z (PyStr.s "all")); [discriminate|].
  destruct (existsb _ _) eqn:E; [discriminate|]. intros _. split; auto. intros t Ht Q.
  apply zone_is_spec in Q. apply not_true_iff_false in E. apply E. apply existsb_exists. eauto.
Qed.

(** The invariant behind C31 and C47. *)
Record inv (s : store) : Prop := {
  i_tree : forall b t, In t (b_trees s b) -> t_bundle s t = Some b /\ t < nt s /\ b < nb s;
  i_tb : forall t b, t_bundle s t = Some b -> b < nb s;
  i_nodup : forall b, NoDup (b_trees s b);
  i_zones : forall b t t', In t (b_trees s b) -> In t' (b_trees s b) -> t_zone s t = t_zone s t' -> t = t';
  i_zone : forall b t, In t (b_trees s b) -> exists z, t_zone s t = Some z /\ ok_zone z;
  i_docs : forall d b, In b (d_bundles s d) -> b_doc s b = d /\ b < nb s /\ d < nd s;
  i_bdoc : forall b, b < nb s -> b_doc s b < nd s;
  i_bundles : forall d, NoDup (d_bundles s d);
  i_numbers : forall d, exists ns, map (b_number s) (d_bundles s d) = map Some ns /\ StronglySorted Z.lt ns /\
                Forall (fun n => (n <= Z.of_nat (length ns))%Z) ns
}.
Lemma inv_ext s s' : inv s -> nt s <= nt s' -> nb s' = nb s -> nd s' = nd s ->
  t_zone s' = t_zone s -> (forall b t, In t (b_trees s b) -> t_bundle s' t = t_bundle s t) ->
  (forall t b, t_bundle s' t = Some b -> b < nb s) ->
  b_trees s' = b_trees s -> b_number s' = b_number s -> b_doc s' = b_doc s -> d_bundles s' = d_bundles s -> inv s'.
Proof.
  intros [H1 Htb H2 H3 H4 H5 Hbd H6 H7] A B C D E Etb F G H I. constructor; rewrite ?B, ?C, ?D, ?F, ?G, ?H, ?I; auto.
  intros b t Ht. destruct (H1 b t Ht) as [P [Q R]]. rewrite (E b t Ht). split; auto. lia.
Qed.
Ltac ext := eapply inv_ext; eauto; cbn [nt nb nd t_zone t_sid t_bundle b_trees b_id b_number b_doc d_bundles put_zone put_sid put_bundle put_trees put_bid put_number put_bundles put_highest]; auto.

Lemma inv_sid s t v : inv s -> inv (put_sid s t v).
Proof. intros I. ext. apply i_tb; auto. Qed.
Lemma inv_sids id l : forall s, inv s -> inv (set_sids s id l).
Proof. induction l as [|t l IH]; intros s I; cbn; auto. apply IH, inv_sid, I. Qed.
Lemma inv_bundle_id s b v : inv s -> inv (set_bundle_id s b v).
Proof.
  intros I. unfold set_bundle_id. assert (I' : inv (put_bid s b (Some v))) by (ext; apply i_tb; auto).
  destruct (b_trees _ b) as [|t [|t' l]]; auto using inv_sids.
  destruct (zone_is _ _ _); auto using inv_sid, inv_sids.
Qed.
Lemma set_sids_fields id l : forall s, let s' := set_sids s id l in
  nt s' = nt s /\ nb s' = nb s /\ nd s' = nd s /\ t_zone s' = t_zone s /\ t_bundle s' = t_bundle s /\ b_trees s' = b_trees s /\
  b_id s' = b_id s /\ b_number s' = b_number s /\ b_doc s' = b_doc s /\ d_bundles s' = d_bundles s /\ d_highest s' = d_highest s /\
  forall t, t_sid s' t = if mem t l then Some (id ++ PyStr.s "/" ++ zone_str s t) else t_sid s t.
Proof.
  induction l as [|x l IH]; intros s; cbv zeta; cbn [set_sids]; [repeat split; auto|].
  destruct (IH (put_sid s x (Some (id ++ PyStr.s "/" ++ zone_str s x)))) as (A & B & C & D & E & F & G & H & I & J & K & L).
  rewrite A, B, C, D, E, F, G, H, I, J, K. repeat (split; [reflexivity|]). intros t. rewrite L.
  cbn [mem existsb put_sid t_sid]. fold (mem t l). destruct (Nat.eqb_spec t x) as [->|N]; cbn [orb].
  - rewrite upd_same. destruct (mem x l); auto.
  - rewrite upd_other by auto. destruct (mem t l); auto.
Qed.
Lemma set_bundle_id_fields s b v : let s' := set_bundle_id s b v in
  nt s' = nt s /\ nb s' = nb s /\ nd s' = nd s /\ t_zone s' = t_zone s /\ t_bundle s' = t_bundle s /\ b_trees s' = b_trees s /\
  b_id s' = upd (b_id s) b (Some v) /\ b_number s' = b_number s /\ b_doc s' = b_doc s /\ d_bundles s' = d_bundles s /\ d_highest s' = d_highest s /\
  (forall t, ~ In t (b_trees s b) -> t_sid s' t = t_sid s t) /\
  forall t, In t (b_trees s b) -> t_sid s' t = Some (if (match b_trees s b with [_] => true | _ => false end) && zone_is s [] t then v else v ++ PyStr.s "/" ++ zone_str s t).
Proof.
  cbv zeta. unfold set_bundle_id. cbn [put_bid b_trees].
  assert (G : forall l, (match l with [t] => zone_is s [] t = false | _ => True end) -> b_trees s b = l ->
    let s' := set_sids (put_bid s b (Some v)) v l in
    nt s' = nt s /\ nb s' = nb s /\ nd s' = nd s /\ t_zone s' = t_zone s /\ t_bundle s' = t_bundle s /\ b_trees s' = b_trees s /\
    b_id s' = upd (b_id s) b (Some v) /\ b_number s' = b_number s /\ b_doc s' = b_doc s /\ d_bundles s' = d_bundles s /\ d_highest s' = d_highest s /\
    (forall t, ~ In t (b_trees s b) -> t_sid s' t = t_sid s t) /\
    forall t, In t (b_trees s b) -> t_sid s' t = Some (if (match b_trees s b with [_] => true | _ => false end) && zone_is s [] t then v else v ++ PyStr.s "/" ++ zone_str s t)).
  { intros l Hl El. cbv zeta. destruct (set_sids_fields v l (put_bid s b (Some v))) as (A & B & C & D & E & F & G & H & I & J & K & L).
    cbn [put_bid nt nb nd t_zone t_bundle b_trees b_id b_number b_doc d_bundles d_highest t_sid] in *.
    rewrite A, B, C, D, E, F, G, H, I, J, K. repeat (split; [reflexivity|]). rewrite El.
    assert (M : forall t, mem t l = true <-> In t l).
    { intros t. unfold mem. rewrite existsb_exists. split; [intros [y [Hy Q]]; apply Nat.eqb_eq in Q; subst; auto|intros Ht; exists t; rewrite Nat.eqb_refl; auto]. }
    split; intros t Ht; rewrite L.
    - destruct (mem t l) eqn:Q; auto. apply M in Q. contradiction.
    - apply M in Ht as Ht'. rewrite Ht'. f_equal. destruct l as [|x [|y l]]; auto.
      destruct Ht as [->|[]]. rewrite Hl. reflexivity. }
  remember (b_trees s b) as L eqn:EL. destruct L as [|t [|t' l]].
  - apply (G []); auto.
  - change (zone_is (put_bid s b (Some v)) [] t) with (zone_is s [] t). destruct (zone_is s [] t) eqn:Z.
    + cbn. repeat (split; [reflexivity|]). split; intros x Hx.
      * rewrite upd_other; auto.
      * destruct Hx as [->|[]]. rewrite upd_same, Z. reflexivity.
    + apply (G [t]); auto.
  - apply (G (t :: t' :: l)); auto.
Qed.

Lemma inv_zone s t z : inv s -> t < nt s -> inv (fst (set_zone s t z)).
Proof.
  intros I L. unfold set_zone. destruct (t_bundle s t) as [b|] eqn:Eb.
  - destruct (check_zone s b z) as [[]| |] eqn:C; auto. apply check_zone_ok in C as [C1 C2]. apply inv_sid.
    destruct I as [H1 Htb H2 H3 H4 H5 Hbd H6 H7]. constructor; auto; cbn [put_zone b_trees t_bundle t_zone nt nb]; auto.
    + intros c x y Hx Hy. unfold upd. destruct (Nat.eqb_spec x t) as [->|Nx], (Nat.eqb_spec y t) as [->|Ny]; auto.
      * intros E. exfalso. destruct (H1 c t Hx) as [Q _]. rewrite Eb in Q. injection Q as ->. apply (C2 y Hy). auto.
      * intros E. exfalso. destruct (H1 c t Hy) as [Q _]. rewrite Eb in Q. injection Q as ->. apply (C2 x Hx). auto.
      * eauto.
    + intros c x Hx. unfold upd. destruct (Nat.eqb_spec x t) as [->|Nx]; eauto.
  - cbn. apply inv_sid. destruct I as [H1 Htb H2 H3 H4 H5 Hbd H6 H7]. constructor; auto; cbn [put_zone b_trees t_bundle t_zone nt nb]; auto.
    + intros c x y Hx Hy. rewrite !upd_other; eauto.
      * intros ->. destruct (H1 c t Hy) as [Q _]. congruence.
      * intros ->. destruct (H1 c t Hx) as [Q _]. congruence.
    + intros c x Hx. rewrite upd_other; eauto. intros ->. destruct (H1 c t Hx) as [Q _]. congruence.
Qed.

Lemma zone_unplaced s t v : inv s -> ~ placed s t -> inv (put_zone s t v).
Proof.
  intros [H1 Htb H2 H3 H4 H5 Hbd H6 H7] NP. assert (N : forall b x, In x (b_trees s b) -> x <> t) by (intros b x Hx ->; apply NP; exists b; auto).
  constructor; auto; cbn [put_zone b_trees t_bundle t_zone nt nb]; auto.
  - intros b x y Hx Hy. rewrite !upd_other; eauto.
  - intros b x Hx. rewrite upd_other; eauto.
Qed.
Lemma inv_add s b t : inv s -> b < nb s -> t < nt s -> ~ placed s t -> inv (fst (add_tree s b t)).
Proof.
  intros I Lb Lt NP. unfold add_tree.
  set (s1 := match t_zone s t with None => put_zone s t (Some []) | Some _ => s end).
  assert (Z1 : exists z, t_zone s1 t = Some z).
  { unfold s1. destruct (t_zone s t) as [z|] eqn:E; [eauto|]. cbn. rewrite upd_same. eauto. }
  assert (I1 : inv s1) by (unfold s1; destruct (t_zone s t); auto using zone_unplaced).
  assert (NP1 : ~ placed s1 t) by (unfold s1; destruct (t_zone s t); auto).
  assert (Lb1 : b < nb s1) by (unfold s1; destruct (t_zone s t); auto).
  assert (Lt1 : t < nt s1) by (unfold s1; destruct (t_zone s t); auto).
  clearbody s1. clear I NP Lb Lt s. destruct Z1 as [z Z]. unfold zone_str. rewrite Z.
  destruct (check_zone s1 b z) as [[]| |] eqn:C; auto. apply check_zone_ok in C as [C1 C2].
  set (s2 := match b_id s1 b with Some ((_ :: _) as i) => _ | _ => s1 end).
  assert (E2 : inv s2 /\ t_zone s2 = t_zone s1 /\ b_trees s2 = b_trees s1 /\ nb s2 = nb s1 /\ nt s2 = nt s1).
  { unfold s2. destruct (b_id s1 b) as [[|c i]|]; auto. split; [apply inv_sid; auto|]. auto. }
  destruct E2 as (I2 & Ez & Et & Enb & Ent). clearbody s2. rewrite <- Ez in Z, C2. rewrite <- Et in C2.
  assert (NP2 : forall c, ~ In t (b_trees s2 c)) by (intros c Hc; apply NP1; exists c; rewrite <- Et; auto).
  destruct I2 as [H1 Htb H2 H3 H4 H5 Hbd H6 H7]. constructor; auto; cbn [fst put_trees put_bundle b_trees t_bundle t_zone nt nb d_bundles b_doc b_number nd]; auto.
  - intros c x Hx. upc c b.
    + apply in_app_iff in Hx as [Hx|[<-|[]]].
      * destruct (H1 b x Hx) as [P [Q R]]. rewrite upd_other; auto. intros ->. apply (NP2 b Hx).
      * rewrite upd_same. split; auto. lia.
    + destruct (H1 c x Hx) as [P [Q R]]. rewrite upd_other; auto. intros ->. apply (NP2 c Hx).
  - intros x c. upc x t; [intros [= <-]; lia|eauto].
  - intros c. upc c b; auto using NoDup_snoc.
  - intros c x y Hx Hy. upc c b; eauto. apply in_app_iff in Hx as [Hx|[<-|[]]]; apply in_app_iff in Hy as [Hy|[<-|[]]]; intros E; eauto.
    + exfalso. rewrite Z in E. apply (C2 x Hx E).
    + exfalso. rewrite Z in E. symmetry in E. apply (C2 y Hy E).
  - intros c x Hx. upc c b; eauto. apply in_app_iff in Hx as [Hx|[<-|[]]]; eauto.
Qed.

Lemma inv_new_document s : inv s -> inv (fst (new_document s)).
Proof.
  intros [H1 Htb H2 H3 H4 H5 Hbd H6 H7]. constructor; cbn [new_document fst b_trees t_bundle t_zone nt nb nd d_bundles b_doc b_number]; auto.
  - intros d b. upc d (nd s); [intros []|]. intros Hb. destruct (H5 d b Hb) as [P [Q R]]. lia.
  - intros b Hb. specialize (Hbd b Hb). lia.
  - intros d. upc d (nd s); auto. constructor.
  - intros d. upc d (nd s); auto. exists []. repeat split; auto. constructor.
Qed.
Lemma inv_new_tree s z : inv s -> inv (fst (new_tree s z)) /\ ~ placed (fst (new_tree s z)) (nt s).
Proof.
  intros [H1 Htb H2 H3 H4 H5 Hbd H6 H7].
  assert (N : forall b x, In x (b_trees s b) -> x <> nt s) by (intros b x Hx ->; destruct (H1 b _ Hx) as [_ [Q _]]; lia).
  split; [|intros [b Hb]; cbn in Hb; apply (N b _ Hb); auto].
  constructor; cbn [new_tree fst b_trees t_bundle t_zone nt nb nd d_bundles b_doc b_number]; auto.
  - intros b t Ht. rewrite upd_other by eauto. destruct (H1 b t Ht) as [P [Q R]]. split; auto.
  - intros t b. upc t (nt s); [discriminate|eauto].
  - intros b t t' Ht Ht'. rewrite !upd_other by eauto. eauto.
  - intros b t Ht. rewrite upd_other by eauto. eauto.
Qed.
Lemma inv_create_tree s b z : inv s -> b < nb s -> inv (fst (create_tree s b z)).
Proof.
  intros I L. unfold create_tree. destruct (new_tree s z) as [s1 t] eqn:E.
  destruct (inv_new_tree s z I) as [I1 NP]. rewrite E in I1, NP. cbn [fst] in *.
  assert (t = nt s) as -> by (unfold new_tree in E; congruence).
  assert (nt s < nt s1 /\ nb s1 = nb s) as [L1 L2] by (unfold new_tree in E; injection E as <-; cbn; lia).
  pose proof (inv_add s1 b (nt s) I1 ltac:(lia) L1 NP) as A.
  destruct (add_tree s1 b (nt s)) as [s2 [[]| |]]; exact A.
Qed.
Lemma inv_tree_remove s t : inv s -> inv (fst (tree_remove s t)).
Proof.
  intros I. unfold tree_remove. destruct (t_bundle s t) as [b|]; auto.
  assert (S : forall c x, In x (b_trees (put_trees s b (filter (fun x => negb (Nat.eqb x t)) (b_trees s b))) c) -> In x (b_trees s c)).
  { intros c x. cbn. upc c b; auto. rewrite filter_In. tauto. }
  destruct I as [H1 Htb H2 H3 H4 H5 Hbd H6 H7]. constructor; auto.
  - intros c x Hx. apply (H1 c x); auto.
  - intros c. cbn. upc c b; auto. apply NoDup_filter; auto.
  - intros c x y Hx Hy. apply (H3 c); auto.
  - intros c x Hx. apply (H4 c); auto.
Qed.

Lemma create_bundle_eq s d : create_bundle s d =
  (mkSt (nt s) (S (nb s)) (nd s) (t_zone s) (t_sid s) (t_bundle s) (upd (b_trees s) (nb s) [])
        (upd (b_id s) (nb s) (Some (str_of_Z (d_highest s d + 1))))
        (upd (upd (b_number s) (nb s) None) (nb s) (Some (Z.of_nat (length (d_bundles s d)) + 1)%Z))
        (upd (b_doc s) (nb s) d) (upd (d_bundles s) d (d_bundles s d ++ [nb s])) (upd (d_highest s) d (d_highest s d + 1)%Z), nb s).
Proof.
  unfold create_bundle, new_bundle, put_highest, put_bundles, put_number. cbn [nt nb nd t_zone t_sid t_bundle b_trees b_id b_number b_doc d_bundles d_highest].
  rewrite !upd_same, app_length. cbn [length]. rewrite Nat2Z.inj_add. reflexivity.
Qed.
Lemma sorted_snoc_Z l x : StronglySorted Z.lt l -> Forall (fun n => (n < x)%Z) l -> StronglySorted Z.lt (l ++ [x]).
Proof.
  induction 1 as [|y l S IH F]; cbn; intros G; [repeat constructor|]. inversion G; subst. constructor; auto.
  apply Forall_app. auto.
Qed.
Lemma inv_create_bundle s d : inv s -> d < nd s -> inv (fst (create_bundle s d)).
Proof.
  intros [H1 Htb H2 H3 H4 H5 Hbd H6 H7] L. rewrite create_bundle_eq. cbn [fst].
  assert (N : forall d b, In b (d_bundles s d) -> b <> nb s) by (intros d' b Hb ->; destruct (H5 d' _ Hb) as [_ [Q _]]; lia).
  assert (NT : forall b, In b (d_bundles s d) -> b <> nb s) by eauto.
  constructor; cbn [nt nb nd t_zone t_sid t_bundle b_trees b_id b_number b_doc d_bundles d_highest]; auto.
  - intros b t. upc b (nb s); [intros []|]. intros Ht. destruct (H1 b t Ht) as [P [Q R]]. auto.
  - intros t b Q. specialize (Htb t b Q). lia.
  - intros b. upc b (nb s); auto. constructor.
  - intros b t t'. upc b (nb s); [intros []|eauto].
  - intros b t. upc b (nb s); [intros []|eauto].
  - intros e b. assert (G : In b (d_bundles s e) -> upd (b_doc s) (nb s) d b = e /\ b < S (nb s) /\ e < nd s).
    { intros Hb. rewrite upd_other by eauto. destruct (H5 e b Hb) as [P [Q R]]. auto. }
    upc e d; auto. rewrite in_app_iff. intros [Hb|[<-|[]]]; auto. rewrite upd_same. auto.
  - intros b Hb. upc b (nb s); auto. apply Hbd. lia.
  - intros e. upc e d; auto. apply NoDup_snoc; auto. intros Q. apply (N d _ Q); auto.
  - intros e. assert (G : map (upd (upd (b_number s) (nb s) None) (nb s) (Some (Z.of_nat (length (d_bundles s d)) + 1)%Z)) (d_bundles s e) = map (b_number s) (d_bundles s e)).
    { apply map_ext_in. intros b Hb. rewrite !upd_other by eauto. auto. }
    destruct (H7 e) as [ns [E [S F]]]. upc e d; [|rewrite G; eauto].
    rewrite map_app, G, E. cbn [map]. rewrite upd_same.
    assert (LN : length ns = length (d_bundles s d)) by (rewrite <- (map_length Some ns), <- E, map_length; auto).
    rewrite <- LN. exists (ns ++ [Z.of_nat (length ns) + 1]%Z). split; [rewrite map_app; auto|].
    rewrite Forall_forall in F. split.
    + apply sorted_snoc_Z; auto. rewrite Forall_forall. intros n Hn. specialize (F n Hn). lia.
    + rewrite app_length. cbn [length]. apply Forall_app. rewrite !Forall_forall. split.
      * intros n Hn. specialize (F n Hn). lia.
      * intros n [<-|[]]. lia.
Qed.

Lemma number_from_fields l : forall s i, let s' := number_from s i l in
  nt s' = nt s /\ nb s' = nb s /\ nd s' = nd s /\ t_zone s' = t_zone s /\ t_sid s' = t_sid s /\ t_bundle s' = t_bundle s /\ b_trees s' = b_trees s /\
  b_id s' = b_id s /\ b_doc s' = b_doc s /\ d_bundles s' = d_bundles s /\ d_highest s' = d_highest s /\
  (forall b, ~ In b l -> b_number s' b = b_number s b) /\
  (NoDup l -> map (b_number s') l = map Some (map (fun k => (i + Z.of_nat k)%Z) (seq 0 (length l)))).
Proof.
  induction l as [|x l IH]; intros s i; cbv zeta; cbn [number_from]; [repeat (split; [reflexivity|]); auto|].
  destruct (IH (put_number s x (Some i)) (i + 1)%Z) as (A & B & C & D & E & F & G & H & I & J & K & L & M).
  rewrite A, B, C, D, E, F, G, H, I, J, K. repeat (split; [reflexivity|]). split.
  - intros b Hb. rewrite L by (intros Q; apply Hb; right; auto). cbn. rewrite upd_other; auto. intros ->. apply Hb. left; auto.
  - intros ND. inversion ND as [|? ? N1 N2]; subst. cbn [map length seq]. rewrite M by auto. rewrite L by auto. cbn [put_number b_number]. rewrite upd_same.
    f_equal; [f_equal; lia|]. rewrite !map_map. rewrite <- seq_shift, map_map. apply map_ext. intros k. f_equal. lia.
Qed.
Lemma inv_bundle_remove s b : inv s -> b < nb s -> inv (bundle_remove s b).
Proof.
  intros I L. unfold bundle_remove. set (d := b_doc s b). set (s1 := put_bundles s d _).
  assert (S1 : forall e c, In c (d_bundles s1 e) -> In c (d_bundles s e)).
  { intros e c. unfold s1. cbn. upc e d; auto. rewrite filter_In. tauto. }
  assert (ND1 : forall e, NoDup (d_bundles s1 e)).
  { intros e. unfold s1. cbn. upc e d; [apply NoDup_filter|]; apply I. }
  destruct (number_from_fields (d_bundles s1 d) s1 0%Z) as (A & B & C & D & E & F & G & H & K & M & N & P & Q).
  specialize (Q (ND1 d)). destruct I as [H1 Htb H2 H3 H4 H5 Hbd H6 H7].
  constructor; rewrite ?A, ?B, ?C, ?D, ?F, ?G, ?K, ?M; auto.
  - intros e c Hc. apply (H5 e c). auto.
  - intros e. destruct (Nat.eq_dec e d) as [->|Ne].
    + eexists. split; [exact Q|]. split.
      * clear. generalize (length (d_bundles s1 d)). intros n. generalize 0. induction n as [|n IH]; intros k; cbn; constructor; auto.
        rewrite Forall_forall. intros z Hz. apply in_map_iff in Hz as [j [<- Hj]]. apply in_seq in Hj. lia.
      * rewrite Forall_forall. intros z Hz. apply in_map_iff in Hz as [j [<- Hj]]. apply in_seq in Hj. rewrite map_length, seq_length. lia.
    + assert (Ed : d_bundles s1 e = d_bundles s e) by (unfold s1; cbn; now rewrite upd_other by auto).
      assert (En : map (b_number (number_from s1 0 (d_bundles s1 d))) (d_bundles s1 e) = map (b_number s) (d_bundles s e)); [|rewrite En; apply H7].
      rewrite Ed. apply map_ext_in. intros c Hc. rewrite P; auto.
      intros Hc'. apply S1 in Hc'. destruct (H5 _ _ Hc) as [X _], (H5 _ _ Hc') as [Y _]. congruence.
Qed.
Lemma inv_set_sent_id s t v : inv s -> t < nt s -> inv (fst (set_sent_id s t v)).
Proof.
  intros I L. unfold set_sent_id. destruct (t_bundle s t) as [b|]; [|apply inv_sid; auto].
  destruct (split1 47%N v) as [[i z]|]; [|apply inv_sid, inv_bundle_id; auto].
  assert (A : inv (fst (set_zone (set_bundle_id s b i) t z))).
  { apply inv_zone; [apply inv_bundle_id; auto|]. destruct (set_bundle_id_fields s b i) as [-> _]. auto. }
  destruct (set_zone _ t z) as [s2 [[]| |]]; cbn [fst bind] in *; auto. apply inv_sid; auto.
Qed.
Lemma inv_sent_id s t : inv s -> inv (fst (sent_id s t)).
Proof. intros I. unfold sent_id. destruct (t_sid s t); auto. destruct (t_bundle s t); auto. apply inv_sid; auto. Qed.

Lemma doc_world_inv s : doc_world s -> inv s.
Proof.
  induction 1 as [|s o W IH A NS].
  - constructor; cbn.
    + intros b t [].
    + discriminate.
    + constructor.
    + intros b t t' [].
    + intros b t [].
    + intros d b [].
    + intros b Hb. lia.
    + constructor.
    + intros d. exists []. repeat split; constructor.
  - destruct o; cbn [doc_step args_exist not_stolen] in *; intuition auto using inv_new_document, inv_create_bundle, inv_create_tree, inv_add,
      inv_zone, inv_set_sent_id, inv_sent_id, inv_bundle_id, inv_tree_remove, inv_bundle_remove.
    apply inv_new_tree; auto.
Qed.

(** ---- C31 ---- *)
Lemma valid_shape z : valid_zone z = true -> zone_shape z.
Proof.
  unfold valid_zone, zone_shape. intros V.
  assert (exists n, z = cut_newline z ++ n /\ (n = [] \/ n = [10%N])) as [n [E N]].
  { unfold cut_newline. destruct (rev z) as [|c r] eqn:R; [exists []; rewrite app_nil_r; auto|].
    destruct (N.eqb_spec c LF) as [->|]; [|exists []; rewrite app_nil_r; auto].
    exists [10%N]. split; auto. rewrite <- (rev_involutive z), R. reflexivity. }
  remember (cut_newline z) as y eqn:Y. clear Y.
  assert (L : forall l, forallb zone_lower l = true -> Forall zone_letter l).
  { intros l H. rewrite Forall_forall. rewrite forallb_forall in H. intros c Hc. specialize (H c Hc). unfold zone_lower in H.
    unfold zone_letter. rewrite !orb_true_iff, !andb_true_iff, !N.leb_le, N.eqb_eq in H. tauto. }
  destruct (split1 95%N y) as [[a b]|] eqn:S.
  - apply split1_Some in S as [-> _]. rewrite !andb_true_iff in V. destruct V as [[V1 V2] V3].
    exists a, (95%N :: b), n. split; [rewrite E, <- !app_assoc; reflexivity|]. split; auto. split; auto. right. exists b.
    split; auto. split; [intros ->; discriminate|]. rewrite Forall_forall. rewrite forallb_forall in V3. intros c Hc. specialize (V3 c Hc).
    unfold zone_any, zone_lower, is_digit in V3. unfold zone_alnum, zone_letter.
    rewrite !orb_true_iff, !andb_true_iff, !N.leb_le, N.eqb_eq in V3. tauto.
  - exists y, [], n. split; auto.
Qed.
Lemma zones_unique s : doc_world s -> forall b,
  (forall t t', In t (b_trees s b) -> In t' (b_trees s b) -> t <> t' -> t_zone s t <> t_zone s t') /\
  (forall t, In t (b_trees s b) -> t_bundle s t = Some b /\ exists z, has_zone s t z /\ z <> PyStr.s "all" /\ zone_shape z) /\
  (forall z, has_tree s b z = true <-> exists t, In t (b_trees s b) /\ has_zone s t z) /\
  (forall z t, get_tree s b z = Ok t <-> In t (b_trees s b) /\ has_zone s t z) /\
  (forall z, has_tree s b z = false -> get_tree s b z = Raise RuntimeError).
Proof.
  intros W b. destruct (doc_world_inv s W) as [H1 Htb H2 H3 H4 H5 Hbd H6 H7].
  assert (HT : forall z, has_tree s b z = true <-> exists t, In t (b_trees s b) /\ has_zone s t z).
  { intros z. unfold has_tree. rewrite existsb_exists. split; intros [t [Ht Q]]; exists t; split; auto; now apply zone_is_spec. }
  assert (FI : forall z t, In t (filter (zone_is s z) (b_trees s b)) <-> In t (b_trees s b) /\ has_zone s t z).
  { intros z t. rewrite filter_In, zone_is_spec. reflexivity. }
  split; [intros t t' Ht Ht' N E; apply N; eapply H3; eauto|].
  split; [intros t Ht; split; [apply (H1 b t Ht)|destruct (H4 b t Ht) as (z & Z1 & Z2 & Z3); exists z; auto using valid_shape]|].
  split; [exact HT|]. split.
  - intros z t. unfold get_tree. pose proof (FI z) as FIz. pose proof (NoDup_filter (zone_is s z) (H2 b)) as ND.
    destruct (filter (zone_is s z) (b_trees s b)) as [|x [|y l]] eqn:E.
    + split; [discriminate|]. intros Q. apply FIz in Q. destruct Q.
    + split; [intros [= <-]; apply FIz; left; auto|]. intros Q. apply FIz in Q as [->|[]]. auto.
    + exfalso. destruct (proj1 (FIz x) (or_introl eq_refl)) as [X1 X2], (proj1 (FIz y) (or_intror (or_introl eq_refl))) as [Y1 Y2].
      assert (x = y) as -> by (eapply (H3 b); eauto; unfold has_zone in *; congruence).
      inversion ND as [|? ? N _]; subst. apply N. left; auto.
  - intros z Hz. unfold get_tree. destruct (filter (zone_is s z) (b_trees s b)) as [|x l] eqn:E; auto.
    exfalso. apply not_true_iff_false in Hz. apply Hz. apply HT. exists x. apply FI. rewrite E. left; auto.
Qed.

(** ---- C47 ---- *)
Lemma sorted_nth ns : StronglySorted Z.lt ns -> forall i j m n, nth_error ns i = Some m -> nth_error ns j = Some n -> i < j -> (m < n)%Z.
Proof.
  induction 1 as [|x ns S IH F]; intros i j m n Hi Hj L; [destruct i; discriminate|].
  destruct j as [|j]; [lia|]. destruct i as [|i]; cbn in *.
  - injection Hi as <-. rewrite Forall_forall in F. apply F. eapply nth_error_In; eauto.
  - eapply IH; eauto. lia.
Qed.
Lemma nth_map_Some (f : nat -> option Z) l ns i b : map f l = map Some ns -> nth_error l i = Some b ->
  exists m, f b = Some m /\ nth_error ns i = Some m.
Proof.
  intros E H. pose proof (map_nth_error f i l H) as Q. rewrite E in Q.
  destruct (nth_error ns i) as [m|] eqn:N.
  - exists m. rewrite (map_nth_error Some i ns N) in Q. split; congruence.
  - exfalso. apply nth_error_None in N. assert (nth_error (map Some ns) i = None) by (apply nth_error_None; rewrite map_length; auto). congruence.
Qed.
Lemma num_before (f : nat -> option Z) l ns b c : NoDup l -> map f l = map Some ns -> StronglySorted Z.lt ns -> In b l -> In c l ->
  exists m n, f b = Some m /\ f c = Some n /\ (m = n <-> b = c) /\ ((m < n)%Z <-> exists l1 l2 l3, l = l1 ++ b :: l2 ++ c :: l3).
Proof.
  intros ND E S Hb Hc. apply In_nth_error in Hb as [i Hi]. apply In_nth_error in Hc as [j Hj].
  destruct (nth_map_Some f l ns i b E Hi) as [m [Fm Nm]], (nth_map_Some f l ns j c E Hj) as [n [Fn Nn]].
  exists m, n. split; auto. split; auto.
  assert (IJ : i = j <-> b = c).
  { split; [intros ->; congruence|]. intros ->. apply (proj1 (NoDup_nth_error l) ND); [apply nth_error_Some; congruence|congruence]. }
  assert (LT : i < j <-> (m < n)%Z).
  { split; [apply (sorted_nth ns S i j m n); auto|]. intros Q. destruct (Nat.lt_trichotomy i j) as [|[->|G]]; auto.
    - assert (m = n) by congruence. lia.
    - pose proof (sorted_nth ns S j i n m Nn Nm G). lia. }
  split.
  - rewrite <- IJ. split; [intros ->|intros ->; congruence].
    destruct (Nat.lt_trichotomy i j) as [G|[G|G]]; auto.
    + pose proof (sorted_nth ns S i j n n Nm Nn G). lia.
    + pose proof (sorted_nth ns S j i n n Nn Nm G). lia.
  - rewrite <- LT. split.
    + intros G. destruct (nth_error_split l i Hi) as [l1 [l2 [El Ll]]].
      assert (H2 : nth_error l2 (j - i - 1) = Some c).
      { rewrite El, nth_error_app2 in Hj by lia. replace (j - length l1) with (Datatypes.S (j - i - 1)) in Hj by lia. exact Hj. }
      destruct (nth_error_split l2 _ H2) as [l3 [l4 [El2 _]]]. exists l1, l3, l4. congruence.
    + intros (l1 & l2 & l3 & El).
      assert (Pi : nth_error l (length l1) = Some b) by (rewrite El, nth_error_app2 by lia; rewrite Nat.sub_diag; auto).
      assert (Pj : nth_error l (length l1 + Datatypes.S (length l2)) = Some c).
      { rewrite El, nth_error_app2 by lia. replace (length l1 + Datatypes.S (length l2) - length l1) with (Datatypes.S (length l2)) by lia.
        cbn. rewrite nth_error_app2 by lia. rewrite Nat.sub_diag. auto. }
      assert (i = length l1) by (apply (proj1 (NoDup_nth_error l) ND); [apply nth_error_Some; congruence|congruence]).
      assert (j = length l1 + Datatypes.S (length l2)) by (apply (proj1 (NoDup_nth_error l) ND); [apply nth_error_Some; congruence|congruence]).
      lia.
Qed.

Lemma precedes_num s d z b c x y : doc_world s -> in_document s d b (fst x) -> in_document s d c (fst y) ->
  has_zone s (fst x) z -> has_zone s (fst y) z ->
  exists m n, b_number s b = Some m /\ b_number s c = Some n /\ (m = n <-> fst x = fst y) /\
    ((m < n)%Z <-> bundle_before s d b c) /\
    precedes s x y = Ok (if Nat.eqb (fst x) (fst y) then (snd x <? snd y)%Z else (m <? n)%Z).
Proof.
  intros W [Xb Xt] [Yb Yt] Zx Zy. destruct (doc_world_inv s W) as [H1 Htb H2 H3 H4 H5 Hbd H6 H7].
  destruct (H7 d) as [ns [E [S _]]]. destruct (num_before (b_number s) _ ns b c (H6 d) E S Xb Yb) as (m & n & Nb & Nc & EQ & LT).
  destruct (H1 _ _ Xt) as [TX _], (H1 _ _ Yt) as [TY _]. destruct (H5 _ _ Xb) as [DX _], (H5 _ _ Yb) as [DY _].
  exists m, n. split; auto. split; auto. split.
  { rewrite EQ. split; [intros ->; eapply (H3 c); eauto; unfold has_zone in *; congruence|intros Q; congruence]. }
  split; [exact LT|]. unfold precedes. destruct (Nat.eqb_spec (fst x) (fst y)) as [Q|Q]; auto.
  unfold has_zone in *. rewrite Zx, Zy, str_eqb_refl, TX, TY, DX, DY, Nat.eqb_refl, Nb, Nc. reflexivity.
Qed.
Lemma precedes_spec s d z b c x y : doc_world s -> in_document s d b (fst x) -> in_document s d c (fst y) ->
  has_zone s (fst x) z -> has_zone s (fst y) z ->
  exists v, precedes s x y = Ok v /\ (v = true <-> word_before s d x y).
Proof.
  intros W X Y Zx Zy. destruct (precedes_num s d z b c x y W X Y Zx Zy) as (m & n & Nb & Nc & EQ & LT & ->).
  eexists. split; [reflexivity|]. unfold word_before.
  assert (U : forall b', In (fst x) (b_trees s b') -> b' = b) by (intros b' Q; destruct (i_tree s (doc_world_inv s W) _ _ Q) as [A _], (i_tree s (doc_world_inv s W) _ _ (proj2 X)) as [B _]; congruence).
  assert (V : forall b', In (fst y) (b_trees s b') -> b' = c) by (intros b' Q; destruct (i_tree s (doc_world_inv s W) _ _ Q) as [A _], (i_tree s (doc_world_inv s W) _ _ (proj2 Y)) as [B _]; congruence).
  assert (R : (exists b' c', In (fst x) (b_trees s b') /\ In (fst y) (b_trees s c') /\ bundle_before s d b' c') <-> (m < n)%Z).
  { rewrite LT. split.
    - intros (b' & c' & Q1 & Q2 & Q3). rewrite (U _ Q1), (V _ Q2) in Q3. auto.
    - intros Q. exists b, c. destruct X, Y. auto. }
  rewrite R. destruct (Nat.eqb_spec (fst x) (fst y)) as [Q|Q]; rewrite Z.ltb_lt.
  - apply EQ in Q as Q'. split; [auto|]. intros [[_ G]|G]; [auto|lia].
  - split; [auto|]. intros [[G _]|G]; [congruence|auto].
Qed.
Lemma precedes_order s d z b1 b2 b3 x y w : doc_world s ->
  in_document s d b1 (fst x) -> in_document s d b2 (fst y) -> in_document s d b3 (fst w) ->
  has_zone s (fst x) z -> has_zone s (fst y) z -> has_zone s (fst w) z ->
  precedes s x x = Ok false /\
  (precedes s x y = Ok true -> precedes s y w = Ok true -> precedes s x w = Ok true) /\
  (precedes s x y = Ok true \/ precedes s y x = Ok true \/ (fst x = fst y /\ snd x = snd y)).
Proof.
  intros W X Y V Zx Zy Zw.
  destruct (precedes_num s d z b1 b2 x y W X Y Zx Zy) as (m & n & M1 & N1 & EQ1 & _ & E1).
  destruct (precedes_num s d z b2 b3 y w W Y V Zy Zw) as (n' & k & N2 & K2 & EQ2 & _ & E2).
  destruct (precedes_num s d z b1 b3 x w W X V Zx Zw) as (m' & k' & M3 & K3 & EQ3 & _ & E3).
  destruct (precedes_num s d z b2 b1 y x W Y X Zy Zx) as (n'' & m'' & N4 & M4 & EQ4 & _ & E4).
  assert (n' = n) by congruence. assert (m' = m) by congruence. assert (k' = k) by congruence.
  assert (n'' = n) by congruence. assert (m'' = m) by congruence. subst n' m' k' n'' m''.
  split; [unfold precedes; rewrite Nat.eqb_refl, Z.ltb_irrefl; auto|]. rewrite E1, E2, E3, E4. split.
  - intros A B. injection A as A. injection B as B. f_equal.
    destruct (Nat.eqb_spec (fst x) (fst y)), (Nat.eqb_spec (fst y) (fst w)), (Nat.eqb_spec (fst x) (fst w)); rewrite Z.ltb_lt in *; try lia; try congruence.
    all: intuition (try lia; try congruence).
  - rewrite (Nat.eqb_sym (fst y)). destruct (Nat.eqb_spec (fst x) (fst y)) as [Q|Q].
    + destruct (Z.lt_trichotomy (snd x) (snd y)) as [L|[L|L]]; [left|right; right|right; left]; auto; f_equal; apply Z.ltb_lt; auto.
    + destruct (Z.lt_trichotomy m n) as [L|[L|L]]; [left|exfalso; tauto|right; left]; f_equal; apply Z.ltb_lt; auto.
Qed.

(** ---- C32 ---- *)
Record idinv (s : store) : Prop := {
  j_inv : inv s;
  j_bid : forall b, b < nb s -> exists i, b_id s b = Some i /\ i <> [];
  j_sid : forall b t, In t (b_trees s b) -> exists i z, b_id s b = Some i /\ has_zone s t z /\
            (t_sid s t = None \/ t_sid s t = Some (full_id i z))
}.
Lemma slash_full i z : i ++ slash z = full_id i z.
Proof. destruct z; cbn; auto. apply app_nil_r. Qed.
Lemma str_of_Z_nonempty n : str_of_Z n <> [].
Proof.
  unfold str_of_Z. destruct (n <? 0)%Z; [discriminate|]. generalize (Z.to_nat (Z.log2_up (n + 1))). intros k.
  assert (G : forall f x acc, acc <> [] -> nat_digits f x acc <> []).
  { induction f as [|f IH]; intros x acc Ha; cbn [nat_digits]; auto. destruct (x <? 10)%Z; [discriminate|]. apply IH. discriminate. }
  cbn [nat_digits]. destruct (n <? 10)%Z; [discriminate|]. apply G. discriminate.
Qed.

Lemma idinv_zone s t z : idinv s -> t < nt s -> idinv (fst (set_zone s t z)).
Proof.
  intros [I B S] L. pose proof (inv_zone s t z I L) as I'. unfold set_zone in *.
  destruct (t_bundle s t) as [b|] eqn:Eb.
  - destruct (check_zone s b z) as [[]| |] eqn:C; [|split; auto|split; auto]. cbn [fst] in *. split; auto.
    intros c x Hx. cbn [put_sid put_zone b_trees b_id t_sid t_bundle t_zone has_zone] in *. unfold has_zone. cbn [put_sid put_zone t_zone]. rewrite Eb.
    upc x t; [|apply S; auto].
    destruct (i_tree s I c t Hx) as [Q [_ Lb]]. rewrite Eb in Q. injection Q as ->.
    destruct (B c Lb) as [i [Ei _]]. exists i, z. split; auto. split; auto. right. unfold b_address. cbn. rewrite Ei, slash_full. auto.
  - cbn [fst] in *. split; auto. intros c x Hx. cbn [put_sid put_zone b_trees b_id t_sid] in *. unfold has_zone. cbn [put_sid put_zone t_zone].
    assert (x <> t) by (intros ->; destruct (i_tree s I c t Hx) as [Q _]; congruence). rewrite !upd_other by auto. apply S; auto.
Qed.
Lemma idinv_bundle_id s b v : idinv s -> v <> [] -> (forall t, In t (b_trees s b) -> has_zone s t [] -> b_trees s b = [t]) ->
  idinv (set_bundle_id s b v).
Proof.
  intros [I B S] Nv Z. pose proof (inv_bundle_id s b v I) as I'.
  destruct (set_bundle_id_fields s b v) as (A1 & A2 & A3 & A4 & A5 & A6 & A7 & A8 & A9 & A10 & A11 & A12 & A13).
  split; auto.
  - rewrite A2, A7. intros c Hc. upc c b; eauto.
  - rewrite A6, A7. unfold has_zone. rewrite A4. intros c t Ht. upc c b.
    + destruct (S b t Ht) as (i & z & Ei & Ez & _). exists v, z. split; auto. split; auto. right. rewrite (A13 t Ht). f_equal.
      unfold has_zone in *. unfold zone_str. rewrite Ez. destruct z as [|a z].
      * rewrite (Z t Ht Ez). assert (Q : zone_is s [] t = true) by (apply zone_is_spec; auto). rewrite Q. reflexivity.
      * assert (Q : zone_is s [] t = false).
        { apply not_true_iff_false. intros Q. apply zone_is_spec in Q. congruence. }
        rewrite Q, andb_false_r. reflexivity.
    + rewrite A12; [apply S; auto|]. intros Q. destruct (i_tree s I b t Q) as [P1 _], (i_tree s I c t Ht) as [P2 _]. congruence.
Qed.
Lemma idinv_unplaced_sid s t v : idinv s -> ~ placed s t -> idinv (put_sid s t v).
Proof.
  intros [I B S] NP. split; [apply inv_sid; auto|auto|].
  intros b x Hx. cbn [put_sid b_trees b_id t_sid] in *. unfold has_zone. cbn [put_sid t_zone]. rewrite upd_other; [apply S; auto|].
  intros ->. apply NP. exists b; auto.
Qed.
Lemma idinv_add s b t : idinv s -> b < nb s -> t < nt s -> ~ placed s t -> idinv (fst (add_tree s b t)).
Proof.
  intros J Lb Lt NP. pose proof (inv_add s b t (j_inv s J) Lb Lt NP) as I'.
  unfold add_tree in *. set (s1 := match t_zone s t with None => put_zone s t (Some []) | Some _ => s end) in *.
  assert (J1 : idinv s1).
  { unfold s1. destruct (t_zone s t); auto. destruct J as [I B S]. split; [apply zone_unplaced; auto|auto|].
    intros c x Hx. cbn [put_zone b_trees b_id t_sid] in *. unfold has_zone. cbn [put_zone t_zone]. rewrite upd_other; [apply S; auto|].
    intros ->. apply NP. exists c; auto. }
  assert (Z1 : exists z, t_zone s1 t = Some z).
  { unfold s1. destruct (t_zone s t) as [z|] eqn:E; [eauto|]. cbn. rewrite upd_same. eauto. }
  assert (NP1 : ~ placed s1 t) by (unfold s1; destruct (t_zone s t); auto).
  assert (Lb1 : b < nb s1) by (unfold s1; destruct (t_zone s t); auto).
  clearbody s1. destruct Z1 as [z Z]. unfold zone_str in *. rewrite Z in *.
  destruct (check_zone s1 b z) as [[]| |] eqn:C; auto. destruct (j_bid s1 J1 b Lb1) as [i [Ei Ni]]. rewrite Ei in *.
  destruct i as [|a i]; [congruence|]. cbn [fst] in *. split; auto.
  - cbn. intros c Hc. apply (j_bid s1 J1 c Hc).
  - intros c x Hx. cbn [put_trees put_bundle put_sid b_trees b_id t_sid] in *. unfold has_zone. cbn [put_trees put_bundle put_sid t_zone].
    assert (Old : In x (b_trees s1 c) -> exists i0 z0, b_id s1 c = Some i0 /\ t_zone s1 x = Some z0 /\
       (upd (t_sid s1) t (Some ((a :: i) ++ slash z)) x = None \/ upd (t_sid s1) t (Some ((a :: i) ++ slash z)) x = Some (full_id i0 z0))).
    { intros Q. rewrite upd_other; [apply (j_sid s1 J1); auto|]. intros ->. apply NP1. exists c; auto. }
    upc c b; auto. apply in_app_iff in Hx as [Hx|[<-|[]]]; auto.
    exists (a :: i), z. split; auto. split; auto. right. rewrite upd_same, slash_full. auto.
Qed.
Lemma idinv_set_sent_id s t v : idinv s -> t < nt s -> agreeing s (DSentId t v) -> idinv (fst (set_sent_id s t v)).
Proof.
  intros J L A. cbn in A. unfold set_sent_id. destruct (t_bundle s t) as [b|] eqn:Eb.
  - destruct (A b eq_refl) as [Hin [[Nv [Ne [Z E1]]]|(i & z & Ev & Ni & Nei & Nez & OZ & C)]].
    + apply split1_None in Nv as ->. cbn [fst].
      assert (J1 : idinv (set_bundle_id s b v)).
      { apply idinv_bundle_id; auto. intros t' Ht' _. rewrite E1 in Ht' |- *. destruct Ht' as [->|[]]; auto. }
      destruct (set_bundle_id_fields s b v) as (A1 & A2 & A3 & A4 & A5 & A6 & A7 & A8 & A9 & A10 & A11 & A12 & A13).
      destruct J1 as [I1 B1 S1]. split; [apply inv_sid; auto|auto|].
      intros c x Hx. cbn [put_sid b_trees b_id t_sid] in *. unfold has_zone. cbn [put_sid t_zone].
      upc x t; [|apply S1; auto]. rewrite A6 in Hx. destruct (i_tree s (j_inv s J) c t Hx) as [Q _]. rewrite Eb in Q. injection Q as ->.
      exists v, []. rewrite A7, A4, upd_same. auto.
    + assert (Q : split1 47%N v = Some (i, z)) by (rewrite Ev; apply (split1_app 47%N i z Ni)). unfold set_sent_id in C. rewrite Eb, Q in C. rewrite Q.
      (* only t may have an empty zone in the intermediate state *)
      destruct (set_bundle_id_fields s b i) as (A1 & A2 & A3 & A4 & A5 & A6 & A7 & A8 & A9 & A10 & A11 & A12 & A13).
      pose proof (inv_bundle_id s b i (j_inv s J)) as I1.
      unfold set_zone in *. rewrite A5, Eb in *.
      destruct (check_zone (set_bundle_id s b i) b z) as [[]|e|] eqn:C'.
      2, 3: destruct C as [C|C]; [discriminate C|]; cbn [fst snd bind]; apply idinv_bundle_id; auto; intros t' Ht' Zt';
        destruct (Nat.eq_dec t' t) as [->|Nt]; [contradiction|exfalso; apply (OZ t' Ht' Nt Zt')].
      clear C. cbn [bind fst].
      assert (I2 : inv (fst (set_zone (set_bundle_id s b i) t z))) by (apply inv_zone; auto; rewrite A1; auto).
      unfold set_zone in I2. rewrite A5, Eb, C' in I2. cbn [fst] in I2.
      split; [apply inv_sid; exact I2| |].
      * cbn. rewrite A2, A7. intros c Hc. upc c b; [eauto|apply (j_bid s J c Hc)].
      * intros c x Hx. cbn [put_sid put_zone b_trees b_id t_sid] in *. unfold has_zone. cbn [put_sid put_zone t_zone].
        rewrite A6 in Hx. rewrite A7. destruct (i_tree s (j_inv s J) c x Hx) as [Tx _]. upc x t.
        -- rewrite Eb in Tx. injection Tx as ->. exists i, z. rewrite upd_same. split; auto. split; auto. right.
           rewrite Ev. destruct z; [congruence|]. reflexivity.
        -- rewrite ?(upd_other _ t) by auto. rewrite A4. destruct (j_sid s J c x Hx) as (i0 & z0 & Ei & Ez & Sx). unfold has_zone in Ez. upc c b.
           ++ exists i, z0. split; auto. split; auto. right. rewrite (A13 x Hx). f_equal.
              assert (NZ : zone_is s [] x = false).
              { apply not_true_iff_false. intros Zx. apply zone_is_spec in Zx. apply (OZ x Hx); auto. }
              rewrite NZ, andb_false_r. unfold zone_str. rewrite Ez. destruct z0; [|reflexivity].
              exfalso. apply (OZ x Hx); auto.
           ++ exists i0, z0. split; auto. split; auto. rewrite A12; auto.
              intros Q2. destruct (i_tree s (j_inv s J) b x Q2) as [P _]. congruence.
  - cbn. apply idinv_unplaced_sid; auto. intros [b Hb]. destruct (i_tree s (j_inv s J) b t Hb) as [Q _]. congruence.
Qed.

Lemma agreeing_inv s : agreeing_world s -> idinv s.
Proof.
  induction 1 as [|s o W IH A NS AG].
  - split; [apply doc_world_inv; constructor| |]; cbn; [intros b Hb; lia|intros b t []].
  - destruct o; cbn [doc_step args_exist not_stolen] in *.
    + destruct IH as [I B S]. split; auto. apply inv_new_document; auto.
    + pose proof (inv_create_bundle s d (j_inv s IH) A) as I'. rewrite create_bundle_eq in *. cbn [fst] in *. split; auto; cbn [nb b_id b_trees t_sid t_zone].
      * intros b Hb. upc b (nb s); [eexists; split; [reflexivity|apply str_of_Z_nonempty]|apply (j_bid s IH); lia].
      * intros b t. unfold has_zone. cbn [t_zone]. upc b (nb s); [intros []|]. apply (j_sid s IH).
    + pose proof (inv_new_tree s zone (j_inv s IH)) as [I' _]. split; auto; cbn [fst new_tree] in *; [apply (j_bid s IH)|].
      intros b t Ht. unfold has_zone. cbn [t_sid t_zone b_id b_trees] in *.
      assert (t <> nt s) by (destruct (i_tree s (j_inv s IH) b t Ht) as [_ [Q _]]; lia). rewrite !upd_other by auto. apply (j_sid s IH); auto.
    + unfold create_tree. destruct (new_tree s zone) as [s1 t] eqn:E.
      assert (J1 : idinv s1).
      { pose proof (inv_new_tree s zone (j_inv s IH)) as [I' _]. rewrite E in I'. unfold new_tree in E. injection E as <- <-. split; auto; [apply (j_bid s IH)|].
        intros c x Hx. unfold has_zone. cbn [t_sid t_zone b_id b_trees] in *.
        assert (x <> nt s) by (destruct (i_tree s (j_inv s IH) c x Hx) as [_ [Q _]]; lia). rewrite !upd_other by auto. apply (j_sid s IH); auto. }
      destruct (inv_new_tree s zone (j_inv s IH)) as [_ NP]. rewrite E in NP. cbn [fst] in NP.
      assert (t = nt s) as -> by (unfold new_tree in E; congruence).
      assert (nt s < nt s1 /\ nb s1 = nb s) as [L1 L2] by (unfold new_tree in E; injection E as <-; cbn; lia).
      pose proof (idinv_add s1 b (nt s) J1 ltac:(lia) L1 NP) as Q.
      destruct (add_tree s1 b (nt s)) as [s2 [[]| |]]; exact Q.
    + destruct A. apply idinv_add; auto.
    + apply idinv_zone; auto.
    + apply idinv_set_sent_id; auto.
    + unfold sent_id. destruct (t_sid s t) eqn:Es; auto. destruct (t_bundle s t) as [b|] eqn:Eb; auto. cbn [fst].
      destruct IH as [I B S]. split; [apply inv_sid; auto|auto|]. intros c x Hx. cbn [put_sid b_trees b_id t_sid] in *. unfold has_zone. cbn [put_sid t_zone].
      upc x t; [|apply S; auto]. destruct (S c t Hx) as (i & z & Ei & Ez & _). exists i, z. split; auto. split; auto. right.
      destruct (i_tree s I c t Hx) as [Q _]. rewrite Eb in Q. injection Q as ->. unfold b_address, zone_str, has_zone in *. rewrite Ei, Ez, slash_full. auto.
    + destruct AG. apply idinv_bundle_id; auto.
    + pose proof (inv_tree_remove s t (j_inv s IH)) as I'. unfold tree_remove in *. destruct (t_bundle s t) as [b|]; auto. cbn [fst] in *.
      destruct IH as [I B S]. split; auto. intros c x Hx. apply S. cbn in Hx. upc c b; auto. apply filter_In in Hx. tauto.
    + pose proof (inv_bundle_remove s b (j_inv s IH) A) as I'. unfold bundle_remove in *. set (s1 := put_bundles s _ _) in *.
      destruct (number_from_fields (d_bundles s1 (b_doc s b)) s1 0%Z) as (A1 & A2 & A3 & A4 & A5 & A6 & A7 & A8 & A9 & A10 & A11 & _).
      destruct IH as [I B S]. split; auto; unfold has_zone; rewrite ?A2, ?A4, ?A5, ?A7, ?A8; auto.
Qed.
Lemma ids_agree s : agreeing_world s -> forall b t, In t (b_trees s b) ->
  exists i z, b_id s b = Some i /\ has_zone s t z /\ snd (sent_id s t) = full_id i z.
Proof.
  intros W b t Ht. pose proof (agreeing_inv s W) as J. destruct (j_sid s J b t Ht) as (i & z & Ei & Ez & [E|E]); exists i, z; split; auto; split; auto; unfold sent_id; rewrite E; auto.
  destruct (i_tree s (j_inv s J) b t Ht) as [Q _]. rewrite Q. unfold b_address, zone_str, has_zone in *. rewrite Ei, Ez. cbn [snd]. apply slash_full.
Qed.
