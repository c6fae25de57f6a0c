(** Entity ids. *)
From Coq Require Import String List NArith ZArith Bool Lia.
From Verif Require Import PyStr PyStrFacts PyList PyListFacts PyExn TreeModel TreeOps CorefModel CorefSpec.
Import ListNotations.

Lemma find_eid_Some l x e : find_eid l x = Some e -> In (x, e) l.
Proof.
  induction l as [|[k v] l IH]; cbn [find_eid]; [discriminate|]. destruct (str_eqb_spec k x) as [->|N]; [intros [= ->]; left; auto|right; auto].
Qed.
Lemma find_eid_None l x : find_eid l x = None <-> ~ In x (map fst l).
Proof.
  induction l as [|[k v] l IH]; cbn [find_eid map fst In]; [tauto|]. destruct (str_eqb_spec k x) as [->|N]; [split; [discriminate|tauto]|].
  rewrite IH. tauto.
Qed.
Lemma used_keys c x : used c x <-> In x (map fst (eids c)).
Proof.
  unfold used. rewrite in_map_iff. split; [intros [e H]; exists (x, e); auto|]. intros ([k e] & <- & H). exists e. auto.
Qed.
Lemma find_used c x : find_eid (eids c) x <> None <-> used c x.
Proof.
  rewrite used_keys, find_eid_None. split; [|tauto]. intros H. destruct (in_dec (list_eq_dec N.eq_dec) x (map fst (eids c))); tauto.
Qed.
Lemma auto_id_inj i j : auto_id i = auto_id j -> i = j.
Proof. unfold auto_id. intros H. apply app_inv_head in H. apply str_of_Z_inj in H; lia. Qed.
Lemma auto_eid_id n : auto_eid (Z.of_nat n) = auto_id n.
Proof. reflexivity. Qed.
Lemma counter_run f : forall l n,
  (exists k, free_counter f l (Z.of_nat n) = Ok (Z.of_nat (n + k)) /\ k <= f /\ ~ In (auto_id (n + k)) (map fst l) /\
     forall j, j < k -> In (auto_id (n + j)) (map fst l)) \/
  (forall j, j <= f -> In (auto_id (n + j)) (map fst l)).
Proof.
  induction f as [|f IH]; intros l n; cbn [free_counter]; rewrite auto_eid_id; destruct (find_eid l (auto_id n)) as [e|] eqn:E.
  - right. intros j L. assert (j = 0) as -> by lia. rewrite Nat.add_0_r. apply find_eid_Some in E. apply (in_map fst) in E. exact E.
  - left. exists 0. rewrite Nat.add_0_r. split; [reflexivity|]. split; [lia|]. split; [apply find_eid_None; auto|]. intros; lia.
  - assert (I0 : In (auto_id n) (map fst l)) by (apply find_eid_Some in E; apply (in_map fst) in E; exact E).
    replace (Z.of_nat n + 1)%Z with (Z.of_nat (S n)) by lia. destruct (IH l (S n)) as [(k & A & B & C & D)|D].
    + left. exists (S k). replace (n + S k) with (S n + k) by lia. split; [exact A|]. split; [lia|]. split; [exact C|].
      intros [|j] L; [rewrite Nat.add_0_r; auto|]. replace (n + S j) with (S n + j) by lia. apply D. lia.
    + right. intros [|j] L; [rewrite Nat.add_0_r; auto|]. replace (n + S j) with (S n + j) by lia. apply D. lia.
  - left. exists 0. rewrite Nat.add_0_r. split; [reflexivity|]. split; [lia|]. split; [apply find_eid_None; auto|]. intros; lia.
Qed.
Lemma counter_ok l : exists n, 1 <= n /\ free_counter (length l) l 1 = Ok (Z.of_nat n) /\ ~ In (auto_id n) (map fst l) /\
  forall k, 1 <= k < n -> In (auto_id k) (map fst l).
Proof.
  destruct (counter_run (length l) l 1) as [(k & A & B & C & D)|D].
  - exists (1 + k). split; [lia|]. split; [exact A|]. split; [exact C|]. intros j L. replace j with (1 + (j - 1)) by lia. apply D. lia.
  - exfalso. assert (incl (map (fun j => auto_id (1 + j)) (seq 0 (S (length l)))) (map fst l)).
    { intros x Hx. apply in_map_iff in Hx. destruct Hx as (j & <- & Hj). apply in_seq in Hj. apply D. lia. }
    apply NoDup_incl_length in H.
    + rewrite !map_length, seq_length in H. lia.
    + assert (forall m, NoDup m -> NoDup (map (fun j => auto_id (1 + j)) m)) as Inj.
      { clear. intros m ND. induction ND as [|x l N _ IH]; cbn [map]; constructor; auto. rewrite in_map_iff.
        intros (y & E & I). apply auto_id_inj in E. assert (y = x) as -> by lia. auto. }
      apply Inj. apply seq_NoDup.
Qed.
Lemma forbidden_spec x : forbidden_in_id x = true <-> has_forbidden x.
Proof.
  unfold forbidden_in_id, has_forbidden. rewrite existsb_exists. split; intros (a & A & B); exists a; [rewrite <- has_char_In; auto|rewrite has_char_In; auto].
Qed.
Lemma auto_ok n : forbidden_in_id (auto_id n) = false.
Proof.
  destruct (forbidden_in_id (auto_id n)) eqn:E; auto. exfalso. apply forbidden_spec in E. destruct E as (a & A & B).
  unfold auto_id in A. apply in_app_or in A.
  destruct (str_of_Z_nonneg (Z.of_nat n)) as (D & _); [lia|]. rewrite forallb_forall in D.
  destruct A as [[<-|[]]|A].
  - cbn in B. repeat (destruct B as [B|B]; [discriminate|]). auto.
  - specialize (D a A). cbn in B. repeat (destruct B as [<-|B]; [discriminate|]). auto.
Qed.

Lemma create_with c x t r : forbidden_in_id x = false -> r = Ok x ->
  exists c', bind (c, r) (fun c x => if forbidden_in_id x then (c, Raise ValueError) else let e := e_next c in
       (mkCo (co_doc c) (co_h c) (co_tree c) (m_next c) (S e) (m_words c) (m_head c) (m_ent c) (upd (e_eid c) e x)
             (upd (e_type c) e t) (upd (e_ments c) e []) (n_ments c) (eids c ++ [(x, e)]), Ok e)) = (c', Ok (e_next c)) /\ new_entity c c' x t.
Proof.
  intros F ->. cbn [bind]. rewrite F. eexists. split; [reflexivity|]. unfold new_entity. cbn.
  split; [apply upd_same|]. split; [apply upd_same|]. split; [apply upd_same|]. split; [reflexivity|]. split; [reflexivity|].
  intros k N. split; [|split]; apply upd_other; auto.
Qed.
Lemma create_auto c x t : x = None \/ x = Some [] -> exists n c', create_entity c x t = (c', Ok (e_next c)) /\ new_entity c c' (auto_id n) t /\
  1 <= n /\ ~ used c (auto_id n) /\ forall k, 1 <= k < n -> used c (auto_id k).
Proof.
  intros H. destruct (counter_ok (eids c)) as (n & A & B & C & D). exists n.
  destruct (create_with c (auto_id n) t (Ok (auto_id n)) (auto_ok n) eq_refl) as (c' & E & N). exists c'. split.
  - rewrite <- E. unfold create_entity. destruct H as [-> | ->]; rewrite B; reflexivity.
  - split; [exact N|]. split; [exact A|]. split; [rewrite used_keys; exact C|]. intros k L. rewrite used_keys. auto.
Qed.
Lemma create_taken c x t : x <> [] -> used c x -> create_entity c (Some x) t = (c, Raise ValueError).
Proof.
  intros N U. unfold create_entity. destruct x as [|a x]; [congruence|]. apply find_used in U. destruct (find_eid (eids c) (a :: x)); [reflexivity|congruence].
Qed.
Lemma create_bad c x t : has_forbidden x -> create_entity c (Some x) t = (c, Raise ValueError).
Proof.
  intros F. unfold create_entity. destruct x as [|a x]; [destruct F as (a & [] & _)|]. destruct (find_eid _ _); [reflexivity|]. cbn [bind].
  apply forbidden_spec in F. rewrite F. reflexivity.
Qed.
Lemma create_given c x t : x <> [] -> ~ used c x -> ~ has_forbidden x -> exists c', create_entity c (Some x) t = (c', Ok (e_next c)) /\ new_entity c c' x t.
Proof.
  intros N U F. unfold create_entity. destruct x as [|a x]; [congruence|]. rewrite <- find_used in U.
  destruct (find_eid (eids c) (a :: x)); [exfalso; apply U; discriminate|]. apply create_with; auto.
  destruct (forbidden_in_id (a :: x)) eqn:E; auto. apply forbidden_spec in E. tauto.
Qed.
Lemma new_unique c c' x t : ids_unique c -> new_entity c c' x t -> ~ used c x -> ids_unique c'.
Proof.
  intros [A B] (E1 & _ & _ & E4 & E5 & E6) U. split.
  - rewrite E4, map_app. cbn. eapply Permutation.Permutation_NoDup; [apply Permutation.Permutation_cons_append|]. constructor; auto. rewrite <- used_keys. auto.
  - intros y e. rewrite E4, in_app_iff. intros [H|[[= <- <-]|[]]]; [|split; [auto|lia]].
    destruct (B y e H) as [B1 B2]. split; [|lia]. destruct (E6 e) as [-> _]; [lia|auto].
Qed.
Lemma create_unique c x t : ids_unique c -> ids_unique (fst (create_entity c x t)).
Proof.
  intros U. assert (A : x = None \/ x = Some [] \/ exists y, y <> [] /\ x = Some y).
  { destruct x as [[|a x]|]; auto. right. right. eexists. split; [|reflexivity]. discriminate. }
  destruct A as [A|[A|(y & N & ->)]].
  1,2: destruct (create_auto c x t) as (n & c' & E & H & _ & F & _); auto; rewrite E; cbn [fst]; eapply new_unique; eauto.
  destruct (find_eid (eids c) y) eqn:E.
  - rewrite create_taken; auto. apply find_used. congruence.
  - assert (NU : ~ used c y) by (rewrite <- find_used; tauto). destruct (forbidden_in_id y) eqn:F.
    + rewrite create_bad; auto. apply forbidden_spec; auto.
    + destruct (create_given c y t) as (c' & E' & H); auto; [rewrite <- forbidden_spec; congruence|]. rewrite E'. cbn [fst]. eapply new_unique; eauto.
Qed.
Lemma created_unique c c' : entities_created c c' -> ids_unique c -> ids_unique c'.
Proof. intros H U. induction H; auto. apply create_unique; auto. Qed.
