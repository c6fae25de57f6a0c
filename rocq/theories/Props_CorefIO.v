(** Storing coreference in MISC and loading it: C68. *)
From Coq Require Import String List NArith ZArith Bool Lia Sorting.Sorted Sorting.Permutation.
From Verif Require Import PyStr PyStrFacts PyList PyListFacts PyExn TreeModel TreeSpec TreeProps EmptySpec DualDictModel BundleModel BundleSpec
  CorefModel CorefSpec CorefSpan CorefOrder CorefLinks CorefIds CorefIOModel CorefIOSpec CorefIOEvents CorefIOPlace CorefIOThms Props_Coref.
Import ListNotations.

(** C68. After storing and loading, the document has the same entities (ids, types) with the same mentions (words, head, other).
    Missing: the documents that are not [storable], see below. *)
Theorem C68_round_trip_partial : forall lower x d z roots, storable x d z roots ->
  exists x1 x2, store_coref lower x roots = (x1, Ok tt) /\ load_coref (reread x1) roots = (x2, Ok tt) /\ same_coref x x2 d.
Proof. exact round_trip. Qed.
Print Assumptions C68_round_trip_partial.

(** ---- a case ---- *)
Definition doc_ments (c : coref) : list nat := flat_map (fun p => e_ments c (snd p)) (eids c).
Lemma doc_ments_in c m : doc_mention c m <-> In m (doc_ments c).
Proof.
  unfold doc_ments. rewrite in_flat_map. split; [intros (k & e & H & M); exists (k, e); auto|intros ((k, e) & H & M); exists k, e; auto].
Qed.
(** the pieces of a mention *)
Definition piecesb (c : coref) (m : nat) : list (list nat) :=
  runs_of (fun w => mem w (m_words c m)) (descendants_and_empty (co_h c) (h_root (co_h c) (m_head c m))).
Definition at_en (x : nat) : nat := ix [3; 4; 6; 5; 9; 7; 8] x.
Definition crossb (p q : list nat) : bool :=
  let a := at_en (hd 0 p) in let b := at_en (last p 0) in let u := at_en (hd 0 q) in let v := at_en (last q 0) in
  Nat.ltb a u && Nat.ltb u b && Nat.ltb b v.
Definition apartb (p q : list nat) : bool := forallb (fun a => forallb (fun b => Nat.ltb (at_en a) (at_en b)) q) p.
Definition discb (c : coref) (m : nat) : bool := match piecesb c m with _ :: _ :: _ => true | _ => false end.
Definition same_list (a b : list nat) : bool := if list_eq_dec Nat.eq_dec a b then true else false.
Definition uncrossed (c : coref) (m n : nat) : bool := forallb (fun p => forallb (fun q => negb (crossb p q)) (piecesb c n)) (piecesb c m).
Definition pairb (c : coref) (m n : nat) : bool :=
  negb (Nat.eqb (m_ent c m) (m_ent c n)) ||
  uncrossed c m n && (Nat.eqb m n || negb (same_list (m_words c m) (m_words c n)) &&
    (negb (discb c m) || negb (discb c n) || apartb (m_words c m) (m_words c n) || apartb (m_words c n) (m_words c m))).
Definition wordsb (c : coref) (m : nat) : bool :=
  forallb (fun w => mem w [3; 4; 5; 6; 7; 8]) (m_words c m) && same_list (m_words c m) (filter (fun w => mem w (m_words c m)) [3; 4; 6; 5; 7; 8]) &&
  (same_list (filter (fun w => mem w (m_words c m)) [3; 4; 6; 5]) [] || same_list (filter (fun w => mem w (m_words c m)) [7; 8]) []).
Section Case.
Variable (c : coref).
Hypothesis ED : co_doc c = cdoc.
Hypothesis EH : co_h c = cheap.
Hypothesis ET : co_tree c = fun r => r.
Lemma case_trees : trees_of_document c.
Proof. unfold trees_of_document. rewrite ED, ET. split; [exact cdoc_world|auto]. Qed.
Lemma case_roots : document_roots c 0 [0; 2; 1].
Proof.
  unfold document_roots. rewrite ED, ET, EH. split; [vm_compute; reflexivity|]. intros r H. apply cheap_good. cbn [In] in *. tauto.
Qed.
Lemma case_good r : In r [0; 2; 1] -> consistent (co_h c) r /\ good_empties (co_h c) r.
Proof. intros H. apply case_roots. exact H. Qed.
Lemma case_nodes : doc_nodes c [0; 2; 1] = [3; 4; 6; 5; 9; 7; 8].
Proof. unfold doc_nodes. rewrite EH. vm_compute. reflexivity. Qed.
Hypothesis LK : linked c.
Hypothesis WB : forallb (wordsb c) (doc_ments c) = true.
Lemma case_word m w : doc_mention c m -> In w (m_words c m) -> placed_node c 0 (PyStr.s "en") w.
Proof.
  intros D. apply doc_ments_in in D. rewrite forallb_forall in WB. specialize (WB m D). unfold wordsb in WB. rewrite !andb_true_iff in WB.
  apply (en_words c); auto. apply WB.
Qed.
Lemma sorted_filter {A} (R : A -> A -> Prop) f l : StronglySorted R l -> StronglySorted R (filter f l).
Proof.
  induction 1 as [|a l H IH F]; cbn [filter]; [constructor|]. destruct (f a); auto. constructor; auto. rewrite Forall_forall in *. intros x Hx.
  apply filter_In in Hx. apply F, Hx.
Qed.
Lemma case_sorted m : doc_mention c m -> increasing (co_h c) (m_words c m).
Proof.
  intros D. apply doc_ments_in in D. rewrite forallb_forall in WB. specialize (WB m D). unfold wordsb in WB. rewrite !andb_true_iff, orb_true_iff in WB.
  destruct WB as [[_ E] O]. unfold same_list in *. destruct (list_eq_dec _ _ _) as [E'|] in E; [|discriminate]. rewrite E'. rewrite EH.
  change [3; 4; 6; 5; 7; 8] with ([3; 4; 6; 5] ++ [7; 8]). rewrite filter_app.
  assert (S1 : increasing cheap [3; 4; 6; 5]) by (repeat (constructor; [|repeat (constructor; [vm_compute; reflexivity|]); constructor]); constructor).
  assert (S2 : increasing cheap [7; 8]) by (repeat (constructor; [|repeat (constructor; [vm_compute; reflexivity|]); constructor]); constructor).
  revert O. generalize (filter (fun w => mem w (m_words c m)) [3; 4; 6; 5]) (sorted_filter _ (fun w => mem w (m_words c m)) _ S1)
    (filter (fun w => mem w (m_words c m)) [7; 8]) (sorted_filter _ (fun w => mem w (m_words c m)) _ S2). clear.
  intros l F k G [O|O]; destruct (list_eq_dec _ _ _) in O; try discriminate; subst; [exact G|rewrite app_nil_r; exact F].
Qed.
Lemma case_root m : doc_mention c m -> In (h_root (co_h c) (m_head c m)) [0; 2; 1].
Proof.
  intros D. assert (L : listed c m) by (destruct D as (k & e & _ & M); unfold listed; rewrite (lk_ents c LK e m M); exact M).
  assert (H : In (m_head c m) (m_words c m)) by apply (lk_words c LK m L).
  apply (placed_root c 0 (PyStr.s "en") [0; 2; 1]); [apply case_trees|apply case_roots|]. apply (case_word m); auto.
Qed.
Lemma case_pieces m rs : doc_mention c m -> pieces c m rs -> rs = piecesb c m.
Proof.
  intros D (l & W & M). destruct (case_good _ (case_root m D)) as [G1 G2].
  rewrite (word_order_unique _ _ _ _ G1 G2 W (dae_order _ _ G1 G2)) in M. apply runs_fun with (2 := M). intros w. symmetry. apply mem_In.
Qed.
Lemma piece_words m p w : In p (piecesb c m) -> In w p -> In w (m_words c m).
Proof. intros H W. apply runs_infix in H. destruct H as (_ & _ & F). apply mem_In. apply F. exact W. Qed.
Lemma case_before x y : placed_node c 0 (PyStr.s "en") x -> placed_node c 0 (PyStr.s "en") y -> (node_before c 0 x y <-> at_en x < at_en y).
Proof.
  intros X Y. unfold at_en. rewrite <- case_nodes. split.
  - apply (before_pos c 0 (PyStr.s "en")); auto using case_trees, case_roots.
  - apply (pos_before c 0 (PyStr.s "en")); auto using case_trees, case_roots.
Qed.
Lemma case_apart p q : (forall w, In w p -> placed_node c 0 (PyStr.s "en") w) -> (forall w, In w q -> placed_node c 0 (PyStr.s "en") w) ->
  apartb p q = true -> all_before c 0 p q.
Proof.
  intros P Q H a b Ha Hb. apply case_before; auto. unfold apartb in H. rewrite forallb_forall in H. specialize (H a Ha). rewrite forallb_forall in H.
  apply Nat.ltb_lt. apply H. exact Hb.
Qed.
Lemma case_continuous : forallb (fun m => negb (discb c m)) (doc_ments c) = true -> forall m, doc_mention c m -> ~ discontinuous c m.
Proof.
  intros X m D (p & q & rs & P). apply case_pieces in P; [|exact D]. apply doc_ments_in in D. rewrite forallb_forall in X. specialize (X m D).
  unfold discb in X. rewrite <- P in X. discriminate X.
Qed.
Lemma case_short : forallb (fun m => forallb (fun p => Nat.eqb (length p) 1) (piecesb c m)) (doc_ments c) = true ->
  forall m rs p, doc_mention c m -> pieces c m rs -> In p rs -> length p = 1.
Proof.
  intros X m rs p D P I. apply case_pieces in P; [|exact D]. apply doc_ments_in in D. subst rs. rewrite forallb_forall in X. specialize (X m D).
  rewrite forallb_forall in X. apply Nat.eqb_eq. apply X. exact I.
Qed.
Lemma case_storable (o : nat -> dict) (mi : nat -> str) : ids_unique c -> forallb (fun m => forallb (pairb c m) (doc_ments c)) (doc_ments c) = true ->
  (forall k e, In (k, e) (eids c) -> good_id k /\ good_type (e_type c e) /\ e_ments c e <> []) -> eids c <> [] ->
  (forall m, In m (doc_ments c) -> good_other (o m)) -> storable (mkCs c o mi) 0 (PyStr.s "en") [0; 2; 1].
Proof.
  intros UN PB EN NE OT.
  assert (PAIR : forall m n, doc_mention c m -> doc_mention c n -> m_ent c m = m_ent c n -> uncrossed c m n = true /\
    (m = n \/ m_words c m <> m_words c n /\ (discb c m = false \/ discb c n = false \/ apartb (m_words c m) (m_words c n) = true \/ apartb (m_words c n) (m_words c m) = true))).
  { intros m n Hm Hn E. apply doc_ments_in in Hm, Hn. rewrite forallb_forall in PB. specialize (PB m Hm). rewrite forallb_forall in PB. specialize (PB n Hn).
    unfold pairb in PB. rewrite E, Nat.eqb_refl in PB. cbn [negb orb] in PB. apply andb_true_iff in PB. destruct PB as [A B]. split; auto.
    apply orb_true_iff in B. destruct B as [B|B]; [left; apply Nat.eqb_eq; exact B|right]. apply andb_true_iff in B. destruct B as [B B'].
    split; [intros X; unfold same_list in B; destruct (list_eq_dec _ _ _); [discriminate|contradiction]|].
    rewrite !orb_true_iff, !negb_true_iff in B'. tauto. }
  assert (DB : forall m, doc_mention c m -> discontinuous c m -> discb c m = true).
  { intros m D (p & q & rs & P). apply case_pieces in P; auto. unfold discb. rewrite <- P. reflexivity. }
  constructor; cbn [cs_c cs_other].
  - apply case_trees.
  - apply case_roots.
  - exact LK.
  - exact UN.
  - intros k e H. apply (EN k e H).
  - intros k e H. apply (EN k e H).
  - intros m D. apply OT. apply doc_ments_in. exact D.
  - exact NE.
  - intros k e H. apply (EN k e H).
  - exact case_word.
  - exact case_sorted.
  - intros m n Hm Hn E EW. destruct (PAIR m n Hm Hn E) as [_ [X|[X _]]]; auto. contradiction.
  - intros m n p q rs rs' Hm Hn E Pm Pn Hp Hq (a & b & u & v & (la & Ea) & (lb & Eb) & (lu & Eu) & (lv & Ev) & B1 & B2 & B3).
    apply case_pieces in Pm, Pn; auto. subst rs rs'. destruct (PAIR m n Hm Hn E) as [UC _]. unfold uncrossed in UC. rewrite forallb_forall in UC.
    specialize (UC p Hp). rewrite forallb_forall in UC. specialize (UC q Hq). apply negb_true_iff in UC.
    assert (WP : forall w, In w p -> placed_node c 0 (PyStr.s "en") w) by (intros w Hw; apply (case_word m); auto; apply (piece_words m p); auto).
    assert (WQ : forall w, In w q -> placed_node c 0 (PyStr.s "en") w) by (intros w Hw; apply (case_word n); auto; apply (piece_words n q); auto).
    assert (Pa : placed_node c 0 (PyStr.s "en") a) by (apply WP; rewrite Ea; left; auto).
    assert (Pb : placed_node c 0 (PyStr.s "en") b) by (apply WP; rewrite Eb, in_app_iff; right; left; auto).
    assert (Pu : placed_node c 0 (PyStr.s "en") u) by (apply WQ; rewrite Eu; left; auto).
    assert (Pv : placed_node c 0 (PyStr.s "en") v) by (apply WQ; rewrite Ev, in_app_iff; right; left; auto).
    apply case_before in B1, B2, B3; auto. unfold crossb in UC.
    assert (hd 0 p = a) as Xa by (rewrite Ea; reflexivity). assert (hd 0 q = u) as Xu by (rewrite Eu; reflexivity).
    assert (last p 0 = b) as Xb by (rewrite Eb; apply last_last). assert (last q 0 = v) as Xv by (rewrite Ev; apply last_last).
    rewrite Xa, Xb, Xu, Xv in UC. cbv zeta in UC. apply Nat.ltb_lt in B1, B2, B3. rewrite B1, B2, B3 in UC. discriminate UC.
  - intros m n Hm Hn E NN Dm Dn. destruct (PAIR m n Hm Hn E) as [_ [X|[_ X]]]; [contradiction|]. apply DB in Dm, Dn; auto.
    destruct X as [X|[X|[X|X]]]; [congruence|congruence|left|right]; (apply case_apart; auto; intros w; apply case_word; auto).
Qed.
End Case.
Definition io_ops : list coref_op :=
  [CoCreateEntity None None; CoCreateEntity (Some (PyStr.s "boss")) (Some (PyStr.s "person")); CoCreate 0 (Some 5) [3; 5] None; CoCreate 0 None [4] None;
   CoCreate 1 (Some 4) [3; 4; 6] None; CoCreate 0 None [7; 8] None; CoCreate 1 (Some 8) [7; 8] None; CoCreate 1 None [8] None].
Definition io_c : coref := co_run co0 io_ops.
(** The mention of 1,3 has other = {'sure': True, 'wiki': 'Q:1'}; the attribute Entity of the word 3 is an old one. *)
Definition io_x : corefs := mkCs io_c (fun m => if Nat.eqb m 0 then [(PyStr.s "wiki", VStr (PyStr.s "Q:1")); (PyStr.s "sure", VTrue)] else [])
  (fun n => if Nat.eqb n 5 then PyStr.s "(e7)" else []).
Lemma not_in_text (l m : str) : forallb (fun a => negb (mem (N.to_nat a) (map N.to_nat m))) l = true -> without m l.
Proof.
  intros H a Ha Hm. rewrite forallb_forall in H. specialize (H a Ha). apply negb_true_iff in H. apply mem_false in H. apply H. apply in_map. exact Hm.
Qed.
Lemma io_linked l : run_keeps co0 l -> linked (co_run co0 l).
Proof. intros R. apply (C65_linked_partial co0); [split; [|split]; reflexivity|]. apply run_history; [constructor|exact R]. Qed.
Definition uniqueb (c : coref) : bool :=
  forallb (fun p => str_eqb (e_eid c (snd p)) (fst p) && Nat.ltb (snd p) (e_next c) && Nat.eqb (length (filter (fun q => str_eqb (fst p) (fst q)) (eids c))) 1) (eids c).
Lemma filter_one {A} (f : A -> bool) l x y : length (filter f l) = 1 -> In x l -> In y l -> f x = true -> f y = true -> x = y.
Proof.
  intros L X Y FX FY. assert (HX : In x (filter f l)) by (apply filter_In; auto). assert (HY : In y (filter f l)) by (apply filter_In; auto).
  destruct (filter f l) as [|a [|b k]]; cbn in *; try lia. intuition congruence.
Qed.
Lemma nodup_check (l : list (str * nat)) : forallb (fun p => Nat.eqb (length (filter (fun q => str_eqb (fst p) (fst q)) l)) 1) l = true -> NoDup (map fst l).
Proof.
  intros H. rewrite forallb_forall in H.
  assert (G : forall k : list (str * nat), (forall p, In p k -> length (filter (fun q => str_eqb (fst p) (fst q)) k) <= 1) -> NoDup (map fst k)).
  { induction k as [|p k IH]; intros A; cbn [map]; constructor.
    - intros X. apply in_map_iff in X. destruct X as (q & E & Q). specialize (A p (or_introl eq_refl)). cbn [filter] in A. rewrite str_eqb_refl in A. cbn [length] in A.
      assert (F : In q (filter (fun q => str_eqb (fst p) (fst q)) k)) by (apply filter_In; split; auto; rewrite E; apply str_eqb_refl).
      destruct (filter _ k); [destruct F|cbn in A; lia].
    - apply IH. intros q Q. specialize (A q (or_intror Q)). cbn [filter] in A. destruct (str_eqb (fst q) (fst p)); cbn [length] in A; lia. }
  apply G. intros p P. specialize (H p P). apply Nat.eqb_eq in H. lia.
Qed.
Lemma uniqueb_ok c : uniqueb c = true -> ids_unique c.
Proof.
  unfold uniqueb. intros H. split.
  - apply nodup_check. rewrite forallb_forall in *. intros p P. specialize (H p P). rewrite !andb_true_iff in H. apply H.
  - intros k e P. rewrite forallb_forall in H. specialize (H _ P). rewrite !andb_true_iff in H. cbn [fst snd] in H. destruct H as [[A B] _].
    apply str_eqb_eq in A. apply Nat.ltb_lt in B. auto.
Qed.
Lemma not_forbidden x : forallb (fun a => negb (mem (N.to_nat a) (map N.to_nat (PyStr.s "-=| ()" ++ [TAB])))) x = true -> ~ has_forbidden x.
Proof. intros H (a & A & B). apply (not_in_text _ _ H a A B). Qed.
Definition good_idb (x : str) : bool :=
  nonempty x && forallb (fun a => negb (mem (N.to_nat a) (map N.to_nat (PyStr.s "[-=| ()" ++ [TAB])))) x &&
  match last_opt x with Some 93%N => false | _ => true end.
Lemma good_idb_ok x : good_idb x = true -> good_id x.
Proof.
  unfold good_idb. rewrite !andb_true_iff. intros [[A B] C]. split; [destruct x; discriminate|]. apply not_in_text in B. split; [|split].
  - intros (a & Ha & F). apply (B a Ha). right. exact F.
  - intros a Ha [<-|[]]. apply (B _ Ha). left. reflexivity.
  - intros y ->. clear -C. induction y as [|b y IH]; [discriminate C|]. cbn [app] in C. destruct (y ++ PyStr.s "]") as [|e k] eqn:E; [destruct y; discriminate|].
    apply IH. change (last_opt (b :: e :: k)) with (last_opt (e :: k)) in C. exact C.
Qed.
Lemma eids_check c (P : str -> nat -> Prop) l : eids c = l -> Forall (fun p => P (fst p) (snd p)) l -> forall k e, In (k, e) (eids c) -> P k e.
Proof. intros -> F k e H. rewrite Forall_forall in F. apply (F (k, e) H). Qed.
Definition good_typeb (o : option str) : bool :=
  match o with None => true | Some t => forallb (fun a => negb (mem (N.to_nat a) (map N.to_nat (PyStr.s "-()")))) t end.
Lemma good_typeb_ok o : good_typeb o = true -> good_type o.
Proof. destruct o; cbn [good_typeb good_type]; auto using not_in_text. Qed.
Lemma eids_checkb c (P : str -> nat -> Prop) (f : str -> nat -> bool) : (forall k e, f k e = true -> P k e) ->
  forallb (fun p => f (fst p) (snd p)) (eids c) = true -> forall k e, In (k, e) (eids c) -> P k e.
Proof. intros F H k e I. rewrite forallb_forall in H. apply F. apply (H (k, e) I). Qed.
Lemma ids_check c : forallb (fun p => good_idb (fst p)) (eids c) = true -> forall k e, In (k, e) (eids c) -> good_id k.
Proof. apply (eids_checkb c (fun k e => good_id k) (fun k e => good_idb k)). intros k e. apply good_idb_ok. Qed.
Lemma types_check c : forallb (fun p => good_typeb (e_type c (snd p))) (eids c) = true -> forall k e, In (k, e) (eids c) -> good_type (e_type c e).
Proof. apply (eids_checkb c (fun k e => good_type (e_type c e)) (fun k e => good_typeb (e_type c e))). intros k e. apply good_typeb_ok. Qed.
Lemma used_check c : forallb (fun p => nonempty (e_ments c (snd p))) (eids c) = true -> forall k e, In (k, e) (eids c) -> e_ments c e <> [].
Proof. apply (eids_checkb c (fun k e => e_ments c e <> []) (fun k e => nonempty (e_ments c e))). intros k e. destruct (e_ments c e); discriminate. Qed.
Example C68_case : storable io_x 0 (PyStr.s "en") [0; 2; 1] /\ discontinuous io_c 0 /\
  map (cs_misc (fst (store_coref (fun t => t) io_x [0; 2; 1]))) [3; 4; 6; 5; 9; 7; 8] =
    [PyStr.s "(boss-person-2(e1[1/2]--2-sure,wiki:Q:1)"; PyStr.s "(e1--1)"; PyStr.s "boss)"; PyStr.s "(e1[2/2]--2-sure,wiki:Q:1)"; [];
     PyStr.s "(boss-person-2(e1--1"; PyStr.s "(boss-person-1)e1)boss)"].
Proof.
  assert (ED : co_doc io_c = cdoc) by (vm_compute; reflexivity). assert (EH : co_h io_c = cheap) by (vm_compute; reflexivity).
  assert (ET : co_tree io_c = fun r => r) by (vm_compute; reflexivity). assert (LK : linked io_c) by (apply io_linked; unfold io_ops; history).
  split; [|split].
  - unfold io_x. apply case_storable; [exact ED|exact EH|exact ET|exact LK|..].
    + vm_compute. reflexivity.
    + apply uniqueb_ok. vm_compute. reflexivity.
    + vm_compute. reflexivity.
    + intros k e H. split; [revert k e H; apply ids_check; vm_compute; reflexivity|].
      split; revert k e H; [apply types_check|apply used_check]; vm_compute; reflexivity.
    + intros E. assert (X : length (eids io_c) = 2) by (vm_compute; reflexivity). rewrite E in X. discriminate X.
    + clear. intros m _. destruct (Nat.eqb m 0); [|split; [constructor|intros k v []]]. split.
      * constructor; [cbn; intros [X|[]]; discriminate X|repeat constructor; intros []].
      * intros k v [[= <- <-]|[[= <- <-]|[]]]; (split; [discriminate|]; split; [intros X; cbn in X; intuition discriminate|]; split; [apply not_in_text; reflexivity|]);
          [apply not_in_text; reflexivity|exact I].
  - exists [3], [5], [], [3; 4; 6; 5]. assert (E : m_head io_c 0 = 5 /\ m_words io_c 0 = [3; 5]) by (vm_compute; auto). destruct E as [E1 E2]. rewrite E1, E2, EH.
    assert (h_root cheap 5 = 0) as -> by (vm_compute; reflexivity). split.
    + destruct (cheap_good 0) as [G1 G2]; [cbn; auto|]. pose proof (dae_order cheap 0 G1 G2) as O.
      assert (E : descendants_and_empty cheap 0 = [3; 4; 6; 5]) by (vm_compute; reflexivity). rewrite E in O. exact O.
    + apply (runs_more _ [3] 4 [6; 5]); [discriminate|repeat constructor|cbn; intuition discriminate|]. apply runs_skip; [cbn; intuition discriminate|].
      apply runs_last; [discriminate|]. constructor; [right; left; reflexivity|constructor].
  - vm_compute. reflexivity.
Qed.

(** ---- the documents that do not survive ---- *)
Definition val_eqb (a b : option val) : bool :=
  match a, b with
  | None, None => true
  | Some VTrue, Some VTrue => true
  | Some VNone, Some VNone => true
  | Some (VStr a), Some (VStr b) => str_eqb a b
  | _, _ => false
  end.
Definition mention_kept (x y : corefs) (m n : nat) : bool :=
  same_list (m_words (cs_c y) n) (m_words (cs_c x) m) && Nat.eqb (m_head (cs_c y) n) (m_head (cs_c x) m) &&
  forallb (fun kv => val_eqb (dict_get (cs_other y n) (fst kv)) (dict_get (cs_other x m) (fst kv))) (cs_other x m).
(** implied by [survives] *)
Definition survivesb (lower : str -> str) (x : corefs) (roots : list nat) : bool :=
  match store_coref lower x roots with
  | (x1, Ok tt) =>
    match load_coref (reread x1) roots with
    | (y, Ok tt) =>
      Nat.eqb (length (eids (cs_c y))) (length (eids (cs_c x))) &&
      forallb (fun p => match find_eid (eids (cs_c y)) (fst p) with
                        | None => false
                        | Some f => str_eqb (type_text (e_type (cs_c y) f)) (type_text (e_type (cs_c x) (snd p))) &&
                                    forallb (fun n => existsb (fun m => mention_kept x y m n) (e_ments (cs_c x) (snd p))) (e_ments (cs_c y) f)
                        end) (eids (cs_c x))
    | _ => false
    end
  | _ => false
  end.
Lemma val_eqb_refl a : val_eqb a a = true.
Proof. destruct a as [[]|]; cbn; auto using str_eqb_refl. Qed.
Lemma Forall2_right {A B} (R : A -> B -> Prop) l k b : Forall2 R l k -> In b k -> exists a, In a l /\ R a b.
Proof. induction 1 as [|a b' l k H _ IH]; intros []; [subst; exists a; split; [left|]; auto|]. destruct IH as (a' & X & Y); auto. exists a'. split; [right|]; auto. Qed.
Lemma survives_check lower x d roots : survives lower x d roots -> survivesb lower x roots = true.
Proof.
  intros (x1 & y & E1 & E2 & SC). unfold survivesb. rewrite E1, E2. apply andb_true_iff. split.
  - apply Nat.eqb_eq. pose proof (Permutation_length (sc_ids _ _ _ SC)) as L. rewrite !map_length in L. exact L.
  - apply forallb_forall. intros (k, e) H. cbn [fst snd]. destruct (find_eid (eids (cs_c y)) k) as [f|] eqn:F.
    + apply find_eid_Some in F. rewrite (sc_types _ _ _ SC k e f H F), str_eqb_refl. cbn [andb]. destruct (sc_mentions _ _ _ SC k e f H F) as (_ & l & P & R).
      apply forallb_forall. intros n N. destruct (Forall2_right _ _ _ _ R N) as (m & M & W & HD & O). apply existsb_exists. exists m.
      split; [apply (Permutation_in _ P); auto|]. unfold mention_kept. rewrite W, HD. unfold same_list. destruct (list_eq_dec _ _ _); [|congruence].
      rewrite Nat.eqb_refl. cbn [andb]. apply forallb_forall. intros kv _. rewrite O. apply val_eqb_refl.
    + apply find_eid_None in F. exfalso. apply F. apply (Permutation_in _ (Permutation_sym (sc_ids _ _ _ SC))). apply (in_map fst) in H. exact H.
Qed.
Definition soundb (c : coref) : bool := uniqueb c && forallb (wordsb c) (doc_ments c).
Lemma sound_run l o mi : run_keeps co0 l -> co_doc (co_run co0 l) = cdoc -> co_h (co_run co0 l) = cheap -> co_tree (co_run co0 l) = (fun r => r) ->
  soundb (co_run co0 l) = true -> sound (mkCs (co_run co0 l) o mi) 0 (PyStr.s "en") [0; 2; 1].
Proof.
  intros R ED EH ET H. apply andb_true_iff in H. destruct H as [U W]. unfold sound. cbn [cs_c].
  split; [apply case_trees; auto|]. split; [apply case_roots; auto|]. split; [apply io_linked; exact R|]. split; [apply uniqueb_ok; exact U|].
  intros m D. split; [apply case_sorted; auto|]. intros w Hw. apply (case_word (co_run co0 l) ED EH ET W m w D Hw).
Qed.
Definition differb (c : coref) : bool :=
  forallb (fun m => forallb (fun n => negb (Nat.eqb (m_ent c m) (m_ent c n)) || Nat.eqb m n || negb (same_list (m_words c m) (m_words c n))) (doc_ments c)) (doc_ments c).
Lemma differb_ok c o mi : differb c = true -> differ (mkCs c o mi).
Proof.
  intros H m n Hm Hn E W. cbn [cs_c] in *. apply doc_ments_in in Hm, Hn. unfold differb in H. rewrite forallb_forall in H. specialize (H m Hm).
  rewrite forallb_forall in H. specialize (H n Hn). rewrite E, W, Nat.eqb_refl in H. cbn [negb orb] in H. unfold same_list in H.
  destruct (list_eq_dec _ _ _) in H; [|contradiction]. rewrite orb_false_r in H. apply Nat.eqb_eq. exact H.
Qed.
Lemma one_wordb c o mi : differb c = true -> forallb (fun m => Nat.eqb (length (m_words c m)) 1) (doc_ments c) = true -> one_word (mkCs c o mi).
Proof.
  intros D H. split; [apply differb_ok; exact D|]. intros m Hm. cbn [cs_c] in *. apply doc_ments_in in Hm. rewrite forallb_forall in H. apply Nat.eqb_eq. apply H. exact Hm.
Qed.
Ltac sound := apply sound_run; [history|vm_compute; reflexivity|vm_compute; reflexivity|vm_compute; reflexivity|vm_compute; reflexivity].
Lemma all_used_check c o mi : nonempty (eids c) && forallb (fun p => nonempty (e_ments c (snd p))) (eids c) = true -> all_used (mkCs c o mi).
Proof. intros H. apply andb_true_iff in H. destruct H as [A B]. split; [cbn [cs_c]; destruct (eids c); discriminate|apply used_check; exact B]. Qed.
Lemma good_ids_check c o mi : forallb (fun p => good_idb (fst p)) (eids c) = true -> good_ids (mkCs c o mi).
Proof. exact (ids_check c). Qed.
Lemma good_types_check c o mi : forallb (fun p => good_typeb (e_type c (snd p))) (eids c) = true -> good_types (mkCs c o mi).
Proof. exact (types_check c). Qed.
Lemma survives_not lower x d roots : survivesb lower x roots = false -> ~ survives lower x d roots.
Proof. intros E H. apply survives_check in H. congruence. Qed.
Ltac refute H := revert H; apply survives_not; vm_compute; reflexivity.

(** C68. Mentions of one entity that cross: the brackets of 1-3 and 2-4 are read as 1-4 and 2-3. *)
Definition cross_ops : list coref_op := [CoCreateEntity None None; CoCreate 0 None [3; 4; 6] None; CoCreate 0 None [4; 6; 5] None].
Theorem C68_crossing_refuted : ~ (forall lower x d z roots, sound x d z roots -> all_used x -> good_ids x -> good_types x -> no_other x -> differ x ->
  (forall m, doc_mention (cs_c x) m -> ~ discontinuous (cs_c x) m) -> survives lower x d roots).
Proof.
  intros H. specialize (H (fun t => t) (mkCs (co_run co0 cross_ops) (fun _ => []) (fun _ => [])) 0 (PyStr.s "en") [0; 2; 1]).
  assert (S : survives (fun t => t) (mkCs (co_run co0 cross_ops) (fun _ => []) (fun _ => [])) 0 [0; 2; 1]); [|refute S].
  apply H; clear H.
  - sound.
  - apply all_used_check. vm_compute. reflexivity.
  - apply good_ids_check. vm_compute. reflexivity.
  - apply good_types_check. vm_compute. reflexivity.
  - intros m _. reflexivity.
  - apply differb_ok. vm_compute. reflexivity.
  - apply case_continuous; [vm_compute; reflexivity..|apply io_linked; history|vm_compute; reflexivity|vm_compute; reflexivity].
Qed.
Print Assumptions C68_crossing_refuted.

(** C68. Discontinuous mentions of one entity whose pieces alternate: the last piece of the first one cannot be loaded. *)
Definition disc_ops : list coref_op := [CoCreateEntity None None; CoCreate 0 None [3; 6] None; CoCreate 0 None [4; 5] None].
Theorem C68_discontinuous_refuted : ~ (forall lower x d z roots, sound x d z roots -> all_used x -> good_ids x -> good_types x -> no_other x -> differ x ->
  (forall m rs p, doc_mention (cs_c x) m -> pieces (cs_c x) m rs -> In p rs -> length p = 1) -> survives lower x d roots).
Proof.
  intros H. specialize (H (fun t => t) (mkCs (co_run co0 disc_ops) (fun _ => []) (fun _ => [])) 0 (PyStr.s "en") [0; 2; 1]).
  assert (S : survives (fun t => t) (mkCs (co_run co0 disc_ops) (fun _ => []) (fun _ => [])) 0 [0; 2; 1]); [|refute S].
  apply H; clear H.
  - sound.
  - apply all_used_check. vm_compute. reflexivity.
  - apply good_ids_check. vm_compute. reflexivity.
  - apply good_types_check. vm_compute. reflexivity.
  - intros m _. reflexivity.
  - apply differb_ok. vm_compute. reflexivity.
  - apply case_short; [vm_compute; reflexivity..|apply io_linked; history|vm_compute; reflexivity|vm_compute; reflexivity].
Qed.
Print Assumptions C68_discontinuous_refuted.
(** C68. mention.other = {'wiki': 'Jean-Paul'} comes back as {'wiki': 'Jean'}. *)
Definition word_ops : list coref_op := [CoCreateEntity None None; CoCreate 0 None [3] None].
Theorem C68_hyphen_refuted : ~ (forall lower x d z roots, sound x d z roots -> all_used x -> good_ids x -> good_types x -> one_word x ->
  (forall m k v, doc_mention (cs_c x) m -> In (k, v) (cs_other x m) -> exists y, k = PyStr.s "wiki" /\ v = VStr y /\ without (PyStr.s "(),:") y) ->
  survives lower x d roots).
Proof.
  intros H. specialize (H (fun t => t) (mkCs (co_run co0 word_ops) (fun _ => [(PyStr.s "wiki", VStr (PyStr.s "Jean-Paul"))]) (fun _ => [])) 0 (PyStr.s "en") [0; 2; 1]).
  assert (S : survives (fun t => t) (mkCs (co_run co0 word_ops) (fun _ => [(PyStr.s "wiki", VStr (PyStr.s "Jean-Paul"))]) (fun _ => [])) 0 [0; 2; 1]); [|refute S].
  apply H; clear H.
  - sound.
  - apply all_used_check. vm_compute. reflexivity.
  - apply good_ids_check. vm_compute. reflexivity.
  - apply good_types_check. vm_compute. reflexivity.
  - apply one_wordb; vm_compute; reflexivity.
  - intros m k v _ [[= <- <-]|[]]. eexists. split; [reflexivity|]. split; [reflexivity|]. apply not_in_text. reflexivity.
Qed.
Print Assumptions C68_hyphen_refuted.
(** C68. The key head of mention.other is dropped (as are eid, etype and other). *)
Theorem C68_reserved_refuted : ~ (forall lower x d z roots, sound x d z roots -> all_used x -> good_ids x -> good_types x -> one_word x ->
  (forall m, doc_mention (cs_c x) m -> cs_other x m = [(PyStr.s "head", VStr (PyStr.s "yes"))]) -> survives lower x d roots).
Proof.
  intros H. specialize (H (fun t => t) (mkCs (co_run co0 word_ops) (fun _ => [(PyStr.s "head", VStr (PyStr.s "yes"))]) (fun _ => [])) 0 (PyStr.s "en") [0; 2; 1]).
  assert (S : survives (fun t => t) (mkCs (co_run co0 word_ops) (fun _ => [(PyStr.s "head", VStr (PyStr.s "yes"))]) (fun _ => [])) 0 [0; 2; 1]); [|refute S].
  apply H; clear H.
  - sound.
  - apply all_used_check. vm_compute. reflexivity.
  - apply good_ids_check. vm_compute. reflexivity.
  - apply good_types_check. vm_compute. reflexivity.
  - apply one_wordb; vm_compute; reflexivity.
  - reflexivity.
Qed.
Print Assumptions C68_reserved_refuted.
(** C68. The type of an entity is not checked: with a-b, the file cannot be loaded (b is not a number of a head). *)
Definition type_ops : list coref_op := [CoCreateEntity None (Some (PyStr.s "a-b")); CoCreate 0 None [3] None].
Theorem C68_type_refuted : ~ (forall lower x d z roots, sound x d z roots -> all_used x -> good_ids x -> one_word x -> no_other x -> survives lower x d roots).
Proof.
  intros H. specialize (H (fun t => t) (mkCs (co_run co0 type_ops) (fun _ => []) (fun _ => [])) 0 (PyStr.s "en") [0; 2; 1]).
  assert (S : survives (fun t => t) (mkCs (co_run co0 type_ops) (fun _ => []) (fun _ => [])) 0 [0; 2; 1]); [|refute S].
  apply H; clear H.
  - sound.
  - apply all_used_check. vm_compute. reflexivity.
  - apply good_ids_check. vm_compute. reflexivity.
  - apply one_wordb; vm_compute; reflexivity.
  - intros m _. reflexivity.
Qed.
Print Assumptions C68_type_refuted.
(** C68. An id that looks like a piece of a discontinuous mention, e.g. a[1/2], is accepted by create_entity; it comes back as a. *)
Definition id_ops : list coref_op := [CoCreateEntity (Some (PyStr.s "a[1/2]")) None; CoCreate 0 None [3] None].
Theorem C68_id_refuted : ~ (forall lower x d z roots, sound x d z roots -> all_used x ->
  (forall k e, In (k, e) (eids (cs_c x)) -> k <> [] /\ ~ has_forbidden k) -> good_types x -> one_word x -> no_other x -> survives lower x d roots).
Proof.
  intros H. specialize (H (fun t => t) (mkCs (co_run co0 id_ops) (fun _ => []) (fun _ => [])) 0 (PyStr.s "en") [0; 2; 1]).
  assert (S : survives (fun t => t) (mkCs (co_run co0 id_ops) (fun _ => []) (fun _ => [])) 0 [0; 2; 1]); [|refute S].
  apply H; clear H.
  - sound.
  - apply all_used_check. vm_compute. reflexivity.
  - cbn [cs_c]. apply (eids_checkb _ (fun k e => k <> [] /\ ~ has_forbidden k) (fun k e => str_eqb k (PyStr.s "a[1/2]"))); [|vm_compute; reflexivity].
    intros k e E. apply str_eqb_eq in E. subst k. split; [discriminate|]. apply not_forbidden. reflexivity.
  - apply good_types_check. vm_compute. reflexivity.
  - apply one_wordb; vm_compute; reflexivity.
  - intros m _. reflexivity.
Qed.
Print Assumptions C68_id_refuted.
(** C68. An entity without mentions is not stored. *)
Definition idle_ops : list coref_op := [CoCreateEntity None None; CoCreate 0 None [3] None; CoCreateEntity None None].
Theorem C68_no_mentions_refuted : ~ (forall lower x d z roots, sound x d z roots -> good_ids x -> good_types x -> one_word x -> no_other x ->
  (exists m, doc_mention (cs_c x) m) -> survives lower x d roots).
Proof.
  intros H. specialize (H (fun t => t) (mkCs (co_run co0 idle_ops) (fun _ => []) (fun _ => [])) 0 (PyStr.s "en") [0; 2; 1]).
  assert (S : survives (fun t => t) (mkCs (co_run co0 idle_ops) (fun _ => []) (fun _ => [])) 0 [0; 2; 1]); [|refute S].
  apply H; clear H.
  - sound.
  - apply good_ids_check. vm_compute. reflexivity.
  - apply good_types_check. vm_compute. reflexivity.
  - apply one_wordb; vm_compute; reflexivity.
  - intros m _. reflexivity.
  - exists 0. apply doc_ments_in. vm_compute. auto.
Qed.
Print Assumptions C68_no_mentions_refuted.
(** C68. Without any entity, nothing is stored and old brackets stay: the entities that were deleted are back. *)
Theorem C68_no_entities_refuted : ~ (forall lower x d z roots, sound x d z roots -> eids (cs_c x) = [] -> survives lower x d roots).
Proof.
  intros H. specialize (H (fun t => t) (mkCs (co_run co0 []) (fun _ => []) (fun n => if Nat.eqb n 3 then PyStr.s "(e1--1)" else [])) 0 (PyStr.s "en") [0; 2; 1]).
  assert (S : survives (fun t => t) (mkCs (co_run co0 []) (fun _ => []) (fun n => if Nat.eqb n 3 then PyStr.s "(e1--1)" else [])) 0 [0; 2; 1]); [|refute S].
  apply H; clear H; [sound|reflexivity].
Qed.
Print Assumptions C68_no_entities_refuted.
