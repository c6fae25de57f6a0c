(** Proofs about saving and loading documents in CoNLL-U (C70): a tree that has been read is not changed by reading
    further trees. *)
From Coq Require Import String List NArith ZArith Bool Lia Permutation.
From Verif Require Import PyStr PyStrFacts PyList PyListFacts PyExn TreeModel TreeSpec DocModel MwtSpec DualDictModel ConlluModel ConlluSpec ConlluRead ConlluFileSpec.
Import ListNotations.

(** ---- What the objects of a tree that has just been read have in common ---- *)
Record fresh (r : nat) (d : doc) : Prop := {
  fr_root : r < h_next (d_h d);
  fr_nodes : forall x, In x (h_desc (d_h d) r ++ h_emp (d_h d) r) -> r <= x < h_next (d_h d);
  fr_deps : forall x, r <= x -> x < h_next (d_h d) -> n_deps (d_at d x) = None;
  fr_mwts : forall m, In m (d_mwts d r) -> m < d_mnext d
}.
Lemma upd_eq {A} (f : nat -> A) x v : upd f x v x = v.
Proof. unfold upd. now rewrite Nat.eqb_refl. Qed.
Lemma upd_ne {A} (f : nat -> A) x v y : y <> x -> upd f x v y = f y.
Proof. unfold upd. intros H. now apply Nat.eqb_neq in H as ->. Qed.
Lemma fresh_new d : fresh (snd (doc_new_root d)) (fst (doc_new_root d)).
Proof.
  cbn. split; cbn.
  - lia.
  - rewrite !upd_eq. intros x [].
  - intros x H1 H2. assert (x = h_next (d_h d)) as -> by lia. now rewrite upd_eq.
  - rewrite upd_eq. intros m [].
Qed.
(** the heap changes, but not the lists *)
Lemma fresh_heap r d h : fresh r d -> h_next h = h_next (d_h d) -> h_desc h r = h_desc (d_h d) r -> h_emp h r = h_emp (d_h d) r -> fresh r (with_h d h).
Proof. intros [A B C D] E1 E2 E3. split; cbn; rewrite ?E1, ?E2, ?E3; auto. Qed.
Lemma fresh_at r d x a : fresh r d -> n_deps a = None \/ n_deps a = n_deps (d_at d x) -> fresh r (put_at d x a).
Proof.
  intros [A B C D] H. split; cbn; auto. intros y H1 H2. destruct (Nat.eq_dec y x) as [->|N]; [rewrite upd_eq|rewrite upd_ne by auto; auto].
  destruct H as [->| ->]; auto.
Qed.
Lemma fresh_mwt r d x v : fresh r d -> fresh r (put_mwt d x v).
Proof. intros [A B C D]. split; cbn; auto. Qed.
Lemma fresh_ri r d x v : fresh r d -> fresh r (put_ri d x v).
Proof. intros [A B C D]. split; cbn; auto. Qed.
Lemma fresh_m r d x v : fresh r d -> fresh r (put_m d x v).
Proof. intros [A B C D]. split; cbn; auto. Qed.
Lemma fresh_mwts r d x v : fresh r d -> (x = r -> forall m, In m v -> m < d_mnext d) -> fresh r (put_mwts d x v).
Proof. intros [A B C D] H. split; cbn; auto. destruct (Nat.eq_dec r x) as [<-|N]; [rewrite upd_eq; auto|rewrite upd_ne by auto; auto]. Qed.
(** a new word or empty node at the end of the tree *)
Lemma fresh_node r d k a (word : bool) : fresh r d -> n_deps a = None -> let d1 := fst (new_node d k r a) in let n := snd (new_node d k r a) in
  fresh r (with_h d1 (if word then put_desc (d_h d1) r (h_desc (d_h d1) r ++ [n]) else put_emp (d_h d1) r (h_emp (d_h d1) r ++ [n]))).
Proof.
  intros [A B C D] H. cbn. assert (N : r <> h_next (d_h d)) by lia.
  assert (B' : forall x, In x (h_desc (d_h d) r) \/ In x (h_emp (d_h d) r) -> r <= x < h_next (d_h d)) by (intros x Hx; apply B, in_app_iff, Hx).
  assert (C' : forall x, r <= x -> x < S (h_next (d_h d)) -> n_deps (upd (d_at d) (h_next (d_h d)) a x) = None).
  { intros x H1 H2. destruct (Nat.eq_dec x (h_next (d_h d))) as [->|Nx]; [now rewrite upd_eq|]. rewrite upd_ne by auto. apply C; lia. }
  destruct word; split; cbn; rewrite ?upd_eq, ?(upd_ne _ _ _ _ N); auto; try lia; intros x; rewrite !in_app_iff; cbn; rewrite ?upd_eq, ?(upd_ne _ _ _ _ N).
  - intros [[J|[<-|[]]]|J]; [specialize (B' x (or_introl J)); lia|lia|specialize (B' x (or_intror J)); lia].
  - intros [J|[J|[<-|[]]]]; [specialize (B' x (or_introl J)); lia|specialize (B' x (or_intror J)); lia|lia].
Qed.
Lemma fresh_line cfg canon r st l : fresh r (rd_d st) -> fresh r (rd_d (fst (read_line cfg canon r st l))).
Proof.
  intros F. destruct l as [|c x]; cbn [read_line]; auto. destruct (N.eqb c HASH).
  - destruct (parse_comment _ _ _ _) as [[ri ge] y]. cbn. now apply fresh_ri.
  - set (S := split TAB (c :: x)). destruct (_ && _); auto. set (G := S ++ _). destruct (has_char MINUS (field G 0)); auto. destruct (has_char DOT (field G 0)).
    + unfold read_empty. match goal with |- context [new_node ?d ?k ?r ?a] => pose proof (fresh_node r d k a false F eq_refl) as FN; destruct (new_node d k r a) as [d1 n] end.
      cbn [fst snd] in FN. destruct (float_tenths _); cbn [fst rd_d]; auto. apply fresh_at; auto. apply (fresh_heap r (with_h d1 (put_emp (d_h d1) r (h_emp (d_h d1) r ++ [n])))); auto.
    + unfold read_word. match goal with |- context [new_node ?d ?k ?r ?a] => pose proof (fresh_node r d k a true F eq_refl) as FN; destruct (new_node d k r a) as [d1 n] end.
      cbn [fst snd] in FN. destruct (py_int (field G 0)) as [o|]; [|exact FN].
      set (d2 := with_h d1 _) in *. assert (F2 : fresh r (with_h d2 (put_ord (d_h d2) n o))) by (apply fresh_heap; auto).
      set (d3 := if str_eqb (field G 8) US then _ else _).
      assert (F3 : fresh r d3) by (unfold d3; destruct (str_eqb _ _); [exact F2|]; apply fresh_at; auto).
      destruct (py_int (field G 6)); [exact F3|]. destruct (_ && _); exact F3.
Qed.
Lemma fresh_lines cfg canon r ls : forall st, fresh r (rd_d st) -> fresh r (rd_d (fst (read_lines cfg canon r st ls))).
Proof.
  induction ls as [|l ls IH]; intros st F; cbn [read_lines]; auto. pose proof (fresh_line cfg canon r st l F) as R.
  destruct (read_line cfg canon r st l) as [st1 [u| |]]; cbn [bind fst] in *; auto.
Qed.
Lemma attach_lists fx r nodes todo : forall h, let h' := fst (attach_loop fx h r nodes todo) in
  h_next h' = h_next h /\ h_desc h' = h_desc h /\ h_emp h' = h_emp h.
Proof.
  induction todo as [|[n p] todo IH]; intros h; cbn [attach_loop]; auto. destruct (py_nth nodes p) as [q|]; auto.
  destruct (Nat.eqb n q); [destruct fx; auto; cbn zeta; destruct (IH (put_ch (put_par (put_ch (put_par h n (Some r)) r (h_ch (put_par h n (Some r)) r ++ [n])) n (Some q)) q
    (h_ch (put_par (put_ch (put_par h n (Some r)) r (h_ch (put_par h n (Some r)) r ++ [n])) n (Some q)) q ++ [n]))) as (-> & -> & ->); auto|].
  assert (A : forall q, let h' := fst (attach_loop fx (put_ch (put_par h n (Some q)) q (h_ch (put_par h n (Some q)) q ++ [n])) r nodes todo) in
    h_next h' = h_next h /\ h_desc h' = h_desc h /\ h_emp h' = h_emp h).
  { intros q'. cbn zeta. destruct (IH (put_ch (put_par h n (Some q')) q' (h_ch (put_par h n (Some q')) q' ++ [n]))) as (-> & -> & ->). auto. }
  destruct (nonempty (h_ch h n)); [|apply A]. destruct (climbs_to _ _ _ _) as [[|]| |]; auto. destruct fx; auto.
Qed.
Lemma fresh_forget r l : forall d, fresh r d -> fresh r (forget d l).
Proof. induction l as [|w l IH]; intros d F; cbn; auto. apply IH. now apply fresh_mwt. Qed.
Lemma list_remove_incl x l l' : list_remove x l = Some l' -> incl l' l.
Proof.
  revert l'. induction l as [|y l IH]; cbn; [discriminate|]. intros l'. destruct (Nat.eqb _ _); [intros [= <-] z J; now right|].
  destruct (list_remove x l) as [k|]; [|discriminate]. intros [= <-] z [<-|J]; [now left|right]. now apply (IH k).
Qed.
Lemma fresh_remove r m d : fresh r d -> fresh r (fst (mwt_remove d m)).
Proof.
  intros F. unfold mwt_remove. pose proof (fresh_forget r (m_words (d_m d m)) d F) as G. set (d1 := forget d _) in *.
  destruct (list_remove m (d_mwts d1 (m_root (d_m d1 m)))) as [l|] eqn:E; [|exact G]. apply fresh_mwts; auto. intros H k Hk. apply list_remove_incl in E.
  rewrite H in E. apply (fr_mwts _ _ G), E, Hk.
Qed.
Lemma fresh_old r l : forall d, fresh r d -> fresh r (fst (remove_old d l)).
Proof.
  induction l as [|w l IH]; intros d F; cbn [remove_old]; auto. destruct (d_mwt d w) as [m|]; auto. pose proof (fresh_remove r m d F) as G.
  destruct (mwt_remove d m) as [d1 [u| |]]; cbn [bind fst] in *; auto.
Qed.
Lemma fresh_belong r m l : forall d, fresh r d -> fresh r (belong d m l).
Proof. induction l as [|w l IH]; intros d F; cbn; auto. apply IH. now apply fresh_mwt. Qed.
Lemma belong_next m l : forall d, d_mnext (belong d m l) = d_mnext d.
Proof. induction l as [|w l IH]; intros d; cbn; auto. now rewrite IH. Qed.
Lemma fresh_clear r l : forall d, fresh r d -> fresh r (clear_space_after d l).
Proof. induction l as [|w l IH]; intros d F; cbn; auto. apply IH. apply fresh_at; auto. Qed.
Lemma fresh_create r d words form misc : fresh r d -> fresh r (fst (create_mwt d r words form misc)).
Proof.
  intros F. unfold create_mwt. pose proof (fresh_old r words d F) as G. destruct (remove_old d words) as [d1 [u| |]]; cbn [bind fst] in *; auto.
  set (d2 := mkDoc _ _ _ _ _ _ _). assert (F2 : fresh r d2) by (destruct G as [A B C D]; split; auto; intros m I; apply D in I; cbn; lia).
  assert (M2 : d_mnext d2 = S (d_mnext d1)) by reflexivity.
  pose proof (fresh_belong r (d_mnext d1) words d2 F2) as F3. pose proof (belong_next (d_mnext d1) words d2) as M3. set (d3 := belong d2 _ words) in *.
  assert (F4 : fresh r (put_mwts d3 r (d_mwts d3 r ++ [d_mnext d1]))).
  { apply fresh_mwts; auto. intros _ k. rewrite in_app_iff. intros [I|[<-|[]]]; [now apply (fr_mwts _ _ F3)|lia]. }
  set (d4 := put_mwts d3 r _) in *. destruct (last_opt words) as [w|]; auto. destruct (dd_get _ _) as [dd x]. apply fresh_clear.
  destruct (val_is x No); [apply fresh_m|]; apply fresh_at; auto.
Qed.
Lemma fresh_mwt_loop r nodes l : forall d, fresh r d -> fresh r (fst (mwt_loop d r nodes l)).
Proof.
  induction l as [|f l IH]; intros d F; cbn [mwt_loop]; auto.
  destruct (split MINUS (field f 0)) as [|a [|b [|]]]; cbn [fst]; auto. destruct (py_int a), (py_int b); cbn [fst]; auto.
  unfold create_multiword_token. match goal with |- context [create_mwt ?d ?r ?w ?f ?m] => pose proof (fresh_create r d w f m F) as C; destruct (create_mwt d r w f m) as [d1 [u| |]] end;
    cbn [bind fst] in *; auto.
Qed.
Lemma fresh_read cfg canon lower d ge ls : forall d' ge' r, read_tree_from_lines cfg canon lower d ge ls = ((d', ge'), Ok (Some r)) -> fresh r d'.
Proof.
  unfold read_tree_from_lines. intros d' ge' r0. pose proof (fresh_new d) as F0. destruct (doc_new_root d) as [d1 r]. cbn [fst snd] in F0.
  pose proof (fresh_lines cfg canon r ls (mkRd d1 ge [r] [0%Z] []) F0) as F1. destruct (read_lines _ _ _ _ _) as [st [u| |]]; cbn [fst rd_d] in *; try discriminate.
  assert (G : forall d2 nodes, fresh r d2 ->
    match attach_loop (rc_fix_cycles cfg) (d_h d2) r nodes (combine (tl nodes) (tl (rd_parents st))) with
      | (h, Raise e) => ((with_h d2 h, rd_ge st), Raise e)
      | (h, Diverge) => ((with_h d2 h, rd_ge st), Diverge)
      | (h, Ok _) =>
        match mwt_loop (with_h d2 h) r nodes (rd_mwts st) with
        | (d, Ok _) => ((d, rd_ge st), Ok (Some r))
        | (d, Raise e) => ((d, rd_ge st), Raise e)
        | (d, Diverge) => ((d, rd_ge st), Diverge)
        end
      end = (d', ge', Ok (Some r0)) -> fresh r0 d').
  { intros d2 nodes F2. pose proof (attach_lists (rc_fix_cycles cfg) r nodes (combine (tl nodes) (tl (rd_parents st))) (d_h d2)) as A. cbn zeta in A.
    destruct (attach_loop _ _ _ _ _) as [h [w| |]]; try discriminate. cbn [fst] in A. destruct A as (A1 & A2 & A3).
    assert (F3 : fresh r (with_h d2 h)) by (apply fresh_heap; auto; congruence).
    pose proof (fresh_mwt_loop r nodes (rd_mwts st) _ F3) as W. destruct (mwt_loop _ _ _ _) as [d3 [w'| |]]; try discriminate. intros [= <- _ <-]. exact W. }
  destruct (rd_nodes st) as [|a [|b [|c l]]]; try (apply G; auto; fail).
  - discriminate.
  - set (d2 := put_at (rd_d st) b _). assert (F2 : fresh r d2) by (apply fresh_at; auto).
    destruct (str_eqb _ _); apply G; auto. destruct F2 as [A B C D]. split; auto. cbn. rewrite upd_eq. cbn. intros x Hx. apply B, in_app_iff. now right.
Qed.

(** ---- A tree in a document that grows ---- *)
Lemma Forall2_in_weak {A B} (P Q : A -> B -> Prop) l k : Forall2 P l k -> (forall x y, In x l -> P x y -> Q x y) -> Forall2 Q l k.
Proof.
  induction 1 as [|x y l k H _ IH]; intros W; constructor; [apply W; auto; now left|]. apply IH. intros a b I. apply W. now right.
Qed.
Section grow.
  Variables (d d' : doc) (r : nat).
  Hypothesis K : keeps d d'.
  Hypothesis LE : h_next (d_h d) <= h_next (d_h d').
  Hypothesis C : consistent (d_h d) r.
  Lemma lt_live y : live (d_h d) r y -> y < h_next (d_h d).
  Proof. apply (c_alloc _ _ C). Qed.
  Lemma obj y : y < h_next (d_h d) -> same_object (d_h d) (d_h d') y.
  Proof. intros H. apply K, H. Qed.
  Lemma desc_same : h_desc (d_h d') r = h_desc (d_h d) r.
  Proof. apply obj, lt_live. now left. Qed.
  Lemma live_same y : live (d_h d') r y <-> live (d_h d) r y.
  Proof. unfold live. now rewrite desc_same. Qed.
  Lemma word_obj x : In x (h_desc (d_h d) r) -> same_object (d_h d) (d_h d') x.
  Proof. intros H. apply obj, lt_live. now right. Qed.
  Lemma par_same x : live (d_h d) r x -> h_par (d_h d') x = h_par (d_h d) x.
  Proof. intros H. apply obj, lt_live, H. Qed.
  Lemma up_same x a : up (d_h d) x a -> live (d_h d) r x -> up (d_h d') x a.
  Proof.
    induction 1 as [x p E|x p a E _ IH]; intros L; [apply up_1; now rewrite par_same|]. apply (up_S _ x p a); [now rewrite par_same|]. apply IH.
    destruct L as [->|L]; [rewrite (c_top _ _ C) in E; discriminate|]. destruct (c_parents _ _ C x L) as (q & E2 & L2). rewrite E in E2. now injection E2 as ->.
  Qed.
  Lemma consistent_grow : consistent (d_h d') r.
  Proof.
    assert (R : live (d_h d) r r) by now left.
    split; rewrite ?desc_same.
    - apply (c_once _ _ C).
    - apply (c_rootout _ _ C).
    - rewrite <- (c_ords _ _ C). apply map_ext_in. intros x Hx. apply (word_obj x Hx).
    - rewrite <- (c_ord0 _ _ C). apply (obj r (lt_live r R)).
    - intros x Hx. destruct (c_parents _ _ C x Hx) as (p & E & L). exists p. rewrite par_same by now right. split; auto. now apply live_same.
    - rewrite par_same by auto. apply (c_top _ _ C).
    - intros y Hy. apply live_same in Hy. replace (h_ch (d_h d') y) with (h_ch (d_h d) y) by (symmetry; apply (obj y (lt_live y Hy))).
      rewrite (c_children _ _ C y Hy). apply filter_ext_in. intros x Hx. unfold has_parent. now rewrite par_same by now right.
    - intros x Hx. apply up_same; [now apply (c_connected _ _ C)|now right].
    - intros y Hy. apply live_same in Hy. rewrite <- (c_roots _ _ C y Hy). apply (obj y (lt_live y Hy)).
    - split.
      + intros x Hx. rewrite <- (proj1 (c_kinds _ _ C) x Hx). apply (word_obj x Hx).
      + rewrite <- (proj2 (c_kinds _ _ C)). apply (obj r (lt_live r R)).
    - intros y Hy. apply live_same, lt_live in Hy. lia.
  Qed.
  Hypothesis F : fresh r d.
  Lemma deps_same x : r <= x < h_next (d_h d) -> shown_deps d' (d_at d' x) = shown_deps d (d_at d x).
  Proof.
    intros [H1 H2]. destruct K as [K1 _]. destruct (K1 x H2) as (_ & A & _). unfold shown_deps. rewrite A, (fr_deps _ _ F x H1 H2). reflexivity.
  Qed.
  Lemma tokens_grow lower v : tokens lower d r v -> tokens lower d' r v.
  Proof.
    intros [A B M D]. destruct K as [K1 K2]. assert (R : r < h_next (d_h d)) by apply F.
    assert (MW : d_mwts d' r = d_mwts d r) by apply (K1 r R).
    assert (EM : h_emp (d_h d') r = h_emp (d_h d) r) by apply (K1 r R).
    split; rewrite ?desc_same, ?MW, ?EM.
    - apply (Forall2_in_weak _ _ _ _ A). intros x w Hx (W1 & W2 & W3 & W4 & W5 & (p & W6 & W7) & W8 & W9 & W10).
      assert (X : r <= x < h_next (d_h d)) by (apply (fr_nodes _ _ F), in_app_iff; now left). pose proof (deps_same x X) as DS.
      destruct (K1 x (proj2 X)) as (O & AT & _). unfold word_is. rewrite DS, AT. repeat (split; [assumption|]). split; [|auto].
      exists p. split; [rewrite <- W6; apply O|]. rewrite <- W7. destruct (c_parents _ _ C x Hx) as (q & E & L). rewrite W6 in E. injection E as <-. apply (obj p (lt_live p L)).
    - apply (Forall2_in_weak _ _ _ _ B). intros x e Hx (W1 & W2 & W3 & W4 & W5).
      assert (X : r <= x < h_next (d_h d)) by (apply (fr_nodes _ _ F), in_app_iff; now right). pose proof (deps_same x X) as DS.
      destruct (K1 x (proj2 X)) as ((O1 & O2 & O3 & O4 & O5 & O6 & O7 & O8) & AT & DM & _). unfold empty_is. rewrite DS, AT, DM, O1, O3, O8. auto.
    - destruct M as (l & P & M). exists l. split; auto. apply (Forall2_in_weak _ _ _ _ M). intros m mv Hm (W1 & W2 & W3). unfold mwt_is. rewrite desc_same, K2; auto.
      apply (fr_mwts _ _ F). now apply (Permutation_in _ P).
    - intros w m Hw. assert (L : w < h_next (d_h d)) by (apply lt_live; now right). destruct (K1 w L) as (_ & _ & DM & _). rewrite DM, (D w m Hw). split; intros [I J]; (split; [exact I|]);
        [rewrite K2 by now apply (fr_mwts _ _ F)|rewrite K2 in J by now apply (fr_mwts _ _ F)]; exact J.
  Qed.
  Lemma sentence_grow lower env v : ri_text (d_ri d r) <> None -> sentence lower env d r v -> sentence lower env d' r v.
  Proof.
    intros T [A1 A2 A3 A4 A5 A6 A7 A8]. destruct K as [K1 K2]. assert (R : r < h_next (d_h d)) by apply F. assert (RI : d_ri d' r = d_ri d r) by apply (K1 r R).
    split; rewrite ?RI; auto.
    - now apply tokens_grow.
    - rewrite <- A4. unfold shown_text. rewrite RI. destruct (ri_text (d_ri d r)); [reflexivity|congruence].
  Qed.
End grow.
