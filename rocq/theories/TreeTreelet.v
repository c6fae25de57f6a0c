(** find_minimal_common_treelet: termination, correctness. *)
From Coq Require Import String List NArith ZArith Bool Lia Permutation.
From Verif Require Import PyStr PyList PyListFacts PyExn TreeModel TreeSpec TreeFacts TreeRepr TreeOps TreeShift TreeCalls.
Import ListNotations.

(** ---- finite maps mget / mset / mdel ---- *)
Lemma mget_mset {V} (m : list (Z * V)) k v k' : mget (mset m k v) k' = if Z.eqb k' k then Some v else mget m k'.
Proof.
  induction m as [|[a b] m IH]; cbn.
  - destruct (Z.eqb k' k); auto.
  - destruct (Z.eqb_spec k a) as [->|Hn]; cbn; [destruct (Z.eqb_spec k' a); auto|].
    rewrite IH. destruct (Z.eqb_spec k' a) as [->|], (Z.eqb_spec a k) as [->|]; auto; try lia.
Qed.
Lemma mset_In {V} (m : list (Z * V)) k v a b : In (a, b) (mset m k v) -> (a = k /\ b = v) \/ In (a, b) m.
Proof.
  induction m as [|[x y] m IH]; cbn.
  - intros [E|[]]; injection E as <- <-; auto.
  - destruct (Z.eqb_spec k x) as [->|Hn]; cbn.
    + intros [E|H]; [injection E as <- <-; auto|auto].
    + intros [E|H]; auto. apply IH in H as [H|H]; auto.
Qed.
Lemma mset_new {V} (m : list (Z * V)) k v : mget m k = None -> mset m k v = m ++ [(k, v)].
Proof.
  induction m as [|[a b] m IH]; cbn; auto. destruct (Z.eqb_spec k a); [discriminate|].
  intros H. now rewrite IH.
Qed.
Lemma mget_In {V} (m : list (Z * V)) k v : mget m k = Some v -> In (k, v) m.
Proof.
  induction m as [|[a b] m IH]; cbn; [discriminate|]. destruct (Z.eqb_spec k a) as [->|]; [injection 1 as ->; auto|auto].
Qed.
Lemma mget_none {V} (m : list (Z * V)) k : mget m k = None <-> ~ In k (map fst m).
Proof.
  induction m as [|[a b] m IH]; cbn; [tauto|]. destruct (Z.eqb_spec k a) as [->|]; [split; [discriminate|intros H; exfalso; auto]|].
  rewrite IH. intuition.
Qed.
Lemma mdel_some {V} (m : list (Z * V)) k : mget m k <> None ->
  exists m1 v m2, m = m1 ++ (k, v) :: m2 /\ ~ In k (map fst m1) /\ mdel m k = Some (m1 ++ m2).
Proof.
  induction m as [|[a b] m IH]; cbn; [congruence|]. destruct (Z.eqb_spec k a) as [->|Hn].
  - intros _. exists [], b, m. auto.
  - intros H. destruct (IH H) as [m1 [v [m2 [-> [H1 ->]]]]]. exists ((a, b) :: m1), v, m2. cbn. intuition.
Qed.

(** ---- steps ---- *)
Lemma steps_fun h x n a b : steps h x n a -> steps h x n b -> a = b.
Proof.
  intros H; revert b; induction H as [x|x p n a E H IH]; intros b H2; inversion H2; subst; auto.
  apply IH. congruence.
Qed.
Lemma steps_snoc h x n a p : steps h x n a -> h_par h a = Some p -> steps h x (S n) p.
Proof.
  induction 1 as [x|x q n a E H IH]; intros Ep; [econstructor; eauto; constructor|]. econstructor; eauto.
Qed.
Lemma steps_in_subtree h x n a : steps h x n a -> in_subtree h x a.
Proof.
  induction 1 as [x|x p n a E H IH]; [left; auto|]. right.
  destruct IH as [->|IH]; [now constructor|eapply up_S; eauto].
Qed.
Lemma up_steps h x a : up h x a -> exists n, steps h x (S n) a.
Proof.
  induction 1 as [x p E|x p a E H [n IH]]; [exists 0; econstructor; eauto; constructor|].
  exists (S n). econstructor; eauto.
Qed.
Lemma in_subtree_steps h x a : in_subtree h x a -> exists n, steps h x n a.
Proof. intros [->|H]; [exists 0; constructor|]. apply up_steps in H as [n H]; eauto. Qed.

Section Treelet.
Variables (h : heap) (T : atree).
Hypothesis W : wf T.
Hypothesis HR : Repr h T.
Notation root := (a_root T).
Notation words := (a_words T).
Notation par := (a_par T).
Variable G : list nat.
Hypothesis GN : NoDup G.
Hypothesis GT : forall g, In g G -> node_of T g.
Let N0 : node_of T root := or_introl eq_refl.
Let NW : forall x, In x words -> node_of T x := fun x H => or_intror H.

Definition mk (m : list (Z * mark)) (y : nat) : option mark := mget m (h_ord h y).
Definition M (m : list (Z * mark)) (y : nat) : Prop := node_of T y /\ mk m y <> None.

Lemma mk_set m x v y : node_of T x -> node_of T y ->
  mk (mset m (h_ord h x) v) y = if Nat.eqb y x then Some v else mk m y.
Proof.
  intros Hx Hy. unfold mk. rewrite mget_mset.
  destruct (Nat.eqb_spec y x) as [->|Hn]; [now rewrite Z.eqb_refl|].
  destruct (Z.eqb_spec (h_ord h y) (h_ord h x)) as [E|]; auto. apply (ord_inj h T HR) in E; auto. contradiction.
Qed.
Lemma M_set m x v y : node_of T x -> (M (mset m (h_ord h x) v) y <-> y = x \/ M m y).
Proof.
  intros Hx. unfold M. split.
  - intros [Hy H]. rewrite mk_set in H by auto. destruct (Nat.eqb_spec y x); auto.
  - intros [->|[Hy H]].
    + split; auto. rewrite mk_set, Nat.eqb_refl by auto. discriminate.
    + split; auto. rewrite mk_set by auto. destruct (Nat.eqb_spec y x); auto. discriminate.
Qed.

Definition below_eq (x a : nat) : Prop := x = a \/ below T x a.

Record UInv (Q : list nat) (m : list (Z * mark)) (nw : list (Z * nat)) (hi : option nat) : Prop := {
  i_nodup : NoDup Q;
  i_q : forall y, In y Q -> M m y;
  i_hi : hi = None \/ (hi = Some root /\ M m root /\ ~ In root Q);
  i_g : forall g, In g G -> mk m g = Some Sure;
  i_src : forall y, M m y -> exists g, In g G /\ below_eq g y;
  i_up : forall y, M m y -> ~ In y Q -> (y = root /\ hi = Some root) \/ (In y words /\ M m (par y));
  i_via : forall y c, node_of T y -> mk m y = Some (Via c) ->
    ~ In y G /\ In c words /\ par c = y /\ M m c /\ ~ In c Q /\
    (forall c', In c' words -> par c' = y -> M m c' -> ~ In c' Q -> c' = c);
  i_sure : forall y, node_of T y -> mk m y = Some Sure ->
    In y G \/ exists c c', c <> c' /\ In c words /\ In c' words /\ par c = y /\ par c' = y /\ M m c /\ M m c';
  i_nkeys : NoDup (map fst nw);
  i_nval : forall k v, In (k, v) nw -> node_of T v /\ k = h_ord h v;
  i_news : forall y, node_of T y -> (In (h_ord h y, y) nw <-> M m y /\ ~ In y G)
}.

Definition unmarked (m : list (Z * mark)) : list nat :=
  filter (fun y => match mk m y with None => true | Some _ => false end) (root :: words).
Lemma unmarked_set m x v : node_of T x -> mk m x = None ->
  S (length (unmarked (mset m (h_ord h x) v))) = length (unmarked m).
Proof.
  intros Hx E. unfold unmarked.
  assert (ND : NoDup (root :: words)) by (constructor; [apply (wf_rootfresh T W)|apply (wf_nodup T W)]).
  assert (HN : forall y, In y (root :: words) -> node_of T y) by (intros y [<-|]; auto).
  assert (HI : In x (root :: words)) by (destruct Hx as [->|]; simpl; auto).
  revert ND HN HI. induction (root :: words) as [|y l IH]; intros ND HN HI; [destruct HI|].
  inversion ND as [|? ? N1 N2]; subst. cbn [filter]. rewrite mk_set by (auto; apply HN; simpl; auto).
  destruct (Nat.eqb_spec y x) as [->|Hn].
  - rewrite E. cbn [length]. f_equal. f_equal. apply filter_ext_in'. intros z Hz.
    rewrite mk_set by (auto; apply HN; simpl; auto). destruct (Nat.eqb_spec z x) as [->|]; auto. contradiction.
  - destruct HI as [->|HI]; [contradiction|].
    assert (HN' : forall z, In z l -> node_of T z) by (intros; apply HN; simpl; auto).
    destruct (mk m y); cbn [length]; rewrite <- IH; auto.
Qed.

Lemma M_par_neq c : In c words -> par c <> c.
Proof. intros Hc E. apply (below_irrefl T W c). rewrite <- E at 2. now constructor. Qed.

(** The loop of step 1 keeps the invariant and terminates. *)
Lemma treelet_up_ok n : forall Q m nw hi, UInv Q m nw hi -> Q <> [] -> length Q + length (unmarked m) <= n ->
  exists Q' m' nw' hi', treelet_up n h Q m nw hi = Ok (Q', m', nw', hi') /\ UInv Q' m' nw' hi' /\ length Q' = 1.
Proof.
  induction n as [|n IH]; intros Q m nw hi I HQ Hn.
  { destruct Q; [contradiction|cbn in Hn; lia]. }
  destruct Q as [|x [|x2 rest]]; [contradiction| |].
  { exists [x], m, nw, hi. auto. }
  set (Q1 := x2 :: rest) in *. cbn [treelet_up tl]. unfold Q1 at 1.
  destruct I. inversion i_nodup0 as [|? ? ND1 ND2]; subst.
  assert (Mx : M m x) by (apply i_q0; simpl; auto). destruct Mx as [Nx Kx].
  destruct Nx as [->|Hx].
  - (* the root was popped *)
    rewrite (r_parroot h T HR). apply IH; [|unfold Q1; discriminate|cbn in *; lia].
    constructor; auto.
    + intros y Hy. apply i_q0. simpl; auto.
    + right. split; auto. split; auto. split; auto.
    + intros y My Hy. destruct (Nat.eq_dec y root) as [->|Hne]; auto.
      destruct (i_up0 y My) as [[? _]|?]; auto. intros [?|?]; auto.
    + intros y c Hy Ey. destruct (i_via0 y c Hy Ey) as [A1 [A2 [A3 [A4 [A5 A6]]]]].
      split; auto. split; auto. split; auto. split; auto. split; [intros ?; apply A5; simpl; auto|].
      intros c' C1 C2 C3 C4. apply A6; auto. intros [<-|?]; auto. now apply (wf_rootfresh T W).
  - rewrite (r_par h T HR x Hx). set (p := par x). assert (Hp : node_of T p) by now apply (wf_parent T W).
    assert (Hpx : p <> x) by now apply M_par_neq.
    assert (Msrc : M m x -> exists g, In g G /\ below_eq g p).
    { intros Mx. destruct (i_src0 x Mx) as [g [Hg Hb]]. exists g. split; auto. right. destruct Hb as [->|Hb]; [now constructor|].
      eapply below_trans; eauto. now constructor. }
    specialize (Msrc (conj (NW x Hx) Kx)).
    change (mget m (h_ord h p)) with (mk m p). destruct (mk m p) as [v|] eqn:Ep.
    + (* merge *)
      assert (Mp : M m p) by (split; auto; congruence).
      assert (MS : forall y, M (mset m (h_ord h p) Sure) y <-> M m y).
      { intros y. rewrite M_set by auto. split; [intros [->|]; auto|auto]. }
      assert (KS : forall y, node_of T y -> y <> p -> mk (mset m (h_ord h p) Sure) y = mk m y).
      { intros y Hy Hne. rewrite mk_set by auto. destruct (Nat.eqb_spec y p); congruence. }
      apply IH; [|unfold Q1; discriminate|].
      2:{ assert (length (unmarked (mset m (h_ord h p) Sure)) = length (unmarked m)); [|cbn in *; lia].
          unfold unmarked. f_equal. apply filter_ext_in'. intros y Hy.
          assert (Hny : node_of T y) by (destruct Hy as [<-|]; auto).
          rewrite mk_set by auto. destruct (Nat.eqb_spec y p) as [->|]; auto. now rewrite Ep. }
      constructor; auto.
      * intros y Hy. apply MS, i_q0. simpl; auto.
      * destruct i_hi0 as [?|[? [? ?]]]; auto. right. split; auto. split; [now apply MS|]. simpl in *; auto.
      * intros g Hg. destruct (Nat.eq_dec g p) as [->|Hne]; [rewrite mk_set, Nat.eqb_refl by auto; auto|].
        rewrite KS by auto. auto.
      * intros y My. apply i_src0. now apply MS.
      * intros y My Hy. destruct (Nat.eq_dec y x) as [->|Hne]; [right; split; auto; now apply MS|].
        destruct (i_up0 y) as [?|[? ?]]; auto; [now apply MS|intros [?|?]; auto|]. right. split; auto. now apply MS.
      * intros y c Hy Ey. destruct (Nat.eq_dec y p) as [->|Hne].
        { rewrite mk_set, Nat.eqb_refl in Ey by auto. discriminate. }
        rewrite KS in Ey by auto. destruct (i_via0 y c Hy Ey) as [A1 [A2 [A3 [A4 [A5 A6]]]]].
        split; auto. split; auto. split; auto. split; [now apply MS|]. split; [intros ?; apply A5; simpl; auto|].
        intros c' C1 C2 C3 C4. apply A6; auto; [now apply MS|]. intros [<-|?]; auto.
      * intros y Hy Ey. destruct (Nat.eq_dec y p) as [->|Hne].
        -- destruct v as [|c].
           ++ destruct (i_sure0 p Hp Ep) as [?|[c [c' [A1 [A2 [A3 [A4 [A5 [A6 A7]]]]]]]]]; auto.
              right. exists c, c'. repeat (split; auto); now apply MS.
           ++ right. destruct (i_via0 p c Hp Ep) as [A1 [A2 [A3 [A4 [A5 A6]]]]].
              exists x, c. split; [intros ->; apply A5; simpl; auto|].
              split; auto. split; auto. split; auto. split; auto. split; apply MS; auto. split; auto.
        -- rewrite KS in Ey by auto. destruct (i_sure0 y Hy Ey) as [?|[c [c' [A1 [A2 [A3 [A4 [A5 [A6 A7]]]]]]]]]; auto.
           right. exists c, c'. repeat (split; auto); now apply MS.
      * intros y Hy. rewrite MS. auto.
    + (* climb *)
      assert (Mp : ~ M m p) by (intros [_ H]; congruence).
      assert (MS : forall y, M (mset m (h_ord h p) (Via x)) y <-> y = p \/ M m y) by (intros; now apply M_set).
      assert (KS : forall y, node_of T y -> y <> p -> mk (mset m (h_ord h p) (Via x)) y = mk m y).
      { intros y Hy Hne. rewrite mk_set by auto. destruct (Nat.eqb_spec y p); congruence. }
      assert (PG : ~ In p G) by (intros Hg; apply Mp; split; auto; rewrite (i_g0 p Hg); discriminate).
      assert (PQ : ~ In p Q1) by (intros Hq; apply Mp, i_q0; simpl; auto).
      assert (NP : mget nw (h_ord h p) = None).
      { apply mget_none. intros Hin. apply in_map_iff in Hin as [[k v] [Ek Hin]]. cbn in Ek. subst k.
        destruct (i_nval0 _ _ Hin) as [Hv Ev]. apply (ord_inj h T HR) in Ev; auto. subst v.
        apply i_news0 in Hin as [? _]; auto. }
      rewrite (mset_new nw) by auto.
      apply IH; [|destruct Q1; discriminate|].
      2:{ rewrite app_length. cbn. pose proof (unmarked_set m p (Via x) Hp Ep). cbn in *; lia. }
      constructor.
      * apply (Permutation_NoDup (Permutation_cons_append Q1 p)). constructor; auto.
      * intros y Hy. apply MS. apply in_app_iff in Hy as [Hy|[<-|[]]]; auto. right. apply i_q0. simpl; auto.
      * destruct i_hi0 as [?|[? [MR NR]]]; auto. right. split; auto. split; [apply MS; auto|].
        rewrite in_app_iff. intros [?|[E|[]]]; [apply NR; simpl; auto|]. apply Mp. now rewrite E.
      * intros g Hg. rewrite KS; auto. intros ->; auto.
      * intros y My. apply MS in My as [->|My]; auto.
      * intros y My Hy. rewrite in_app_iff in Hy. apply MS in My as [->|My]; [exfalso; apply Hy; simpl; auto|].
        destruct (Nat.eq_dec y x) as [->|Hne]; [right; split; auto; apply MS; auto|].
        destruct (i_up0 y My) as [?|[? ?]]; auto; [intros [?|?]; auto|]. right. split; auto. apply MS; auto.
      * intros y c Hy Ey. destruct (Nat.eq_dec y p) as [->|Hne].
        -- rewrite mk_set, Nat.eqb_refl in Ey by auto. injection Ey as <-.
           split; auto. split; auto. split; auto. split; [apply MS; right; split; auto|].
           split; [rewrite in_app_iff; intros [?|[?|[]]]; auto|].
           intros c' C1 C2 C3 C4. rewrite in_app_iff in C4. apply MS in C3 as [->|C3]; [exfalso; apply C4; simpl; auto|].
           destruct (Nat.eq_dec c' x) as [|Hcx]; auto. exfalso.
           destruct (i_up0 c' C3) as [[-> _]|[_ MM]]; [intros [?|?]; auto|now apply (wf_rootfresh T W)|].
           rewrite C2 in MM. auto.
        -- rewrite KS in Ey by auto. destruct (i_via0 y c Hy Ey) as [A1 [A2 [A3 [A4 [A5 A6]]]]].
           split; auto. split; auto. split; auto. split; [apply MS; auto|].
           split; [rewrite in_app_iff; intros [?|[<-|[]]]; [apply A5; simpl; auto|auto]|].
           intros c' C1 C2 C3 C4. rewrite in_app_iff in C4. apply MS in C3 as [->|C3]; [exfalso; apply C4; simpl; auto|].
           apply A6; auto. intros [<-|?]; auto.
      * intros y Hy Ey. destruct (Nat.eq_dec y p) as [->|Hne].
        { rewrite mk_set, Nat.eqb_refl in Ey by auto. discriminate. }
        rewrite KS in Ey by auto. destruct (i_sure0 y Hy Ey) as [?|[c [c' [A1 [A2 [A3 [A4 [A5 [A6 A7]]]]]]]]]; auto.
        right. exists c, c'. repeat (split; auto); apply MS; auto.
      * rewrite map_app. cbn. apply (Permutation_NoDup (Permutation_cons_append (map fst nw) (h_ord h p))).
        constructor; auto. now apply mget_none.
      * intros k v Hin. apply in_app_iff in Hin as [Hin|[E|[]]]; auto. injection E as <- <-. auto.
      * intros y Hy. rewrite in_app_iff, MS, (i_news0 y Hy). split.
        -- intros [[? ?]|[E|[]]]; auto. injection E as _ ->. auto.
        -- intros [[->|?] ?]; [right; simpl; auto|auto].
Qed.

(** ---- step 1 from the initial state ---- *)
Lemma init_marks l : forall m, (forall g, In g l -> node_of T g) ->
  forall y, node_of T y ->
  mk (fold_left (fun m x => mset m (h_ord h x) Sure) l m) y = if mem y l then Some Sure else mk m y.
Proof.
  induction l as [|g l IH]; intros m HG y Hy; auto. cbn [fold_left]. rewrite IH; auto; [|simpl in HG; auto].
  unfold mem. cbn [existsb]. fold (mem y l). destruct (mem y l); [now rewrite orb_true_r|]. rewrite orb_false_r.
  rewrite mk_set by (auto; apply HG; simpl; auto). auto.
Qed.
Lemma init_inv : G <> [] -> UInv G (fold_left (fun m x => mset m (h_ord h x) Sure) G []) [] None.
Proof.
  intros HG. set (m := fold_left _ _ _).
  assert (KM : forall y, node_of T y -> mk m y = if mem y G then Some Sure else None).
  { intros y Hy. unfold m. rewrite init_marks; auto. }
  assert (MM : forall y, M m y <-> In y G).
  { intros y. unfold M. split.
    - intros [Hy H]. rewrite KM in H by auto. destruct (mem y G) eqn:E; [now apply mem_In|congruence].
    - intros Hy. split; auto. rewrite KM by auto. apply mem_In in Hy. rewrite Hy. discriminate. }
  constructor; auto.
  - intros y. apply MM.
  - intros g Hg. rewrite KM by auto. apply mem_In in Hg. now rewrite Hg.
  - intros y Hy. apply MM in Hy. exists y. split; auto. left; auto.
  - intros y Hy Hn. apply MM in Hy. contradiction.
  - intros y c Hy Ey. rewrite KM in Ey by auto. destruct (mem y G); discriminate.
  - intros y Hy Ey. rewrite KM in Ey by auto. left. apply mem_In. destruct (mem y G); congruence.
  - constructor.
  - intros k v [].
  - intros y Hy. rewrite MM. cbn. tauto.
Qed.

(** ---- step 2 ---- *)
Lemma subs_lt c : In c words -> length (subs T c) < length (subs T (par c)).
Proof.
  intros Hc.
  assert (ND : NoDup (c :: subs T c)).
  { constructor; [|apply subs_NoDup; auto]. intros H. apply (subs_In T W) in H. now apply (below_irrefl T W c). }
  apply (NoDup_incl_length ND). intros y [<-|Hy]; apply (subs_In T W).
  - now constructor.
  - apply (subs_In T W) in Hy. now apply below_parent.
Qed.

Lemma treelet_down_ok Q m nw hi : UInv Q m nw hi -> forall n top nw0,
  M m top -> length (subs T top) <= n ->
  NoDup (map fst nw0) -> (forall k v, In (k, v) nw0 -> node_of T v /\ k = h_ord h v) ->
  (forall y, M m y -> ~ In y G -> below_eq y top -> In (h_ord h y, y) nw0) ->
  exists head nw', treelet_down n h m nw0 top = Ok (head, nw') /\ M m head /\ mk m head = Some Sure /\ below_eq head top /\
    NoDup (map fst nw') /\ (forall k v, In (k, v) nw' -> node_of T v /\ k = h_ord h v) /\
    (forall y, node_of T y -> (In (h_ord h y, y) nw' <-> In (h_ord h y, y) nw0 /\ ~ (below T head y /\ below_eq y top))) /\
    ((forall g, In g G -> below_eq g top) -> (forall y, M m y -> below T y top -> ~ In y Q) ->
       (forall g, In g G -> below_eq g head)).
Proof.
  intros I. induction n as [|n IH]; intros top nw0 Mt Hn ND HV HS.
  - (* no descendants: a Via mark is impossible *)
    destruct Mt as [Nt Kt]. cbn [treelet_down]. change (mget m (h_ord h top)) with (mk m top).
    destruct (mk m top) as [[|c]|] eqn:E; [|exfalso|congruence].
    + exists top, nw0. split; auto. split; [split; auto; congruence|]. split; auto. split; [left; auto|].
      split; auto. split; auto. split; auto. intros y Hy. split; [|tauto]. intros H; split; auto.
      intros [H1 [->|H2]]; [now apply (below_irrefl T W top)|]. now apply (below_asym T W top y).
    + destruct (i_via _ _ _ _ I top c Nt E) as [_ [Hc [Hp _]]].
      pose proof (subs_lt c Hc). rewrite Hp in H. lia.
  - destruct Mt as [Nt Kt]. cbn [treelet_down]. change (mget m (h_ord h top)) with (mk m top).
    destruct (mk m top) as [[|c]|] eqn:E; [| |congruence].
    + exists top, nw0. split; auto. split; [split; auto; congruence|]. split; auto. split; [left; auto|].
      split; auto. split; auto. split; auto. intros y Hy. split; [|tauto]. intros H; split; auto.
      intros [H1 [->|H2]]; [now apply (below_irrefl T W top)|]. now apply (below_asym T W top y).
    + destruct (i_via _ _ _ _ I top c Nt E) as [Gt [Hc [Hp [Mc [Qc Uc]]]]].
      assert (In0 : In (h_ord h top, top) nw0) by (apply HS; [split; auto; congruence|auto|left; auto]).
      destruct (mdel_some nw0 (h_ord h top)) as [m1 [v [m2 [Enw [Nk ->]]]]].
      { intros E0. apply mget_none in E0. apply E0. apply in_map_iff. exists (h_ord h top, top); auto. }
      assert (Hv : v = top).
      { destruct (HV (h_ord h top) v) as [V1 V2]; [rewrite Enw, in_app_iff; simpl; auto|].
        apply (ord_inj h T HR) in V2; auto. }
      subst v.
      assert (ND' : NoDup (map fst (m1 ++ m2))).
      { rewrite Enw, map_app in ND. cbn in ND. rewrite map_app. eapply NoDup_remove_1; eauto. }
      assert (HIn : forall y, node_of T y -> (In (h_ord h y, y) (m1 ++ m2) <-> In (h_ord h y, y) nw0 /\ y <> top)).
      { intros y Hy. rewrite Enw, !in_app_iff. cbn. split.
        - intros H. split; [tauto|]. intros ->.
          rewrite Enw, map_app in ND. cbn in ND. apply NoDup_remove_2 in ND. apply ND. rewrite <- map_app.
          apply in_map_iff. exists (h_ord h top, top). split; auto. apply in_app_iff. tauto.
        - intros [[H|[H|H]] Hne]; auto. injection H as _ ->. contradiction. }
      destruct (IH c (m1 ++ m2) Mc) as [head [nw' [-> [R1 [R2 [R3 [R4 [R5 [R6 R7]]]]]]]]].
      * pose proof (subs_lt c Hc). rewrite Hp in H. lia.
      * exact ND'.
      * intros k v Hin. apply HV. rewrite Enw. rewrite in_app_iff in *. simpl. tauto.
      * intros y My Gy By. apply HIn; [apply My|]. split.
        -- apply HS; auto. right. destruct By as [->|By]; [rewrite <- Hp; now constructor|].
           rewrite <- Hp. now apply below_parent.
        -- intros ->. destruct By as [By|By]; [symmetry in By; revert By; rewrite <- Hp; now apply not_eq_sym, M_par_neq|].
           apply (below_irrefl T W c). eapply below_trans; [|exact By]. rewrite <- Hp. now constructor.
      * exists head, nw'. split; auto. split; auto. split; auto.
        assert (CT : below T c top) by (rewrite <- Hp; now constructor).
        assert (HT : below T head top).
        { destruct R3 as [->|R3]; auto. eapply below_trans; eauto. }
        split; [right; auto|]. split; auto. split; auto. split.
        -- intros y Hy. rewrite R6, HIn by auto. split.
           ++ intros [[H1 H2] H3]. split; auto. intros [H4 H5]. apply H3. split; auto.
              destruct H5 as [->|H5]; [contradiction|].
              (* head is below y, y below top, head = c or below c *)
              destruct R3 as [->|R3].
              { (* c below y below top = par c: impossible *)
                apply (below_cases T c y) in H4 as [_ [H4|H4]]; [congruence|]. rewrite Hp in H4.
                exfalso. apply (below_asym T W y top); auto. }
              destruct (below_comparable T head y c H4 R3) as [->|[H6|H6]]; [left; auto|right; auto|].
              exfalso. apply (below_cases T c y) in H6 as [_ [H6|H6]]; [congruence|]. rewrite Hp in H6.
              apply (below_asym T W y top); auto.
           ++ intros [H1 H2]. split; [split; auto; intros ->; apply H2; split; auto; left; auto|].
              intros [H3 H4]. apply H2. split; auto. right. destruct H4 as [->|H4]; auto. eapply below_trans; eauto.
        -- intros A B. apply R7.
           ++ intros g Hg. destruct (A g Hg) as [->|Bg]; [contradiction|].
              (* the child of top above g *)
              assert (CH : forall y t, below T y t -> t = top -> M m y -> below_eq y c).
              { intros y t By. induction By as [y Hy|y t Hy By IHy]; intros Et My.
                - left. apply Uc; auto. apply B; auto. rewrite <- Et. now constructor.
                - right. assert (My' : M m (par y)).
                  { destruct (i_up _ _ _ _ I y My) as [[-> _]|[_ ?]]; auto; [apply B; auto; rewrite <- Et; now apply below_up|].
                    exfalso; now apply (wf_rootfresh T W). }
                  destruct (IHy Et My') as [<-|H]; [now constructor|now apply below_up]. }
              apply (CH g top); auto. split; auto. rewrite (i_g _ _ _ _ I g Hg). discriminate.
           ++ intros y My By. apply B; auto. eapply below_trans; eauto.
Qed.

(** ---- the whole function ---- *)
Lemma fuel_enough : length G + length (unmarked (fold_left (fun m x => mset m (h_ord h x) Sure) G [])) <= fuel h * fuel h.
Proof.
  assert (L1 : length G <= h_next h).
  { apply NoDup_bounded; auto. intros x Hx. apply (r_alloc h T HR). auto. }
  assert (L2 : length (unmarked (fold_left (fun m x => mset m (h_ord h x) Sure) G [])) <= S (length words)).
  { unfold unmarked. pose proof (filter_length_le (fun y => match mk (fold_left (fun m x => mset m (h_ord h x) Sure) G []) y with None => true | Some _ => false end) (root :: words)).
    cbn [length] in H. lia. }
  pose proof (words_lt_next h T W HR). unfold fuel. nia.
Qed.

(** It always returns; and it is right unless the climb reached the root too early. *)
Lemma treelet_general : G <> [] ->
  exists Q m nw hi head added,
    treelet_up (fuel h * fuel h) h G (fold_left (fun m x => mset m (h_ord h x) Sure) G []) [] None = Ok (Q, m, nw, hi) /\
    find_minimal_common_treelet h G = Ok (head, added) /\ node_of T head /\ NoDup added /\
    (forall y, In y added -> node_of T y /\ ~ In y G) /\
    (hi = None ->
     (forall g, In g G -> below_eq g head) /\
     (forall b, node_of T b -> (forall g, In g G -> below_eq g b) -> below_eq head b) /\
     (forall y, In y added <-> ~ In y G /\ below_eq y head /\ exists g, In g G /\ below_eq g y)).
Proof.
  intros HG. unfold find_minimal_common_treelet.
  destruct (treelet_up_ok _ G _ [] None (init_inv HG) HG fuel_enough) as [Q [m [nw [hi [E [I HL]]]]]].
  destruct Q as [|top [|? ?]]; try discriminate. clear HL.
  set (start := match hi with Some x => x | None => top end).
  assert (Ms : M m start).
  { unfold start. destruct (i_hi _ _ _ _ I) as [->|[-> [? _]]]; auto. apply (i_q _ _ _ _ I). simpl; auto. }
  destruct (treelet_down_ok [top] m nw hi I (fuel h) start nw Ms) as [head [nw' [D [R1 [R2 [R3 [R4 [R5 [R6 R7]]]]]]]]].
  { pose proof (filter_length_le (fun c => belowb T c start) words). pose proof (words_lt_next h T W HR). unfold subs, fuel. lia. }
  { apply (i_nkeys _ _ _ _ I). }
  { apply (i_nval _ _ _ _ I). }
  { intros y My Gy _. apply (i_news _ _ _ _ I); auto. apply My. }
  exists [top], m, nw, hi, head, (map snd nw'). split; auto. rewrite E. cbn [rbind].
  replace (match hi with Some x => Some x | None => nth_error [top] 0 end) with (Some start) by (unfold start; now destruct hi).
  rewrite D. cbn [rbind]. split; auto. split; [apply R1|].
  assert (IN : forall y, In y (map snd nw') <-> node_of T y /\ In (h_ord h y, y) nw').
  { intros y. rewrite in_map_iff. split.
    - intros [[k v] [<- Hin]]. cbn. destruct (R5 k v Hin) as [? ->]. auto.
    - intros [_ Hin]. exists (h_ord h y, y). auto. }
  split; [|split].
  - clear -R4 R5. induction nw' as [|[k v] nw' IH]; cbn; [constructor|].
    cbn in R4. inversion R4 as [|? ? N1 N2]; subst. constructor.
    + intros Hin. apply in_map_iff in Hin as [[k2 v2] [E2 Hin]]. cbn in E2. subst v2.
      apply N1. apply in_map_iff. exists (k2, v). split; auto. cbn.
      destruct (R5 k v) as [_ ->]; [simpl; auto|]. destruct (R5 k2 v) as [_ ->]; simpl; auto.
    + apply IH; auto. intros; apply R5; simpl; auto.
  - intros y Hy. apply IN in Hy as [Ny Hin]. split; auto. apply R6 in Hin as [Hin _]; auto.
    now apply (i_news _ _ _ _ I) in Hin as [_ ?].
  - intros ->. unfold start in *. clear start.
    (* everything marked is in the subtree of top *)
    assert (AT : forall y, M m y -> below_eq y top).
    { intros y My. destruct My as [Ny Ky]. destruct (path_exists T W y Ny) as [l P]. revert Ky.
      induction P as [|y l Hy P IH]; intros Ky.
      - destruct (Nat.eq_dec root top) as [->|Hne]; [left; auto|].
        destruct (i_up _ _ _ _ I root) as [[_ ?]|[? _]]; [split; auto|intros [?|[]]; auto|discriminate|].
        exfalso; now apply (wf_rootfresh T W).
      - destruct (Nat.eq_dec y top) as [->|Hne]; [left; auto|].
        destruct (i_up _ _ _ _ I y) as [[_ ?]|[_ [Np Kp]]]; [split; auto|intros [?|[]]; auto|discriminate|].
        right. destruct (IH Np Kp) as [<-|?]; [now constructor|now apply below_up]. }
    assert (GA : forall g, In g G -> below_eq g top).
    { intros g Hg. apply AT. split; auto. rewrite (i_g _ _ _ _ I g Hg). discriminate. }
    assert (GH : forall g, In g G -> below_eq g head).
    { apply R7; auto. intros y My By [->|[]]. now apply (below_irrefl T W y). }
    split; auto. split.
    + intros b Nb Hb. destruct (i_sure _ _ _ _ I head (proj1 R1) R2) as [Hg|[c [c' [A1 [A2 [A3 [A4 [A5 [A6 A7]]]]]]]]]; [auto|].
      (* b in the subtree of head, strictly: then all given nodes would be below one child *)
      destruct (i_src _ _ _ _ I c A6) as [g [Hg Bg]]. destruct (i_src _ _ _ _ I c' A7) as [g' [Hg' Bg']].
      assert (Cmp : forall z, below_eq g z -> below_eq g b -> below_eq z b \/ below T b z).
      { intros z [->|H1] H2; [left; auto|]. destruct H2 as [->|H2]; [right; auto|].
        destruct (below_comparable T g z b H1 H2) as [->|[?|?]]; unfold below_eq; auto. }
      assert (Bh : below_eq g head) by auto.
      destruct (Cmp head Bh (Hb g Hg)) as [?|Bb]; auto. exfalso.
      (* b is below head: the child of head above b is both c and c' *)
      assert (UN : forall c0 g0, In c0 words -> par c0 = head -> In g0 G -> below_eq g0 c0 -> below_eq b c0).
      { intros c0 g0 Hc0 Pc0 Hg0 B0. pose proof (Hb g0 Hg0) as B1.
        destruct B0 as [->|B0].
        - destruct B1 as [->|B1]; [left; auto|]. exfalso. apply (below_cases T c0 b) in B1 as [_ [B1|B1]].
          + rewrite Pc0 in B1. rewrite B1 in Bb. now apply (below_irrefl T W b).
          + rewrite Pc0 in B1. now apply (below_asym T W b head).
        - destruct B1 as [->|B1]; [right; auto|].
          destruct (below_comparable T g0 b c0 B1 B0) as [->|[?|B2]]; [left; auto|right; auto|].
          exfalso. apply (below_cases T c0 b) in B2 as [_ [B2|B2]].
          + rewrite Pc0 in B2. rewrite B2 in Bb. now apply (below_irrefl T W b).
          + rewrite Pc0 in B2. now apply (below_asym T W b head). }
      pose proof (UN c g A2 A4 Hg Bg) as U1. pose proof (UN c' g' A3 A5 Hg' Bg') as U2.
      assert (CC : c = c' \/ below T c c' \/ below T c' c).
      { destruct U1 as [->|U1]; [destruct U2 as [->|U2]; auto|]. destruct U2 as [->|U2]; auto.
        destruct (below_comparable T b c c' U1 U2) as [?|[?|?]]; auto. }
      destruct CC as [?|[C|C]]; [contradiction| |].
      * apply (below_cases T c c') in C as [_ [C|C]].
        -- rewrite A4 in C. apply (M_par_neq c' A3). congruence.
        -- rewrite A4 in C. apply (below_irrefl T W head). eapply below_trans; eauto. rewrite <- A5. now constructor.
      * apply (below_cases T c' c) in C as [_ [C|C]].
        -- rewrite A5 in C. apply (M_par_neq c A2). congruence.
        -- rewrite A5 in C. apply (below_irrefl T W head). eapply below_trans; eauto. rewrite <- A4. now constructor.
    + intros y. rewrite IN. split.
      * intros [Ny Hin]. apply R6 in Hin as [Hin HN]; auto. apply (i_news _ _ _ _ I) in Hin as [My Gy]; auto.
        split; auto. destruct (i_src _ _ _ _ I y My) as [g [Hg Bg]]. split; [|exists g; auto].
        pose proof (GH g Hg) as B1. pose proof (AT y My) as B2.
        destruct Bg as [->|Bg]; [contradiction|].
        destruct B1 as [->|B1]; [exfalso; apply HN; auto|].
        destruct (below_comparable T g y head Bg B1) as [->|[?|?]]; [left; auto|right; auto|].
        exfalso; apply HN; auto.
      * intros [Gy [By [g [Hg Bg]]]].
        (* y is marked: the path from g up to head is marked *)
        assert (PM : forall z, below_eq z y -> M m z -> M m y).
        { intros z Bz Mz. destruct Bz as [->|Bz]; auto. induction Bz as [z Hz|z y Hz Bz IHz].
          - destruct (i_up _ _ _ _ I z Mz) as [[-> _]|[_ ?]]; auto.
            + intros [->|[]]. assert (BB : below T z (par z)) by now constructor.
              destruct By as [E1|By].
              * rewrite E1 in BB. destruct R3 as [->|R3]; [now apply (below_irrefl T W z)|]. now apply (below_asym T W z head).
              * assert (below T z head) by (eapply below_trans; eauto).
                destruct R3 as [->|R3]; [now apply (below_irrefl T W z)|]. now apply (below_asym T W z head).
            + exfalso; now apply (wf_rootfresh T W).
          - apply IHz; auto. destruct (i_up _ _ _ _ I z Mz) as [[-> _]|[_ ?]]; auto.
            + intros [->|[]]. assert (BB : below T z y) by now apply below_up.
              assert (below T z head) by (destruct By as [->|By]; auto; eapply below_trans; eauto).
              destruct R3 as [->|R3]; [now apply (below_irrefl T W z)|]. now apply (below_asym T W z head).
            + exfalso; now apply (wf_rootfresh T W). }
        assert (My : M m y).
        { apply (PM g); auto. split; auto. rewrite (i_g _ _ _ _ I g Hg). discriminate. }
        split; [apply My|]. apply R6; [apply My|]. split; [apply (i_news _ _ _ _ I); auto; apply My|].
        intros [H1 _]. destruct By as [->|By]; [now apply (below_irrefl T W head)|now apply (below_asym T W head y)].
Qed.

(** ---- the root is not reached too early if the nodes are not too far apart ---- *)
Record Ghost (Q : list nat) (m : list (Z * mark)) (og : nat -> nat * nat) (t : nat) : Prop := {
  g_q : forall y, In y Q -> M m y;
  g_trail : forall y, M m y -> In (fst (og y)) G /\ steps h (fst (og y)) (snd (og y)) y /\
     forall i z, i <= snd (og y) -> steps h (fst (og y)) i z -> M m z /\ og z = (fst (og y), i);
  g_orig : NoDup (map (fun y => fst (og y)) Q);
  g_round : exists Q1 Q2, Q = Q1 ++ Q2 /\ (forall y, In y Q1 -> snd (og y) = t) /\ (forall y, In y Q2 -> snd (og y) = S t)
}.

Variable a : nat.
Hypothesis Ga : forall g, In g G -> below_eq g a.
Hypothesis Near : forall g g' n d, In g G -> In g' G -> steps h g n a -> steps h g' d root -> n <= d.

Lemma steps_split x n z : steps h x n z -> forall k y, steps h x k y -> k <= n -> steps h y (n - k) z.
Proof.
  induction 1 as [x|x p n z E H IH]; intros k y Hk L.
  - assert (k = 0) by lia. subst. inversion Hk; subst. constructor.
  - inversion Hk as [|? q k' ? E2 Hk']; subst; [rewrite Nat.sub_0_r; econstructor; eauto|].
    cbn. apply IH; [congruence|lia].
Qed.

Lemma ghost_round_norm x rest m og t : Ghost (x :: rest) m og t -> exists t', 
  snd (og x) = t' /\ (forall y, In y rest -> t' <= snd (og y)) /\
  exists Q1 Q2, rest = Q1 ++ Q2 /\ (forall y, In y Q1 -> snd (og y) = t') /\ (forall y, In y Q2 -> snd (og y) = S t').
Proof.
  intros [_ _ _ [[|x1 Q1] [Q2 [E [H1 H2]]]]].
  - cbn in E. subst Q2. exists (S t). split; [apply H2; simpl; auto|]. split.
    + intros y Hy. rewrite H2; simpl; auto.
    + exists rest, []. split; [now rewrite app_nil_r|]. split; [intros; apply H2; simpl; auto|intros ? []].
  - injection E as -> E. exists t. split; [apply H1; simpl; auto|]. split.
    + intros y Hy. rewrite E in Hy. apply in_app_iff in Hy as [Hy|Hy]; [rewrite H1; simpl; auto|rewrite H2; auto].
    + exists Q1, Q2. split; auto. split; auto. intros; apply H1; simpl; auto.
Qed.

Lemma ghost_no_root n : forall Q m nw hi og t Q' m' nw' hi', Ghost Q m og t -> hi = None ->
  treelet_up n h Q m nw hi = Ok (Q', m', nw', hi') -> hi' = None.
Proof.
  induction n as [|n IH]; intros Q m nw hi og t Q' m' nw' hi' GH -> E.
  { destruct Q as [|x [|x2 rest]]; cbn in E; try discriminate; congruence. }
  destruct Q as [|x [|x2 rest]]; cbn [treelet_up] in E; try congruence.
  cbn [tl] in E. set (Q1 := x2 :: rest) in *.
  destruct (ghost_round_norm x Q1 m og t GH) as [t' [Ex [Hge [R1 [R2 [ER [HR1 HR2]]]]]]].
  destruct GH as [gq gt go _].
  assert (Mx : M m x) by (apply gq; simpl; auto).
  cbn [map] in go. inversion go as [|? ? go1 go2]; subst.
  destruct Mx as [Nx Kx]. destruct Nx as [->|Hx].
  - exfalso. assert (M2 : M m x2) by (apply gq; simpl; auto).
    destruct (gt root (conj N0 Kx)) as [G1 [S1 T1]]. destruct (gt x2 M2) as [G2 [S2 T2]].
    destruct (in_subtree_steps h (fst (og root)) a) as [n1 A1].
    { destruct (Ga _ G1) as [->|B]; [left; auto|right; eapply below_up_rel; eauto]. }
    destruct (in_subtree_steps h (fst (og x2)) a) as [n2 A2].
    { destruct (Ga _ G2) as [->|B]; [left; auto|right; eapply below_up_rel; eauto]. }
    pose proof (Near _ _ _ _ G1 G1 A1 S1) as L1. pose proof (Near _ _ _ _ G2 G1 A2 S1) as L2.
    assert (L3 : snd (og root) <= snd (og x2)) by (apply Hge; simpl; auto).
    destruct (T1 n1 a L1 A1) as [_ O1]. destruct (T2 n2 a) as [_ O2]; [lia|auto|].
    apply go1. rewrite O1 in O2. injection O2 as O2 _. unfold Q1. cbn [map]. left. auto.
  - rewrite (r_par h T HR x Hx) in E. set (p := par x) in *.
    assert (Hp : node_of T p) by now apply (wf_parent T W).
    change (mget m (h_ord h p)) with (mk m p) in E. destruct (mk m p) as [v|] eqn:Ep.
    + assert (MS : forall y, M (mset m (h_ord h p) Sure) y <-> M m y).
      { intros y. rewrite M_set by auto. split; [intros [->|]; auto|auto]. split; auto. congruence. }
      eapply IH; [|reflexivity|exact E]. instantiate (1 := snd (og x)). instantiate (1 := og). constructor.
      * intros y Hy. apply MS, gq. simpl; auto.
      * intros y My. apply MS in My. destruct (gt y My) as [A [B C]]. split; auto. split; auto.
        intros i z Hi Hz. rewrite MS. auto.
      * exact go2.
      * exists R1, R2. auto.
    + assert (Mp : ~ M m p) by (intros [_ H]; congruence).
      assert (MS : forall y, M (mset m (h_ord h p) (Via x)) y <-> y = p \/ M m y) by (intros; now apply M_set).
      set (og' := fun y => if Nat.eqb y p then (fst (og x), S (snd (og x))) else og y).
      assert (OG : forall y, y <> p -> og' y = og y) by (intros y Hy; unfold og'; destruct (Nat.eqb_spec y p); congruence).
      assert (OP : og' p = (fst (og x), S (snd (og x)))) by (unfold og'; now rewrite Nat.eqb_refl).
      assert (Mne : forall y, M m y -> y <> p) by (intros y My ->; auto).
      assert (Qne : forall y, In y Q1 -> y <> p) by (intros y Hy; apply Mne, gq; simpl; auto).
      destruct (gt x (conj (NW x Hx) Kx)) as [Gx [Sx Tx]].
      eapply IH; [|reflexivity|exact E]. instantiate (1 := snd (og x)). instantiate (1 := og'). constructor.
      * intros y Hy. apply MS. apply in_app_iff in Hy as [Hy|[<-|[]]]; auto. right. apply gq; simpl; auto.
      * intros y My. apply MS in My as [->|My].
        -- rewrite OP. cbn [fst snd]. split; auto. split; [eapply steps_snoc; eauto; now apply (r_par h T HR)|].
           intros i z Hi Hz. destruct (Nat.eq_dec i (S (snd (og x)))) as [->|Hne].
           ++ assert (z = p) as -> by (eapply steps_fun; [exact Hz|]; eapply steps_snoc; eauto; now apply (r_par h T HR)).
              split; [apply MS; auto|auto].
           ++ destruct (Tx i z) as [Mz Oz]; [lia|auto|]. split; [apply MS; auto|]. rewrite OG; auto.
        -- rewrite OG by auto. destruct (gt y My) as [A [B C]]. split; auto. split; auto.
           intros i z Hi Hz. destruct (C i z Hi Hz) as [Mz Oz]. split; [apply MS; auto|]. rewrite OG; auto.
      * rewrite map_app. cbn [map]. rewrite OP. cbn [fst].
        apply (Permutation_NoDup (Permutation_cons_append _ _)).
        rewrite (map_ext_in _ (fun y => fst (og y))) by (intros y Hy; rewrite OG; auto). exact go.
      * exists R1, (R2 ++ [p]). split; [rewrite ER; now rewrite app_assoc|]. split.
        -- intros y Hy. rewrite OG; auto. apply Qne. rewrite ER. apply in_app_iff; auto.
        -- intros y Hy. apply in_app_iff in Hy as [Hy|[<-|[]]]; [|now rewrite OP].
           rewrite OG; auto. apply Qne. rewrite ER. apply in_app_iff; auto.
Qed.

Lemma ghost_init : Ghost G (fold_left (fun m x => mset m (h_ord h x) Sure) G []) (fun y => (y, 0)) 0.
Proof.
  set (m := fold_left _ _ _).
  assert (KM : forall y, node_of T y -> mk m y = if mem y G then Some Sure else None).
  { intros y Hy. unfold m. rewrite init_marks; auto. }
  assert (MM : forall y, M m y <-> In y G).
  { intros y. unfold M. split.
    - intros [Hy H]. rewrite KM in H by auto. destruct (mem y G) eqn:E; [now apply mem_In|congruence].
    - intros Hy. split; auto. rewrite KM by auto. apply mem_In in Hy. rewrite Hy. discriminate. }
  constructor; cbn [fst snd].
  - intros y. apply MM.
  - intros y My. split; [now apply MM|]. split; [constructor|]. intros i z Hi Hz.
    assert (i = 0) by lia. subst. inversion Hz; subst. auto.
  - now rewrite map_id.
  - exists G, []. split; [now rewrite app_nil_r|]. split; auto. intros ? [].
Qed.

Lemma treelet_near : G <> [] -> exists head added,
  find_minimal_common_treelet h G = Ok (head, added) /\ node_of T head /\ NoDup added /\
  (forall g, In g G -> below_eq g head) /\
  (forall b, node_of T b -> (forall g, In g G -> below_eq g b) -> below_eq head b) /\
  (forall y, In y added <-> ~ In y G /\ below_eq y head /\ exists g, In g G /\ below_eq g y).
Proof.
  intros HG. destruct (treelet_general HG) as [Q [m [nw [hi [head [added [E [F [H1 [H2 [_ H3]]]]]]]]]]].
  assert (hi = None) by (eapply ghost_no_root; [exact ghost_init|reflexivity|exact E]).
  destruct (H3 H) as [A [B C]]. exists head, added. auto 10.
Qed.
End Treelet.
