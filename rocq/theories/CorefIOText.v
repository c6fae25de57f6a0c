(** The attribute Entity as text: chunks, fields, the attribute other. *)
From Coq Require Import String List NArith ZArith Bool Lia Sorting.Sorted Sorting.Permutation.
From Verif Require Import PyStr PyStrFacts PyList PyListFacts PyExn TreeModel DualDictModel DualDictProofs CorefModel CorefSpec CorefIOModel CorefIOSpec
  CorefIOEvents.
Import ListNotations.
Local Open Scope list_scope.

(** ---- chunks ---- *)
Definition plain (x : str) : Prop := x <> [] /\ forall a, In a x -> is_paren a = false.
Definition ev_text (body : nat -> str) (eid : nat -> str) (e : ev) : str :=
  match e with
  | Op q => LP :: body q
  | Cl q => eid q ++ [RP]
  | Si q => LP :: body q ++ [RP]
  end.
Lemma take_plain_all x : (forall a, In a x -> is_paren a = false) -> take_plain x = (x, []).
Proof.
  induction x as [|a x IH]; intros H; cbn; auto. rewrite (H a) by (left; auto). rewrite IH by (intros; apply H; right; auto). reflexivity.
Qed.
Lemma take_plain_stop x a y : (forall a, In a x -> is_paren a = false) -> is_paren a = true -> take_plain (x ++ a :: y) = (x, a :: y).
Proof.
  intros H P. induction x as [|b x IH]; cbn; [rewrite P; auto|]. rewrite (H b) by (left; auto). rewrite IH by (intros; apply H; right; auto). reflexivity.
Qed.
Ltac tp := match goal with |- context [take_plain (?a :: ?x ++ ?b :: ?r)] =>
  change (a :: x ++ b :: r) with ((a :: x) ++ b :: r); rewrite (take_plain_stop (a :: x)) by auto end.
Lemma chunks_evs body eid l : (forall e, In e l -> plain (body (ev_item e)) /\ plain (eid (ev_item e))) -> StronglySorted rev_ord l ->
  forall fl, length (flat_map (ev_text body eid) l) <= fl ->
  chunk_loop fl [] (flat_map (ev_text body eid) l) = map (ev_text body eid) l.
Proof.
  intros P0 S. induction S as [|e l S IH F]; intros fl L.
  - destruct fl; reflexivity.
  - assert (P : forall q, ev_item e = q -> plain (body q) /\ plain (eid q)) by (intros q <-; apply P0; left; auto).
    specialize (IH (fun e H => P0 e (or_intror H))). cbn [flat_map map] in *. rewrite app_length in L. destruct e as [q|q|q]; cbn [ev_text] in *.
    + destruct fl as [|f]; [cbn in L; lia|]. cbn [app chunk_loop]. change (N.eqb LP LP) with true. cbv iota.
      destruct (P q eq_refl) as [[B1 B2] _]. destruct (body q) as [|a x] eqn:EB; [congruence|].
      destruct l as [|e' l].
      * cbn [flat_map]. rewrite app_nil_r, take_plain_all by auto. reflexivity.
      * inversion F as [|? ? F1 _]; subst. destruct e' as [p|p|p]; [|destruct F1|].
        -- cbn [flat_map ev_text app]. cbn [flat_map ev_text app] in IH. tp. change (N.eqb LP RP) with false. cbn [app]. f_equal. apply IH. cbn in L |- *. lia.
        -- cbn [flat_map ev_text app]. cbn [flat_map ev_text app] in IH. tp. change (N.eqb LP RP) with false. cbn [app]. f_equal. apply IH. cbn in L |- *. lia.
    + destruct (P q eq_refl) as [_ [B1 B2]]. destruct (eid q) as [|a x] eqn:EB; [congruence|].
      destruct fl as [|f]; [cbn in L; lia|]. rewrite <- app_assoc. cbn [app chunk_loop].
      assert (PA : is_paren a = false) by (apply B2; left; auto). unfold is_paren in PA. apply orb_false_iff in PA. destruct PA as [-> ->]. cbv iota.
      tp. change (N.eqb RP RP) with true. cbn [app]. f_equal. apply IH. cbn in L. rewrite app_length in L. cbn in L. lia.
    + destruct fl as [|f]; [cbn in L; lia|]. cbn [app chunk_loop]. change (N.eqb LP LP) with true. cbv iota.
      destruct (P q eq_refl) as [[B1 B2] _]. destruct (body q) as [|a x] eqn:EB; [congruence|]. rewrite <- app_assoc. cbn [app].
      tp. change (N.eqb RP RP) with true. cbn [app]. f_equal. apply IH. cbn in L. rewrite app_length in L. cbn in L. lia.
Qed.
Lemma lstrip_chars_id p x : (forall a, In a x -> p a = false) -> lstrip_chars p x = x.
Proof. destruct x as [|a x]; auto. cbn. intros H. rewrite H; auto. Qed.
Lemma strip_plain x : plain x -> forall a b, forallb is_paren a = true -> forallb is_paren b = true -> strip_parens (a ++ x ++ b) = x.
Proof.
  intros [N H] a b Ha Hb. unfold strip_parens.
  assert (L : forall a y, forallb is_paren a = true -> (match y with [] => True | c :: _ => is_paren c = false end) -> lstrip_chars is_paren (a ++ y) = y).
  { clear. induction a as [|c a IH]; intros y Ha Hy; [destruct y as [|d y]; auto; cbn; rewrite Hy; auto|]. cbn in *. apply andb_true_iff in Ha.
    destruct Ha as [-> Ha]. auto. }
  rewrite L; auto.
  2:{ destruct x as [|c x]; [congruence|]. cbn. apply H. left; auto. }
  unfold rstrip_chars. rewrite rev_app_distr, L; [apply rev_involutive|rewrite forallb_forall in *; intros c Hc; apply Hb; apply in_rev; auto|].
  destruct (rev x) as [|c y] eqn:E; auto. apply H. apply in_rev. rewrite E. left; auto.
Qed.
Lemma ev_text_parts body eid e : plain (body (ev_item e)) /\ plain (eid (ev_item e)) ->
  opens (ev_text body eid e) = (match e with Cl _ => false | _ => true end) /\
  closes (ev_text body eid e) = (match e with Op _ => false | _ => true end) /\
  strip_parens (ev_text body eid e) = (match e with Cl q => eid q | Op q | Si q => body q end).
Proof.
  intros P. destruct e as [q|q|q]; destruct P as [PB PE]; cbn [ev_text ev_item] in *.
  - split; [reflexivity|]. split.
    + unfold closes. destruct PB as [N H]. destruct (exists_last N) as (y & a & E). rewrite E in *.
      change (LP :: y ++ [a]) with ((LP :: y) ++ [a]). rewrite last_opt_app. assert (PA : is_paren a = false) by (apply H; rewrite in_app_iff; right; left; auto).
      unfold is_paren in PA. apply orb_false_iff in PA. tauto.
    + pose proof (strip_plain (body q) PB [LP] []) as S. cbn in S. rewrite app_nil_r in S. apply S; reflexivity.
  - split.
    + unfold opens. destruct PE as [N H]. destruct (eid q) as [|a x]; [congruence|]. cbn. assert (PA : is_paren a = false) by (apply H; left; auto).
      unfold is_paren in PA. apply orb_false_iff in PA. tauto.
    + split; [unfold closes; rewrite last_opt_app; reflexivity|]. apply (strip_plain (eid q) PE [] [RP]); reflexivity.
  - split; [reflexivity|]. split.
    + unfold closes. change (LP :: body q ++ [RP]) with ((LP :: body q) ++ [RP]). rewrite last_opt_app. reflexivity.
    + apply (strip_plain (body q) PB [LP] [RP]); reflexivity.
Qed.

(** ---- fields ---- *)
Definition DASH : char := 45%N.
Definition item_body (i t hd o : str) : str := join (s "-") (drop_empty [i; t; hd; o]).
Lemma drop_empty_head i t hd o : i <> [] -> hd <> [] -> drop_empty [i; t; hd; o] = match o with [] => [i; t; hd] | _ => [i; t; hd; o] end.
Proof. intros H1 H2. destruct i as [|ia i]; [congruence|]. destruct hd as [|ha hd]; [congruence|]. destruct o, t; reflexivity. Qed.
Lemma item_body_split i t hd o : i <> [] -> hd <> [] -> ~ In DASH i -> ~ In DASH t -> ~ In DASH hd -> ~ In DASH o ->
  split DASH (item_body i t hd o) = match o with [] => [i; t; hd] | _ => [i; t; hd; o] end.
Proof.
  intros H1 H2 N1 N2 N3 N4. unfold item_body. rewrite drop_empty_head by auto. change (s "-") with [DASH].
  destruct o as [|a o]; rewrite split_join; auto; try discriminate; cbn [In]; intros x Hx; intuition (subst; auto).
Qed.
Lemma item_body_plain i t hd o : i <> [] -> hd <> [] -> (forall a, In a (i ++ t ++ hd ++ o) -> is_paren a = false) -> plain (item_body i t hd o).
Proof.
  intros H1 H2 N. unfold item_body. rewrite drop_empty_head by auto. split.
  - destruct i as [|a i]; [congruence|]. destruct o; cbn; discriminate.
  - intros a Ha. change (s "-") with [DASH] in Ha. apply in_join in Ha. destruct Ha as [->|(x & Hx & Ha)]; [reflexivity|]. apply N.
    rewrite !in_app_iff. destruct o; cbn [In] in Hx; intuition (subst; auto).
Qed.

(** ---- ids of pieces ---- *)
Lemma take_digits_stop x a y : forallb is_digit x = true -> is_digit a = false -> take_digits (x ++ a :: y) = (x, a :: y).
Proof.
  intros H P. induction x as [|b x IH]; cbn [app take_digits] in *; [rewrite P; auto|]. cbn in H. apply andb_true_iff in H. destruct H as [-> H].
  rewrite IH by auto. reflexivity.
Qed.
Definition piece_id (eid : str) (k n : Z) : str := eid ++ s "[" ++ str_of_Z k ++ s "/" ++ str_of_Z n ++ s "]".
Lemma match_piece eid k n : eid <> [] -> ~ In 91%N eid -> (0 <= k)%Z -> (0 <= n)%Z ->
  match_disc (piece_id eid k n) = Some (eid, str_of_Z k, str_of_Z n).
Proof.
  intros N I Hk Hn. unfold match_disc, piece_id. change (s "[" ++ str_of_Z k ++ s "/" ++ str_of_Z n ++ s "]") with (91%N :: str_of_Z k ++ s "/" ++ str_of_Z n ++ s "]").
  rewrite split1_app by auto. destruct eid as [|a eid]; [congruence|].
  destruct (str_of_Z_nonneg k Hk) as (D1 & E1 & _). destruct (str_of_Z_nonneg n Hn) as (D2 & E2 & _).
  change (s "/" ++ str_of_Z n ++ s "]") with (47%N :: str_of_Z n ++ [93%N]). rewrite take_digits_stop by auto.
  destruct (str_of_Z k) as [|b x] eqn:Ek; [congruence|]. rewrite take_digits_stop by auto. destruct (str_of_Z n) as [|c y]; [congruence|]. reflexivity.
Qed.
Lemma piece_last eid k n : last_opt (piece_id eid k n) = Some 93%N.
Proof. unfold piece_id. rewrite !app_assoc. change (s "]") with [93%N]. apply last_opt_app. Qed.
Lemma no_piece eid : ~ In 91%N eid -> match_disc eid = None.
Proof. intros H. unfold match_disc. apply split1_None in H. rewrite H. reflexivity. Qed.

(** ---- the attribute other ---- *)
Lemma parse_item_other d kv : match snd kv with VTrue => ~ In COLON (fst kv) | VNone => False | VStr v => ~ In COLON (fst kv) end ->
  parse_other_item d (other_item kv) = dict_set d (fst kv) (snd kv).
Proof.
  destruct kv as [k v]. unfold other_item, parse_other_item. cbn [fst snd]. destruct v; intros H; [|tauto|].
  - apply split1_None in H. rewrite H. reflexivity.
  - cbn [app]. rewrite split1_app by auto. reflexivity.
Qed.
Lemma fold_parse l : forall d, (forall kv, In kv l -> match snd kv with VTrue => ~ In COLON (fst kv) | VNone => False | VStr v => ~ In COLON (fst kv) end) ->
  fold_left parse_other_item (map other_item l) d = fold_left (fun d kv => dict_set d (fst kv) (snd kv)) l d.
Proof.
  induction l as [|kv l IH]; intros d H; cbn [map fold_left]; auto. rewrite parse_item_other by (apply H; left; auto). apply IH. intros; apply H; right; auto.
Qed.
Lemma fold_set_get l : forall d k, NoDup (map fst l) ->
  dict_get (fold_left (fun d kv => dict_set d (fst kv) (snd kv)) l d) k = match dict_get l k with Some v => Some v | None => dict_get d k end.
Proof.
  induction l as [|[k' v] l IH]; intros d k ND; cbn [fold_left dict_get]; auto. inversion ND as [|? ? N1 N2]; subst. rewrite IH by auto. cbn [fst snd].
  rewrite dict_set_get. destruct (str_eqb_spec k k') as [->|]; auto. destruct (dict_get l k') eqn:E; auto.
  exfalso. apply N1. eapply dict_get_Some_key; eauto.
Qed.
Lemma dict_get_perm a b : NoDup (map fst a) -> Permutation a b -> forall k, dict_get a k = dict_get b k.
Proof.
  intros ND P k. assert (ND' : NoDup (map fst b)) by (eapply Permutation_NoDup; [apply Permutation_map; exact P|auto]).
  destruct (dict_get a k) as [v|] eqn:Ea.
  - apply dict_get_In in Ea; auto. symmetry. apply dict_get_In; auto. eapply Permutation_in; eauto.
  - symmetry. apply dict_get_None. apply dict_get_None in Ea. intros H. apply Ea. eapply Permutation_in; [apply Permutation_map; symmetry; exact P|auto].
Qed.
Section Other.
Variables (lower : str -> str) (d : dict).
Hypothesis G : good_other d.
Let l := isort (fun a b : str * val => str_leb (lower (fst a)) (lower (fst b))) d.
Lemma l_perm : Permutation l d.
Proof. apply isort_perm. Qed.
Lemma l_in k v : In (k, v) l -> In (k, v) d.
Proof. apply Permutation_in. apply l_perm. Qed.
Lemma other_unreserved : without_fields d = d.
Proof.
  unfold without_fields. apply filter_all. intros [k v] H. destruct (proj2 G k v H) as (_ & R & _). cbn [fst].
  destruct (existsb (str_eqb k) fields) eqn:E; auto. exfalso. apply R. apply existsb_exists in E. destruct E as (f & F & E).
  apply str_eqb_eq in E. subst. exact F.
Qed.
Lemma item_chars kv a : In kv d -> In a (other_item kv) -> a = COLON \/ ~ In a (s "-(),").
Proof.
  destruct kv as [k v]. intros H Ha. destruct (proj2 G k v H) as (_ & _ & W & V). unfold other_item in Ha. cbn [fst snd] in Ha.
  assert (K : In a k -> a = COLON \/ ~ In a (s "-(),")).
  { intros I. right. intros J. apply (W a I). cbn in J |- *. tauto. }
  destruct v; [auto|tauto|]. rewrite !in_app_iff in Ha. destruct Ha as [Ha|[[<-|[]]|Ha]]; auto.
Qed.
Lemma l_names : NoDup (map fst l).
Proof. eapply Permutation_NoDup; [apply Permutation_map; symmetry; apply l_perm|apply G]. Qed.
Lemma l_text : l <> [] -> join [COMMA] (map other_item l) <> [].
Proof.
  assert (H : forall k v, In (k, v) l -> k <> []) by (intros k v H; apply (proj2 G k v); apply l_in; auto).
  revert H. generalize l. intros [|[k v] l'] H NE; [congruence|]. specialize (H k v (or_introl eq_refl)).
  destruct k as [|a k]; [congruence|]. cbn [map join]. unfold other_item at 1. cbn [fst snd]. destruct v; destruct l'; cbn; discriminate.
Qed.
Lemma l_split : l <> [] -> split COMMA (join [COMMA] (map other_item l)) = map other_item l.
Proof.
  intros NE. apply split_join.
  - revert NE. generalize l. intros []; [congruence|discriminate].
  - intros x Hx I. apply in_map_iff in Hx. destruct Hx as ([k' v] & <- & Hx). apply l_in in Hx.
    destruct (item_chars (k', v) COMMA) as [X|X]; auto; [discriminate|apply X; cbn; tauto].
Qed.
Lemma parse_other_str : same_mapping (parse_other (other_str lower d)) d.
Proof.
  intros k. transitivity (dict_get l k).
  - unfold parse_other, other_str. fold l. assert (l = [] \/ l <> []) as [->|NE]; [generalize l; intros []; [auto|right; discriminate]|reflexivity|].
    pose proof (l_text NE) as NJ. destruct (join [COMMA] (map other_item l)) as [|a x] eqn:EJ; [congruence|]. rewrite <- EJ, l_split by auto.
    rewrite fold_parse, fold_set_get; [destruct (dict_get l k); auto|apply l_names|].
    intros [k' v] H. apply l_in in H. destruct (proj2 G k' v H) as (_ & _ & W & V). cbn [fst snd].
    destruct v; auto; intros I; apply (W COLON I); cbn; tauto.
  - apply dict_get_perm; [apply l_names|apply l_perm].
Qed.
Lemma other_str_chars a : In a (other_str lower d) -> a = COLON \/ a = COMMA \/ ~ In a (s "-(),").
Proof.
  unfold other_str. fold l. intros H. apply in_join in H. destruct H as [->|(x & Hx & Ha)]; auto. apply in_map_iff in Hx.
  destruct Hx as (kv & <- & Hx). destruct (item_chars kv a) as [?|?]; auto. destruct kv. apply l_in. auto.
Qed.
End Other.
