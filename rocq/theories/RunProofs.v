(** Proofs about scenarios, file lists and util.Split. *)
From Coq Require Import String List NArith ZArith Bool Lia.
From Verif Require Import PyStr PyStrFacts PyList PyListFacts PyExn DualDictModel RunModel RunSpec.
Import ListNotations.
Local Open Scope Z_scope.

(** ---- command lines ---- *)
Lemma digits_number x : forall acc b, forallb is_digit x = true -> (x <> [] \/ b = true) ->
  digits_to_Z acc b x = Some (fold_left (fun n a => 10 * n + (Z.of_N a - 48)) x acc).
Proof.
  induction x as [|a x IH]; intros acc b H D; simpl.
  - destruct D as [D| ->]; [congruence | reflexivity].
  - simpl in H. apply andb_true_iff in H as [H1 H2]. rewrite H1. rewrite IH; auto.
    unfold digit_val. f_equal.
    replace (acc * 10 + (Z.of_N a - 48)) with (10 * acc + (Z.of_N a - 48)) by lia. reflexivity.
Qed.
Lemma py_int_digits x : forallb is_digit x = true -> x <> [] -> py_int x = Some (number x).
Proof.
  intros H N. unfold py_int. rewrite strip_digits by auto.
  destruct x as [|a x]; [congruence|].
  assert (Ha : is_digit a = true) by (simpl in H; now apply andb_true_iff in H).
  assert (A1 : N.eqb a 45 = false).
  { apply N.eqb_neq. intros ->. discriminate. }
  assert (A2 : N.eqb a 43 = false).
  { apply N.eqb_neq. intros ->. discriminate. }
  rewrite A1, A2. apply digits_number; auto.
Qed.
Lemma arg_value_ok v : (forall a, In a v -> is_superscript a = false) -> arg_value v = Ok (value_of v).
Proof.
  intros H. unfold arg_value, value_of, str_isdigit.
  assert (E : forallb (fun a => is_digit a || is_superscript a) v = forallb is_digit v).
  { clear -H. induction v; simpl; auto. rewrite (H a) by (left; auto). rewrite orb_false_r. f_equal. apply IHv.
    intros; apply H; right; auto. }
  rewrite E. destruct (nonempty v) eqn:N; auto. destruct (forallb is_digit v) eqn:D; auto. simpl.
  rewrite py_int_digits; auto. destruct v; discriminate.
Qed.
Lemma aset_keys l k v k' : In k' (map fst (aset l k v)) <-> k' = k \/ In k' (map fst l).
Proof.
  induction l as [|(k1, v1) l IH]; simpl; [intuition|].
  destruct (str_eqb_spec k k1) as [->|N]; simpl; [intuition|]. rewrite IH. intuition.
Qed.
Lemma aset_NoDup l k v : NoDup (map fst l) -> NoDup (map fst (aset l k v)).
Proof.
  induction l as [|(k1, v1) l IH]; simpl; intros H.
  - constructor; auto; constructor.
  - inversion H; subst. destruct (str_eqb_spec k k1) as [->|N]; simpl; constructor; auto.
    rewrite aset_keys. intuition.
Qed.
Lemma lookup_aset l k v k' : lookup k' (aset l k v) = if str_eqb k k' then Some v else lookup k' l.
Proof.
  unfold lookup. induction l as [|(k1, v1) l IH]; simpl.
  - destruct (str_eqb k k'); auto.
  - destruct (str_eqb_spec k k1) as [->|N]; simpl.
    + destruct (str_eqb k1 k'); auto.
    + destruct (str_eqb_spec k1 k') as [->|N'].
      * destruct (str_eqb_spec k k'); congruence.
      * exact IH.
Qed.
Definition good_args (b : str * list (str * str)) (d : list (str * aval)) : Prop :=
  NoDup (map fst d) /\ forall k, lookup k d = last_written k (snd b).
Lemma on_last_snoc {A} (f : A -> A) l x : on_last f (l ++ [x]) = l ++ [f x].
Proof. induction l as [|a l IH]; auto. simpl. destruct (l ++ [x]) eqn:E; [destruct l; discriminate|]. f_equal; auto. Qed.

Lemma parse_params name ps : forall done d rest names args,
  (forall kv, In kv ps -> ~ In EQ (fst kv)) ->
  (forall kv, In kv ps -> forall a, In a (snd kv) -> is_superscript a = false) ->
  good_args (name, done) d -> names <> [] ->
  exists d', good_args (name, done ++ ps) d' /\
    parse_args names (args ++ [d]) (map (fun kv => fst kv ++ EQ :: snd kv) ps ++ rest)
    = parse_args names (args ++ [d']) rest.
Proof.
  induction ps as [|(k, v) ps IH]; intros done d rest names args H1 H2 G N.
  - exists d. rewrite app_nil_r. auto.
  - cbn [map app fst snd]. cbn [parse_args].
    rewrite split1_app by (apply (H1 (k, v)); left; auto).
    destruct names as [|n0 names0] eqn:En; [congruence|]. rewrite <- En in *.
    rewrite arg_value_ok by (apply (H2 (k, v)); left; auto). cbn [rbind].
    rewrite on_last_snoc.
    destruct (IH (done ++ [(k, v)]) (aset d k (value_of v)) rest names args) as (d' & G' & E').
    + intros; apply H1; right; auto.
    + intros kv Hkv; apply H2; right; auto.
    + destruct G as (G1 & G2). split; [apply aset_NoDup; auto|].
      intros k'. rewrite lookup_aset, G2. unfold last_written. cbn [snd]. rewrite rev_app_distr. simpl.
      destruct (str_eqb k k'); auto.
    + subst; auto.
    + exists d'. rewrite <- app_assoc in G'. split; auto.
Qed.
Lemma parse_blocks sc : forall names args, proper sc -> plain_values sc -> length names = length args ->
  exists ds, parse_args names args (written sc) = Ok (names ++ map fst sc, args ++ ds) /\ Forall2 good_args sc ds.
Proof.
  induction sc as [|(n, ps) sc IH]; intros names args P V L.
  - exists []. cbn. rewrite !app_nil_r. auto.
  - unfold written. cbn [flat_map fst snd]. fold (written sc). cbn [app parse_args].
    destruct (P (n, ps)) as (P1 & P2); [left; auto|]. cbn [fst snd] in *.
    assert (E : split1 EQ n = None) by (apply split1_None; auto). rewrite E.
    destruct (parse_params n ps [] [] (written sc) (names ++ [n]) args) as (d' & G & E2); auto.
    { intros; eapply (V (n, ps)); eauto; left; auto. }
    { split; [constructor|]. intros; reflexivity. }
    { destruct names; discriminate. }
    rewrite E2.
    destruct (IH (names ++ [n]) (args ++ [d'])) as (ds & E3 & F).
    { intros b Hb; apply P; right; auto. }
    { intros b kv Hb; apply V; right; auto. }
    { rewrite !app_length; simpl; lia. }
    exists (d' :: ds). rewrite E3, <- !app_assoc. split; auto.
Qed.
Theorem parse_ok sc : proper sc -> plain_values sc ->
  exists ds, parse_command_line (written sc) = Ok (map fst sc, ds) /\
    Forall2 (fun b d => NoDup (map fst d) /\ forall k, lookup k d = last_written k (snd b)) sc ds.
Proof. intros P V. destruct (parse_blocks sc [] [] P V eq_refl) as (ds & E & F). exists ds. auto. Qed.

Theorem every_command_line tokens :
  (exists sc, proper sc /\ tokens = written sc) \/
  (exists k v rest, tokens = (k ++ EQ :: v) :: rest /\ parse_command_line tokens = Raise RuntimeError).
Proof.
  assert (H : forall tokens, exists ps sc, proper sc /\ (forall kv, In kv ps -> ~ In EQ (fst kv)) /\
              tokens = map (fun kv => fst kv ++ EQ :: snd kv) ps ++ written sc).
  { induction tokens0 as [|t tokens0 IH].
    - exists [], []. repeat split; try intros ? []; auto.
    - destruct IH as (ps & sc & P & Q & ->).
      destruct (split1 EQ t) as [(k, v)|] eqn:E.
      + apply split1_Some in E as (-> & E). exists ((k, v) :: ps), sc. split; auto. split.
        * intros kv [<-|H]; auto.
        * reflexivity.
      + apply split1_None in E. exists [], ((t, ps) :: sc). split; [|split].
        * intros b [<-|H]; auto.
        * intros ? [].
        * reflexivity. }
  destruct (H tokens) as (ps & sc & P & Q & ->).
  destruct ps as [|(k, v) ps].
  - left. exists sc. auto.
  - right. exists k, v, (map (fun kv => fst kv ++ EQ :: snd kv) ps ++ written sc). split; auto.
    unfold parse_command_line. cbn [map app fst snd parse_args].
    rewrite split1_app; auto. apply (Q (k, v)); left; auto.
Qed.

(** block names *)
Lemma removelast_last {A} (l : list A) d : l <> [] -> l = removelast l ++ [last l d].
Proof. intros; apply app_removelast_last; auto. Qed.
Lemma join_snoc (sep : str) (l : list str) (x : str) : l <> [] -> join sep (l ++ [x]) = join sep l ++ sep ++ x.
Proof.
  induction l as [|a l IH]; intros N; [congruence|].
  destruct l as [|b l]; auto.
  change (join sep ((a :: b :: l) ++ [x])) with (a ++ sep ++ join sep ((b :: l) ++ [x])).
  rewrite IH by discriminate. cbn [join]. now rewrite <- !app_assoc.
Qed.
Lemma join_split ch (x : str) : join [ch] (split ch x) = x.
Proof.
  induction x as [|a x IH]; auto. simpl. destruct (N.eqb_spec a ch) as [->|N].
  - simpl. destruct (split ch x) eqn:E; [now apply split_nonempty in E|]. rewrite IH. auto.
  - destruct (split ch x) as [|h t] eqn:E; [now apply split_nonempty in E|].
    destruct t as [|h2 t]; simpl in *; congruence.
Qed.
Theorem block_name x : let (path, cls) := parse_block_name x in
  ~ In DOTC cls /\ ((~ In DOTC x /\ path = [] /\ cls = x) \/ x = path ++ DOTC :: cls).
Proof.
  unfold parse_block_name.
  destruct (split DOTC x) as [|a l] eqn:E; [now apply split_nonempty in E|].
  destruct l as [|b l].
  - assert (J := join_split DOTC x). rewrite E in J. simpl in J. subst a.
    assert (ND : ~ In DOTC x) by (apply (split_no_sep DOTC x x); rewrite E; left; auto). auto.
  - assert (NE : a :: b :: l <> []) by discriminate.
    pose proof (removelast_last (a :: b :: l) [] NE) as R.
    assert (J := join_split DOTC x). rewrite E, R, join_snoc in J by (simpl; discriminate).
    split.
    + apply (split_no_sep DOTC x). rewrite E. set (y := last _ _) in *. rewrite R. apply in_or_app; right; left; auto.
    + right. rewrite <- J at 1. reflexivity.
Qed.

(** ---- execution ---- *)
Section Run.
  Context {W : Type} (B : behaviour W).
  Lemma each_Ok ev (f : nat -> W -> W * res unit) bs : forall w log w' log',
    each ev f bs (w, log) = ((w', log'), Ok tt) <-> calls f bs w w' /\ log' = log ++ map ev bs.
  Proof.
    induction bs as [|b bs IH]; intros w log w' log'; simpl.
    - rewrite app_nil_r. split.
      + intros H. injection H as -> ->. split; auto; constructor.
      + intros (H & ->). inversion H; auto.
    - destruct (f b w) as (w1, r) eqn:E. split.
      + destruct r as [[]| |]; simpl; try discriminate. intros H. apply IH in H as (H & ->).
        split; [econstructor; eauto|]. now rewrite <- app_assoc.
      + intros (H & ->). inversion H as [|b0 bs0 w0 w10 w20 F C]; subst. rewrite E in F. injection F as -> ->. simpl.
        apply IH. split; auto. now rewrite <- app_assoc.
  Qed.
  Lemma all_finished_true rs w : all_finished B rs w = Ok true <-> forall r, In r rs -> bh_finished B r w = Some true.
  Proof.
    induction rs as [|r rs IH]; simpl; [intuition|].
    destruct (bh_finished B r w) as [[]|] eqn:E; rewrite ?IH; split; try discriminate; intros H.
    - intros r' [<-|H']; auto.
    - intros; auto.
    - specialize (H r (or_introl eq_refl)). congruence.
    - specialize (H r (or_introl eq_refl)). congruence.
  Qed.
  Lemma all_finished_false rs w : all_finished B rs w = Ok false <->
    exists l r l', rs = l ++ r :: l' /\ bh_finished B r w = Some false /\ forall x, In x l -> bh_finished B x w = Some true.
  Proof.
    induction rs as [|r rs IH]; simpl.
    - split; [discriminate|]. intros (l & r & l' & H & _). destruct l; discriminate.
    - split.
      + destruct (bh_finished B r w) as [[]|] eqn:E; try discriminate.
        * intros H. apply IH in H as (l & x & l' & -> & A & C). exists (r :: l), x, l'. split; auto. split; auto.
          intros y [<-|Hy]; auto.
        * intros _. exists [], r, rs. split; auto. split; auto. intros ? [].
      + intros (l & x & l' & H & A & C). destruct l as [|y l]; simpl in H; injection H as -> ->.
        * now rewrite A.
        * rewrite (C y) by (left; auto). apply IH. exists l, x, l'. split; auto. split; auto.
          intros; apply C; right; auto.
  Qed.
  Lemma rounds_Ok bs rs : forall fl w log w' log',
    rounds fl B bs rs (w, log) = ((w', log'), Ok tt) <->
    exists k, (k <= fl)%nat /\ k_rounds B bs rs k w w' /\ log' = log ++ concat (repeat (round_log bs) k).
  Proof.
    induction fl as [|fl IH]; intros w log w' log'; simpl.
    - split; [discriminate|]. intros (k & Hk & H & _). assert (k = 0)%nat by lia. subst. inversion H.
    - destruct (each EApply (bh_apply B) bs (bh_new B w, log ++ [EDocument])) as ((w1, log1), r) eqn:E. split.
      + destruct r as [[]| |]; simpl; try discriminate.
        apply each_Ok in E as (C & ->).
        destruct (all_finished B rs w1) as [[]| |] eqn:F; try discriminate.
        * intros H. injection H as <- <-. exists 1%nat. split; [lia|]. split.
          -- apply rounds_last; auto. now apply all_finished_true.
          -- simpl. unfold round_log. rewrite app_nil_r, <- app_assoc. reflexivity.
        * intros H. apply IH in H as (k & Hk & H & ->). exists (S k). split; [lia|]. split.
          -- eapply rounds_more; eauto. now apply all_finished_false.
          -- simpl. unfold round_log. rewrite <- !app_assoc. reflexivity.
      + intros (k & Hk & H & ->). inversion H; subst.
        * unfold one_round in H0.
          assert (E' : each EApply (bh_apply B) bs (bh_new B w, log ++ [EDocument])
                       = ((w', (log ++ [EDocument]) ++ map EApply bs), Ok tt)) by (apply each_Ok; auto).
          rewrite E' in E. injection E as <- <- <-. simpl.
          apply all_finished_true in H1. rewrite H1. simpl. unfold round_log. now rewrite app_nil_r, <- app_assoc.
        * unfold one_round in H0.
          assert (E' : each EApply (bh_apply B) bs (bh_new B w, log ++ [EDocument])
                       = ((w2, (log ++ [EDocument]) ++ map EApply bs), Ok tt)) by (apply each_Ok; auto).
          rewrite E' in E. injection E as <- <- <-. simpl.
          apply all_finished_false in H1. rewrite H1. apply IH. exists k0. split; [lia|]. split; auto.
          simpl. unfold round_log. now rewrite <- !app_assoc.
  Qed.
  Lemma filter_existsb {A} (f : A -> bool) l : existsb f l = match filter f l with [] => false | _ => true end.
  Proof. induction l; simpl; auto. destruct (f a); simpl; auto. Qed.
  Theorem run_ok fl conllu blocks w w' log :
    run_blocks fl B conllu blocks w = ((w', log), Ok tt) <->
    exists k w1 w2, (k <= fl)%nat /\
      calls (bh_start B) blocks w w1 /\
      k_rounds B (with_reader B conllu blocks w1) (readers_of B conllu blocks w1) k w1 w2 /\
      calls (bh_end B) (with_reader B conllu blocks w1) w2 w' /\
      log = full_log blocks (with_reader B conllu blocks w1) k.
  Proof.
    unfold run_blocks. destruct (each EStart (bh_start B) blocks (w, [])) as ((w1, log1), r) eqn:E.
    assert (D : forall w1, (let rs := filter (fun b => match bh_finished B b w1 with Some _ => true | None => false end) blocks in
              match rs with [] => (conllu :: blocks, [conllu]) | _ => (blocks, rs) end)
             = (with_reader B conllu blocks w1, readers_of B conllu blocks w1)).
    { intros. unfold with_reader, readers_of. rewrite filter_existsb. unfold is_reader. simpl.
      destruct (filter _ blocks); auto. }
    split.
    - destruct r as [[]| |]; simpl; try discriminate. apply each_Ok in E as (C & ->).
      specialize (D w1). simpl in D. rewrite D. cbn [app].
      destruct (rounds fl B (with_reader B conllu blocks w1) (readers_of B conllu blocks w1) (w1, map EStart blocks)) as ((w2, log2), r2) eqn:R.
      destruct r2 as [[]| |]; simpl; try discriminate.
      apply rounds_Ok in R as (k & Hk & K & ->). intros H. apply each_Ok in H as (C2 & ->).
      exists k, w1, w2. split; auto. split; auto. split; auto. split; auto.
      unfold full_log. now rewrite <- app_assoc.
    - intros (k & w1' & w2 & Hk & C & K & C2 & ->).
      assert (E' : each EStart (bh_start B) blocks (w, []) = ((w1', [] ++ map EStart blocks), Ok tt)) by (apply each_Ok; auto).
      rewrite E' in E. injection E as <- <- <-. simpl. specialize (D w1'). simpl in D. rewrite D.
      assert (R : rounds fl B (with_reader B conllu blocks w1') (readers_of B conllu blocks w1') (w1', map EStart blocks)
                  = ((w2, map EStart blocks ++ concat (repeat (round_log (with_reader B conllu blocks w1')) k)), Ok tt)).
      { apply rounds_Ok. exists k. auto. }
      rewrite R. simpl. apply each_Ok. split; auto. unfold full_log. now rewrite <- app_assoc.
  Qed.
  (** whatever happens, the calls made are a beginning of those of some complete run *)
  Lemma each_log ev (f : nat -> W -> W * res unit) bs : forall w log, exists bs1 bs2,
    bs = bs1 ++ bs2 /\ snd (fst (each ev f bs (w, log))) = log ++ map ev bs1 /\
    (snd (each ev f bs (w, log)) = Ok tt -> bs2 = []).
  Proof.
    induction bs as [|b bs IH]; intros w log; simpl.
    - exists [], []. simpl. rewrite app_nil_r. auto.
    - destruct (f b w) as (w1, r). destruct r as [[]| |]; simpl.
      + destruct (IH w1 (log ++ [ev b])) as (b1 & b2 & -> & H & H'). exists (b :: b1), b2. rewrite H, <- app_assoc. auto.
      + exists [b], bs. repeat split; auto. discriminate.
      + exists [b], bs. repeat split; auto. discriminate.
  Qed.
  Lemma rounds_log bs rs : forall fl w log, exists k rest,
    snd (fst (rounds fl B bs rs (w, log))) ++ rest = log ++ concat (repeat (round_log bs) k) /\
    (snd (rounds fl B bs rs (w, log)) = Ok tt -> rest = []).
  Proof.
    induction fl as [|fl IH]; intros w log; simpl.
    - exists 0%nat, []. simpl. split; auto.
    - destruct (each_log EApply (bh_apply B) bs (bh_new B w) (log ++ [EDocument])) as (b1 & b2 & Eb & L & F).
      destruct (each EApply (bh_apply B) bs (bh_new B w, log ++ [EDocument])) as ((w1, log1), r) eqn:E.
      simpl in L, F. subst log1.
      assert (One : (log ++ [EDocument]) ++ map EApply b1 ++ map EApply b2 = log ++ round_log bs ++ []).
      { rewrite <- map_app, <- Eb, app_nil_r, <- app_assoc. reflexivity. }
      destruct r as [[]| |]; simpl.
      + rewrite (F eq_refl) in One. simpl in One. rewrite app_nil_r in One.
        destruct (all_finished B rs w1) as [[]| |]; simpl.
        * exists 1%nat, []. simpl. rewrite app_nil_r. auto.
        * destruct (IH w1 ((log ++ [EDocument]) ++ map EApply b1)) as (k & rest & H & H').
          exists (S k), rest. split; auto. rewrite H, One. simpl. now rewrite app_nil_r, <- !app_assoc.
        * exists 1%nat, []. simpl. rewrite app_nil_r. auto.
        * exists 1%nat, []. simpl. rewrite app_nil_r. auto.
      + exists 1%nat, (map EApply b2). simpl. rewrite <- !app_assoc in *. split; auto. discriminate.
      + exists 1%nat, (map EApply b2). simpl. rewrite <- !app_assoc in *. split; auto. discriminate.
  Qed.
  Theorem run_prefix fl conllu blocks w : exists bs k rest,
    (bs = blocks \/ bs = conllu :: blocks) /\
    snd (fst (run_blocks fl B conllu blocks w)) ++ rest = full_log blocks bs k.
  Proof.
    unfold run_blocks.
    destruct (each_log EStart (bh_start B) blocks w []) as (b1 & b2 & Eb & L & F).
    destruct (each EStart (bh_start B) blocks (w, [])) as ((w1, log1), r) eqn:E. simpl in L, F. subst log1.
    assert (Stop : exists bs k rest, (bs = blocks \/ bs = conllu :: blocks) /\ map EStart b1 ++ rest = full_log blocks bs k).
    { exists blocks, 0%nat, (map EStart b2 ++ map EEnd blocks). split; auto. unfold full_log. simpl.
      rewrite app_assoc, <- map_app, <- Eb. auto. }
    destruct r as [[]| |]; simpl; auto.
    rewrite (F eq_refl), app_nil_r in Eb. subst b1.
    set (rs := filter _ blocks).
    destruct (match rs with [] => (conllu :: blocks, [conllu]) | _ => (blocks, rs) end) as (bs, rs') eqn:D.
    assert (Hbs : bs = blocks \/ bs = conllu :: blocks) by (destruct rs; injection D as <- _; auto).
    destruct (rounds_log bs rs' fl w1 (map EStart blocks)) as (k & rest & H & H').
    destruct (rounds fl B bs rs' (w1, map EStart blocks)) as ((w2, log2), r2). simpl in H, H'.
    destruct r2 as [[]| |]; simpl.
    - rewrite (H' eq_refl), app_nil_r in H. subst log2.
      destruct (each_log EEnd (bh_end B) bs w2 (map EStart blocks ++ concat (repeat (round_log bs) k))) as (e1 & e2 & Ee & Le & _).
      rewrite Le. exists bs, k, (map EEnd e2). split; auto. unfold full_log. rewrite <- !app_assoc, <- map_app, <- Ee. auto.
    - exists bs, k, (rest ++ map EEnd bs). split; auto. unfold full_log. rewrite app_assoc, H, <- app_assoc. auto.
    - exists bs, k, (rest ++ map EEnd bs). split; auto. unfold full_log. rewrite app_assoc, H, <- app_assoc. auto.
  Qed.
End Run.

(** ---- file lists ---- *)
Lemma py_nth_of {A} (l : list A) k : py_nth l (Z.of_nat k) = nth_error l k.
Proof. rewrite py_nth_nonneg by lia. now rewrite Nat2Z.id. Qed.
Lemma cur_at names h seen : cur_filename (mkFiles names (Z.of_nat seen) h)
  = Ok (match seen with O => None | S k => nth_error names k end).
Proof.
  unfold cur_filename, number_of_files. simpl fs_number. simpl fs_names.
  destruct seen as [|k]; [reflexivity|].
  replace (Z.of_nat (S k) =? 0) with false by (symmetry; apply Z.eqb_neq; lia). cbn [orb].
  destruct (Z.ltb_spec (Z.of_nat (length names)) (Z.of_nat (S k))).
  - f_equal. symmetry. apply nth_error_None. lia.
  - replace (Z.of_nat (S k) - 1) with (Z.of_nat k) by lia. rewrite py_nth_of.
    destruct (nth_error names k) eqn:E; auto. apply nth_error_None in E. lia.
Qed.
Theorem files_ok can_open names ops : ~ In FILEHANDLE_INPUT names ->
  file_calls can_open (files_of_list names) ops = file_answers can_open names 0 ops.
Proof.
  intros N. unfold files_of_list.
  enough (G : forall ops seen h, file_calls can_open (mkFiles names (Z.of_nat seen) h) ops = file_answers can_open names seen ops)
    by (apply (G ops 0%nat None)).
  clear ops. induction ops as [|o ops IH]; intros seen h; auto.
  assert (S1 : Z.of_nat seen + 1 = Z.of_nat (S seen)) by lia.
  destruct o; cbn [file_calls file_answers].
  - unfold next_filename. cbn [fs_names fs_number fs_handle]. rewrite S1, cur_at. now rewrite IH.
  - unfold next_filehandle, next_filename. cbn [fs_names fs_number fs_handle]. rewrite S1, cur_at.
    cbn [bind]. destruct (nth_error names seen) as [n|] eqn:E; cbn [fs_names fs_number fs_handle expected_handle].
    + destruct (str_eqb n (s "-")); [now rewrite IH|].
      destruct (str_eqb_spec n FILEHANDLE_INPUT) as [->|_]; [now apply nth_error_In in E|].
      destruct (can_open n); now rewrite IH.
    + now rewrite IH.
  - unfold has_next_file, number_of_files. cbn [fs_names fs_number]. rewrite IH. f_equal. f_equal.
    apply eq_true_iff_eq. rewrite Z.ltb_lt, Nat.ltb_lt. lia.
  - rewrite cur_at. now rewrite IH.
Qed.
Lemma names_in_turn can_open names : ~ In FILEHANDLE_INPUT names -> forall n,
  file_calls can_open (files_of_list names) (repeat NextName (length names + n))
  = map (fun x => AnsName (Ok (Some x))) names ++ repeat (AnsName (Ok None)) n.
Proof.
  intros N n. rewrite files_ok by auto.
  assert (G : forall l done, names = done ++ l ->
     file_answers can_open names (length done) (repeat NextName (length l + n))
     = map (fun x => AnsName (Ok (Some x))) l ++ repeat (AnsName (Ok None)) n).
  { induction l as [|x l IH]; intros done E.
    - rewrite app_nil_r in E. simpl. clear N. revert done E.
      assert (G : forall n seen, (length names <= seen)%nat -> file_answers can_open names seen (repeat NextName n) = repeat (AnsName (Ok None)) n).
      { induction n0; intros; simpl; auto. rewrite IHn0 by lia. f_equal. f_equal. f_equal. apply nth_error_None. lia. }
      intros. apply G. subst; lia.
    - cbn [length plus repeat file_answers map app]. f_equal.
      + f_equal. f_equal. rewrite E, nth_error_app2, Nat.sub_diag; auto.
      + replace (S (length done)) with (length (done ++ [x])) by (rewrite app_length; simpl; lia).
        apply IH. rewrite <- app_assoc. auto. }
  apply (G names []). auto.
Qed.
Theorem opener_ok name :
  (opener_of name = OpenGz <-> name = s "gz" \/ exists x, name = x ++ s ".gz") /\
  (opener_of name = OpenXz <-> name = s "xz" \/ exists x, name = x ++ s ".xz") /\
  (opener_of name = OpenBz2 <-> name = s "bz2" \/ exists x, name = x ++ s ".bz2").
Proof.
  assert (G : forall ext, ~ In DOTC ext -> (last (split DOTC name) [] = ext <-> name = ext \/ exists x, name = x ++ DOTC :: ext)).
  { intros ext NE. split.
    - intros H. destruct (split DOTC name) as [|a l] eqn:E; [now apply split_nonempty in E|].
      assert (J := join_split DOTC name). rewrite E in J.
      destruct l as [|b l].
      + simpl in *. left; congruence.
      + right. exists (join [DOTC] (removelast (a :: b :: l))).
        rewrite <- J at 1. rewrite (removelast_last (a :: b :: l) []) at 1 by discriminate.
        rewrite join_snoc by (simpl; discriminate). now rewrite H.
    - intros [->|(x & ->)].
      + now rewrite split_nochar.
      + clear -NE. induction x as [|a x IH].
        * simpl. rewrite split_nochar; auto.
        * simpl. destruct (split DOTC (x ++ DOTC :: ext)) as [|h t] eqn:E; [now apply split_nonempty in E|].
          destruct (N.eqb a DOTC).
          -- simpl. exact IH.
          -- destruct t as [|h2 t]; [|exact IH]. exfalso.
             assert (J := join_split DOTC (x ++ DOTC :: ext)). rewrite E in J. simpl in J.
             apply (split_no_sep DOTC (x ++ DOTC :: ext) h); [rewrite E; left; auto|].
             rewrite J. apply in_or_app; right; left; auto. }
  unfold opener_of.
  assert (D : ~ In DOTC (s "gz") /\ ~ In DOTC (s "xz") /\ ~ In DOTC (s "bz2")).
  { repeat split; simpl; intuition discriminate. }
  destruct D as (D1 & D2 & D3). apply G in D1, D2, D3.
  change (s ".gz") with (DOTC :: s "gz"). change (s ".xz") with (DOTC :: s "xz"). change (s ".bz2") with (DOTC :: s "bz2").
  rewrite <- D1, <- D2, <- D3. set (ext := last (split DOTC name) []).
  destruct (str_eqb_spec ext (s "gz")) as [->|N1]; [repeat split; intros; auto; discriminate|].
  destruct (str_eqb_spec ext (s "xz")) as [->|N2]; [repeat split; intros; auto; try discriminate|].
  destruct (str_eqb_spec ext (s "bz2")) as [->|N3]; repeat split; intros; auto; try discriminate; congruence.
Qed.
Lemma words_from_spec x : forall cur, forallb (fun a => negb (is_space a)) x = true ->
  forall rest, words_from cur (x ++ rest) = words_from (rev x ++ cur) rest.
Proof.
  induction x as [|a x IH]; intros cur H rest; auto. simpl in *. apply andb_true_iff in H as (H1 & H2).
  apply negb_true_iff in H1. rewrite H1, IH by auto. now rewrite <- app_assoc.
Qed.
Definition sepchar (a : char) : Prop := a = COMMA \/ is_space a = true.
Lemma map_r_Ok {A B} (f : A -> res B) g l : (forall x, In x l -> f x = Ok (g x)) -> map_r f l = Ok (map g l).
Proof. induction l; simpl; intros H; auto. rewrite H by auto. simpl. rewrite IHl by auto. auto. Qed.
Theorem filenames_ok glob lines sep names : sepchar sep -> names <> [] -> (forall x, In x names -> plain_name x) ->
  string_to_filenames glob lines (join [sep] names) = Ok names.
Proof.
  intros Hs NE P.
  set (nosep := fun a => if N.eqb a COMMA then SP else a).
  assert (Hsep : is_space (nosep sep) = true).
  { unfold nosep. destruct Hs as [->|Hs]; [reflexivity|]. destruct (N.eqb sep COMMA); auto. }
  assert (Id : forall x, plain_name x -> map nosep x = x /\ forallb (fun a => negb (is_space a)) x = true).
  { intros x (_ & Hx & _). clear -Hx. induction x as [|a x IH]; auto. destruct IH as (I1 & I2).
    - intros; apply Hx; right; auto.
    - destruct (Hx a) as (A1 & A2); [left; auto|]. simpl. rewrite I1, I2, A1. split; auto.
      unfold nosep. destruct (N.eqb_spec a COMMA); congruence. }
  assert (Wd : forall l, (forall x, In x l -> plain_name x) -> l <> [] -> py_words (map nosep (join [sep] l)) = l).
  { unfold py_words. induction l as [|x l IH]; intros Hl Nl; [congruence|].
    destruct (Id x) as (I1 & I2); [apply Hl; left; auto|].
    assert (Nx : x <> []) by (apply Hl; left; auto).
    assert (Nr : exists c y, rev x = c :: y).
    { destruct (rev x) as [|c y] eqn:E; [|eauto]. apply (f_equal (@rev _)) in E. rewrite rev_involutive in E. now subst. }
    destruct Nr as (c & y & Er).
    destruct l as [|x2 l].
    - simpl. rewrite I1. rewrite <- (app_nil_r x) at 1. rewrite words_from_spec by auto. simpl.
      rewrite app_nil_r, Er. rewrite <- Er, rev_involutive. auto.
    - change (join [sep] (x :: x2 :: l)) with (x ++ sep :: join [sep] (x2 :: l)).
      rewrite map_app. rewrite (I1 : @map char char nosep x = x). rewrite words_from_spec by auto. cbn [map]. cbn [words_from]. rewrite Hsep, app_nil_r, Er, <- Er, rev_involutive.
      f_equal. apply IH; [|discriminate]. intros; apply Hl; right; auto. }
  unfold string_to_filenames.
  destruct (join [sep] names) as [|c0 x0] eqn:E.
  { exfalso. destruct names as [|x l]; [congruence|]. assert (Nx : x <> []) by (apply P; left; auto).
    destruct x; [congruence|]. destruct l; discriminate. }
  rewrite <- E, Wd by auto.
  rewrite (map_r_Ok _ (fun x => [x])).
  - simpl. f_equal. clear. induction names; simpl; congruence.
  - intros x Hx. destruct (P x Hx) as (N & _ & F). destruct x as [|c y]; [congruence|].
    destruct (F c y eq_refl) as (F1 & F2). unfold token_to_filenames.
    apply N.eqb_neq in F1, F2. now rewrite F1, F2.
Qed.

(** ---- util.Split ---- *)

Lemma py_parts {A} (l : list A) n : 0 <= n -> py_to l n = firstn (Z.to_nat n) l /\ py_from l n = skipn (Z.to_nat n) l.
Proof.
  intros H. unfold py_to, py_from, py_bound. apply Z.leb_le in H. rewrite H. apply Z.leb_le in H.
  destruct (Z.le_gt_cases n (Z.of_nat (length l))) as [L|L].
  - rewrite Z.min_l by lia. auto.
  - rewrite Z.min_r by lia. rewrite Nat2Z.id, firstn_all, skipn_all. split; symmetry.
    + apply firstn_all2. lia.
    + apply skipn_all2. lia.
Qed.
(** one round in bundles_per_doc mode *)
Lemma split_round n st l : 0 <= n -> sp_per_doc st = Some n ->
  split_document st l = (mkSplit (skipn (Z.to_nat n) (sp_buffer st ++ l)) (Some n) (sp_parts st)
                                 (match skipn (Z.to_nat n) (sp_buffer st ++ l) with [] => true | _ => false end),
                         Ok (firstn (Z.to_nat n) (sp_buffer st ++ l))).
Proof.
  intros N E. unfold split_document. destruct st as [b pd p fin]; cbn [sp_buffer sp_per_doc sp_parts] in *. subst pd.
  destruct b as [|x b].
  - rewrite app_nil_r. cbn [app]. destruct (py_parts l n N) as (-> & ->). reflexivity.
  - destruct (py_parts ((x :: b) ++ l) n N) as (-> & ->). reflexivity.
Qed.
(** conservation for any inputs *)
Lemma split_conserve n inputs nin : 0 <= n -> forall fl k st outs, sp_per_doc st = Some n ->
  split_rounds fl inputs nin k st = Ok outs ->
  concat outs = sp_buffer st ++ flat_map inputs (seq k (length outs)) /\
  (nin <= k + length outs)%nat /\ outs <> [] /\ Forall (fun o => Z.of_nat (length o) <= n) outs.
Proof.
  intros N. induction fl as [|fl IH]; intros k st outs E H; [discriminate|]. cbn [split_rounds] in H.
  rewrite (split_round n) in H by auto.
  set (all := sp_buffer st ++ inputs k) in *. cbn [sp_finished] in H.
  assert (FS := firstn_skipn (Z.to_nat n) all).
  assert (Sz : Z.of_nat (length (firstn (Z.to_nat n) all)) <= n) by (rewrite firstn_length; lia).
  destruct (_ && _) eqn:F in H.
  - injection H as <-. apply andb_true_iff in F as (F1 & F2). apply Nat.leb_le in F2.
    destruct (skipn (Z.to_nat n) all) eqn:Sk; [|discriminate]. rewrite app_nil_r in FS.
    simpl. rewrite !app_nil_r. rewrite FS in *. repeat split; auto; try lia. discriminate.
  - destruct (split_rounds _ _ _ _ _) as [l| |] eqn:R in H; simpl in H; try discriminate. injection H as <-.
    apply IH in R; auto. cbn [sp_buffer] in R. destruct R as (R1 & R2 & _ & R4).
    cbn [length seq flat_map concat]. rewrite R1. repeat split.
    + rewrite app_assoc, FS. unfold all. now rewrite <- app_assoc.
    + lia.
    + discriminate.
    + constructor; auto.
Qed.
Theorem split_any n inputs nin fl outs : 0 <= n ->
  split_rounds fl inputs nin 0 (split_per_doc n) = Ok outs ->
  concat outs = flat_map inputs (seq 0 (length outs)) /\ (nin <= length outs)%nat /\
  Forall (fun o => Z.of_nat (length o) <= n) outs.
Proof. intros N H. apply (split_conserve n) in H; auto. simpl in H. tauto. Qed.
(** it stops once the inputs have been read *)
Lemma split_stops n inputs nin : 1 <= n -> (forall k, (nin <= k)%nat -> inputs k = []) ->
  forall fl k st, sp_per_doc st = Some n ->
  (length (sp_buffer st) + length (flat_map inputs (seq k (nin - k))) + (nin - k) < fl)%nat ->
  exists outs, split_rounds fl inputs nin k st = Ok outs.
Proof.
  intros N Z0. induction fl as [|fl IH]; intros k st E H; [lia|]. cbn [split_rounds].
  rewrite (split_round n) by (auto; lia). set (all := sp_buffer st ++ inputs k) in *. cbn [sp_finished].
  destruct (_ && _) eqn:F; [eauto|].
  edestruct (IH (S k)) as (outs & R).
  3:{ rewrite R. simpl. eauto. }
  - reflexivity.
  - cbn [sp_buffer]. rewrite skipn_length. unfold all. rewrite app_length.
    assert (Lall : (length all = length (sp_buffer st) + length (inputs k))%nat) by (unfold all; apply app_length).
    destruct (Nat.le_gt_cases nin k) as [L|L].
    + rewrite (Z0 k) in * by auto. replace (nin - k)%nat with 0%nat in * by lia. replace (nin - S k)%nat with 0%nat by lia.
      unfold all in *. rewrite ?(Z0 k L), ?app_nil_r in *. simpl in H |- *.
      destruct (skipn (Z.to_nat n) (sp_buffer st)) as [|y ys] eqn:Sk.
      * simpl in F. apply Nat.leb_gt in F. lia.
      * apply (f_equal (@length _)) in Sk. rewrite skipn_length in Sk. simpl in Sk. lia.
    + destruct (nin - k)%nat as [|m] eqn:Em; [lia|]. replace (nin - S k)%nat with m by lia.
      cbn [seq flat_map] in H. rewrite app_length in H. lia.
Qed.
Theorem split_any_stops n inputs nin : 1 <= n -> (forall k, (nin <= k)%nat -> inputs k = []) ->
  exists fl outs, split_rounds fl inputs nin 0 (split_per_doc n) = Ok outs.
Proof.
  intros N Z0. eexists. eapply (split_stops n inputs nin N Z0); [reflexivity|]. apply Nat.lt_succ_diag_r.
Qed.
(** one document *)
Lemma parts_of_size_cons n p ps : ps <> [] -> parts_of_size n (p :: ps) <-> Z.of_nat (length p) = n /\ parts_of_size n ps.
Proof. destruct ps; simpl; [congruence|]. tauto. Qed.
Lemma split_tail n L : 1 <= n -> forall fl k st, (1 <= k)%nat -> sp_per_doc st = Some n -> sp_buffer st <> [] ->
  (length (sp_buffer st) <= fl)%nat ->
  exists outs, split_rounds fl (only L) 1 k st = Ok outs /\ concat outs = sp_buffer st /\
     parts_of_size n outs /\ Forall (fun o => o <> []) outs.
Proof.
  intros N. induction fl as [|fl IH]; intros k st K E NB H.
  { destruct (sp_buffer st); [congruence | simpl in H; lia]. }
  cbn [split_rounds]. rewrite (split_round n) by (auto; lia). cbn [sp_finished].
  assert (O : only L k = []) by (destruct k; [lia|reflexivity]). rewrite O, app_nil_r.
  set (b := sp_buffer st) in *.
  assert (FS := firstn_skipn (Z.to_nat n) b).
  assert (NE : firstn (Z.to_nat n) b <> []).
  { destruct b; [congruence|]. destruct (Z.to_nat n) eqn:Q; [lia|]. discriminate. }
  replace (Nat.leb 1 (S k)) with true by (symmetry; apply Nat.leb_le; lia). rewrite andb_true_r.
  destruct (skipn (Z.to_nat n) b) as [|y ys] eqn:Sk.
  - exists [firstn (Z.to_nat n) b]. rewrite app_nil_r in FS. simpl. rewrite app_nil_r. repeat split; auto.
    rewrite firstn_length. lia.
  - assert (Ls : (length (y :: ys) = length b - Z.to_nat n)%nat) by (rewrite <- Sk; apply skipn_length).
    edestruct (IH (S k)) as (outs & R & C & P & F).
    5:{ rewrite R. simpl rbind. eexists. split; [reflexivity|]. cbn [concat sp_buffer] in *. rewrite C. split; [exact FS|].
        split; [|constructor; auto]. apply parts_of_size_cons.
        - intros ->. discriminate.
        - split; auto. rewrite firstn_length. simpl in Ls. lia. }
    + lia.
    + reflexivity.
    + discriminate.
    + cbn [sp_buffer]. simpl in *. lia.
Qed.
Lemma split_first n L st fl : 1 <= n -> sp_per_doc st = Some n -> sp_buffer st = [] -> (length L < fl)%nat ->
  exists outs, split_rounds fl (only L) 1 0 st = Ok outs /\ concat outs = L /\
     parts_of_size n outs /\ (L <> [] -> Forall (fun o => o <> []) outs) /\ (L = [] -> outs = [[]]).
Proof.
  intros N E B H. destruct fl as [|fl]; [lia|]. cbn [split_rounds]. rewrite (split_round n) by (auto; lia).
  rewrite B. cbn [app only sp_finished].
  assert (FS := firstn_skipn (Z.to_nat n) L).
  change (Nat.leb 1 1) with true. rewrite andb_true_r.
  destruct (skipn (Z.to_nat n) L) as [|y ys] eqn:Sk.
  - exists [firstn (Z.to_nat n) L]. rewrite app_nil_r in FS. simpl. rewrite app_nil_r. repeat split; auto.
    + rewrite firstn_length. lia.
    + intros HL. constructor; auto. rewrite FS; auto.
    + intros ->. now rewrite firstn_nil.
  - assert (Ls : (length (y :: ys) = length L - Z.to_nat n)%nat) by (rewrite <- Sk; apply skipn_length).
    assert (NL : L <> []) by (intros ->; rewrite skipn_nil in Sk; discriminate).
    edestruct (split_tail n L N fl 1%nat) as (outs & R & C & P & F).
    5:{ rewrite R. simpl rbind. eexists. split; [reflexivity|]. cbn [concat sp_buffer] in *. rewrite C. split; [exact FS|].
        split; [|split].
        - apply parts_of_size_cons; [intros ->; discriminate|]. split; auto. rewrite firstn_length. simpl in Ls. lia.
        - intros _. constructor; auto. destruct L; [congruence|]. destruct (Z.to_nat n) eqn:Q; [lia|]. discriminate.
        - congruence. }
    + lia.
    + reflexivity.
    + discriminate.
    + cbn [sp_buffer]. simpl in *. lia.
Qed.
Theorem split_per_doc_ok n L fl : 1 <= n -> (length L < fl)%nat ->
  exists outs, split_rounds fl (only L) 1 0 (split_per_doc n) = Ok outs /\ concat outs = L /\
     parts_of_size n outs /\ (L <> [] -> Forall (fun o => o <> []) outs) /\ (L = [] -> outs = [[]]).
Proof. intros. apply split_first; auto. Qed.

Lemma ceil_div_spec a b : 1 <= b -> 0 <= a -> b * ceil_div a b >= a /\ b * (ceil_div a b - 1) < a.
Proof.
  intros Hb Ha. unfold ceil_div. pose proof (Z.div_mod (- a) b ltac:(lia)) as D.
  pose proof (Z.mod_pos_bound (- a) b ltac:(lia)) as M. nia.
Qed.
Lemma parts_of_size_total n outs : 1 <= n -> outs <> [] -> parts_of_size n outs -> Forall (fun o => o <> []) outs ->
  n * (Z.of_nat (length outs) - 1) < Z.of_nat (length (concat outs)).
Proof.
  intros N. induction outs as [|p [|q outs] IH]; intros NE P F; [congruence| |].
  - inversion F; subst. simpl. destruct p; [congruence|]. simpl. lia.
  - inversion F; subst. destruct P as (P1 & P2). specialize (IH ltac:(discriminate) P2 H2).
    cbn [concat]. rewrite app_length. cbn [length] in *. cbn [concat] in IH. rewrite app_length in *. nia.
Qed.
Theorem split_parts_ok p L fl : 1 <= p -> (length L < fl)%nat ->
  exists outs, split_rounds fl (only L) 1 0 (split_parts p) = Ok outs /\ concat outs = L /\
     (exists n, parts_of_size n outs) /\ (L <> [] -> Forall (fun o => o <> []) outs) /\ (L = [] -> outs = [[]]) /\
     Z.of_nat (length outs) <= p.
Proof.
  intros P H. set (n := ceil_div (Z.of_nat (length L)) p).
  assert (C := ceil_div_spec (Z.of_nat (length L)) p P ltac:(lia)). fold n in C.
  assert (Same : forall l, l = L -> split_document (split_parts p) l = split_document (mkSplit [] (Some n) p false) l).
  { intros l ->. unfold split_document, split_parts. cbn [sp_buffer sp_per_doc sp_parts].
    replace (p =? 0) with false by (symmetry; apply Z.eqb_neq; lia). reflexivity. }
  assert (Same2 : split_rounds fl (only L) 1 0 (split_parts p) = split_rounds fl (only L) 1 0 (mkSplit [] (Some n) p false)).
  { destruct fl; auto. cbn [split_rounds]. now rewrite Same by reflexivity. }
  rewrite Same2. destruct L as [|x L].
  - destruct fl as [|fl]; [lia|]. exists [[]].
    assert (n = 0) by (unfold n; simpl; reflexivity).
    cbn [split_rounds]. rewrite (split_round n) by (auto; lia). rewrite H0. cbn.
    repeat split; auto; try congruence. exists 0; lia.
  - assert (Hn : 1 <= n) by (simpl in C; nia).
    destruct (split_first n (x :: L) (mkSplit [] (Some n) p false) fl) as (outs & R & E & PS & F & _); auto.
    exists outs. rewrite R. repeat split; auto.
    + exists n; auto.
    + congruence.
    + assert (NO : outs <> []) by (intros ->; discriminate).
      assert (T := parts_of_size_total n outs Hn NO PS (F ltac:(discriminate))). rewrite E in T.
      nia.
Qed.
(** parts=k, several documents, the first one empty: it never ends *)
Theorem split_parts_diverges p inputs nin fl x rest : 1 <= p -> inputs 0%nat = [] -> inputs 1%nat = x :: rest ->
  (2 <= nin)%nat -> split_rounds fl inputs nin 0 (split_parts p) = Diverge.
Proof.
  intros P I0 I1 N. destruct fl as [|fl]; auto. cbn [split_rounds].
  assert (D : split_document (split_parts p) (inputs 0%nat) = (mkSplit [] (Some 0) p true, Ok [])).
  { rewrite I0. unfold split_document, split_parts. cbn [sp_buffer sp_per_doc sp_parts].
    replace (p =? 0) with false by (symmetry; apply Z.eqb_neq; lia). reflexivity. }
  rewrite D. cbn [sp_finished].
  replace (Nat.leb nin 1) with false by (symmetry; apply Nat.leb_gt; lia). simpl andb. cbn [andb].
  assert (G : forall fl k st, sp_per_doc st = Some 0 -> sp_buffer st ++ inputs k <> [] ->
     split_rounds fl inputs nin k st = Diverge).
  { induction fl0 as [|f IH]; intros k st E NE; auto. cbn [split_rounds]. rewrite (split_round 0) by (auto; lia).
    simpl Z.to_nat. cbn [skipn firstn sp_finished].
    destruct (sp_buffer st ++ inputs k) as [|y ys] eqn:Q; [congruence|]. cbn [andb].
    rewrite IH; auto. discriminate. }
  rewrite G; auto. rewrite I1. discriminate.
Qed.

(** writing a scenario is injective *)
Lemma written_inj sc1 : forall sc2, proper sc1 -> proper sc2 -> written sc1 = written sc2 -> sc1 = sc2.
Proof.
  assert (G : forall ps1 ps2 sc1 sc2,
    (forall kv, In kv ps1 -> ~ In EQ (fst kv)) -> (forall kv, In kv ps2 -> ~ In EQ (fst kv)) ->
    proper sc1 -> proper sc2 ->
    map (fun kv => fst kv ++ EQ :: snd kv) ps1 ++ written sc1 = map (fun kv => fst kv ++ EQ :: snd kv) ps2 ++ written sc2 ->
    ps1 = ps2 /\ written sc1 = written sc2).
  { assert (X : forall k v sc rest, proper sc -> (k ++ EQ :: v) :: rest <> written sc).
    { intros k v sc rest P E. destruct sc as [|(n, ps) sc]; [discriminate|].
      unfold written in E. simpl in E. injection E as E _. destruct (P (n, ps)) as (P1 & _); [left; auto|].
      apply P1. simpl. rewrite <- E. apply in_or_app; right; left; auto. }
    induction ps1 as [|(k1, v1) ps1 IH]; intros [|(k2, v2) ps2] s1 s2 H1 H2 P1 P2 E; cbn [map app fst snd] in E.
    - auto.
    - symmetry in E. now apply X in E.
    - now apply X in E.
    - injection E as E1 E2.
      assert (Q : split1 EQ (k1 ++ EQ :: v1) = split1 EQ (k2 ++ EQ :: v2)) by congruence.
      rewrite !split1_app in Q by ((apply (H1 (k1, v1)) || apply (H2 (k2, v2))); left; auto).
      injection Q as -> ->.
      destruct (IH ps2 s1 s2) as (-> & ->); auto; intros; [apply H1 | apply H2]; right; auto. }
  induction sc1 as [|(n1, ps1) sc1 IH]; intros [|(n2, ps2) sc2] P1 P2 E; try discriminate; auto.
  unfold written in E. cbn [flat_map fst snd app] in E. injection E as -> E. fold (written sc1) in E. fold (written sc2) in E.
  assert (Q1 : proper sc1) by (intros b Hb; apply P1; right; auto).
  assert (Q2 : proper sc2) by (intros b Hb; apply P2; right; auto).
  destruct (G ps1 ps2 sc1 sc2) as (-> & E2); auto.
  - apply (P1 (n2, ps1)); left; auto.
  - apply (P2 (n2, ps2)); left; auto.
  - f_equal. apply IH; auto.
Qed.

(** ---- file lists given by @ ---- *)
Lemma rstrip_chars_last p (d : str) c : p c = false -> rstrip_chars p (d ++ [c]) = d ++ [c].
Proof.
  intros H. unfold rstrip_chars. rewrite rev_app_distr. simpl. rewrite H. simpl. now rewrite rev_involutive.
Qed.
Lemma split_last (ch : char) (d name : str) : ~ In ch name -> split ch (d ++ ch :: name) = split ch d ++ [name].
Proof.
  intros H. induction d as [|a d IH]; simpl.
  - rewrite N.eqb_refl. now rewrite split_nochar.
  - rewrite IH. destruct (split ch d) eqn:E; [now apply split_nonempty in E|]. destruct (N.eqb a ch); auto.
Qed.
Lemma dirname_ok (d : str) c name : c <> SLASH -> ~ In SLASH name -> dirname ((d ++ [c]) ++ SLASH :: name) = d ++ [c].
Proof.
  intros C H. unfold dirname. rewrite split_last by auto.
  destruct (split SLASH (d ++ [c])) as [|a l] eqn:E; [now apply split_nonempty in E|].
  assert (J := join_split SLASH (d ++ [c])). rewrite E in J.
  rewrite List.removelast_last. change (match (a :: l) ++ [name] with [_] => [] | _ => [SLASH] end)
    with (match l ++ [name] with [] => [] | _ => [SLASH] end).
  destruct (l ++ [name]) eqn:Q; [destruct l; discriminate|]. rewrite J.
  replace (forallb (N.eqb SLASH) ((d ++ [c]) ++ [SLASH])) with false.
  - unfold rstrip_chars. rewrite rev_app_distr. simpl. rewrite rev_app_distr. simpl.
    assert (Nc : N.eqb SLASH c = false) by (apply N.eqb_neq; congruence).
    unfold SLASH in Nc. destruct c as [|q]; simpl; [now rewrite rev_involutive|].
    simpl in Nc. rewrite Nc. simpl. now rewrite rev_involutive.
  - symmetry. rewrite !forallb_app. cbn [forallb]. destruct (N.eqb_spec SLASH c); [congruence|].
    cbn [andb]. now rewrite andb_false_r.
Qed.

Lemma one_word (x : str) : x <> [] -> forallb (fun a => negb (is_space a)) x = true -> py_words x = [x].
Proof.
  intros N H. unfold py_words. rewrite <- (app_nil_r x) at 1. rewrite words_from_spec by auto. cbn [words_from].
  rewrite app_nil_r. destruct (rev x) as [|b y] eqn:E.
  - apply (f_equal (@rev _)) in E. rewrite rev_involutive in E. now subst.
  - rewrite <- E, rev_involutive. auto.
Qed.
Theorem filelist glob lines (d : str) c name l : c <> SLASH -> ~ In SLASH name -> d ++ [c] <> s "." ->
  (forall a, In a ((d ++ [c]) ++ SLASH :: name) -> is_space a = false /\ a <> COMMA) ->
  (d ++ [c]) ++ SLASH :: name <> s "-" ->
  lines ((d ++ [c]) ++ SLASH :: name) = Some l -> (forall f, In f l -> f <> []) ->
  string_to_filenames glob lines (64%N :: (d ++ [c]) ++ SLASH :: name) =
  Ok (map (fun f => match f with 47%N :: _ => (d ++ [c]) ++ SLASH :: f | _ => f end) l).
Proof.
  intros C N D P M L NE. set (path := (d ++ [c]) ++ SLASH :: name) in *.
  unfold string_to_filenames.
  assert (W : py_words (map (fun a => if N.eqb a COMMA then SP else a) (64%N :: path)) = [64%N :: path]).
  { assert (I : map (fun a => if N.eqb a COMMA then SP else a) (64%N :: path) = 64%N :: path).
    { clear -P. assert (forall a, In a (64%N :: path) -> a <> COMMA).
      { intros a [<-|H]; [discriminate|]. now apply P. }
      revert H. generalize (64%N :: path). induction l; simpl; intros; auto.
      rewrite IHl by auto. destruct (N.eqb_spec a COMMA); auto. exfalso; eapply H; eauto. }
    rewrite I. apply one_word; [discriminate|].
    apply forallb_forall. intros a [<-|H]; [reflexivity|]. destruct (P a H) as (H1 & _). now rewrite H1. }
  rewrite W. cbn [map_r]. unfold token_to_filenames.
  change (N.eqb 64 33) with false. change (N.eqb 64 64) with true. cbv iota.
  assert (Q : str_eqb (64%N :: path) (s "@-") = false).
  { apply str_eqb_neq. change (s "@-") with (64%N :: s "-"). congruence. }
  rewrite Q, L. unfold path. rewrite dirname_ok by auto.
  apply str_eqb_neq in D. rewrite D.
  rewrite (map_r_Ok _ (fun f => match f with 47%N :: _ => (d ++ [c]) ++ SLASH :: f | _ => f end)).
  - cbn [rbind concat]. now rewrite app_nil_r.
  - intros f Hf. destruct f as [|a f]; [now apply NE in Hf|]. unfold add_dir, SLASH at 1.
    destruct (N.eqb_spec a 47) as [->|Na]; simpl negb; cbv iota; [reflexivity|].
    f_equal. destruct a as [|q]; auto. repeat (destruct q as [q|q|]; auto). congruence.
Qed.
