(** Editing calls on a tree never change node.root of an existing node. *)
From Coq Require Import List ZArith Bool Lia.
From Verif Require Import PyStr PyList PyExn TreeModel TreeSpec TreeOps.
Import ListNotations.

Notation SS := same_static.
Lemma ss_tr a b c : SS a b -> SS b c -> SS a c.
Proof. apply same_static_trans. Qed.
Ltac ssd := constructor; reflexivity.
Lemma ss_bind {A B} h (m : heap * res A) (k : heap -> A -> heap * res B) :
  SS h (fst m) -> (forall h' a, SS h h' -> SS h (fst (k h' a))) -> SS h (fst (bind m k)).
Proof. destruct m as [h' [a|e|]]; cbn; auto. Qed.
Lemma ss_from {A} h h' (m : heap * res A) : SS h h' -> SS h' (fst m) -> SS h (fst m).
Proof. apply ss_tr. Qed.

Lemma ss_set_parent h x p : SS h (fst (set_parent h x p)).
Proof.
  unfold set_parent. destruct (h_kind h x); try ssd.
  assert (G : forall old q, SS h (fst (if match old with Some q' => Nat.eqb q' q | None => false end then (h, Ok tt)
      else if is_empty h q then (h, Raise ValueError) else if Nat.eqb x q then (h, Raise CycleError) else
        match (if nonempty (h_ch h x) then is_descendant_of h q x else Ok false) with
        | Ok true => (h, Raise CycleError) | Raise e => (h, Raise e) | Diverge => (h, Diverge)
        | Ok false => bind (match old with
            | None => (h, Ok tt)
            | Some q0 => match list_remove x (h_ch h q0) with None => (h, Raise ValueError)
              | Some l => let h := put_ch h q0 l in if Nat.eqb (h_root h q0) (h_root h q) then (h, Ok tt) else (h, Raise ValueError) end end)
          (fun h _ => let h := put_par h x (Some q) in let l := h_ch h q in
            match last_opt l with None => (put_ch h q (l ++ [x]), Ok tt)
            | Some z => if (h_ord h z <? h_ord h x)%Z then (put_ch h q (l ++ [x]), Ok tt) else (put_ch h q (sort_nodes h (l ++ [x])), Ok tt) end) end))).
  { intros old q. destruct (match old with Some q' => Nat.eqb q' q | None => false end); [ssd|].
    destruct (is_empty h q); [ssd|]. destruct (Nat.eqb x q); [ssd|].
    destruct (if nonempty (h_ch h x) then is_descendant_of h q x else Ok false) as [[|]|e|]; try ssd.
    apply ss_bind.
    - destruct old as [q0|]; [|ssd]. destruct (list_remove x (h_ch h q0)) as [l|]; [|ssd]. cbv zeta. destruct (Nat.eqb _ _); ssd.
    - intros h' _ S. cbv zeta. destruct (last_opt _) as [z|]; [destruct (_ <? _)%Z|]; cbn [fst]; apply (ss_tr _ _ _ S); ssd. }
  destruct (h_par h x) as [o|], p as [q|]; try ssd; [apply (G (Some o) q)|apply (G None q)].
Qed.
Lemma ss_reparent l : forall h p, SS h (reparent_all h l p).
Proof. induction l as [|x l IH]; intros; cbn [reparent_all]; [ssd|]. eapply ss_tr; [|apply IH]. ssd. Qed.
Lemma ss_renumber l : forall h st, SS h (renumber h st l).
Proof. intros. apply renumber_fields. Qed.
Lemma ss_emp_leaf l : forall h a b, SS h (renumber_emp_leaf h a b l).
Proof.
  induction l as [|e l IH]; intros; cbn [renumber_emp_leaf]; [ssd|]. cbv zeta. eapply ss_tr; [|apply IH].
  destruct (_ <? _)%Z; ssd.
Qed.
Lemma ss_renumber_emp fm l : forall h a, SS h (fst (renumber_emp h fm a l)).
Proof.
  induction l as [|e l IH]; intros; cbn [renumber_emp]; [ssd|]. destruct (assoc fm e); [|ssd]. cbv zeta. eapply ss_tr; [|apply IH]. ssd.
Qed.
Lemma ss_remove h x m : SS h (fst (node_remove h x m)).
Proof.
  unfold node_remove. destruct (h_par h x) as [p|]; [|ssd]. destruct (list_remove x (h_ch h p)) as [l|]; [|ssd]. cbv zeta.
  set (h1 := match m with Some mode => _ | None => _ end).
  assert (S1 : SS h h1).
  { unfold h1. destruct m as [mode|]; [|ssd]. destruct (nonempty _ && _); [|ssd].
    eapply ss_tr with (put_ch h p l); [ssd|]. eapply ss_tr; [apply (ss_reparent (h_ch (put_ch h p l) x) (put_ch h p l) (Some p))|]. ssd. }
  clearbody h1. destruct (negb (nonempty (h_ch h1 x))).
  - destruct (list_remove x (h_desc h1 (h_root h1 x))) as [d|]; [|exact S1]. cbn [fst].
    eapply ss_tr; [exact S1|]. eapply ss_tr; [|apply ss_emp_leaf]. eapply ss_tr; [|apply ss_renumber]. ssd.
  - destruct (if nonempty _ then _ else _) as [fm|e|]; [|exact S1|exact S1].
    destruct (unordered_descendants h1 (h_root h1 x)) as [d|e|]; [|exact S1|exact S1].
    eapply ss_tr; [exact S1|]. match goal with |- SS h1 (fst (if _ then renumber_emp ?hh _ _ _ else _)) => assert (S2 : SS h1 hh) end.
    { eapply ss_tr; [|apply ss_renumber]. ssd. }
    destruct (nonempty fm); [|exact S2]. eapply ss_tr; [exact S2|apply ss_renumber_emp].
Qed.
Lemma ss_copy h r a b : SS h (fst (copy_node h r a b)).
Proof. unfold copy_node. destruct (py_nth _ _); [|ssd]. destruct (py_set _ _ _); ssd. Qed.
Lemma ss_place h r n a : SS h (fst (place_node h r n a)).
Proof. unfold place_node. destruct (py_set _ _ _); ssd. Qed.
Lemma ss_copy_left k : forall h r a b, SS h (fst (copy_left k h r a b)).
Proof. induction k as [|k IH]; intros; cbn [copy_left]; [ssd|]. apply ss_bind; [apply ss_copy|]. intros h' _ S. eapply ss_tr; [exact S|apply IH]. Qed.
Lemma ss_copy_right k : forall h r a b, SS h (fst (copy_right k h r a b)).
Proof. induction k as [|k IH]; intros; cbn [copy_right]; [ssd|]. apply ss_bind; [apply ss_copy|]. intros h' _ S. eapply ss_tr; [exact S|apply IH]. Qed.
Lemma ss_gap_right k : forall h r mv a b c, SS h (fst (gap_right k h r mv a b c)).
Proof.
  induction k as [|k IH]; intros; cbn [gap_right]; [ssd|]. destruct (py_nth _ _); [|ssd]. destruct (py_nth _ _); [|ssd].
  destruct (Nat.eqb _ _); [apply IH|]. apply ss_bind; [apply ss_copy|]. intros h' _ S. eapply ss_tr; [exact S|apply IH].
Qed.
Lemma ss_gap_left k : forall h r mv a b c, SS h (fst (gap_left k h r mv a b c)).
Proof.
  induction k as [|k IH]; intros; cbn [gap_left]; [ssd|]. cbv zeta.
  assert (G : SS h (fst (bind (copy_node h r a b) (fun h _ => gap_left k h r mv (a + 1) (b + 1) c)))).
  { apply ss_bind; [apply ss_copy|]. intros h' _ S. eapply ss_tr; [exact S|apply IH]. }
  destruct (_ <? _)%Z; [|exact G]. destruct (py_nth _ _); [|ssd]. destruct (py_nth _ _); [|ssd].
  destruct (Nat.eqb _ _); [apply IH|exact G].
Qed.
Lemma ss_place_all l : forall h r a, SS h (fst (place_all h r a l)).
Proof. induction l as [|x l IH]; intros; cbn [place_all]; [ssd|]. apply ss_bind; [apply ss_place|]. intros h' _ S. eapply ss_tr; [exact S|apply IH]. Qed.
Lemma ss_shift_emp l : forall h a b d, SS h (shift_emp h a b d l).
Proof. induction l as [|x l IH]; intros; cbn [shift_emp]; [ssd|]. cbv zeta. eapply ss_tr; [|apply IH]. destruct (_ && _); ssd. Qed.
Lemma ss_sort_siblings h x : SS h (fst (sort_siblings h x)).
Proof. unfold sort_siblings. destruct (h_par h x); ssd. Qed.
Lemma ss_shift h x ref wc : SS h (fst (shift_before_ord h x ref wc)).
Proof.
  unfold shift_before_ord. destruct (wc || _).
  - cbv zeta. destruct (_ <? _)%Z; [|destruct (_ <? _)%Z].
    + apply ss_bind; [apply ss_copy_left|]. intros h1 _ S1. apply ss_bind; [eapply ss_tr; [exact S1|apply ss_place]|]. intros h2 _ S2.
      eapply ss_tr; [exact S2|]. eapply ss_tr; [apply ss_shift_emp|apply ss_sort_siblings].
    + apply ss_bind; [apply ss_copy_right|]. intros h1 _ S1. apply ss_bind; [eapply ss_tr; [exact S1|apply ss_place]|]. intros h2 _ S2.
      eapply ss_tr; [exact S2|]. eapply ss_tr; [apply ss_shift_emp|apply ss_sort_siblings].
    + apply ss_sort_siblings.
  - destruct (descendants_add_self h x) as [mv|e|]; try ssd. destruct (py_nth mv 0); [|ssd]. destruct (py_nth mv (-1)); [|ssd].
    cbv zeta. destruct (_ =? _)%Z.
    + apply ss_bind; [apply ss_copy_right|]. intros h1 _ S1. apply ss_bind; [eapply ss_tr; [exact S1|apply ss_copy_left]|]. intros h2 t S2.
      apply ss_bind; [eapply ss_tr; [exact S2|apply ss_place_all]|]. intros h3 _ S3. eapply ss_tr; [exact S3|apply ss_sort_siblings].
    + apply ss_bind; [apply ss_gap_right|]. intros h1 _ S1. apply ss_bind; [eapply ss_tr; [exact S1|apply ss_gap_left]|]. intros h2 t S2.
      apply ss_bind; [eapply ss_tr; [exact S2|apply ss_place_all]|]. intros h3 _ S3. eapply ss_tr; [exact S3|apply ss_sort_siblings].
Qed.
Lemma ss_if_allowed h a k : SS h (fst k) -> SS h (fst (if_allowed h a k)).
Proof. intros. unfold if_allowed. destruct a as [[|]|e|]; auto; ssd. Qed.
Lemma ss_flatten_loop l : forall h r, SS h (flatten_loop h r l).
Proof. induction l as [|x l IH]; intros; cbn [flatten_loop]; [ssd|]. eapply ss_tr; [|apply IH]. ssd. Qed.

(** Existing nodes keep their root; nodes are only added. *)
Definition roots_kept (h h' : heap) : Prop := h_next h <= h_next h' /\ forall x, x < h_next h -> h_root h' x = h_root h x.
Lemma ss_roots h h' : SS h h' -> roots_kept h h'.
Proof. intros [A _ B _]. split; [lia|]. intros. rewrite B. reflexivity. Qed.
Lemma alloc_roots h k r : roots_kept h (fst (alloc h k r)).
Proof. split; cbn; [lia|]. intros x L. apply upd_other. lia. Qed.
Lemma tree_step_roots h o : roots_kept h (fst (tree_step h o)).
Proof.
  destruct o; cbn [tree_step].
  - unfold create_child. destruct (alloc h KNode (h_root h self)) as [h1 n] eqn:E.
    pose proof (alloc_roots h KNode (h_root h self)) as [A B]. rewrite E in A, B. cbn [fst] in *. split; cbn; auto.
  - apply ss_roots, ss_set_parent.
  - apply ss_roots, ss_remove.
  - apply ss_roots, ss_if_allowed, ss_shift.
  - apply ss_roots. unfold shift_before_node. destruct (is_root h ref); [ssd|]. apply ss_if_allowed, ss_shift.
  - apply ss_roots, ss_if_allowed. destruct (unordered_descendants h ref); try ssd. apply ss_shift.
  - apply ss_roots. unfold shift_before_subtree. destruct (is_root h ref); [ssd|]. apply ss_if_allowed.
    destruct (unordered_descendants h ref); try ssd. apply ss_shift.
  - apply ss_roots. cbn [fst]. unfold flatten. cbv zeta. eapply ss_tr; [|apply ss_flatten_loop]. ssd.
  - unfold create_empty_child. cbv zeta. destruct (alloc h KEmpty (h_root h self)) as [h1 n] eqn:E.
    pose proof (alloc_roots h KEmpty (h_root h self)) as [A B]. rewrite E in A, B. cbn [fst] in *.
    destruct (empty_slot _ _ _ _); [|split; cbn; auto]. destruct (last_opt _); [destruct (_ <? _)%Z|]; split; cbn; auto.
Qed.
