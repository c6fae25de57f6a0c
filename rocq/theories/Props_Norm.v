(** C83: util.Normalize. *)
From Coq Require Import String List NArith ZArith Bool Lia Sorting.Sorted.
From Verif Require Import PyStr PyList TreeModel TreeSpec TreeProps EmptySpec EmptyProofs DualDictModel DualDictSpec CorefModel CorefSpec Props_Coref NormModel NormSpec NormProofs.
Import ListNotations.
Local Open Scope string_scope.
Local Open Scope list_scope.
Local Open Scope Z_scope.

(** C83, sent_id without file names: prefix1, prefix2, ... through all documents; no two are the same. *)
Theorem C83_ids : forall o docs n, no_reset o = false -> no_from_filename o = false ->
  concat (norm_docs o n docs) = numbered_ids (no_prefix o) n (length (flat_map snd docs)) /\
  map (@length str) (norm_docs o n docs) = map (fun d => length (snd d)) docs /\
  (0 <= n -> NoDup (concat (norm_docs o n docs))).
Proof. exact ids_prop. Qed.
Print Assumptions C83_ids.
(** C83, sent_id with file names: within a document the ids are numbered and distinct. *)
Theorem C83_ids_file_partial : forall o stem l n, no_reset o = false -> no_from_filename o = true -> 0 <= n ->
  snd (norm_bundles o stem n l) = numbered_ids (stem ++ no_prefix o) n (length l) /\ NoDup (snd (norm_bundles o stem n l)).
Proof. exact ids_file. Qed.
Print Assumptions C83_ids_file_partial.
(** The same with the reset, if newdoc is only in the first bundle of the file. *)
Theorem C83_ids_reset_partial : forall o stem l n, no_reset o = true -> no_from_filename o = true -> (forall b, In b l -> b = false) ->
  snd (norm_bundles o stem n (true :: l)) = numbered_ids (stem ++ no_prefix o) 1 (S (length l)) /\ NoDup (snd (norm_bundles o stem n (true :: l))).
Proof. exact ids_reset_file. Qed.
Print Assumptions C83_ids_reset_partial.
(** Two newdocs in a file: the ids start again. *)
Theorem C83_reset_refuted : ~ (forall o stem l n, no_from_filename o = true -> 0 <= n -> NoDup (snd (norm_bundles o stem n l))).
Proof.
  intros H. specialize (H (mkNO (s "-s") true true) (s "f") [true; false; true] 1 eq_refl ltac:(lia)). vm_compute in H.
  inversion H as [|? ? A _]. apply A. simpl. auto.
Qed.
Print Assumptions C83_reset_refuted.
(** Files with different names: a1 + 1 is a + 11. *)
Theorem C83_files_refuted : ~ (forall o docs n, no_reset o = false -> no_from_filename o = true -> 0 <= n -> NoDup (map fst docs) ->
  NoDup (concat (norm_docs o n docs))).
Proof.
  intros H. specialize (H (mkNO [] true false) [(s "a1", [true]); (s "a", repeat false 10)] 1 eq_refl eq_refl ltac:(lia)).
  assert (N : NoDup (map fst [(s "a1", [true]); (s "a", repeat false 10)])) by (repeat constructor; simpl; intuition discriminate).
  specialize (H N). vm_compute in H. inversion H as [|? ? A _]. apply A. simpl. auto 20.
Qed.
Print Assumptions C83_files_refuted.
Example C83_ids_example : norm_docs (mkNO (s "s") false false) 9 [(s "f", [true; false]); (s "g", [false])] = [[s "s9"; s "s10"]; [s "s11"]] /\
  norm_docs (mkNO (s "-s") true true) 1 [(s "f", [true; false]); (s "g", [true])] = [[s "f-s1"; s "f-s2"]; [s "g-s1"]].
Proof. vm_compute. auto. Qed.

(** C83, FEATS and MISC: after any history of accesses, the object behaves like the same mapping whose text was forgotten, so
    the text printed later is the sorted one. *)
Theorem C83_mapping : forall lower v d0 os os', value_ok v -> dd_new v = Some d0 -> Forall op_ok os -> Forall op_ok os' ->
  exists m, initial v = Some m /\
    answers lower (dd_normalize (fst (dd_run lower d0 os))) os' = snd (map_run lower (forget_text (fst (map_run lower m os))) os').
Proof. exact normalize_mapping. Qed.
Print Assumptions C83_mapping.
Example C83_mapping_example : answers (fun x => x) (dd_normalize (mkDD (Some (s "b=2|A=1|A=3|c")) [])) [OGet (s "b"); OIter; OStr] =
  [AVal (VStr (s "2")); AKeys [s "b"; s "A"; s "c"]; AString (s "A=3|b=2|c")] /\
  exists d0, dd_new (Some (MStr (s "b=2|A=1|A=3|c"))) = Some d0 /\ d0 = mkDD (Some (s "b=2|A=1|A=3|c")) [].
Proof. split; [reflexivity|eexists; split; reflexivity]. Qed.

(** C83, empty nodes: the order of words and empty nodes stays, the i-th empty node after the word n gets n.i. *)
Theorem C83_empty_ords : forall h r, consistent h r -> good_empties h r -> short_runs h (descendants_and_empty h r) ->
  let h' := norm_empty_ords h r in
  descendants_and_empty h' r = descendants_and_empty h r /\ ids_in_order h' (descendants_and_empty h' r) /\ good_empties h' r /\ consistent h' r /\
  (forall x, ~ In x (h_emp h r) -> h_eord h' x = h_eord h x) /\
  h_kind h' = h_kind h /\ h_ord h' = h_ord h /\ h_par h' = h_par h /\ h_ch h' = h_ch h /\ h_desc h' = h_desc h /\ h_emp h' = h_emp h.
Proof. exact empty_ords_ok. Qed.
Print Assumptions C83_empty_ords.
(** Words 3 4 5 and the empty node 6 with the id 2.5. *)
Definition odd_heap : heap := put_eord cheap 6 25.
Example C83_empty_example : consistent odd_heap 0 /\ good_empties odd_heap 0 /\ short_runs odd_heap (descendants_and_empty odd_heap 0) /\
  descendants_and_empty odd_heap 0 = [3; 4; 6; 5]%nat /\ h_eord (norm_empty_ords odd_heap 0) 6 = 21.
Proof.
  destruct (cheap_good 0) as [C _]; [vm_compute; auto|]. split; [apply (consistent_keep cheap); auto; vm_compute; auto|]. split; [|split; [|vm_compute; auto]].
  - assert (E : h_emp odd_heap 0 = [6%nat]) by (vm_compute; reflexivity). constructor; rewrite E.
    + repeat constructor.
    + intros e [<-|[]]. vm_compute. discriminate.
    + intros e [<-|[]]. vm_compute. auto.
    + intros e [<-|[]]. reflexivity.
    + intros e [<-|[]]. vm_compute. lia.
    + intros e [<-|[]]. reflexivity.
  - intros pre run post E F. assert (L : length (descendants_and_empty odd_heap 0) = 4%nat) by (vm_compute; reflexivity). rewrite E, !app_length in L. lia.
Qed.
