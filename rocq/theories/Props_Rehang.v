(** C43-C45, C48, C52-C55: blocks that re-attach words. *)
From Coq Require Import String List NArith ZArith Bool Permutation Sorted Lia.
From Verif Require Import PyStr PyList PyListFacts PyExn TreeModel TreeSpec TreeProps TreeExamples Props_Tree DeprelModel
  RehangModel RehangSpec RehangProofs RehangFix RehangProj RehangDeproj.
Import ListNotations.
Local Open Scope string_scope.
Local Open Scope list_scope.
(** ---- example trees ---- *)
Definition labels (ds : list string) (x : nat) : option str :=
  match x with O => Some (s "<ROOT>") | S i => option_map s (nth_error ds i) end.
Definition sentence (ps : list nat) (ds : list string) : lst := mkL (planted ps) (labels ds) (fun _ => None) (fun _ => []).
Definition parents (st : lst) (r : nat) : list (option nat) := map (h_par (l_heap st)) (h_desc (l_heap st) r).

Definition flat_chain := sentence [2; 3; 4; 0] ["flat"; "flat"; "flat"; "root"].
Lemma flat_chain_ok : consistent (l_heap flat_chain) 0.
Proof. unfold flat_chain, sentence. cbn [l_heap]. planted_ok. Qed.
(** The same chain, head first. *)
Definition flat_chain2 := sentence [0; 1; 2; 3] ["root"; "flat"; "flat"; "flat"].
Lemma flat_chain2_ok : consistent (l_heap flat_chain2) 0.
Proof. unfold flat_chain2, sentence. cbn [l_heap]. planted_ok. Qed.
Definition right_headed := sentence [2; 3; 0] ["flat"; "flat"; "root"].
Lemma right_headed_ok : consistent (l_heap right_headed) 0.
Proof. unfold right_headed, sentence. cbn [l_heap]. planted_ok. Qed.
Definition case_with_child := sentence [2; 3; 0; 2] ["advmod"; "case"; "root"; "fixed"].
Lemma case_with_child_ok : consistent (l_heap case_with_child) 0.
Proof. unfold case_with_child, sentence. cbn [l_heap]. planted_ok. Qed.
Definition punct_chain := sentence [0; 1; 2; 3] ["root"; "punct"; "punct"; "nmod"].
Lemma punct_chain_ok : consistent (l_heap punct_chain) 0.
Proof. unfold punct_chain, sentence. cbn [l_heap]. planted_ok. Qed.
Definition two_roots := sentence [0; 1; 0] ["root"; "root"; "root"].
Lemma two_roots_ok : consistent (l_heap two_roots) 0.
Proof. unfold two_roots, sentence. cbn [l_heap]. planted_ok. Qed.
Definition crossing := sentence [3; 0; 0; 1; 3] ["a"; "root"; "root"; "b"; "c"].
Lemma crossing_ok : consistent (l_heap crossing) 0.
Proof. unfold crossing, sentence. cbn [l_heap]. planted_ok. Qed.
Definition empty_sentence := sentence [] [].
Lemma empty_sentence_ok : consistent (l_heap empty_sentence) 0.
Proof. unfold empty_sentence, sentence. cbn [l_heap]. planted_ok. Qed.
(** A set of root labels that can occur: the technical root has deprel '<ROOT>'. *)
Lemma root_label ps ds dl : forallb (fun d => negb (str_eqb d (s "<ROOT>"))) dl = true ->
  forall d, In d dl -> udep (sentence ps ds) 0 <> Some d.
Proof.
  intros H d Hd E. rewrite forallb_forall in H. specialize (H d Hd). vm_compute in E. injection E as <-. vm_compute in H. discriminate.
Qed.

(** C43. *)
Theorem C43_projective_refuted : exists st, consistent (l_heap st) 0 /\ exists st' x,
  proj_tree false LMisc st 0 = (st', Ok tt) /\ In x (h_desc (l_heap st') 0) /\ is_nonprojective (l_heap st') x = Ok true.
Proof.
  exists crossing. split; [exact crossing_ok|]. eexists _, 5. split; [vm_compute; reflexivity|]. split; [vm_compute; auto 10|vm_compute; reflexivity].
Qed.
Print Assumptions C43_projective_refuted.
Theorem C43_proj_partial : forall r shortest lab st, lab <> LOther -> consistent (l_heap st) r ->
  exists st', proj_tree shortest lab st r = (st', Ok tt) /\
    rehung (l_heap st) (l_heap st') r /\ lifted (l_heap st) (l_heap st') r /\
    (* a projective tree is not changed at all *)
    ((forall x, In x (h_desc (l_heap st) r) -> is_nonprojective (l_heap st) x = Ok false) -> st' = st) /\
    (* a word that was projective stays where it was *)
    (forall x, In x (h_desc (l_heap st) r) -> is_nonprojective (l_heap st) x = Ok false -> h_par (l_heap st') x = h_par (l_heap st) x) /\
    (* if anything was non-projective, some word moved up *)
    ((exists x, In x (h_desc (l_heap st) r) /\ is_nonprojective (l_heap st) x = Ok true) ->
     exists x p q, In x (h_desc (l_heap st) r) /\ h_par (l_heap st) x = Some p /\ h_par (l_heap st') x = Some q /\ up (l_heap st) p q).
Proof. exact proj_prop. Qed.
Print Assumptions C43_proj_partial.
(** One call may not be enough, but repeated calls always reach a projective tree. *)
Theorem C43_repeated_proj : forall r shortest lab st, lab <> LOther -> consistent (l_heap st) r ->
  let n := length (h_desc (l_heap st) r) in
  exists st', proj_times r (n * S n) shortest lab st = (st', Ok tt) /\
    rehung (l_heap st) (l_heap st') r /\ lifted (l_heap st) (l_heap st') r /\
    forall x, In x (h_desc (l_heap st) r) -> is_nonprojective (l_heap st') x = Ok false.
Proof. exact proj_times_prop. Qed.
Print Assumptions C43_repeated_proj.
Example C43_example : let st' := fst (proj_tree false LMisc crossing 0) in
  parents crossing 0 = [Some 3; Some 0; Some 0; Some 1; Some 3] /\ parents st' 0 <> parents crossing 0 /\ l_pproj st' 1 = s "root".
Proof. vm_compute. split; [reflexivity|]. split; [discriminate|reflexivity]. Qed.
(** An unknown label setting is only noticed when there is something to lift. *)
Example C43_unknown_label : snd (proj_tree false LOther crossing 0) = Raise ValueError /\
  snd (proj_tree false LOther flat_chain 0) = Ok tt.
Proof. vm_compute. auto. Qed.

(** C44. *)
Theorem C44_flatten : forall r st, consistent (l_heap st) r ->
  exists st', flatten_tree false st r = (st', Ok tt) /\ rehung (l_heap st) (l_heap st') r /\
    forall x, In x (h_desc (l_heap st) r) -> h_par (l_heap st') x = Some r /\ l_dep st' x = Some (s "root").
Proof. exact flatten_tree_plain. Qed.
Print Assumptions C44_flatten.
Theorem C44_flatten_oneroot : forall r st first rest, consistent (l_heap st) r -> h_desc (l_heap st) r = first :: rest ->
  exists st', flatten_tree true st r = (st', Ok tt) /\ rehung (l_heap st) (l_heap st') r /\
    h_par (l_heap st') first = Some r /\ l_dep st' first = Some (s "root") /\
    forall x, In x rest -> h_par (l_heap st') x = Some first /\ l_dep st' x = Some (s "dep").
Proof. exact flatten_tree_oneroot. Qed.
Print Assumptions C44_flatten_oneroot.
(** With oneroot an empty tree raises IndexError. *)
Theorem C44_oneroot_empty_tree : forall r st, consistent (l_heap st) r -> h_desc (l_heap st) r = [] ->
  flatten_tree true st r = (st, Raise IndexError).
Proof. exact flatten_tree_empty. Qed.
Print Assumptions C44_oneroot_empty_tree.
Example C44_example : parents (fst (flatten_tree true flat_chain 0)) 0 = [Some 0; Some 1; Some 1; Some 1] /\
  consistent (l_heap empty_sentence) 0.
Proof. split; [vm_compute; reflexivity|exact empty_sentence_ok]. Qed.

(** C45. *)
Theorem C45_flatten_deprel_refuted : exists st x, consistent (l_heap st) 0 /\ In x (h_desc (l_heap st) 0) /\
  l_dep (root_flatten st 0 (s "root")) x <> Some (s "root").
Proof. exists flat_chain, 1. split; [exact flat_chain_ok|]. split; [vm_compute; auto|vm_compute; discriminate]. Qed.
Print Assumptions C45_flatten_deprel_refuted.
Theorem C45_flatten_partial : forall r st dep, consistent (l_heap st) r ->
  rehung (l_heap st) (l_heap (root_flatten st r dep)) r /\ same_labels st (root_flatten st r dep) /\
  forall x, In x (h_desc (l_heap st) r) ->
    h_par (l_heap (root_flatten st r dep)) x = Some r /\ h_ch (l_heap (root_flatten st r dep)) x = [].
Proof. exact root_flatten_prop. Qed.
Print Assumptions C45_flatten_partial.

(** C48. *)
Theorem C48_fixchain : forall r ds st, consistent (l_heap st) r -> (forall d, In d ds -> udep st r <> Some d) ->
  exists st', fixchain ds st r = (st', Ok tt) /\
    rehung (l_heap st) (l_heap st') r /\ lifted (l_heap st) (l_heap st') r /\ same_labels st st'.
Proof. exact fixchain_prop. Qed.
Print Assumptions C48_fixchain.
Theorem C48_no_chain_refuted : exists st st', consistent (l_heap st) 0 /\
  (forall d, In d [s "flat"] -> udep st 0 <> Some d) /\ fixchain [s "flat"] st 0 = (st', Ok tt) /\
  exists x p, In x (h_desc (l_heap st') 0) /\ h_par (l_heap st') x = Some p /\
    udep st' x = Some (s "flat") /\ udep st' p = Some (s "flat").
Proof.
  exists flat_chain. eexists. split; [exact flat_chain_ok|]. split; [apply root_label; reflexivity|].
  split; [vm_compute; reflexivity|]. exists 1, 3. vm_compute. auto 8.
Qed.
Print Assumptions C48_no_chain_refuted.
(** It does enforce the condition if chains are head-first. *)
Theorem C48_no_chain_partial : forall r ds st, consistent (l_heap st) r -> (forall d, In d ds -> udep st r <> Some d) ->
  (forall x p d, In x (h_desc (l_heap st) r) -> h_par (l_heap st) x = Some p -> In d ds ->
     udep st x = Some d -> udep st p = Some d -> (h_ord (l_heap st) p < h_ord (l_heap st) x)%Z) ->
  exists st', fixchain ds st r = (st', Ok tt) /\
    forall x p d, In x (h_desc (l_heap st') r) -> h_par (l_heap st') x = Some p -> In d ds ->
      ~ (udep st' x = Some d /\ udep st' p = Some d).
Proof. exact no_chain_prop. Qed.
Print Assumptions C48_no_chain_partial.
Example C48_chain_example : consistent (l_heap flat_chain2) 0 /\
  parents (fst (fixchain [s "fixed"; s "flat"; s "goeswith"; s "list"] flat_chain2 0)) 0 = [Some 0; Some 1; Some 1; Some 1].
Proof. split; [exact flat_chain2_ok|vm_compute; reflexivity]. Qed.

Theorem C48_fixrightheaded : forall r ds st, consistent (l_heap st) r ->
  exists st', fixright ds st r = (st', Ok tt) /\ rehung (l_heap st) (l_heap st') r.
Proof. exact fixright_ok. Qed.
Print Assumptions C48_fixrightheaded.
(** One right-headed edge: the dependent becomes the head, with the labels swapped; unless the
    relation is conj, it also takes over the other dependents of the old head. *)
Theorem C48_fixrightheaded_edge : forall r d st x p g, consistent (l_heap st) r -> In x (h_desc (l_heap st) r) ->
  h_par (l_heap st) x = Some p -> h_par (l_heap st) p = Some g -> udep st x = Some d ->
  (h_ord (l_heap st) x < h_ord (l_heap st) p)%Z ->
  exists st', fixright_node [d] st x = (st', Ok tt) /\ rehung (l_heap st) (l_heap st') r /\
    h_par (l_heap st') x = Some g /\ h_par (l_heap st') p = Some x /\
    l_dep st' x = l_dep st p /\ l_dep st' p = l_dep st x /\
    forall y, y <> x -> y <> p -> live (l_heap st) r y -> l_dep st' y = l_dep st y /\
      (h_par (l_heap st) y = Some p -> d <> s "conj" -> h_par (l_heap st') y = Some x) /\
      (h_par (l_heap st) y <> Some p \/ d = s "conj" -> h_par (l_heap st') y = h_par (l_heap st) y).
Proof. exact fixright_edge_prop. Qed.
Print Assumptions C48_fixrightheaded_edge.
Theorem C48_left_headed_refuted : exists st st', consistent (l_heap st) 0 /\ fixright [s "flat"] st 0 = (st', Ok tt) /\
  exists x p, In x (h_desc (l_heap st') 0) /\ h_par (l_heap st') x = Some p /\
    udep st' x = Some (s "flat") /\ (h_ord (l_heap st') x < h_ord (l_heap st') p)%Z.
Proof.
  exists right_headed. eexists. split; [exact right_headed_ok|]. split; [vm_compute; reflexivity|].
  exists 1, 3. vm_compute. auto 8.
Qed.
Print Assumptions C48_left_headed_refuted.

Theorem C48_fixleaf : forall r ds st, consistent (l_heap st) r -> (forall d, In d ds -> udep st r <> Some d) ->
  exists st', fixleaf ds st r = (st', Ok tt) /\
    rehung (l_heap st) (l_heap st') r /\ lifted (l_heap st) (l_heap st') r /\ same_labels st st' /\
    (* children of function words have only the allowed relations *)
    (forall x c d, In d ds -> In x (h_desc (l_heap st') r) -> In c (h_desc (l_heap st') r) ->
       udep st' x = Some d -> h_par (l_heap st') c = Some x ->
       exists a, udep st' c = Some a /\
         In a ([s "fixed"; s "punct"; s "goeswith"; s "reparandum"] ++ if str_eqb d (s "cc") then [] else [s "conj"; s "cc"])) /\
    (* children of other words stay where they were *)
    (forall c p, In c (h_desc (l_heap st) r) -> h_par (l_heap st) c = Some p -> (forall d, In d ds -> udep st p <> Some d) ->
       h_par (l_heap st') c = Some p).
Proof. exact fixleaf_prop. Qed.
Print Assumptions C48_fixleaf.
Example C48_leaf_example : consistent (l_heap case_with_child) 0 /\
  parents (fst (fixleaf [s "aux"; s "cop"; s "case"; s "mark"; s "cc"] case_with_child 0)) 0 = [Some 3; Some 3; Some 0; Some 2].
Proof. split; [exact case_with_child_ok|vm_compute; reflexivity]. Qed.

(** C52. *)
Theorem C52_fixpunctchild : forall r st, consistent (l_heap st) r -> l_dep st r <> Some (s "punct") ->
  exists st', fixpunctchild st r = (st', Ok tt) /\
    rehung (l_heap st) (l_heap st') r /\ lifted (l_heap st) (l_heap st') r /\ same_labels st st' /\
    (forall x p, In x (h_desc (l_heap st') r) -> h_par (l_heap st') x = Some p -> l_dep st' p <> Some (s "punct")) /\
    (forall x p, In x (h_desc (l_heap st) r) -> h_par (l_heap st) x = Some p -> l_dep st p <> Some (s "punct") ->
       h_par (l_heap st') x = Some p).
Proof. exact fixpunctchild_prop. Qed.
Print Assumptions C52_fixpunctchild.
Example C52_example : consistent (l_heap punct_chain) 0 /\ l_dep punct_chain 0 <> Some (s "punct") /\
  parents (fst (fixpunctchild punct_chain 0)) 0 = [Some 0; Some 1; Some 1; Some 1].
Proof. split; [exact punct_chain_ok|]. split; [vm_compute; discriminate|vm_compute; reflexivity]. Qed.

(** C53. *)
Theorem C53_fixroot : forall r st, consistent (l_heap st) r -> h_desc (l_heap st) r <> [] ->
  exists st' first rest, h_ch (l_heap st) r = first :: rest /\
    fixroot st r = (st', Ok tt) /\ rehung (l_heap st) (l_heap st') r /\
    h_ch (l_heap st') r = [first] /\ udep st' first = Some (s "root") /\
    (forall x, In x (h_desc (l_heap st') r) -> x <> first -> udep st' x <> Some (s "root")) /\
    (forall x, In x rest -> h_par (l_heap st') x = Some first /\ l_dep st' x = Some (s "parataxis")) /\
    (forall x, In x (h_desc (l_heap st) r) -> ~ In x rest -> h_par (l_heap st') x = h_par (l_heap st) x /\
       (udep st x <> Some (s "root") -> x <> first -> l_dep st' x = l_dep st x)) /\
    (udep st first = Some (s "root") -> l_dep st' first = l_dep st first).
Proof. exact fixroot_prop. Qed.
Print Assumptions C53_fixroot.
Theorem C53_empty_tree_refuted : forall r st, consistent (l_heap st) r -> h_desc (l_heap st) r = [] ->
  fixroot st r = (st, Raise IndexError).
Proof. exact fixroot_empty. Qed.
Print Assumptions C53_empty_tree_refuted.
Example C53_example : consistent (l_heap two_roots) 0 /\
  (let st' := fst (fixroot two_roots 0) in parents st' 0 = [Some 0; Some 1; Some 1] /\
   map (l_dep st') [1; 2; 3] = [Some (s "root"); Some (s "parataxis"); Some (s "parataxis")]) /\ consistent (l_heap empty_sentence) 0.
Proof. split; [exact two_roots_ok|]. split; [vm_compute; auto|exact empty_sentence_ok]. Qed.

(** C54. *)
Theorem C54_deproj : forall r st, consistent (l_heap st) r ->
  exists h', deproj st r = (set_heap st h', Ok tt) /\ rehung (l_heap st) h' r /\
    forall x, In x (h_desc (l_heap st) r) -> l_pproj st x = [] -> h_par h' x = h_par (l_heap st) x.
Proof. exact deproj_ok. Qed.
Print Assumptions C54_deproj.
(** One marked word: it is attached to some node with the marked relation among its siblings
    and their descendants, if there is one. *)
Theorem C54_deproj_word : forall r st x p, consistent (l_heap st) r -> In x (h_desc (l_heap st) r) -> h_par (l_heap st) x = Some p ->
  let candidate q := exists sb, h_par (l_heap st) sb = Some p /\ sb <> x /\ live (l_heap st) r sb /\ in_subtree (l_heap st) q sb /\
    udep st q = Some (l_pproj st x) /\ live (l_heap st) r q in
  exists h', deproj_node st x = (set_heap st h', Ok tt) /\ rehung (l_heap st) h' r /\
    (forall y, y <> x -> live (l_heap st) r y -> h_par h' y = h_par (l_heap st) y) /\
    ((l_pproj st x = [] \/ (forall q, ~ candidate q)) -> h' = l_heap st) /\
    (l_pproj st x <> [] -> (exists q, candidate q) -> exists q, candidate q /\ h_par h' x = Some q).
Proof. exact deproj_word_prop. Qed.
Print Assumptions C54_deproj_word.
(** A non-projective tree restored by Deproj after Proj. *)
Definition nonproj := sentence [0; 1; 1; 2] ["root"; "nsubj"; "punct"; "nmod"].
Lemma nonproj_ok : consistent (l_heap nonproj) 0.
Proof. unfold nonproj, sentence. cbn [l_heap]. planted_ok. Qed.
Example C54_example : let st' := fst (proj_tree false LMisc nonproj 0) in
  parents st' 0 = [Some 0; Some 1; Some 1; Some 1] /\ parents (fst (deproj st' 0)) 0 = parents nonproj 0.
Proof. vm_compute. auto. Qed.

(** C55. *)
Theorem C55_rehang_preposition : forall r st x p g, consistent (l_heap st) r -> In x (h_desc (l_heap st) r) ->
  l_upos st x = Some (s "ADP") -> h_par (l_heap st) x = Some p -> h_par (l_heap st) p = Some g ->
  exists h', rehangprep_node st x = (set_heap st h', Ok tt) /\ rehung (l_heap st) h' r /\
    h_par h' x = Some g /\ h_par h' p = Some x /\
    forall y, y <> x -> y <> p -> live (l_heap st) r y -> h_par h' y = h_par (l_heap st) y.
Proof. exact rehangprep_node_ok. Qed.
Print Assumptions C55_rehang_preposition.
(** A preposition attached to the technical root makes the block fail. *)
Theorem C55_top_preposition_refuted : forall r st x, consistent (l_heap st) r -> In x (h_desc (l_heap st) r) ->
  l_upos st x = Some (s "ADP") -> h_par (l_heap st) x = Some r -> rehangprep_node st x = (st, Raise ValueError).
Proof. exact rehangprep_root. Qed.
Print Assumptions C55_top_preposition_refuted.
Example C55_example : let st := mkL (l_heap right_headed) (l_dep right_headed) (fun x => if Nat.eqb x 2 then Some (s "ADP") else None) (fun _ => []) in
  consistent (l_heap st) 0 /\ parents (fst (rehangprep st 0)) 0 = [Some 2; Some 0; Some 2].
Proof. split; [exact right_headed_ok|vm_compute; reflexivity]. Qed.
