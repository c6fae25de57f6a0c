(** ud.FixPseudoCop: C90. *)
From Coq Require Import String List NArith ZArith Bool Lia.
From Verif Require Import PyStr PyList PyListFacts PyExn TreeModel TreeSpec TreeProps TreeExamples Props_Tree RehangModel RehangSpec Props_Rehang PcopModel PcopSpec PcopProofs.
Import ListNotations.
Local Open Scope string_scope.
Local Open Scope list_scope.

(** C90. The block never raises and keeps the tree consistent; only tags of listed words change; without
    a word to be fixed the tree and the labels stay. *)
Theorem C90_tree : forall r lemma lemmas nca st, consistent (l_heap st) r -> all_labelled st r -> none_at_top lemma lemmas nca st r ->
  exists st', pcop lemma lemmas nca st r = (st', Ok tt) /\ rehung (l_heap st) (l_heap st') r /\ all_labelled st' r /\ l_pproj st' = l_pproj st /\
    (forall y, l_upos st' y = l_upos st y \/ (listed lemma lemmas y /\ l_upos st' y = Some (s "VERB"))) /\
    ((forall x, In x (h_desc (l_heap st) r) -> ~ (listed lemma lemmas x /\ copular nca st x)) ->
     l_heap st' = l_heap st /\ l_dep st' = l_dep st).
Proof. exact pcop_ok. Qed.
Print Assumptions C90_tree.
(** C90. One pseudo-copula x of p: x takes the place of p, p becomes its xcomp, the dependents of p with
    clause labels move to x and everything else stays. *)
Theorem C90_edge : forall r lemma lemmas nca st x p g, consistent (l_heap st) r -> In x (h_desc (l_heap st) r) ->
  h_par (l_heap st) x = Some p -> h_par (l_heap st) p = Some g -> listed lemma lemmas x -> copular nca st x ->
  (forall c, In c (h_desc (l_heap st) r) -> h_par (l_heap st) c = Some p -> l_dep st c <> None) ->
  exists st', pcop_node lemma lemmas nca st x = (st', Ok tt) /\ rehung (l_heap st) (l_heap st') r /\
    h_par (l_heap st') x = Some g /\ h_par (l_heap st') p = Some x /\
    l_dep st' x = l_dep st p /\ l_dep st' p = Some (s "xcomp") /\ l_upos st' x = Some (s "VERB") /\
    (forall y, y <> x -> l_upos st' y = l_upos st y) /\
    (forall y, y <> x -> y <> p -> l_dep st' y = l_dep st y) /\ l_pproj st' = l_pproj st /\
    (forall y, y <> x -> y <> p -> live (l_heap st) r y ->
      (h_par (l_heap st) y = Some p -> moves st y -> h_par (l_heap st') y = Some x) /\
      (h_par (l_heap st) y <> Some p \/ ~ moves st y -> h_par (l_heap st') y = h_par (l_heap st) y)).
Proof. exact pcop_edge. Qed.
Print Assumptions C90_edge.
(** C90. A word to be fixed that is attached to the technical root raises ValueError, and nothing is changed. *)
Theorem C90_top : forall r lemma lemmas nca st x, consistent (l_heap st) r -> In x (h_desc (l_heap st) r) ->
  h_par (l_heap st) x = Some r -> listed lemma lemmas x -> copular nca st x ->
  pcop_node lemma lemmas nca st x = (st, Raise ValueError).
Proof. exact pcop_top. Qed.
Print Assumptions C90_top.
(** C90. If the parent of a word to be fixed has a dependent without deprel (None), TypeError is raised. *)
Theorem C90_unlabelled : forall r lemma lemmas nca st x p g c, consistent (l_heap st) r -> In x (h_desc (l_heap st) r) ->
  h_par (l_heap st) x = Some p -> h_par (l_heap st) p = Some g -> listed lemma lemmas x -> copular nca st x ->
  In c (h_desc (l_heap st) r) -> h_par (l_heap st) c = Some p -> l_dep st c = None ->
  snd (pcop_node lemma lemmas nca st x) = Raise TypeError.
Proof. exact pcop_unlabelled. Qed.
Print Assumptions C90_unlabelled.
(** C90. Any other word keeps its place and label. Its tag becomes VERB exactly if auxiliaries were asked
    for, its lemma is listed and it was tagged AUX. *)
Theorem C90_other : forall lemma lemmas nca st x, ~ (listed lemma lemmas x /\ copular nca st x) ->
  exists st', pcop_node lemma lemmas nca st x = (st', Ok tt) /\ l_heap st' = l_heap st /\ l_dep st' = l_dep st /\ l_pproj st' = l_pproj st /\
    (forall y, y <> x -> l_upos st' y = l_upos st y) /\
    (nca = true /\ listed lemma lemmas x /\ l_upos st x = Some (s "AUX") -> l_upos st' x = Some (s "VERB")) /\
    (~ (nca = true /\ listed lemma lemmas x /\ l_upos st x = Some (s "AUX")) -> l_upos st' x = l_upos st x).
Proof. exact pcop_other. Qed.
Print Assumptions C90_other.

(** She seems very happy that ... . *)
Definition seems := sentence [4; 4; 4; 0; 4; 4] ["nsubj"; "cop"; "amod"; "root"; "ccomp"; "punct"].
Definition seem_lemma (x : nat) : option str := if Nat.eqb x 2 then Some (s "seem") else Some (s "other").
Lemma seems_ok : consistent (l_heap seems) 0.
Proof. unfold seems, sentence. cbn [l_heap]. planted_ok. Qed.
Lemma seem_only x : listed seem_lemma [s "become"; s "seem"] x -> x = 2%nat.
Proof. intros [l [E I]]. unfold seem_lemma in E. destruct (Nat.eqb_spec x 2); auto. injection E as <-. destruct I as [I|[I|[]]]; discriminate I. Qed.
Example C90_case : consistent (l_heap seems) 0 /\ all_labelled seems 0 /\ none_at_top seem_lemma [s "become"; s "seem"] false seems 0 /\
  listed seem_lemma [s "become"; s "seem"] 2 /\ copular false seems 2 /\
  (let st := fst (pcop seem_lemma [s "become"; s "seem"] false seems 0) in
   map (h_par (l_heap st)) [1; 2; 3; 4; 5; 6] = map Some [2; 0; 4; 2; 2; 2] /\
   map (l_dep st) [1; 2; 3; 4; 5; 6] = map (fun d => Some (s d)) ["nsubj"; "root"; "amod"; "xcomp"; "ccomp"; "punct"]).
Proof.
  split; [exact seems_ok|]. split.
  { intros y Hy. vm_compute in Hy. decompose [or] Hy; subst; try tauto; intros E; vm_compute in E; discriminate E. }
  split. { intros x _ Hl _ E. apply seem_only in Hl. subst x. vm_compute in E. discriminate E. }
  split. { exists (s "seem"). split; [reflexivity|]. right. left. reflexivity. }
  split; [left; reflexivity|]. vm_compute. split; reflexivity.
Qed.
(** The last word has no deprel. *)
Definition half_labelled := sentence [3; 3; 0; 3] ["nsubj"; "cop"; "root"].
Lemma half_labelled_ok : consistent (l_heap half_labelled) 0.
Proof. unfold half_labelled, sentence. cbn [l_heap]. planted_ok. Qed.
Example C90_unlabelled_case : consistent (l_heap half_labelled) 0 /\ copular false half_labelled 2 /\
  h_par (l_heap half_labelled) 4 = Some 3 /\ l_dep half_labelled 4 = None /\
  snd (pcop seem_lemma [s "seem"] false half_labelled 0) = Raise TypeError.
Proof. split; [exact half_labelled_ok|]. split; [left; reflexivity|]. split; [reflexivity|]. split; [reflexivity|vm_compute; reflexivity]. Qed.
(** A copula at the top of the tree. *)
Definition cop_top := sentence [2; 0] ["nsubj"; "cop"].
Lemma cop_top_ok : consistent (l_heap cop_top) 0.
Proof. unfold cop_top, sentence. cbn [l_heap]. planted_ok. Qed.
Example C90_top_case : consistent (l_heap cop_top) 0 /\ h_par (l_heap cop_top) 2 = Some 0 /\ copular false cop_top 2 /\
  snd (pcop seem_lemma [s "seem"] false cop_top 0) = Raise ValueError.
Proof. split; [exact cop_top_ok|]. split; [reflexivity|]. split; [left; reflexivity|vm_compute; reflexivity]. Qed.
Lemma result_pair {A B} (q : A * B) v : snd q = v -> q = (fst q, v).
Proof. destruct q. cbn. now intros ->. Qed.
(** C90. The regular expression compares only beginnings of labels: a ccomp moves because of cc. *)
Theorem C90_labels_refuted : exists st st' lemma lemmas x p y, consistent (l_heap st) 0 /\
  pcop lemma lemmas false st 0 = (st', Ok tt) /\ h_par (l_heap st) x = Some p /\ h_par (l_heap st) y = Some p /\
  udep st y = Some (s "ccomp") /\ ~ In (s "ccomp") clause_labels /\ h_par (l_heap st') y = Some x.
Proof.
  exists seems, (fst (pcop seem_lemma [s "seem"] false seems 0)), seem_lemma, [s "seem"], 2, 4, 5.
  split; [exact seems_ok|]. split.
  { apply result_pair. vm_compute. reflexivity. }
  split; [reflexivity|]. split; [reflexivity|]. split; [reflexivity|]. split; [|vm_compute; reflexivity].
  intros I. repeat (destruct I as [I|I]; [discriminate I|]). destruct I.
Qed.
Print Assumptions C90_labels_refuted.
