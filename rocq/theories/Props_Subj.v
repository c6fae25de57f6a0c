(** ud.FixMultiSubjects: C88. *)
From Coq Require Import String List NArith ZArith Bool Lia.
From Verif Require Import PyStr PyList PyListFacts PyExn TreeModel TreeSpec TreeProps TreeExamples Props_Tree RehangModel Props_Rehang SubjModel SubjSpec SubjProofs.
Import ListNotations.
Local Open Scope string_scope.
Local Open Scope list_scope.

(** C88. Exactly the subjects that follow another subject of the same word are relabelled; nothing else is changed. *)
Theorem C88_relabelled : forall r st, consistent (l_heap st) r -> labelled st r ->
  exists st', multisubj st r = (st', Ok tt) /\ l_heap st' = l_heap st /\ l_upos st' = l_upos st /\ l_pproj st' = l_pproj st /\
    (forall x, late_subject st r x -> exists c d, l_dep st x = Some (c :: d) /\ l_dep st' x = Some (if N.eqb c 110 then s "obl" else s "advcl")) /\
    (forall x, ~ late_subject st r x -> l_dep st' x = l_dep st x).
Proof. exact multisubj_ok. Qed.
Print Assumptions C88_relabelled.
(** C88. Afterwards every word has at most one subject. *)
Theorem C88_at_most_one : forall r st st', consistent (l_heap st) r -> labelled st r -> multisubj st r = (st', Ok tt) ->
  forall p x y, In p (h_desc (l_heap st') r) -> In x (h_desc (l_heap st') r) -> In y (h_desc (l_heap st') r) ->
    h_par (l_heap st') x = Some p -> h_par (l_heap st') y = Some p -> counts st' x -> counts st' y -> x = y.
Proof. exact at_most_one. Qed.
Print Assumptions C88_at_most_one.
(** C88. A word below another word without deprel (None) raises TypeError. *)
Theorem C88_error : forall r st, consistent (l_heap st) r -> forall x p, In x (h_desc (l_heap st) r) -> In p (h_desc (l_heap st) r) ->
  h_par (l_heap st) x = Some p -> l_dep st x = None -> snd (multisubj st r) = Raise TypeError.
Proof. exact run_error. Qed.
Print Assumptions C88_error.

Definition subj_case := sentence [3; 3; 0; 3; 3; 5; 5] ["csubj"; "nsubj:outer"; "root"; "nsubj:pass"; "csubj"; "nsubj"; "nsubjx"].
Lemma subj_case_ok : consistent (l_heap subj_case) 0.
Proof. unfold subj_case, sentence. cbn [l_heap]. planted_ok. Qed.
Definition subj_none := sentence [2; 0; 2] ["nsubj"; "root"].
Lemma subj_none_ok : consistent (l_heap subj_none) 0.
Proof. unfold subj_none, sentence. cbn [l_heap]. planted_ok. Qed.
Example C88_case : consistent (l_heap subj_case) 0 /\ labelled subj_case 0 /\ late_subject subj_case 0 4 /\
  map (l_dep (fst (multisubj subj_case 0))) [1; 2; 3; 4; 5; 6; 7] =
    map (fun x => Some (s x)) ["csubj"; "nsubj:outer"; "root"; "obl"; "advcl"; "nsubj"; "nsubjx"] /\
  consistent (l_heap subj_none) 0 /\ In 3 (h_desc (l_heap subj_none) 0) /\ h_par (l_heap subj_none) 3 = Some 2 /\ l_dep subj_none 3 = None.
Proof.
  split; [exact subj_case_ok|]. split.
  { intros x I. vm_compute in I. decompose [or] I; subst; try tauto;
      (eexists; split; [vm_compute; reflexivity|]; intros J; vm_compute in J; decompose [or] J; try discriminate; tauto). }
  split; [|split; [vm_compute; reflexivity|split; [exact subj_none_ok|vm_compute; auto]]].
  assert (O : forall t a b, ~ outer (t ++ [a; b]) \/ (a = 101%N /\ b = 114%N)).
  { intros t a b. destruct (N.eq_dec a 101), (N.eq_dec b 114); auto; left; intros [u E]; change (s ":outer") with (s ":out" ++ [101%N; 114%N]) in E;
      rewrite app_assoc in E; change [a; b] with ([a] ++ [b]) in E; change [101%N; 114%N] with ([101%N] ++ [114%N]) in E; rewrite !app_assoc in E;
      apply app_inj_tail in E as [E ?]; apply app_inj_tail in E as [E ?]; congruence. }
  split.
  - exists (s "nsubj:pass"). split; [reflexivity|]. split; [right; right; exists (s "pass"); left; reflexivity|].
    destruct (O (s "nsubj:pa") 115%N 115%N) as [H|[H _]]; [exact H|discriminate].
  - exists 3, 1. split; [vm_compute; auto|]. split; [reflexivity|]. split; [reflexivity|]. split; [vm_compute; auto 10|]. split; [vm_compute; auto|]. split; [vm_compute; reflexivity|].
    exists (s "csubj"). split; [reflexivity|]. split; [right; left; reflexivity|]. destruct (O (s "csu") 98%N 106%N) as [H|[H _]]; [exact H|discriminate].
Qed.

(** C88. Subjects attached to the technical root are not treated. *)
Definition subj_root := sentence [0; 0] ["nsubj"; "nsubj"].
Theorem C88_root_refuted : ~ (forall r st st', consistent (l_heap st) r -> labelled st r -> multisubj st r = (st', Ok tt) ->
  forall p x y, live (l_heap st') r p -> In x (h_desc (l_heap st') r) -> In y (h_desc (l_heap st') r) ->
    h_par (l_heap st') x = Some p -> h_par (l_heap st') y = Some p -> counts st' x -> counts st' y -> x = y).
Proof.
  intros H. assert (CO : consistent (l_heap subj_root) 0) by (unfold subj_root, sentence; cbn [l_heap]; planted_ok).
  assert (L : labelled subj_root 0).
  { intros x I. vm_compute in I. decompose [or] I; subst; try tauto; (eexists; split; [vm_compute; reflexivity|]; intros J; vm_compute in J; decompose [or] J; try discriminate; tauto). }
  assert (E : multisubj subj_root 0 = (subj_root, Ok tt)) by (vm_compute; reflexivity).
  assert (C : forall x, x = 1 \/ x = 2 -> counts subj_root x).
  { intros x X. exists (s "nsubj"). split; [destruct X; subst; reflexivity|]. split; [left; reflexivity|]. intros [t Q]. apply (f_equal (@length _)) in Q. rewrite app_length in Q. change (length (s "nsubj")) with 5 in Q. change (length (s ":outer")) with 6 in Q. lia. }
  assert (1 = 2); [|discriminate]. apply (H 0 subj_root subj_root CO L E 0); [left; reflexivity|vm_compute; auto|vm_compute; auto|reflexivity|reflexivity|apply C; auto|apply C; auto].
Qed.
Print Assumptions C88_root_refuted.
