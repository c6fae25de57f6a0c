(** ud.FixCompoundName: C91. The intended property: names without numbers become flat, names with numbers are
    skipped. The code has the test the other way round: C91_numbers_refuted and C91_names_refuted show it. What
    holds of the tree and of the names that are converted is proved below. *)
From Coq Require Import String List NArith ZArith Bool Lia.
From Verif Require Import PyStr PyList PyListFacts PyExn TreeModel TreeSpec TreeProps TreeExamples Props_Tree RehangModel RehangSpec Props_Rehang CnameModel CnameSpec CnameProofs.
Import ListNotations.
Local Open Scope string_scope.
Local Open Scope list_scope.

(** C91. The block never raises and keeps the tree consistent and all tags; nothing changes if no name has a number. *)
Theorem C91_tree : forall r digit form st, consistent (l_heap st) r -> ~ propn st r ->
  exists st', cname digit form st r = (st', Ok tt) /\ rehung (l_heap st) (l_heap st') r /\ l_upos st' = l_upos st /\ l_pproj st' = l_pproj st /\
    ((forall p x, compound_of r st p x -> ~ numbered digit form r st p) -> st' = st).
Proof. exact cname_ok. Qed.
Print Assumptions C91_tree.
(** C91. A name that is converted: its first word takes the place and label of the old head, the other words of the
    name are attached to it as flat:name, and everything else stays. Missing: names without a number. *)
Theorem C91_name_partial : forall r digit form st x p g hd, consistent (l_heap st) r -> compound_of r st p x ->
  h_par (l_heap st) p = Some g -> numbered digit form r st p -> first_of_name r st p hd ->
  exists st', cname_node digit form st x = (st', Ok tt) /\ rehung (l_heap st) (l_heap st') r /\
    l_upos st' = l_upos st /\ l_pproj st' = l_pproj st /\
    h_par (l_heap st') hd = Some g /\ l_dep st' hd = l_dep st p /\
    (forall y, in_name r st p y -> y <> hd -> h_par (l_heap st') y = Some hd /\ l_dep st' y = Some (s "flat:name")) /\
    (forall y, ~ in_name r st p y -> l_dep st' y = l_dep st y) /\
    (forall y, ~ in_name r st p y -> live (l_heap st) r y -> h_par (l_heap st') y = h_par (l_heap st) y).
Proof. exact cname_edge. Qed.
Print Assumptions C91_name_partial.
(** C91. A word that is not part of a name with a number is left alone. *)
Theorem C91_other : forall r digit form st x, consistent (l_heap st) r -> ~ propn st r -> In x (h_desc (l_heap st) r) ->
  (forall p, compound_of r st p x -> ~ numbered digit form r st p) -> cname_node digit form st x = (st, Ok tt).
Proof. exact cname_skip. Qed.
Print Assumptions C91_other.

Definition named (ps : list nat) (ds : list string) (us : list nat) : lst :=
  mkL (planted ps) (labels ds) (fun x => if existsb (Nat.eqb x) us then Some (s "PROPN") else None) (fun _ => []).
Definition ascii_digit (c : N) : bool := N.leb 48 c && N.leb c 57.
(** On 30 November 1993 came. *)
Definition dated := named [3; 3; 5; 3; 0] ["case"; "compound"; "obl"; "compound:date"; "root"] [2; 3; 4].
Definition dated_form (x : nat) : str := s (nth x [""; "On"; "30"; "November"; "1993"; "came"] "").
Lemma dated_ok : consistent (l_heap dated) 0.
Proof. unfold dated, named. cbn [l_heap]. planted_ok. Qed.
(** Barack Obama came. *)
Definition obama := named [2; 3; 0] ["compound"; "nsubj"; "root"] [1; 2].
Definition obama_form (x : nat) : str := s (nth x [""; "Barack"; "Obama"; "came"] "").
Lemma obama_ok : consistent (l_heap obama) 0.
Proof. unfold obama, named. cbn [l_heap]. planted_ok. Qed.
Lemma dated_name y : in_name 0 dated 3 y -> y = 2%nat \/ y = 3%nat \/ y = 4%nat.
Proof.
  intros [[-> _]|[I [_ [P _]]]]; [right; left; reflexivity|]. vm_compute in I.
  destruct I as [<-|[<-|[<-|[<-|[<-|[]]]]]]; try (vm_compute in P; discriminate P); clear P; [left|right; left|right; right]; reflexivity.
Qed.
Lemma dated_compound : compound_of 0 dated 3 2.
Proof. split; [vm_compute; auto|]. split; [reflexivity|]. split; [reflexivity|]. split; reflexivity. Qed.
Lemma dated_numbered : numbered ascii_digit dated_form 0 dated 3.
Proof. exists 2%nat. split; [right; exact dated_compound|]. exists 51%N. split; [vm_compute; auto|reflexivity]. Qed.

Example C91_case : consistent (l_heap dated) 0 /\ ~ propn dated 0 /\ compound_of 0 dated 3 2 /\
  numbered ascii_digit dated_form 0 dated 3 /\ first_of_name 0 dated 3 2 /\
  (let st := fst (cname ascii_digit dated_form dated 0) in
   map (h_par (l_heap st)) [1; 2; 3; 4; 5] = map Some [3; 5; 2; 2; 0] /\
   map (l_dep st) [1; 2; 3; 4; 5] = map (fun d => Some (s d)) ["case"; "obl"; "flat:name"; "flat:name"; "root"]).
Proof.
  split; [exact dated_ok|]. split; [intros E; vm_compute in E; discriminate E|].
  split; [exact dated_compound|]. split; [exact dated_numbered|].
  split. { split; [right; exact dated_compound|]. intros y Hy N. apply dated_name in Hy as [-> | [-> | ->]]; [destruct (N eq_refl)| |]; vm_compute; reflexivity. }
  vm_compute. split; reflexivity.
Qed.
(** C91. A name with numbers is not skipped: this date is re-attached and relabelled. *)
Theorem C91_numbers_refuted : exists form st st' p x, consistent (l_heap st) 0 /\ ~ propn st 0 /\
  compound_of 0 st p x /\ numbered ascii_digit form 0 st p /\ cname ascii_digit form st 0 = (st', Ok tt) /\
  h_par (l_heap st) p <> h_par (l_heap st') p /\ l_dep st' p = Some (s "flat:name").
Proof.
  exists dated_form, dated, (fst (cname ascii_digit dated_form dated 0)), 3, 2.
  split; [exact dated_ok|]. split; [intros E; vm_compute in E; discriminate E|].
  split; [exact dated_compound|]. split; [exact dated_numbered|].
  split. { assert (E : snd (cname ascii_digit dated_form dated 0) = Ok tt) by (vm_compute; reflexivity).
    revert E. generalize (cname ascii_digit dated_form dated 0). intros [a b]. cbn [fst snd]. now intros ->. }
  split; [|vm_compute; reflexivity]. intros E. vm_compute in E. discriminate E.
Qed.
Print Assumptions C91_numbers_refuted.
(** C91. A name without numbers is not converted. *)
Theorem C91_names_refuted : exists form st p x, consistent (l_heap st) 0 /\ ~ propn st 0 /\
  compound_of 0 st p x /\ ~ numbered ascii_digit form 0 st p /\ cname ascii_digit form st 0 = (st, Ok tt).
Proof.
  exists obama_form, obama, 2%nat, 1%nat. split; [exact obama_ok|].
  assert (NR : ~ propn obama 0) by (intros E; vm_compute in E; discriminate E). split; [exact NR|].
  split. { split; [vm_compute; auto|]. split; [reflexivity|]. split; [reflexivity|]. split; reflexivity. }
  assert (ND : forall p, In p (h_desc (l_heap obama) 0) -> ~ numbered ascii_digit obama_form 0 obama p).
  { intros p Hp [y [Hy [c [Hc D]]]]. assert (Iy : In y (h_desc (l_heap obama) 0)) by (destruct Hy as [[-> _]|[I _]]; auto).
    clear Hy Hp. vm_compute in Iy. destruct Iy as [<-|[<-|[<-|[]]]]; vm_compute in Hc; repeat (destruct Hc as [<-|Hc]; [vm_compute in D; discriminate D|]); destruct Hc. }
  split; [apply ND; vm_compute; auto|].
  destruct (cname_ok 0 ascii_digit obama_form obama obama_ok NR) as [st' [E [_ [_ [_ S]]]]].
  rewrite E. f_equal. apply S. intros p x Hc. apply ND. now apply (compound_word 0 obama p x obama_ok NR).
Qed.
Print Assumptions C91_names_refuted.
