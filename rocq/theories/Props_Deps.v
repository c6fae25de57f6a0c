(** Properties of enhanced dependencies: C20, C60, C61, C62. *)
From Coq Require Import String List NArith ZArith Bool.
From Verif Require Import PyStr PyList PyExn TreeModel TreeSpec EmptySpec EmptyProofs DepsModel DepsSpec DepsProofs Props_Empty.
Import ListNotations.

Lemma edemo_ok : consistent edemo 0 /\ good_empties edemo 0.
Proof.
  split; [apply (TreeProps.world_consistent _ _ (careful_world _ _ edemo_careful))|apply (careful_good _ _ edemo_careful)]; left; auto.
Qed.
Lemma efull_ok : consistent efull 0 /\ good_empties efull 0.
Proof.
  split; [apply (TreeProps.world_consistent _ _ (careful_world _ _ efull_careful))|apply (careful_good _ _ efull_careful)]; left; auto.
Qed.

(** C20. String to nodes and back. *)
Theorem C20_read_then_write : forall st r x l, consistent (s_h st) r -> good_empties (s_h st) r -> any_node (s_h st) r x ->
  expressible (s_h st) r l -> s_raw st x = Some (deps_column (s_h st) l) -> s_deps st x = None ->
  exists st', deps st x = (st', Ok (DList l)) /\ s_h st' = s_h st /\
    snd (raw_deps st' x) = Ok (Some (deps_column (s_h st) l)) /\
    (forall y, y <> x -> s_deps st' y = s_deps st y /\ s_raw st' y = s_raw st y).
Proof. exact deps_round_trip. Qed.
Print Assumptions C20_read_then_write.

(** C20. Nodes to string and back; with [s_h st] any later state of the tree this says that raw_deps
    follows the new IDs of the same heads. *)
Theorem C20_write_then_read : forall st r x l, consistent (s_h st) r -> good_empties (s_h st) r -> any_node (s_h st) r x ->
  expressible (s_h st) r l -> s_deps st x = Some (DList l) ->
  exists st', raw_deps st x = (st', Ok (Some (deps_column (s_h st) l))) /\ s_deps st' = s_deps st /\ s_h st' = s_h st /\
    snd (deps (set_raw_deps st' x (Some (deps_column (s_h st) l))) x) = Ok (DList l).
Proof. exact deps_written. Qed.
Print Assumptions C20_write_then_read.

Definition dlist : list (nat * str) := [(0%nat, s "root"); (4%nat, s "nmod:of:gen"); (7%nat, s "orphan")].
Definition dst : dstate := set_raw_deps (dstate0 edemo) 1 (Some (s "0:root|4:nmod:of:gen|2.2:orphan")).
Example C20_example : any_node edemo 0 1 /\ expressible edemo 0 dlist /\
  s_raw dst 1 = Some (deps_column edemo dlist) /\ s_deps dst 1 = None /\
  snd (deps dst 1) = Ok (DList dlist) /\
  (let st := put_h (fst (deps dst 1)) (fst (node_remove edemo 2 (Some (s "rehang")))) in
   snd (raw_deps st 1) = Ok (Some (s "0:root|3:nmod:of:gen|1.3:orphan"))).
Proof.
  split; [vm_compute; auto|]. split; [|vm_compute; auto].
  split; [discriminate|]. intros p d [E|[E|[E|[]]]]; injection E as <- <-; (split; [vm_compute; auto 10|]);
    intros H; vm_compute in H; repeat (destruct H as [H|H]; [discriminate H|]); exact H.
Qed.

(** C20. A DEPS string that has not been parsed yet does not follow renumbering: after removing another
    word the same string denotes another node. *)
Theorem C20_unread_refuted : ~ (forall rs h r o x raw p q d, world rs h -> In r rs -> good_empties h r -> op_args_live h r o ->
  In p (h_desc (fst (tree_step h o)) r) ->
  snd (deps (set_raw_deps (dstate0 h) x raw) x) = Ok (DList [(p, d)]) ->
  snd (deps (put_h (set_raw_deps (dstate0 h) x raw) (fst (tree_step h o))) x) = Ok (DList [(q, d)]) -> p = q).
Proof.
  intros H. specialize (H [0%nat] edemo 0%nat (OpRemove 1 None) 2%nat (Some (s "3:dep")) 3%nat 4%nat (s "dep") (careful_world _ _ edemo_careful)).
  assert (3%nat = 4%nat) as E; [|discriminate E]. apply H.
  - left; auto.
  - apply edemo_ok.
  - vm_compute; auto.
  - vm_compute; auto.
  - vm_compute; reflexivity.
  - vm_compute; reflexivity.
Qed.
Print Assumptions C20_unread_refuted.

(** C60. The first access to node.deps parses exactly the well-formed strings (negative heads apart). *)
Theorem C60_first_access_partial : forall st r x raw, consistent (s_h st) r -> good_empties (s_h st) r -> any_node (s_h st) r x ->
  s_raw st x = Some raw -> s_deps st x = None -> raw <> s "_" ->
  (forall p, In p (split 124%N raw) -> ~ negative_head p) ->
  (exists l, Forall2 (piece_of (s_h st) r) (split 124%N raw) l /\ snd (deps st x) = Ok (DList l)) \/
  ((snd (deps st x) = Raise ValueError \/ snd (deps st x) = Raise IndexError) /\
   forall l, ~ Forall2 (piece_of (s_h st) r) (split 124%N raw) l).
Proof. exact deps_first. Qed.
Print Assumptions C60_first_access_partial.
Example C60_example : any_node edemo 0 1 /\ s_raw dst 1 = Some (s "0:root|4:nmod:of:gen|2.2:orphan") /\
  (forall p, In p (split 124%N (s "0:root|4:nmod:of:gen|2.2:orphan")) -> ~ negative_head p) /\
  snd (deps (set_raw_deps dst 1 (Some (s "5:x"))) 1) = Raise IndexError /\
  snd (deps (set_raw_deps dst 1 (Some (s "2.3:x"))) 1) = Raise ValueError /\
  snd (deps (set_raw_deps dst 1 (Some (s "2:x||3:y"))) 1) = Raise ValueError.
Proof.
  split; [vm_compute; auto|]. split; [reflexivity|]. split; [|vm_compute; auto].
  intros p Hp [head [d [z [E [N [I Z0]]]]]].
  assert (S : PyStr.split1 58%N p = Some (head, d)) by (rewrite E; apply (PyStrFacts.split1_app 58%N head d N)).
  vm_compute in Hp. repeat destruct Hp as [Hp|Hp]; try contradiction; subst p; vm_compute in S;
    injection S as <- <-; vm_compute in I; congruence || (injection I as <-; apply Z0; reflexivity) || (injection I as <-; discriminate Z0).
Qed.

(** C60. After a failed access the next one silently returns a truncated list. *)
Theorem C60_second_access_refuted : ~ (forall rs h r x raw e, world rs h -> In r rs -> good_empties h r -> any_node h r x ->
  snd (deps (set_raw_deps (dstate0 h) x raw) x) = Raise e ->
  exists e', snd (deps (fst (deps (set_raw_deps (dstate0 h) x raw) x)) x) = Raise e').
Proof.
  intros H. specialize (H [0%nat] edemo 0%nat 1%nat (Some (s "2:a|x:b")) ValueError (careful_world _ _ edemo_careful)).
  destruct H as [e H].
  - left; auto.
  - apply edemo_ok.
  - left. right. vm_compute. auto.
  - vm_compute; reflexivity.
  - vm_compute in H. discriminate H.
Qed.
Print Assumptions C60_second_access_refuted.
(** C60. A negative head is accepted. *)
Theorem C60_negative_refuted : ~ (forall rs h r x raw l, world rs h -> In r rs -> good_empties h r -> any_node h r x ->
  snd (deps (set_raw_deps (dstate0 h) x (Some raw)) x) = Ok (DList l) -> raw <> s "_" -> Forall2 (piece_of h r) (split 124%N raw) l).
Proof.
  intros H. specialize (H [0%nat] edemo 0%nat 1%nat (s "-1:a") [(4%nat, s "a")] (careful_world _ _ edemo_careful)).
  assert (F : Forall2 (piece_of edemo 0) (split 124%N (s "-1:a")) [(4%nat, s "a")]).
  { apply H.
    - left; auto.
    - apply edemo_ok.
    - left. right. vm_compute. auto.
    - vm_compute; reflexivity.
    - discriminate. }
  change (split 124%N (s "-1:a")) with [s "-1:a"] in F.
  inversion F as [|? ? ? ? P]. destruct (piece_split _ _ _ _ P) as [head [S D]].
  vm_compute in S. injection S as <-. destruct D as [[D _]|[_ [_ D]]].
  - repeat (destruct D as [D|D]; [discriminate D|]). exact D.
  - vm_compute in D. discriminate D.
Qed.
Print Assumptions C60_negative_refuted.

(** C61. Emptying the list in place is not reflected by raw_deps. *)
Theorem C61_emptied_refuted : ~ (forall rs h r x raw l, world rs h -> In r rs -> any_node h r x ->
  snd (deps (set_raw_deps (dstate0 h) x raw) x) = Ok (DList l) ->
  let st := mutate_deps (fst (deps (set_raw_deps (dstate0 h) x raw) x)) x [] in
  snd (raw_deps st x) = Ok (Some (s "_")) \/ snd (raw_deps st x) = Ok None).
Proof.
  intros H. specialize (H [0%nat] edemo 0%nat 1%nat (Some (s "2:a")) [(2%nat, s "a")] (careful_world _ _ edemo_careful)).
  destruct H as [H|H].
  - left; auto.
  - left. right. vm_compute. auto.
  - vm_compute; reflexivity.
  - vm_compute in H. discriminate H.
  - vm_compute in H. discriminate H.
Qed.
Print Assumptions C61_emptied_refuted.
(** C61. Any other change of the list is. *)
Theorem C61_changed_partial : forall st r x l, consistent (s_h st) r -> good_empties (s_h st) r -> any_node (s_h st) r x ->
  expressible (s_h st) r l ->
  snd (raw_deps (mutate_deps st x l) x) = Ok (Some (deps_column (s_h st) l)) /\
  snd (raw_deps (set_deps st x l) x) = Ok (Some (deps_column (s_h st) l)).
Proof. exact deps_changed. Qed.
Print Assumptions C61_changed_partial.
Example C61_example : expressible edemo 0 [(2%nat, s "a")] /\
  snd (raw_deps (mutate_deps (fst (deps dst 1)) 1 (dlist ++ [(2%nat, s "a")])) 1) = Ok (Some (s "0:root|4:nmod:of:gen|2.2:orphan|2:a")).
Proof.
  split; [|vm_compute; reflexivity]. split; [discriminate|]. intros p d [E|[]]; injection E as <- <-. split; [left; right; vm_compute; auto|].
  intros [H|[]]. discriminate H.
Qed.

(** C62. What removing an empty node does. *)
Theorem C62_empty_remove_partial : forall st r e, consistent (s_h st) r -> good_empties (s_h st) r -> In e (h_emp (s_h st) r) ->
  let st' := empty_remove st e in let h' := s_h st' in
  h_emp h' r = filter (fun y => negb (Nat.eqb y e)) (h_emp (s_h st) r) /\
  h_desc h' r = h_desc (s_h st) r /\ consistent h' r /\ s_raw st' = s_raw st /\
  (forall y, s_deps st' y = s_deps st y \/ (y <> e /\ any_node (s_h st) r y /\ s_deps st' y = Some DKeys /\ exists l, s_deps st y = Some (DList l))) /\
  (~ blocked (s_h st) r e -> good_empties h' r /\
     forall w y, In w (h_desc h' r) -> In y (h_emp h' r) -> (before_empty (s_h st) w y <-> before_empty h' w y)).
Proof. exact empty_remove_spec. Qed.
Print Assumptions C62_empty_remove_partial.
Example C62_example : In 6%nat (h_emp edemo 0) /\ ~ blocked edemo 0 6 /\
  map (h_eord (s_h (empty_remove dst 6))) (h_emp (s_h (empty_remove dst 6)) 0) = [11; 21; 31]%Z.
Proof.
  split; [vm_compute; auto|]. split; [|vm_compute; reflexivity]. intros [H _]. vm_compute in H. apply H. reflexivity.
Qed.

(** C62. The enhanced dependencies of the other nodes are lost: after e.remove() raw_deps raises. *)
Theorem C62_deps_refuted : ~ (forall rs h r e x raw l, world rs h -> In r rs -> good_empties h r -> In e (h_emp h r) ->
  any_node h r x -> x <> e -> snd (deps (set_raw_deps (dstate0 h) x raw) x) = Ok (DList l) ->
  exists v, snd (raw_deps (empty_remove (fst (deps (set_raw_deps (dstate0 h) x raw) x)) e) x) = Ok v).
Proof.
  intros H. specialize (H [0%nat] edemo 0%nat 5%nat 1%nat (Some (s "2:a")) [(2%nat, s "a")] (careful_world _ _ edemo_careful)).
  destruct H as [v H].
  - left; auto.
  - apply edemo_ok.
  - vm_compute; auto.
  - left. right. vm_compute. auto.
  - discriminate.
  - vm_compute; reflexivity.
  - vm_compute in H. discriminate H.
Qed.
Print Assumptions C62_deps_refuted.
(** C62. An empty node of the next word gets the ID of a word. *)
Theorem C62_blocked_refuted : ~ (forall rs h r e, world rs h -> In r rs -> good_empties h r -> In e (h_emp h r) ->
  good_empties (s_h (empty_remove (dstate0 h) e)) r).
Proof.
  intros H. specialize (H [0%nat] efull 0%nat 12%nat (careful_world _ _ efull_careful)).
  assert (G : good_empties (s_h (empty_remove (dstate0 efull) 12)) 0).
  { apply H; [left; auto|apply efull_ok|vm_compute; auto 20]. }
  apply (ge_frac _ _ G 13%nat); [vm_compute; auto 20|vm_compute; reflexivity].
Qed.
Print Assumptions C62_blocked_refuted.
(** C62. Removing an empty node a second time is not a no-op. *)
Theorem C62_twice_refuted : ~ (forall rs h r e y, world rs h -> In r rs -> good_empties h r -> In e (h_emp h r) ->
  let st := empty_remove (dstate0 h) e in In y (h_emp (s_h st) r) -> h_eord (s_h (empty_remove st e)) y = h_eord (s_h st) y).
Proof.
  intros H. specialize (H [0%nat] efull 0%nat 4%nat 6%nat (careful_world _ _ efull_careful)).
  assert (E : 11%Z = 12%Z); [|discriminate E].
  refine (eq_trans _ (eq_trans (H _ _ _ _) _)).
  - vm_compute; reflexivity.
  - left; auto.
  - apply efull_ok.
  - vm_compute; auto.
  - vm_compute; auto.
  - vm_compute; reflexivity.
Qed.
Print Assumptions C62_twice_refuted.
