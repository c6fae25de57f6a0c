(** C01-C05: FEATS/MISC attributes and dependency labels. *)
From Coq Require Import String List NArith ZArith Bool Permutation Sorted.
From Verif Require Import PyStr PyList DualDictModel DualDictSpec DualDictProofs DeprelModel DeprelProofs.
Import ListNotations.

(** C01. *)
Theorem C01_behaves_as_mapping : forall lower v d0 os,
  value_ok v -> dd_new v = Some d0 -> Forall op_ok os ->
  exists m, initial v = Some m /\ answers lower d0 os = snd (map_run lower m os).
Proof. exact behaves_as_mapping. Qed.
Print Assumptions C01_behaves_as_mapping.
Example C01_example : exists d0 os,
  dd_new (Some (MStr (s "B=2|A=1|Flag"))) = Some d0 /\ Forall op_ok os /\
  answers (fun x => x) d0 os =
    [AVal (VStr (s "1")); AUnit; AString (s "A=1|B=2|C=3|Flag"); AUnit; AKeys [s "B"; s "A"; s "C"];
     AUnit; AString (s "A=1"); AVal (VStr [])].
Proof.
  eexists. exists [OGet (s "A"); OSet (s "C") (VStr (s "3")); OStr; OSet (s "Flag") (VStr []); OIter;
    OSetMapping (MMap [(s "A", VStr (s "1"))]); OStr; OGet (s "B")].
  split; [reflexivity|]. split; [|vm_compute; reflexivity].
  repeat constructor; simpl; auto.
Qed.

(** The inherited Mapping.get(name, default) / setdefault(name, default): one would expect the
    default for an absent name; the code always answers ''. *)
Theorem C51_get_default_refuted : exists d k dflt,
  reachable (fun x => x) d /\ snd (dd_contains d k) = false /\
  snd (dd_get_default d k dflt) <> dflt /\
  snd (dd_get (fst (dd_setdefault d k dflt)) k) <> dflt.
Proof.
  exists dd_empty, (s "Case"), (VStr (s "Nom")). split.
  - apply (reach _ None dd_empty []); simpl; auto.
  - vm_compute. repeat split; discriminate.
Qed.
Print Assumptions C51_get_default_refuted.

(** C02. *)
Theorem C02_round_trip : forall lower d0 d,
  is_dict d -> wf_dict d -> d <> [(s "_", VTrue)] ->
  exists t names,
    answers lower d0 [OSetMapping (MMap d); OStr] = [AUnit; AString t] /\
    (forall k, answers lower d0 [OSetMapping (MStr t); OGet k; OContains k] =
       [AUnit; AVal (match dict_get d k with Some v => v | None => VStr [] end);
        ABool (match dict_get d k with Some _ => true | None => false end)]) /\
    answers lower d0 [OSetMapping (MStr t); OIter] = [AUnit; AKeys names] /\
    Permutation names (map fst d) /\
    StronglySorted (fun a b => str_leb (lower a) (lower b) = true) names /\
    (t = s "_" <-> d = []).
Proof. exact round_trip. Qed.
Print Assumptions C02_round_trip.
Theorem C02_order_independent : forall lower d0 d1 d2,
  Permutation d1 d2 -> NoDup (map (fun kv => lower (fst kv)) d1) ->
  answers lower d0 [OSetMapping (MMap d1); OStr] = answers lower d0 [OSetMapping (MMap d2); OStr].
Proof. exact order_independent_run. Qed.
Print Assumptions C02_order_independent.
Example C02_example : let d := [(s "Number", VStr (s "Sing=x")); (s "Case", VStr (s "Nom")); (s "Foo", VTrue)] in
  is_dict d /\ wf_dict d /\ d <> [(s "_", VTrue)] /\
  snd (dd_str (fun x => x) (mkDD None d)) = s "Case=Nom|Foo|Number=Sing=x".
Proof.
  cbv zeta. repeat split; try (vm_compute; reflexivity); try discriminate.
  - repeat constructor; vm_compute; intuition discriminate.
  - destruct H as [[= <- <-]|[[= <- <-]|[[= <- <-]|[]]]]; discriminate.
  - destruct H as [[= <- <-]|[[= <- <-]|[[= <- <-]|[]]]]; vm_compute; intuition discriminate.
  - destruct H as [[= <- <-]|[[= <- <-]|[[= <- <-]|[]]]]; vm_compute; intuition discriminate.
  - destruct H as [[= <- <-]|[[= <- <-]|[[= <- <-]|[]]]]; vm_compute; intuition discriminate.
Qed.
(** The exception: a single flag named '_' is lost. *)
Theorem C02_underscore_flag_lost : forall lower d0,
  answers lower d0 [OSetMapping (MMap [(s "_", VTrue)]); OContains (s "_"); OStr;
                    OSetMapping (MStr (s "_")); OContains (s "_")] =
  [AUnit; ABool true; AString (s "_"); AUnit; ABool false].
Proof. reflexivity. Qed.
Print Assumptions C02_underscore_flag_lost.

(** C03. *)
Theorem C03_verbatim : forall lower d0 x os, Forall (reads x) os ->
  exists l, answers lower d0 (OSetMapping (MStr x) :: os ++ [OStr]) =
            AUnit :: l ++ [AString (match x with [] => s "_" | _ => x end)].
Proof. exact verbatim_run. Qed.
Print Assumptions C03_verbatim.
Example C03_example : let x := s "b=2||A=1|A=3|=" in
  Forall (reads x) [OGet (s "A"); ODel (s "C"); OLen; OIter; OStr; OContains (s "b")] /\
  answers (fun x => x) dd_empty [OSetMapping (MStr x); OGet (s "A"); ODel (s "C"); OLen; OStr] =
  [AUnit; AVal (VStr (s "3")); AUnit; ANat 3; AString x].
Proof.
  split; [|vm_compute; reflexivity].
  repeat constructor. vm_compute. intuition discriminate.
Qed.

(** C04. *)
Theorem C04_deletion : forall lower d k o, reachable lower d -> deletes k o ->
  exists names,
  answers lower d [OIter] = [AKeys names] /\
  answers lower d [o; OIter] = [AUnit; AKeys (filter (fun k' => negb (str_eqb k' k)) names)] /\
  answers lower d [o; OGet k; OContains k] = [AUnit; AVal (VStr []); ABool false] /\
  (forall k', k' <> k -> exists v b,
     answers lower d [OGet k'; OContains k'] = [AVal v; ABool b] /\
     answers lower d [o; OGet k'; OContains k'] = [AUnit; AVal v; ABool b]) /\
  (forall o' os, deletes k o' -> In k names -> Forall op_ok os ->
     answers lower d (o :: os) = answers lower d (o' :: os)).
Proof. exact deletion. Qed.
Print Assumptions C04_deletion.
Theorem C04_repeated_deletion : forall lower d k o o', reachable lower d -> deletes k o -> deletes k o' ->
  exists names, answers lower d [o; OIter] = [AUnit; AKeys names] /\
    answers lower d [o; o'; OIter] = [AUnit; AUnit; AKeys names] /\
    (forall k', exists v, answers lower d [o; OGet k'] = [AUnit; AVal v] /\
                          answers lower d [o; o'; OGet k'] = [AUnit; AUnit; AVal v]).
Proof. exact delete_twice. Qed.
Print Assumptions C04_repeated_deletion.
Example C04_example : exists d, reachable (fun x => x) d /\
  answers (fun x => x) d [OIter; ODel (s "A"); OStr] = [AKeys [s "A"; s "B"]; AUnit; AString (s "B=2")].
Proof.
  eexists. split.
  - apply (reach _ (Some (MStr (s "A=1"))) (mkDD (Some (s "A=1")) []) [OSet (s "B") (VStr (s "2"))]); try reflexivity.
    repeat constructor.
  - vm_compute. reflexivity.
Qed.

(** C05. *)
Theorem C05_udeprel_no_colon : forall d u, udeprel d = Some u -> ~ In COLON u.
Proof. exact udeprel_nocolon. Qed.
Print Assumptions C05_udeprel_no_colon.
Theorem C05_parts : forall d, exists u r,
  udeprel (Some d) = Some u /\ sdeprel (Some d) = Some r /\
  (d = u /\ r = [] \/ d = u ++ COLON :: r).
Proof. exact deprel_parts. Qed.
Print Assumptions C05_parts.
Theorem C05_set_udeprel : forall d v, ~ In COLON v ->
  udeprel (set_udeprel d v) = Some v /\
  sdeprel (set_udeprel d v) = match sdeprel d with Some r => Some r | None => Some [] end.
Proof. exact set_udeprel_spec. Qed.
Print Assumptions C05_set_udeprel.
Theorem C05_set_sdeprel : forall d v, exists d',
  set_sdeprel (Some d) v = Some (Some d') /\
  udeprel (Some d') = udeprel (Some d) /\
  sdeprel (Some d') = match v with Some r => Some r | None => Some [] end.
Proof. exact set_sdeprel_spec. Qed.
Print Assumptions C05_set_sdeprel.
Theorem C05_reset : forall d u r, udeprel (Some d) = Some u -> sdeprel (Some d) = Some r ->
  (forall x, ~ In COLON x -> d <> x ++ [COLON]) ->
  set_udeprel (Some d) u = Some d /\ set_sdeprel (Some d) (Some r) = Some (Some d).
Proof. intros d u r Hu Hr H. split; [exact (reset_udeprel d u Hu H)|exact (reset_sdeprel d r Hr H)]. Qed.
Print Assumptions C05_reset.
Example C05_example : udeprel (Some (s "acl:relcl:x")) = Some (s "acl") /\
  sdeprel (Some (s "acl:relcl:x")) = Some (s "relcl:x") /\
  set_udeprel (Some (s "acl:relcl:x")) (s "nmod") = Some (s "nmod:relcl:x").
Proof. vm_compute. auto. Qed.
