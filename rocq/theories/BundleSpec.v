(** Specification of documents, bundles and zones. *)
From Coq Require Import String List NArith ZArith Bool.
From Verif Require Import PyStr PyList PyExn TreeModel BundleModel.
Import ListNotations.

(** The calls of the API; exceptions leave the state they reach. *)
Inductive doc_op :=
| DNewDocument
| DCreateBundle (d : nat)
| DNewTree (zone : option str)                 (* Root(zone) *)
| DCreateTree (b : nat) (zone : option str)
| DAddTree (b t : nat)
| DZone (t : nat) (z : str)                    (* t.zone = z *)
| DSentId (t : nat) (v : str)                  (* t.sent_id = v *)
| DReadSentId (t : nat)                        (* t.sent_id *)
| DBundleId (b : nat) (v : str)                (* b.bundle_id = v *)
| DRemoveTree (t : nat)
| DRemoveBundle (b : nat).
Definition doc_step (s : store) (o : doc_op) : store :=
  match o with
  | DNewDocument => fst (new_document s)
  | DCreateBundle d => fst (create_bundle s d)
  | DNewTree z => fst (new_tree s z)
  | DCreateTree b z => fst (create_tree s b z)
  | DAddTree b t => fst (add_tree s b t)
  | DZone t z => fst (set_zone s t z)
  | DSentId t v => fst (set_sent_id s t v)
  | DReadSentId t => fst (sent_id s t)
  | DBundleId b v => set_bundle_id s b v
  | DRemoveTree t => fst (tree_remove s t)
  | DRemoveBundle b => bundle_remove s b
  end.

(** The tree t is in some bundle. *)
Definition placed (s : store) (t : nat) : Prop := exists b, In t (b_trees s b).
(** The arguments exist. *)
Definition args_exist (s : store) (o : doc_op) : Prop :=
  match o with
  | DNewDocument | DNewTree _ => True
  | DCreateBundle d => d < nd s
  | DCreateTree b _ | DBundleId b _ | DRemoveBundle b => b < nb s
  | DAddTree b t => b < nb s /\ t < nt s
  | DZone t _ | DSentId t _ | DReadSentId t | DRemoveTree t => t < nt s
  end.
(** Everything the API can build, as long as no tree is added to a second bundle while it still is
    in another one. *)
Definition not_stolen (s : store) (o : doc_op) : Prop :=
  match o with DAddTree _ t => ~ placed s t | _ => True end.
Inductive doc_world : store -> Prop :=
| doc_world_0 : doc_world store0
| doc_world_step s o : doc_world s -> args_exist s o -> not_stolen s o -> doc_world (doc_step s o).
(** The same without that restriction. *)
Inductive any_doc_world : store -> Prop :=
| any_doc_world_0 : any_doc_world store0
| any_doc_world_step s o : any_doc_world s -> args_exist s o -> any_doc_world (doc_step s o).

(** The zone of a tree that is in a bundle. *)
Definition has_zone (s : store) (t : nat) (z : str) : Prop := t_zone s t = Some z.

(** The characters of a zone name: a lower case letter or '-'; a letter, a digit or '-'. *)
Definition zone_letter (c : char) : Prop := (97 <= c <= 122 \/ c = 45)%N.
Definition zone_alnum (c : char) : Prop := (zone_letter c \/ 65 <= c <= 90 \/ 48 <= c <= 57)%N.
(** A zone name: lower case letters and dashes, and optionally '_' followed by at least one letter, digit or
    dash; then possibly a newline. *)
Definition zone_shape (z : str) : Prop :=
  exists a r n, z = a ++ r ++ n /\ Forall zone_letter a /\
    (r = [] \/ exists c, r = 95%N :: c /\ c <> [] /\ Forall zone_alnum c) /\ (n = [] \/ n = [10%N]).

(** What sent_id should be. *)
Definition full_id (i z : str) : str := match z with [] => i | _ => i ++ PyStr.s "/" ++ z end.

(** All trees of b, except possibly t, have a non-empty zone. *)
Definition others_zoned (s : store) (b t : nat) : Prop :=
  forall t', In t' (b_trees s b) -> t' <> t -> ~ has_zone s t' [].
(** Assignments that keep sent_id, bundle_id and zone in agreement:
    - a non-empty bundle_id, unless the bundle has several trees and one of them has the empty zone;
    - for a tree that is in its bundle, a sent_id without '/' if it is the only tree of the bundle
      and has the empty zone;
    - a sent_id "i/z" with i and z non-empty, if no other tree of the bundle has the empty zone; the
      assignment may raise an exception (e.g. because the zone z is taken), unless the tree itself has the
      empty zone.
    Everything else is free. *)
Definition agreeing (s : store) (o : doc_op) : Prop :=
  match o with
  | DBundleId b v => v <> [] /\ forall t, In t (b_trees s b) -> has_zone s t [] -> b_trees s b = [t]
  | DSentId t v => forall b, t_bundle s t = Some b ->
      In t (b_trees s b) /\
      ((~ In 47%N v /\ v <> [] /\ has_zone s t [] /\ b_trees s b = [t]) \/
       (exists i z, v = i ++ PyStr.s "/" ++ z /\ ~ In 47%N i /\ i <> [] /\ z <> [] /\ others_zoned s b t /\
          (snd (set_sent_id s t v) = Ok tt \/ ~ has_zone s t [])))
  | _ => True
  end.
Inductive agreeing_world : store -> Prop :=
| agreeing_0 : agreeing_world store0
| agreeing_step s o : agreeing_world s -> args_exist s o -> not_stolen s o -> agreeing s o -> agreeing_world (doc_step s o).

(** The tree t is in the document d, in bundle b. *)
Definition in_document (s : store) (d b t : nat) : Prop := In b (d_bundles s d) /\ In t (b_trees s b).
(** Bundle b comes before bundle c in the document. *)
Definition bundle_before (s : store) (d b c : nat) : Prop :=
  exists l1 l2 l3, d_bundles s d = l1 ++ b :: l2 ++ c :: l3.
(** Document order of the words of one zone; a word is given by its tree and ord. *)
Definition word_before (s : store) (d : nat) (x y : nat * Z) : Prop :=
  (fst x = fst y /\ (snd x < snd y)%Z) \/
  (exists b c, In (fst x) (b_trees s b) /\ In (fst y) (b_trees s c) /\ bundle_before s d b c).
