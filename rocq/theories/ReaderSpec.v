(** Specification of the readers. *)
From Coq Require Import String List NArith ZArith Bool.
From Verif Require Import PyStr PyList PyExn TreeModel BundleModel BundleSpec ReaderModel.
Import ListNotations.

Section Spec.
Context {A : Type}.

(** A file whose trees are l, read one by one or (with [batch]) all at once. *)
Definition file_of (batch : bool) (l : list (item A)) : file A :=
  mkFile (map Some l) (if batch then Some (Ok (map Some l)) else None).
(** A new reader of the files fs, or of one open file. *)
Definition reads (batch : bool) (fs : list (list (item A))) (r : reader A) : Prop :=
  r = new_reader (map (file_of batch) fs) \/ (exists l, fs = [l] /\ r = new_reader_handle (file_of batch l)).
(** Does the sent_id filter accept the tree?  A tree without sent_id is matched as "?". *)
Definition accepted (o : opts) (it : item A) : bool :=
  match o_filter o with
  | None => true
  | Some f => f (match it_sid it with Some v => v | None => PyStr.s "?" end)
  end.
(** The trees to be read, in the order of the input. *)
Definition wanted (o : opts) (l : list (item A)) : list (item A) := filter (accepted o) l.
Definition input (o : opts) (fs : list (list (item A))) : list (item A) := concat (map (wanted o) fs).

(** The trees of a document: bundle by bundle. *)
Definition trees_of (s : store) (d : nat) : list nat := concat (map (b_trees s) (d_bundles s d)).
(** The i-th tree of the list is the i-th item. *)
Definition contents (r : reader A) (ts : list nat) : list (option A) := map (rd_content r) ts.
Definition items (l : list (item A)) : list (option A) := map (fun it => Some (it_content it)) l.

(** The sent_id of the tree is i, or i/z. *)
Definition has_id (it : item A) (i z : str) : Prop :=
  i <> [] /\ ~ In 47%N i /\ ((it_sid it = Some i /\ z = []) \/ it_sid it = Some (i ++ 47%N :: z)).
Definition identified (it : item A) : Prop := exists i z, has_id it i z.
(** The zone in which the tree is put: that of its sent_id unless the reader has the parameter zone. *)
Definition zone_for (o : opts) (z : str) : str := match o_zone o with Some y => y | None => z end.

(** The bundle b consists of the trees g (of the input), whose sent_ids start with the id of the bundle. *)
Definition bundle_reads (o : opts) (r : reader A) (b : nat) (g : list (item A)) : Prop :=
  g <> [] /\
  Forall2 (fun t it => rd_content r t = Some (it_content it) /\
             exists i z, has_id it i z /\ b_id (rd_store r) b = Some i /\
               t_zone (rd_store r) t = Some (zone_for o z) /\
               t_sid (rd_store r) t = Some (full_id i (zone_for o z)))
          (b_trees (rd_store r) b) g.
(** Two trees of the input belong to the same bundle. *)
Definition same_id (x y : item A) : Prop := exists i z w, has_id x i z /\ has_id y i w.
(** Neighbouring bundles have different ids. *)
Definition separated (gs : list (list (item A))) : Prop :=
  forall l1 g h l2 x y, gs = l1 ++ g :: h :: l2 -> In x g -> In y h -> ~ same_id x y.
(** The trees of the documents, in order. *)
Definition all_trees (s : store) (docs : list nat) : list nat := concat (map (trees_of s) docs).
(** The bundles of the documents *)
Definition bundles_of (s : store) (docs : list nat) : list nat := concat (map (d_bundles s) docs).
Definition nonempty_list {B} (l : list B) : bool := match l with [] => false | _ => true end.
(** The number of trees marked as the first of a document. *)
Definition docs_in (l : list (item A)) : nat := length (filter (fun it => truthy (it_newdoc it)) l).
(** p: the trees of the first max documents of l: l up to the tree that starts the next document. *)
Definition first_docs (max : nat) (l p : list (item A)) : Prop :=
  exists rest, l = p ++ rest /\ docs_in p <= max /\
    (rest = [] \/ (docs_in p = max /\ exists it k, rest = it :: k /\ truthy (it_newdoc it) = true)).
(** The file starts with a document. *)
Definition starts_doc (l : list (item A)) : Prop := exists it k, l = it :: k /\ truthy (it_newdoc it) = true.
End Spec.
