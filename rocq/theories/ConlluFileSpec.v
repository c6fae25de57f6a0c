(** Specification of saving a document in CoNLL-U and loading it. *)
From Coq Require Import String List NArith ZArith Bool.
From Verif Require Import PyStr PyList PyExn TreeModel TreeSpec DocModel DualDictModel ConlluModel ConlluSpec ConlluRead BundleModel BundleSpec ReaderModel.
Import ListNotations.

(** A document as a value: bundles with their ids, trees with their zones. *)
Definition docv := list (str * list (str * sentv)).
Definition sentences (D : docv) : list sentv := concat (map (fun b => map snd (snd b)) D).

(** All the texts of a sentence, apart from ordinary comments *)
Definition val_text (v : val) : list str := match v with VStr x => [x] | _ => [] end.
Definition texts (v : sentv) : list str :=
  concat (map (word_columns 0) (sv_words v)) ++ concat (map empty_columns (sv_empties v)) ++ concat (map mwt_columns (sv_mwts v)) ++
  val_text (sv_newdoc v) ++ val_text (sv_newpar v) ++ concat (map (fun kv => [fst kv; snd kv]) (sv_json v)).
(** No text contains a line end. *)
Definition unbroken (v : sentv) : Prop := forall x, In x (texts v) -> ~ In LF x /\ ~ In CR x.

(** The sent_ids follow from the bundles and zones: i or i/z. *)
Definition names (i z : str) (v : sentv) : Prop := (sv_sent_id v = i /\ z = []) \/ sv_sent_id v = i ++ s "/" ++ z.
Definition legal_zone (z : str) : Prop := valid_zone z = true /\ z <> s "all".
Definition ok_bundle (b : str * list (str * sentv)) : Prop :=
  fst b <> [] /\ ~ In 47%N (fst b) /\ snd b <> [] /\ NoDup (map fst (snd b)) /\
  Forall (fun zv => legal_zone (fst zv) /\ names (fst b) (fst zv) (snd zv)) (snd b).
Definition ok_document (D : docv) : Prop :=
  Forall ok_bundle D /\ forall D1 b c D2, D = D1 ++ b :: c :: D2 -> fst b <> fst c.

(** Everything that exists in [d] is the same in [d']. *)
Definition keeps (d d' : doc) : Prop :=
  (forall y, y < h_next (d_h d) -> unchanged d d' y) /\ (forall m, m < d_mnext d -> d_m d' m = d_m d m).
(** The tree r contains the sentence v, where special comments that had no place have been added. *)
Definition holds (lower : str -> str) (d : doc) (r : nat) (v : sentv) : Prop :=
  consistent (d_h d) r /\
  exists items, interleave (sv_comments v) (missing v) items /\
    forall env, some_nonempty (we_ge env) = sv_entity v -> sentence lower env d r (with_comments v items).
(** r is a new tree with the sentence v; nothing that was in d0 before has changed. *)
Definition loaded (lower : str -> str) (d0 d : doc) (r : nat) (v : sentv) : Prop :=
  h_next (d_h d0) <= r /\ keeps d0 d /\ holds lower d r v.
(** Reading these lines gives the sentence, whatever has been read before. *)
Definition lines_hold (cfg : rcfg) (canon : str -> option str) (lower : str -> str) (lines : list str) (v : sentv) : Prop :=
  forall d0 ge, exists d ge' r, read_tree_from_lines cfg canon lower d0 ge lines = ((d, ge'), Ok (Some r)) /\ loaded lower d0 d r v.
(** The different new trees [rs] hold the sentences [vs]; nothing that was in d0 before has changed. *)
Definition all_loaded (lower : str -> str) (d0 : doc) (rs : list nat) (vs : list sentv) (d : doc) : Prop :=
  NoDup rs /\ Forall2 (loaded lower d0 d) rs vs.
(** The tree snd t of the document d has the content v and can be saved; fst t is what the tree sees of its document. *)
Definition saved (lower : str -> str) (canon : str -> option str) (d : doc) (t : wenv * nat) (v : sentv) : Prop :=
  representable lower canon v /\ unbroken v /\ consistent (d_h d) (snd t) /\ sentence lower (fst t) d (snd t) v /\ we_bundle (fst t) <> None.
(** Does writing the sentence mention global.Entity? *)
Definition shows_entity (v : sentv) : Prop := In CEntity (sv_comments v) \/ (set_val (sv_newdoc v) = true /\ sv_entity v <> None).

(** The bundle b of the reader consists of these trees. *)
Definition same_bundle (cfg : rcfg) (canon : str -> option str) (lower : str -> str) (r : reader (list str)) (b : nat) (bv : str * list (str * sentv)) : Prop :=
  b_id (rd_store r) b = Some (fst bv) /\
  Forall2 (fun t zv => t_zone (rd_store r) t = Some (fst zv) /\ t_sid (rd_store r) t = Some (full_id (fst bv) (fst zv)) /\
             exists lines, rd_content r t = Some lines /\ lines_hold cfg canon lower lines (snd zv))
          (b_trees (rd_store r) b) (snd bv).
