(** Specification of the layout of the files read by read.Conllu and read.Sentences. *)
From Coq Require Import String List NArith ZArith Bool.
From Verif Require Import PyStr PyList PyExn ReaderModel.
Import ListNotations.

(** The lines, each followed by a line end. *)
Definition lines_text (ls : list str) : str := concat (map (fun l => l ++ [LF]) ls).
(** A line of a sentence: not empty, no white space at the end. *)
Definition good_line (l : str) : Prop :=
  ~ In LF l /\ exists x a, l = x ++ [a] /\ is_space a = false.
Definition good_block (b : list str) : Prop := b <> [] /\ Forall good_line b.
(** A CoNLL-U file: each sentence is followed by one empty line. *)
Definition text_of (blocks : list (list str)) : str := concat (map (fun b => lines_text b ++ [LF]) blocks).

(** A plain text file: lines, and perhaps text after the last line end. *)
Definition text_file (f : list str * str) : str := lines_text (fst f) ++ snd f.
Definition is_text (f : list str * str) : Prop := Forall (fun l => ~ In LF l) (fst f) /\ ~ In LF (snd f).
(** The lines of the file that become trees: with skip, empty lines (also those with CR) are left out; the text after
    the last line end is a line, too, unless it is empty. *)
Definition kept (skip : bool) (f : list str * str) : list str :=
  filter (fun l => negb (skip && (str_eqb l [] || str_eqb l [CR]))) (fst f) ++ (if nonempty (snd f) then [snd f] else []).

(** The same file for a reader without read_trees: it is read tree by tree. *)
Definition one_by_one {A} (f : file A) : file A := mkFile (f_trees f) None.
(** The same documents with the same bundles and trees (or the same exception). *)
Definition same_result {A} (x y : reader A * res (list nat)) : Prop :=
  snd x = snd y /\ rd_store (fst x) = rd_store (fst y) /\ rd_newdoc (fst x) = rd_newdoc (fst y) /\ rd_content (fst x) = rd_content (fst y).
