(** Model of writing a whole document with write.Conllu and reading the file with read.Conllu, as far as the trees are
    concerned: basewriter.py, write/conllu.py, read/conllu.py read_trees.
    Left out: the doc_json_* comments (write/conllu.py:147-154) and the coreference annotation, which is stored in MISC
    before (basewriter.py:54-55; see CorefIOModel). *)
From Coq Require Import String List NArith ZArith Bool.
From Verif Require Import PyStr PyList PyExn DocModel ConlluModel ReaderModel ReaderFiles.
Import ListNotations.

(** block.py:79-89 process_document, bundle.py: process_tree is called for the trees of all bundles, in order; each tree is
    given with what it sees of its document. *)
Fixpoint write_trees (cfg : wcfg) (lower : str -> str) (d : doc) (ts : list (wenv * nat)) : res (list str) :=
  match ts with
  | [] => Ok []
  | (env, r) :: ts => rbind (process_tree cfg env lower d r) (fun ls => rbind (write_trees cfg lower d ts) (fun rest => Ok (ls ++ rest)))
  end.
(** print: each line is followed by a line end (basewriter.py:16, 101-103: newline='\n') *)
Definition printed (ls : list str) : str := concat (map (fun l => l ++ [LF]) ls).
Definition write_file (cfg : wcfg) (lower : str -> str) (d : doc) (ts : list (wenv * nat)) : res str :=
  rbind (write_trees cfg lower d ts) (fun ls => Ok (printed ls)).

(** files.py:122: the file is opened in text mode, so CR LF and CR are read as LF *)
Fixpoint newlines (x : str) : str :=
  match x with
  | [] => []
  | a :: x' =>
    if N.eqb a CR then
      LF :: (match x' with b :: x'' => if N.eqb b LF then newlines x'' else newlines x' | [] => [] end)
    else a :: newlines x'
  end.

(** read/conllu.py:84-92: read_tree_from_lines is called for the sentences in order *)
Fixpoint read_blocks (cfg : rcfg) (canon : str -> option str) (lower : str -> str) (d : doc) (ge : option str)
         (bs : list (list str)) : (doc * option str) * res (list (option nat)) :=
  match bs with
  | [] => ((d, ge), Ok [])
  | b :: bs =>
    match read_tree_from_lines cfg canon lower d ge b with
    | ((d, ge), Ok x) =>
      match read_blocks cfg canon lower d ge bs with
      | (s, Ok xs) => (s, Ok (x :: xs))
      | (s, e) => (s, e)
      end
    | (s, Raise e) => (s, Raise e)
    | (s, Diverge) => (s, Diverge)
    end
  end.
Definition sentences_of (text : str) : list (list str) := map (split LF) (filter nonempty (re_split false [] (newlines text))).
Definition read_file (cfg : rcfg) (canon : str -> option str) (lower : str -> str) (d : doc) (ge : option str) (text : str)
  : (doc * option str) * res (list (option nat)) := read_blocks cfg canon lower d ge (sentences_of text).
(** The file as seen by BaseReader when it calls read_trees (basereader.py:124-174); [slow]: what read_tree would return *)
Definition text_file_of (cfg : rcfg) (canon : str -> option str) (lower : str -> str) (slow : list (option (item (list str)))) (text : str)
  : file (list str) := mkFile slow (Some (read_trees cfg canon lower 0 (newlines text))).
