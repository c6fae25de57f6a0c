(** Model of udapi/block/read/conllu.py read_tree, read_trees and udapi/block/read/sentences.py: how the text of a
    file is cut into trees.
    The text of a file is what file.read() returns, i.e. with '\n' at the ends of lines.
    A tree is represented by its lines; its sent_id and newdoc are those found by read_tree_from_lines
    (ConlluModel), which does not depend on the trees read before. *)
From Coq Require Import String List NArith ZArith Bool.
From Verif Require Import PyStr PyList PyExn DualDictModel DocModel ConlluModel ReaderModel.
Import ListNotations.

(** The lines of a file in "for line in filehandle", without the final '\n' *)
Definition file_lines (x : str) : list str :=
  let l := split LF x in
  match last_opt l with Some [] => removelast l | _ => l end.

Section Conllu.
Variables (cfg : rcfg) (canon : str -> option str) (lower : str -> str).
Notation tree := (item (list str)).

Definition newdoc_of (v : val) : newdoc := match v with VNone => NotDoc | VTrue => DocTrue | VStr x => DocName x end.
(** read/conllu.py:125-: what read_tree_from_lines returns *)
Definition parse (lines : list str) : res (option tree) :=
  match read_tree_from_lines cfg canon lower doc0 None lines with
  | (_, Raise e) => Raise e
  | (_, Diverge) => Diverge
  | (_, Ok None) => Ok None
  | ((d, _), Ok (Some r)) => Ok (Some (mkItem lines (ri_sent_id (d_ri d r)) (newdoc_of (ri_newdoc (d_ri d r)))))
  end.
Fixpoint parse_all (l : list (list str)) : res (list (option tree)) :=
  match l with
  | [] => Ok []
  | lines :: l => rbind (parse lines) (fun x => rbind (parse_all l) (fun xs => Ok (x :: xs)))
  end.

(** read/conllu.py:111-120: the lists of lines of the successive calls of read_tree *)
Fixpoint groups (cur : list str) (lines : list str) : list (list str) :=
  match lines with
  | [] => match cur with [] => [] | _ => [cur] end
  | l :: lines =>
    let l := rstrip l in
    if nonempty l then groups (cur ++ [l]) lines else cur :: groups [] lines
  end.

(** re.split(r'\n\n+', x); [sep]: the last characters were a separator *)
Fixpoint re_split (sep : bool) (cur : str) (x : str) : list str :=
  match x with
  | [] => [cur]
  | a :: x' =>
    if N.eqb a LF then
      if sep then re_split true cur x'
      else match x' with
           | b :: _ => if N.eqb b LF then cur :: re_split true [] x' else re_split false (cur ++ [a]) x'
           | [] => re_split false (cur ++ [a]) x'
           end
    else re_split false (cur ++ [a]) x'
  end.

(** read/conllu.py:94-109: the loop of read_trees with max_docs; a call on a group without words raises
    (None has no newdoc), lines after the last empty line are not used *)
Fixpoint trees_max (max loaded : nat) (cur : list str) (lines : list str) : res (list (option tree)) :=
  match lines with
  | [] => Ok []
  | l :: lines =>
    let l := rstrip l in
    if nonempty l then trees_max max loaded (cur ++ [l]) lines
    else rbind (parse cur) (fun x =>
         match x with
         | None => Raise AttributeError
         | Some it =>
           if truthy (it_newdoc it) && (loaded =? max) then Ok []
           else rbind (trees_max max (if truthy (it_newdoc it) then S loaded else loaded) [] lines) (fun xs => Ok (x :: xs))
         end)
  end.
(** read/conllu.py:83-109 read_trees *)
Definition read_trees (max : nat) (text : str) : res (list (option tree)) :=
  match max with
  | O => parse_all (map (split LF) (filter nonempty (re_split false [] text)))
  | _ => trees_max max 0 [] (file_lines text)
  end.
(** The file as seen by BaseReader.  If a call of read_tree raises, so does reading the file; that the trees before
    it have been read by then is not modelled. *)
Definition conllu_file (max : nat) (text : str) : res (file (list str)) :=
  rbind (parse_all (groups [] (file_lines text))) (fun trees => Ok (mkFile trees (Some (read_trees max text)))).
End Conllu.

(** read/sentences.py:38-58 read_tree: the trees of the file (their text) and newdoc.
    The lines are given with their line ends; [ignore]: ignore_empty_lines, [newdocs]: newdoc_if_empty_line,
    [strip]: the characters of the parameter rstrip. *)
Section Sentences.
Variables (ignore newdocs : bool) (strip : char -> bool).
(** The lines of a file as returned by readline() *)
Fixpoint raw_lines (cur : str) (x : str) : list str :=
  match x with
  | [] => match cur with [] => [] | _ => [cur] end
  | a :: x => if N.eqb a LF then (cur ++ [a]) :: raw_lines [] x else raw_lines (cur ++ [a]) x
  end.
Definition blank (l : str) : bool := str_eqb l [LF] || str_eqb l [CR; LF].
Fixpoint sentence_items (preceded : bool) (lines : list str) : list (option (item str)) :=
  match lines with
  | [] => []
  | l :: lines =>
    if (ignore || newdocs) && blank l then sentence_items true lines
    else Some (mkItem (rstrip_chars strip l) None (if newdocs && preceded then DocTrue else NotDoc)) :: sentence_items false lines
  end.
Definition sentences_file (text : str) : file str := mkFile (sentence_items false (raw_lines [] text)) None.
(** read/sentences.py:60-63 after_process_document *)
Definition sentences_after (r : reader str) (d : nat) : reader str * res unit :=
  if newdocs then
    match BundleModel.d_bundles (rd_store r) d with
    | [] => (r, Raise IndexError)
    | b :: _ =>
      match BundleModel.b_trees (rd_store r) b with
      | [] => (r, Raise IndexError)
      | t :: _ => (with_newdoc r t DocTrue, Ok tt)
      end
    end
  else (r, Ok tt).
(** read/sentences.py:21-36 the constructor: both options together are refused; not a multi-zone reader *)
Definition sentences_opts (o : opts) : res opts :=
  if ignore && newdocs then Raise ValueError
  else Ok (mkOpts (o_zone o) (o_bpd o) (o_filter o) (o_split o) (o_ignore o) (o_merge o) (o_max o) false).
End Sentences.

(** write/sentences.py:34-39 process_tree; root.text is the content of the tree (root.py:204-215 get_sentence: it is
    never None here), newpar is not set by this reader *)
Definition write_sentence (newdoc : bool) (r : reader str) (t : nat) : res str :=
  let text := match rd_content r t with Some x => x | None => [] end in
  rbind (if newdoc && truthy (rd_newdoc r t) then
           match BundleModel.t_bundle (rd_store r) t with
           | None => Raise AttributeError
           | Some b => match BundleModel.b_number (rd_store r) b with
                       | Some n => Ok (if (1 <? n)%Z then [LF] else [])
                       | None => Raise AttributeError
                       end
           end
         else Ok []) (fun blank => Ok (blank ++ text ++ [LF])).
(** block.py process_document and process_bundle: all bundles and all trees *)
Fixpoint write_all (newdoc : bool) (r : reader str) (ts : list nat) : res str :=
  match ts with
  | [] => Ok []
  | t :: ts => rbind (write_sentence newdoc r t) (fun x => rbind (write_all newdoc r ts) (fun y => Ok (x ++ y)))
  end.
Definition write_sentences (newdoc : bool) (r : reader str) (docs : list nat) : res str :=
  write_all newdoc r (concat (map (fun d => concat (map (BundleModel.b_trees (rd_store r)) (BundleModel.d_bundles (rd_store r) d))) docs)).
