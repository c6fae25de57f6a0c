(** Model of udapi/core/basereader.py: how the trees read from the input files are distributed to bundles
    and documents.
    An input file is represented by what the reader's methods return on it: the results of the successive
    calls of read_tree() and the result of read_trees() (see ReaderFiles for read.Conllu and read.Sentences).
    Each tree read becomes a new tree of the store of BundleModel; [rd_content] remembers which
    input tree it is.
    Simplifications: document.meta and the garbage collector are left out; opening a file always succeeds. *)
From Coq Require Import String List NArith ZArith Bool.
From Verif Require Import PyStr PyList PyExn TreeModel BundleModel.
Import ListNotations.

(** root.newdoc: None, True or the id of the document *)
Inductive newdoc := NotDoc | DocTrue | DocName (x : str).
Definition truthy (n : newdoc) : bool :=
  match n with NotDoc => false | DocTrue => true | DocName x => nonempty x end.

(** A tree returned by read_tree: its _sent_id, newdoc and everything else.  A missing tree (None) stands for
    a call that returns None although more of the file is left. *)
Record item (A : Type) := mkItem { it_content : A; it_sid : option str; it_newdoc : newdoc }.
Arguments mkItem {A}. Arguments it_content {A}. Arguments it_sid {A}. Arguments it_newdoc {A}.
(** A file: the results of the calls of read_tree, and of read_trees (None: the reader does not implement it) *)
Record file (A : Type) := mkFile { f_trees : list (option (item A)); f_batch : option (res (list (option (item A)))) }.
Arguments mkFile {A}. Arguments f_trees {A}. Arguments f_batch {A}.

(** basereader.py:15-41: the parameters (a zone None stands for 'keep', the filter is re.match) *)
Record opts := mkOpts {
  o_zone : option str;
  o_bpd : nat;                           (* bundles_per_doc *)
  o_filter : option (str -> bool);       (* sent_id_filter *)
  o_split : bool;                        (* split_docs *)
  o_ignore : bool;                       (* ignore_sent_id *)
  o_merge : bool;
  o_max : nat;                           (* max_docs *)
  o_multi : bool }.                      (* is_multizone_reader() *)

(** The state of the reader and the objects. *)
Record reader (A : Type) := mkReader {
  rd_store : store;
  rd_newdoc : nat -> newdoc;             (* Root.newdoc *)
  rd_content : nat -> option A;
  rd_files : list (file A);              (* files.filenames *)
  rd_number : nat;                       (* files.file_number *)
  rd_given : bool;                       (* the handle was given as filehandle= *)
  rd_handle : option (file A);           (* files.filehandle with the unread part of the file *)
  rd_buffer : option nat;                (* _buffer *)
  rd_finished : bool;                    (* finished *)
  rd_docs : nat }.                       (* _docs_loaded *)
Arguments mkReader {A}. Arguments rd_store {A}. Arguments rd_newdoc {A}. Arguments rd_content {A}.
Arguments rd_files {A}. Arguments rd_number {A}. Arguments rd_given {A}. Arguments rd_handle {A}.
Arguments rd_buffer {A}. Arguments rd_finished {A}. Arguments rd_docs {A}.

Section Reader.
Context {A : Type}.
Implicit Types (r : reader A) (o : opts).

Definition with_store r s := mkReader s (rd_newdoc r) (rd_content r) (rd_files r) (rd_number r) (rd_given r) (rd_handle r) (rd_buffer r) (rd_finished r) (rd_docs r).
Definition with_newdoc r t v := mkReader (rd_store r) (upd (rd_newdoc r) t v) (rd_content r) (rd_files r) (rd_number r) (rd_given r) (rd_handle r) (rd_buffer r) (rd_finished r) (rd_docs r).
Definition with_content r t v := mkReader (rd_store r) (rd_newdoc r) (upd (rd_content r) t (Some v)) (rd_files r) (rd_number r) (rd_given r) (rd_handle r) (rd_buffer r) (rd_finished r) (rd_docs r).
Definition with_handle r n v := mkReader (rd_store r) (rd_newdoc r) (rd_content r) (rd_files r) n (rd_given r) v (rd_buffer r) (rd_finished r) (rd_docs r).
Definition with_buffer r v := mkReader (rd_store r) (rd_newdoc r) (rd_content r) (rd_files r) (rd_number r) (rd_given r) (rd_handle r) v (rd_finished r) (rd_docs r).
Definition with_finished r v := mkReader (rd_store r) (rd_newdoc r) (rd_content r) (rd_files r) (rd_number r) (rd_given r) (rd_handle r) (rd_buffer r) v (rd_docs r).
Definition with_docs r v := mkReader (rd_store r) (rd_newdoc r) (rd_content r) (rd_files r) (rd_number r) (rd_given r) (rd_handle r) (rd_buffer r) (rd_finished r) v.

(** files.py:99-101 has_next_file *)
Definition has_next r : bool := rd_number r <? length (rd_files r).
(** files.py:103-124 next_filehandle: the first "file" of a reader created with filehandle= is that handle *)
Definition next_handle r : reader A :=
  let n := rd_number r in
  with_handle r (S n)
    (if rd_given r && (n =? 0) then rd_handle r else nth_error (rd_files r) n).

(** A new tree with the given attributes (the caller builds it in read_tree). *)
Definition alloc r (it : item A) : reader A * nat :=
  let (s, t) := new_tree (rd_store r) None in
  let s := put_sid s t (it_sid it) in
  (with_content (with_newdoc (with_store r s) t (it_newdoc it)) t (it_content it), t).

(** basereader.py:91-113 filtered_read_tree; the file is read from the list [l] of the results of
    read_tree (nothing but None comes after its end) *)
Fixpoint filtered_from (flt : option (str -> bool)) (skipped : newdoc) r (batch : option (res (list (option (item A)))))
         (l : list (option (item A))) : reader A * option nat :=
  match l with
  | [] => (with_handle r (rd_number r) (Some (mkFile [] batch)), None)
  | None :: l => (with_handle r (rd_number r) (Some (mkFile l batch)), None)
  | Some it :: l =>
    let (r, t) := alloc r it in
    match flt with
    | None => (with_handle r (rd_number r) (Some (mkFile l batch)), Some t)
    | Some f =>
      if f (snd (sent_id (rd_store r) t)) then
        let r := if truthy skipped && negb (truthy (rd_newdoc r t)) then with_newdoc r t skipped else r in
        (with_handle r (rd_number r) (Some (mkFile l batch)), Some t)
      else filtered_from flt (if truthy (rd_newdoc r t) then rd_newdoc r t else skipped) r batch l
    end
  end.
(** read_tree() returns None if there is no file *)
Definition filtered_read_tree o r : reader A * option nat :=
  match rd_handle r with
  | None => (r, None)
  | Some f => filtered_from (o_filter o) NotDoc r (f_batch f) (f_trees f)
  end.

(** basereader.py:148-158 and 239-250: the bundle id of the tree t; result: last_bundle_id and
    add_to_the_last_bundle *)
Definition prepare o r (t : nat) (last_id : str) : reader A * (str * bool) :=
  let '(s, la) :=
    let s := rd_store r in
    if o_ignore o then (put_sid s t None, (last_id, false))
    else match t_sid s t with
         | None => (s, (last_id, false))
         | Some sid =>
           match split1 47%N sid with
           | None => (s, (sid, str_eqb sid last_id))
           | Some (b, z) => (fst (set_zone s t z), (b, str_eqb b last_id))   (* t is in no bundle: no exception *)
           end
         end in
  let s := match o_zone o with Some z => fst (set_zone s t z) | None => s end in
  (with_store r s, la).

(** document.create_bundle() with the id of the tree: basereader.py:161-164 and 279-281 *)
Definition fresh_bundle r (d : nat) (last_id : str) : reader A * nat :=
  let (s, b) := create_bundle (rd_store r) d in
  (with_store r (if nonempty last_id then set_bundle_id s b last_id else s), b).
Definition add_to r (b t : nat) : reader A * res unit :=
  let (s, x) := add_tree (rd_store r) b t in (with_store r s, x).
Definition over_max o r : bool := negb (o_max o =? 0) && (o_max o <=? rd_docs r).

(** basereader.py:136-166: the trees of one file *)
Inductive fast_result := FastAll | FastFinished.
Fixpoint fast_trees o r (d : nat) (bundle : option nat) (last_id : str) (l : list (option (item A)))
  : reader A * res fast_result :=
  match l with
  | [] => (r, Ok FastAll)
  | None :: l => fast_trees o r d bundle last_id l
  | Some it :: l =>
    let (r, t) := alloc r it in
    if truthy (rd_newdoc r t) && over_max o r then (with_finished r true, Ok FastFinished)
    else
      let r := if truthy (rd_newdoc r t) then with_docs r (S (rd_docs r)) else r in
      let '(r, (last_id, add)) := prepare o r t last_id in
      let '(r, b) := match bundle with
                     | Some b => if add then (r, b) else fresh_bundle r d last_id
                     | None => fresh_bundle r d last_id
                     end in
      bind (add_to r b t) (fun r _ => fast_trees o r d (Some b) last_id l)
  end.
(** basereader.py:130-134: trees[0].newdoc *)
Definition first_newdoc (l : list (option (item A))) : res unit :=
  match l with None :: _ => Raise AttributeError | _ => Ok tt end.
(** basereader.py:124-174, the loop over files; result: False if read_trees is not implemented.
    After read_trees the whole file has been read. *)
Fixpoint fast_files (fl : nat) o r (d : nat) : reader A * res bool :=
  match fl with
  | O => (r, Diverge)
  | S fl =>
    match rd_handle r with
    | None => (r, Raise AttributeError)                              (* None.read() *)
    | Some f =>
      match f_batch f with
      | None => (r, Ok false)
      | Some (Raise e) => (r, Raise e)
      | Some Diverge => (r, Diverge)
      | Some (Ok trees) =>
        let r := with_handle r (rd_number r) (Some (mkFile [] (Some (Ok [])))) in
        match first_newdoc trees with
        | Ok _ =>
          bind (fast_trees o r d None [] trees) (fun r x =>
          match x with
          | FastFinished => (r, Ok true)
          | FastAll =>
            let r := next_handle r in
            match rd_handle r with
            | None => (with_finished r true, Ok true)
            | Some _ => if o_merge o then fast_files fl o r d else (r, Ok true)
            end
          end)
        | Raise e => (r, Raise e)
        | Diverge => (r, Diverge)
        end
      end
    end
  end.
(** basereader.py:115-174 try_fast_load *)
Definition try_fast_load o r (d : nat) : reader A * res bool :=
  if negb (match d_bundles (rd_store r) d with [] => true | _ => false end)
     || negb (o_bpd o =? 0) || (match o_filter o with Some _ => true | None => false end) || o_split o
  then (r, Ok false)
  else
    let r' := match rd_handle r with None => next_handle r | Some _ => r end in
    match rd_handle r' with
    | None => (with_finished r' true, Ok true)
    | Some _ => fast_files (S (S (length (rd_files r')))) o r' d
    end.

(** basereader.py:186-203: the tree left in the buffer; result: the rest of orig_bundles and bundle *)
Definition take_buffer r (d : nat) (orig : list nat) : reader A * res (list nat * option nat) :=
  match rd_buffer r with
  | None => (r, Ok (orig, None))
  | Some t =>
    let r := with_buffer r None in
    let '(r, orig, b) :=
      match orig with
      | b :: orig => (r, orig, b)
      | [] =>
        let (s, b) := create_bundle (rd_store r) d in
        (with_store r (match t_sid s t with
                       | Some sid => set_bundle_id s b (match split1 47%N sid with Some (i, _) => i | None => sid end)
                       | None => s
                       end), [], b)
      end in
    bind (add_to r b t) (fun r _ =>
    ((if truthy (rd_newdoc r t) then with_docs r (S (rd_docs r)) else r), Ok (orig, Some b)))
  end.

(** Does the bundle have the number bundles_per_doc? (basereader.py:266 and 293) *)
Definition is_full o r (b : nat) : res bool :=
  if o_bpd o =? 0 then Ok false
  else match b_number (rd_store r) b with
       | Some n => Ok (Z.of_nat (o_bpd o) =? n)%Z
       | None => Raise AttributeError
       end.

(** basereader.py:252-296: what is done with the tree t after the zone has been set *)
Inductive placed := Buffered | Full (b : nat) | Stopped | Placed (orig : list nat) (b : nat).
Definition place o r (d : nat) (orig : list nat) (bundle : option nat) (last_id : str) (add : bool) (t : nat)
  : reader A * res placed :=
  let nd := truthy (rd_newdoc r t) in
  if nd && over_max o r then (with_finished r true, Ok Stopped)
  else if nd && (match bundle with Some _ => true | None => false end) && o_split o
  then (with_finished (with_buffer r (Some t)) false, Ok Buffered)
  else
    let r := if nd then with_docs r (S (rd_docs r)) else r in
    let put r orig b :=
      bind (add_to r b t) (fun r _ =>
      match is_full o r b with
      | Ok true => if o_multi o then (r, Ok (Placed orig b)) else (r, Ok (Full b))
      | Ok false => (r, Ok (Placed orig b))
      | Raise e => (r, Raise e)
      | Diverge => (r, Diverge)
      end) in
    let next r := match orig with
                  | b :: orig => put r orig b
                  | [] => let (r, b) := fresh_bundle r d last_id in put r [] b
                  end in
    match bundle with
    | None => next r
    | Some b =>
      if add then put r orig b
      else match is_full o r b with
           | Ok true => (with_buffer r (Some t), Ok Buffered)
           | Ok false => next r
           | Raise e => (r, Raise e)
           | Diverge => (r, Diverge)
           end
    end.

(** basereader.py:213-296, the loop *)
Fixpoint slow_loop (fl : nat) o r (d : nat) (orig : list nat) (bundle : option nat) (last_id : str) (loaded : bool)
  : reader A * res unit :=
  match fl with
  | O => (r, Diverge)
  | S fl =>
    let (r, root) := filtered_read_tree o r in
    match root with
    | None =>
      if (negb loaded || o_merge o) && has_next r
      then slow_loop fl o (next_handle r) d orig bundle last_id loaded
      else (with_finished r (negb (has_next r)), Ok tt)
    | Some t =>
      let first := negb loaded && negb (truthy (rd_newdoc r t)) in
      if first && over_max o r then (with_finished r true, Ok tt)
      else
        let r := if first then with_docs r (S (rd_docs r)) else r in
        let '(r, (last_id, add)) := prepare o r t last_id in
        bind (place o r d orig bundle last_id add t) (fun r x =>
        match x with
        | Buffered | Full _ | Stopped => (r, Ok tt)
        | Placed orig b => slow_loop fl o r d orig (Some b) last_id true
        end)
    end
  end.
(** Enough steps: every step reads a tree or goes to the next file. *)
Definition file_size (f : file A) : nat := S (length (f_trees f)).
Definition fuel r : nat :=
  S (list_sum (map file_size (rd_files r)) +
     match rd_handle r with Some f => file_size f | None => 0 end + length (rd_files r)).

(** basereader.py:179-311 process_document *)
Definition process_document o r (d : nat) : reader A * res unit :=
  bind (try_fast_load o r d) (fun r fast =>
  if fast then (r, Ok tt)
  else
    bind (take_buffer r d (d_bundles (rd_store r) d)) (fun r ob =>
    let (orig, bundle) := ob in
    let r' := match rd_handle r with None => next_handle r | Some _ => r end in
    match rd_handle r' with
    | None => (with_finished r' true, Ok tt)
    | Some _ => slow_loop (fuel r') o r' d orig bundle [] false
    end)).

(** basereader.py:313-324 read_documents; [after] is after_process_document *)
Fixpoint read_documents (fl : nat) o (after : reader A -> nat -> reader A * res unit) r (docs : list nat)
  : reader A * res (list nat) :=
  if rd_finished r then (r, Ok docs)
  else match fl with
  | O => (r, Diverge)
  | S fl =>
    let (s, d) := new_document (rd_store r) in
    bind (process_document o (with_store r s) d) (fun r _ =>
    bind (after r d) (fun r _ => read_documents fl o after r (docs ++ [d])))
  end.
(** The inherited after_process_document (block.py:145-147) *)
Definition no_after r (d : nat) : reader A * res unit := (r, Ok tt).

(** A new reader of the files (files=[...]) or of one handle (filehandle=) *)
Definition new_reader (l : list (file A)) : reader A :=
  mkReader store0 (fun _ => NotDoc) (fun _ => None) l 0 false None None false 0.
Definition new_reader_handle (f : file A) : reader A :=
  mkReader store0 (fun _ => NotDoc) (fun _ => None) [f] 0 true (Some f) None false 0.
End Reader.
