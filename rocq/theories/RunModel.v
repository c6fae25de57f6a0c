(** Model of udapi/core/run.py (scenario parsing and execution), udapi/core/files.py and
    udapi/block/util/split.py. *)
From Coq Require Import String List NArith ZArith Bool.
From Verif Require Import PyStr PyList PyExn DualDictModel.
Import ListNotations.
Local Open Scope Z_scope.

(** ---- run.py: parsing of the command line ---- *)

(** Values of block parameters: run.py:63-65 *)
Inductive aval := AInt (z : Z) | AStr (x : str).
(** block_args[-1][name] = value on a dict in insertion order *)
Fixpoint aset (l : list (str * aval)) (k : str) (v : aval) : list (str * aval) :=
  match l with
  | [] => [(k, v)]
  | (k', v') :: l => if str_eqb k k' then (k', v) :: l else (k', v') :: aset l k v
  end.
(** Superscript and subscript digits: str.isdigit() is true for them, int() rejects them.
    Simplification of the model: other non-ASCII digits are not recognised by either. *)
Definition is_superscript (a : char) : bool :=
  ((a =? 178) || (a =? 179) || (a =? 185) || (a =? 8304) || ((8308 <=? a) && (a <=? 8313))
   || ((8320 <=? a) && (a <=? 8329)))%N.
Definition str_isdigit (x : str) : bool := nonempty x && forallb (fun a => is_digit a || is_superscript a) x.
(** run.py:62-64 *)
Definition arg_value (v : str) : res aval :=
  if str_isdigit v then match py_int v with Some z => Ok (AInt z) | None => Raise ValueError end
  else Ok (AStr v).
(** block_args[-1]: change the last dict *)
Fixpoint on_last {A} (f : A -> A) (l : list A) : list A :=
  match l with
  | [] => []
  | [x] => [f x]
  | x :: l => x :: on_last f l
  end.
(** run.py:38-67, the loop of _parse_command_line_arguments; number_of_blocks is the length of
    [names] *)
Fixpoint parse_args (names : list str) (args : list (list (str * aval))) (scenario : list str)
  : res (list str * list (list (str * aval))) :=
  match scenario with
  | [] => Ok (names, args)
  | token :: scenario =>
    match split1 EQ token with
    | None => parse_args (names ++ [token]) (args ++ [[]]) scenario
    | Some (k, v) =>
      match names with
      | [] => Raise RuntimeError
      | _ => rbind (arg_value v) (fun v => parse_args names (on_last (fun d => aset d k v) args) scenario)
      end
    end
  end.
Definition parse_command_line (scenario : list str) := parse_args [] [] scenario.

Definition DOTC : char := 46%N.
(** run.py:8-24 _parse_block_name *)
Definition parse_block_name (x : str) : str * str :=
  let names := split DOTC x in
  match names with
  | [_] => ([], x)
  | _ => (join [DOTC] (removelast names), last names [])
  end.

(** ---- run.py: execution ----
    Blocks are arbitrary: [W] is the state of all blocks and of everything they can change;
    what a block does is given by the three methods and the attribute finished (None if the
    block has no such attribute).  The log records the calls made by run_blocks. *)
Inductive event := EStart (b : nat) | EDocument | EApply (b : nat) | EEnd (b : nat).
Record behaviour (W : Type) := mkBeh {
  bh_start : nat -> W -> W * res unit;        (* block.process_start() *)
  bh_apply : nat -> W -> W * res unit;        (* block.apply_on_document(document) *)
  bh_new : W -> W;                            (* document = Document() *)
  bh_end : nat -> W -> W * res unit;          (* block.process_end() *)
  bh_finished : nat -> W -> option bool }.    (* block.finished *)
Arguments bh_start {W}. Arguments bh_apply {W}. Arguments bh_new {W}. Arguments bh_end {W}.
Arguments bh_finished {W}.

(** for block in blocks: call it; the events are logged before the call *)
Fixpoint each {W} (ev : nat -> event) (f : nat -> W -> W * res unit) (blocks : list nat) (st : W * list event)
  : (W * list event) * res unit :=
  match blocks with
  | [] => (st, Ok tt)
  | b :: blocks =>
    let log := snd st ++ [ev b] in
    let (w, r) := f b (fst st) in
    bind ((w, log), r) (fun st _ => each ev f blocks st)
  end.
(** run.py:191-201, while not finished; run.py:198-201: reader.finished is evaluated for the readers
    found before the loop (an attribute that has disappeared would be an AttributeError) *)
Fixpoint all_finished {W} (B : behaviour W) (readers : list nat) (w : W) : res bool :=
  match readers with
  | [] => Ok true
  | r :: readers =>
    match bh_finished B r w with
    | None => Raise AttributeError
    | Some false => Ok false              (* the remaining attributes are not evaluated *)
    | Some true => all_finished B readers w
    end
  end.
Fixpoint rounds {W} (fl : nat) (B : behaviour W) (blocks readers : list nat) (st : W * list event)
  : (W * list event) * res unit :=
  match fl with
  | O => (st, Diverge)
  | S f =>
    let st := (bh_new B (fst st), snd st ++ [EDocument]) in
    bind (each EApply (bh_apply B) blocks st) (fun st _ =>
    match all_finished B readers (fst st) with
    | Ok true => (st, Ok tt)
    | Ok false => rounds f B blocks readers st
    | Raise e => (st, Raise e)
    | Diverge => (st, Diverge)
    end)
  end.
(** run.py:171-208 run_blocks; [conllu] is the default reader created if the scenario has none *)
Definition run_blocks {W} (fl : nat) (B : behaviour W) (conllu : nat) (blocks : list nat) (w : W)
  : (W * list event) * res unit :=
  bind (each EStart (bh_start B) blocks (w, [])) (fun st _ =>
  let readers := filter (fun b => match bh_finished B b (fst st) with Some _ => true | None => false end) blocks in
  let (blocks, readers) := match readers with [] => (conllu :: blocks, [conllu]) | _ => (blocks, readers) end in
  bind (rounds fl B blocks readers st) (fun st _ => each EEnd (bh_end B) blocks st)).

(** ---- files.py ---- *)
Inductive opener := OpenPlain | OpenGz | OpenXz | OpenBz2.
(** File handles: standard input, the handle given to the constructor, an opened file. *)
Inductive handle := HStdin | HGiven | HFile (o : opener) (name : str).
(** files.py:34-50: the attributes after the constructor *)
Record files := mkFiles { fs_names : list str; fs_number : Z; fs_handle : option handle }.
Definition FILEHANDLE_INPUT := s "<filehandle_input>".
(** files.py:38-42 and 43-44 *)
Definition files_of_handle : files := mkFiles [FILEHANDLE_INPUT] 0 (Some HGiven).
Definition files_of_list (l : list str) : files := mkFiles l 0 None.
(** files.py:83-85 *)
Definition number_of_files (f : files) : Z := Z.of_nat (length (fs_names f)).
(** files.py:87-92 *)
Definition cur_filename (f : files) : res (option str) :=
  if (fs_number f =? 0) || (number_of_files f <? fs_number f) then Ok None
  else match py_nth (fs_names f) (fs_number f - 1) with Some x => Ok (Some x) | None => Raise IndexError end.
(** files.py:94-97 *)
Definition next_filename (f : files) : files * res (option str) :=
  let f := mkFiles (fs_names f) (fs_number f + 1) (fs_handle f) in (f, cur_filename f).
(** files.py:99-101 *)
Definition has_next_file (f : files) : bool := fs_number f <? number_of_files f.
(** files.py:113-121 *)
Definition opener_of (name : str) : opener :=
  let ext := last (split DOTC name) [] in
  if str_eqb ext (s "gz") then OpenGz
  else if str_eqb ext (s "xz") then OpenXz
  else if str_eqb ext (s "bz2") then OpenBz2
  else OpenPlain.
(** files.py:103-124 next_filehandle; [can_open] says whether opening a file succeeds (otherwise
    OSError, represented by RuntimeError) *)
Definition next_filehandle (can_open : str -> bool) (f : files) : files * res (option handle) :=
  bind (next_filename f) (fun f name =>
  let found h := (mkFiles (fs_names f) (fs_number f) h, Ok h) in
  match name with
  | None => found None
  | Some n =>
    if str_eqb n (s "-") then found (Some HStdin)
    else if str_eqb n FILEHANDLE_INPUT then found (fs_handle f)
    else if can_open n then found (Some (HFile (opener_of n) n))
    else (f, Raise RuntimeError)
  end).

(** string.replace(',', ' ').split() *)
Definition COMMA : char := 44%N.
Fixpoint words_from (cur : str) (x : str) : list str :=
  match x with
  | [] => match cur with [] => [] | _ => [rev cur] end
  | a :: x => if is_space a then match cur with [] => words_from [] x | _ => rev cur :: words_from [] x end
              else words_from (a :: cur) x
  end.
Definition py_words (x : str) : list str := words_from [] x.
(** os.path.dirname on POSIX *)
Definition SLASH : char := 47%N.
Definition dirname (x : str) : str :=
  let parts := split SLASH x in
  let head := join [SLASH] (removelast parts) ++ (match parts with [_] => [] | _ => [SLASH] end) in
  if forallb (N.eqb SLASH) head then head else rstrip_chars (N.eqb SLASH) head.
(** files.py:64-80 _token_to_filenames.  [glob] is sorted(glob.glob(pattern)); [lines] the lines of a
    text file without their line feeds, None if it cannot be opened (OSError, here RuntimeError). *)
Definition add_dir (directory f : str) : res str :=
  match f with
  | [] => Raise IndexError                                      (* f[0] *)
  | c :: _ => Ok (if negb (N.eqb c SLASH) then f else directory ++ SLASH :: f)
  end.
Fixpoint map_r {A B} (f : A -> res B) (l : list A) : res (list B) :=
  match l with
  | [] => Ok []
  | x :: l => rbind (f x) (fun y => rbind (map_r f l) (fun ys => Ok (y :: ys)))
  end.
Definition token_to_filenames (glob : str -> list str) (lines : str -> option (list str)) (token : str) : res (list str) :=
  match token with
  | [] => Raise IndexError
  | c :: x =>
    if N.eqb c 33 then match glob x with [] => Raise RuntimeError | l => Ok l end
    else if N.eqb c 64 then
      if str_eqb token (s "@-") then Raise TypeError             (* open(sys.stdin) *)
      else match lines x with
           | None => Raise RuntimeError
           | Some l => if str_eqb (dirname x) (s ".") then Ok l else map_r (add_dir (dirname x)) l
           end
    else Ok [token]
  end.
(** files.py:52-62 string_to_filenames, and the empty string check of the constructor *)
Definition string_to_filenames glob lines (x : str) : res (list str) :=
  match x with
  | [] => Raise ValueError
  | _ => rbind (map_r (token_to_filenames glob lines)
                      (py_words (map (fun a => if N.eqb a COMMA then SP else a) x)))
               (fun ls => Ok (concat ls))
  end.

(** ---- util/split.py ----
    Bundles are numbered; parts and bundles_per_doc are the parameters. *)
Record split_st := mkSplit { sp_buffer : list nat; sp_per_doc : option Z; sp_parts : Z; sp_finished : bool }.
(** split.py:12-24 *)
Definition split_parts (k : Z) : split_st := mkSplit [] None k false.
Definition split_per_doc (n : Z) : split_st := mkSplit [] (Some n) 0 false.
(** math.ceil(a / b), in exact arithmetic *)
Definition ceil_div (a b : Z) : Z := - (- a / b).
(** split.py:30-39 process_document: the new state and document.bundles.  parts = 0 is a
    ZeroDivisionError, here ValueError. *)
Definition split_document (st : split_st) (bundles : list nat) : split_st * res (list nat) :=
  let (buffer, bundles) := match sp_buffer st with [] => (bundles, []) | _ => (sp_buffer st, bundles) end in
  match (match sp_buffer st, sp_per_doc st with
         | [], None => if sp_parts st =? 0 then Raise ValueError else Ok (ceil_div (Z.of_nat (length buffer)) (sp_parts st))
         | _, Some n => Ok n
         | _ :: _, None => Ok (Z.of_nat (length buffer + length bundles))   (* buffer[:None], never reached *)
         end) with
  | Raise e => (st, Raise e)
  | Diverge => (st, Diverge)
  | Ok n =>
    let buffer := buffer ++ bundles in
    let rest := py_from buffer n in
    (mkSplit rest (Some n) (sp_parts st) (match rest with [] => true | _ => false end), Ok (py_to buffer n))
  end.
(** The rounds of run_blocks for util.Split: the k-th document before Split has the bundles
    [inputs k]; the result is the list of documents after Split, until Split and the reader
    (finished after [nin] rounds) are finished. *)
Fixpoint split_rounds (fl : nat) (inputs : nat -> list nat) (nin : nat) (k : nat) (st : split_st)
  : res (list (list nat)) :=
  match fl with
  | O => Diverge
  | S f =>
    match split_document st (inputs k) with
    | (_, Raise e) => Raise e
    | (_, Diverge) => Diverge
    | (st, Ok out) =>
      if sp_finished st && Nat.leb nin (S k) then Ok [out]
      else rbind (split_rounds f inputs nin (S k) st) (fun l => Ok (out :: l))
    end
  end.
