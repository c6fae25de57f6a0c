(** Model of the blocks that relate the text of a sentence to its tokens:
    udapi/block/tokenize/onwhitespace.py, udapi/block/tokenize/simple.py and
    udapi/block/ud/setspaceafterfromtext.py. *)
From Coq Require Import String List NArith ZArith Bool.
From Verif Require Import PyStr PyList PyExn TreeModel DualDictModel DocModel ConlluModel.
Import ListNotations.
Local Open Scope Z_scope.

(** str.split() without arguments (onwhitespace.py:42): [cur] is the word read so far. *)
Fixpoint split_from (cur x : str) : list str :=
  match x with
  | [] => if nonempty cur then [cur] else []
  | c :: x => if is_space c then (if nonempty cur then cur :: split_from [] x else split_from [] x)
              else split_from (cur ++ [c]) x
  end.
(** onwhitespace.py:39-42 OnWhitespace.tokenize_sentence *)
Definition tokenize_on_whitespace (x : str) : list str := split_from [] x.

(** re.findall(r'\w+|[^\w\s]', x) (simple.py:14); [wd] is the class \w, [cur] the word read so far. *)
Fixpoint find_from (wd : char -> bool) (cur x : str) : list str :=
  match x with
  | [] => if nonempty cur then [cur] else []
  | c :: x => if wd c then find_from wd (cur ++ [c]) x
              else (if nonempty cur then [cur] else []) ++ (if is_space c then [] else [[c]]) ++ find_from wd [] x
  end.
(** simple.py:11-14 Simple.tokenize_sentence *)
Definition tokenize_simple (wd : char -> bool) (x : str) : list str := find_from wd [] x.

(** The match of r'\s+' at the beginning of x (onwhitespace.py:53, 76); [] if there is none. *)
Fixpoint space_run (x : str) : str :=
  match x with
  | [] => []
  | c :: x => if is_space c then c :: space_run x else []
  end.
(** onwhitespace.py:33 escape_whitespace_table and str.translate *)
Definition BACKSLASH : char := 92%N.
Definition escape_char (c : char) : str :=
  if N.eqb c SP then [BACKSLASH; 115%N]
  else if N.eqb c TAB then [BACKSLASH; 116%N]
  else if N.eqb c CR then [BACKSLASH; 114%N]
  else if N.eqb c LF then [BACKSLASH; 110%N]
  else [c].
Definition escape (x : str) : str := flat_map escape_char x.

Definition SpacesBefore : str := s "SpacesBefore".
Definition SpacesAfter : str := s "SpacesAfter".
(** x.misc[k] = v for a node x (node.py:210-233) *)
Definition put_misc (d : doc) (x : nat) (k v : str) : doc :=
  let a := d_at d x in put_at d x (set_misc a (Some (dd_set (dd_prop (n_misc a)) k (VStr v)))).
(** node.py:433-440 root.create_child(form=token), see TreeModel.create_child for the structural part *)
Definition create_form_child (d : doc) (x : nat) (form : str) : doc * nat :=
  let (h, n) := create_child (d_h d) x in
  (put_mwt (put_at (with_h d h) n (mkAttrs (Some form) None None None None None None (Some US) None)) n None, n).

(** onwhitespace.py:58-97 the loop over the tokens: [i] is the number of the token, [before] is
    spaces_before, [x] the rest of the sentence. *)
Fixpoint tok_loop (keep : bool) (d : doc) (r : nat) (i : Z) (before x : str) (tokens : list str) : doc * res unit :=
  match tokens with
  | [] => (d, Ok tt)
  | t :: tokens =>
    match after t x with
    | None => (d, Raise ValueError)
    | Some x =>
      let spaces_after := space_run x in
      let x := lstrip x in
      let before := if keep then before else [] in
      let spaces_after :=
        if keep then spaces_after else if negb (nonempty spaces_after) && nonempty x then [] else [SP] in
      let (d, n) := create_form_child d r t in
      let d := with_h d (put_ord (d_h d) n i) in
      let d := if (i =? 1) && nonempty before then put_misc d n SpacesBefore (escape before) else d in
      let d := if negb (nonempty spaces_after) then put_misc d n SpaceAfter No
               else if negb (str_eqb spaces_after [SP]) then put_misc d n SpacesAfter (escape spaces_after)
               else d in
      tok_loop keep d r (i + 1) before x tokens
    end
  end.
(** onwhitespace.py:44-97 process_tree; [tokenize] is tokenize_sentence. If root.text is None,
    string.split() is an AttributeError (simple.py: re.findall is a TypeError instead). *)
Definition tokenize_tree (tokenize : str -> list str) (keep : bool) (d : doc) (r : nat) : doc * res unit :=
  match h_ch (d_h d) r with
  | _ :: _ => (d, Raise ValueError)
  | [] =>
    match ri_text (d_ri d r) with
    | None => (d, Raise AttributeError)
    | Some x => tok_loop keep d r 1 (space_run x) (lstrip x) (tokenize x)
    end
  end.

(** mwt.py and node.py: the MISC of a word or of a MWT, and the assignment of a new DualDict. *)
Definition tok_form (d : doc) (t : token) : option str :=
  match t with TWord x => n_form (d_at d x) | TMwt m => m_form (d_m d m) end.
Definition tok_misc (d : doc) (t : token) : option dualdict :=
  match t with TWord x => n_misc (d_at d x) | TMwt m => m_misc (d_m d m) end.
Definition put_tok_misc (d : doc) (t : token) (v : dualdict) : doc :=
  match t with
  | TWord x => put_at d x (set_misc (d_at d x) (Some v))
  | TMwt m => let w := d_m d m in put_m d m (mkMwt (m_words w) (m_form w) (Some v) (m_root w))
  end.
(** setspaceafterfromtext.py:27-39 the loop over root.token_descendants; a warning ends it. *)
Fixpoint space_loop (d : doc) (text : str) (l : list token) : doc * res unit :=
  match l with
  | [] => (d, Ok tt)
  | t :: l =>
    match tok_form d t with
    | None => (d, Raise TypeError)                                        (* startswith(None) *)
    | Some f =>
      match after f text with
      | None => (d, Ok tt)
      | Some text =>
        if match text with [] => true | c :: _ => is_space c end
        then space_loop (put_tok_misc d t (dd_del (dd_prop (tok_misc d t)) SpaceAfter)) (lstrip text) l
        else space_loop (put_tok_misc d t (dd_set (dd_prop (tok_misc d t)) SpaceAfter (VStr No))) text l
      end
    end
  end.
(** setspaceafterfromtext.py:18-19 the loop over root.empty_nodes *)
Fixpoint del_empty (d : doc) (l : list nat) : doc :=
  match l with
  | [] => d
  | x :: l => let a := d_at d x in
              del_empty (put_at d x (set_misc a (Some (dd_del (dd_prop (n_misc a)) SpaceAfter)))) l
  end.
(** setspaceafterfromtext.py:16-39 process_tree. The generators root.token_descendants and
    root.compute_text() read nothing that the loop changes. *)
Definition set_space_after (d : doc) (r : nat) : doc * res unit :=
  let d := del_empty d (h_emp (d_h d) r) in
  match ri_text (d_ri d r) with
  | None => (d, Raise ValueError)
  | Some text =>
    match compute_text d r true with
    | Raise e => (d, Raise e)
    | Diverge => (d, Diverge)
    | Ok y =>
      if str_eqb text y then (d, Ok tt)
      else match token_descendants d r with
           | Raise e => (d, Raise e)
           | Diverge => (d, Diverge)
           | Ok ts => space_loop d text ts
           end
    end
  end.
