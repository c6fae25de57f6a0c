(** Model of blocks that change the tokenization: udapi/block/ud/removemwt.py, udapi/block/ud/joinasmwt.py and
    udapi/block/ud/jointoken.py.
    Simplifications: logging is left out (logging.fatal does not stop the program); enhanced dependencies are left out
    (jointoken.py:77-78 reads them only to log a message). *)
From Coq Require Import String List NArith ZArith Bool.
From Verif Require Import PyStr PyList PyExn TreeModel DualDictModel DocModel.
Import ListNotations.
Local Open Scope Z_scope.

(** node.form = f, node.feats = ..., node.deprel = ... *)
Definition set_form (a : attrs) (f : option str) : attrs :=
  mkAttrs f (n_lemma a) (n_upos a) (n_xpos a) (n_feats a) (n_deprel a) (n_misc a) (n_raw_deps a) (n_deps a).
Definition set_feats (a : attrs) (f : option dualdict) : attrs :=
  mkAttrs (n_form a) (n_lemma a) (n_upos a) (n_xpos a) f (n_deprel a) (n_misc a) (n_raw_deps a) (n_deps a).
Definition set_deprel (a : attrs) (x : option str) : attrs :=
  mkAttrs (n_form a) (n_lemma a) (n_upos a) (n_xpos a) (n_feats a) x (n_misc a) (n_raw_deps a) (n_deps a).
(** misc[k] = v on a node *)
Definition put_misc (d : doc) (x : nat) (k : str) (v : val) : doc :=
  let a := d_at d x in put_at d x (set_misc a (Some (dd_set (dd_prop (n_misc a)) k v))).
(** misc[k] on a node, which may deserialize the mapping *)
Definition read_misc (d : doc) (x : nat) (k : str) : doc * val :=
  let a := d_at d x in let (m, v) := dd_get (dd_prop (n_misc a)) k in (put_at d x (set_misc a (Some m)), v).

(** The items of a mapping given to dict(...) or update(...) (dualdict.py:82-84 __iter__, 62-64 __getitem__) *)
Definition items (m : option dualdict) : dict := dd_dict (deserialize_if_empty (dd_prop m)).

(** udapi/block/ud/removemwt.py:32-38 guess_feats: the FEATS of the first word are updated in place *)
Fixpoint guess_feats (d : doc) (feats : dualdict) (rest : list nat) : dualdict :=
  match rest with
  | [] => feats
  | w :: rest => guess_feats d (dd_update feats (items (n_feats (d_at d w)))) rest
  end.
(** words[0].feats = words[0].feats (removemwt.py:14): dualdict.py:117-119 set_mapping of an object to itself; _string is
    forgotten before the items are read, so they are read from _dict only *)
Definition set_to_itself (f : dualdict) : dualdict := mkDD None (dd_dict f).

(** removemwt.py:17-18: for word in words[1:]: word.remove(children='rehang') *)
Fixpoint remove_words (d : doc) (l : list nat) : doc * res unit :=
  match l with
  | [] => (d, Ok tt)
  | w :: l => let (h, o) := node_remove (d_h d) w (Some (s "rehang")) in
              bind (with_h d h, o) (fun d _ => remove_words d l)
  end.
(** removemwt.py:10-18, the body of the loop for the MWT [m].  upos and deprel of the first word are assigned to
    themselves (lines 13, 15, 20-30).  Left out: deserializing MISC of the removed MWT and FEATS of the removed words. *)
Definition remove_mwt (d : doc) (m : nat) : doc * res unit :=
  match m_words (d_m d m) with
  | [] => (d, Raise IndexError)
  | w :: rest =>
    let a := d_at d w in
    let a := set_form a (m_form (d_m d m)) in
    let a := set_misc a (Some (mkDD None (items (m_misc (d_m d m))))) in
    let a := set_feats a (Some (set_to_itself (guess_feats d (dd_prop (n_feats a)) rest))) in
    let d := put_at d w a in
    bind (mwt_remove d m) (fun d _ => remove_words d rest)
  end.
(** removemwt.py:8-18 process_tree: the list root.multiword_tokens is iterated while mwt.remove() takes members out of it;
    [i] is the index kept by the Python iterator.  [Diverge]: out of fuel. *)
Fixpoint remove_mwt_loop (fl : nat) (d : doc) (r i : nat) : doc * res unit :=
  match nth_error (d_mwts d r) i with
  | None => (d, Ok tt)
  | Some m => match fl with
              | O => (d, Diverge)
              | S fl => bind (remove_mwt d m) (fun d _ => remove_mwt_loop fl d r (S i))
              end
  end.
Definition remove_mwts (d : doc) (r : nat) : doc * res unit := remove_mwt_loop (length (d_mwts d r)) d r 0.

(** ---- udapi/block/ud/joinasmwt.py ---- *)
Section join.
  (** str.isalpha of one character *)
  Variable alpha : N -> bool.

  (** node.form[-1].isalpha() and node.next_node.form[0].isalpha() (joinasmwt.py:26) *)
  Definition last_alpha (f : option str) : res bool :=
    match f with
    | None => Raise TypeError
    | Some f => match last_opt f with None => Raise IndexError | Some c => Ok (alpha c) end
    end.
  Definition first_alpha (f : option str) : res bool :=
    match f with
    | None => Raise TypeError
    | Some [] => Raise IndexError
    | Some (c :: _) => Ok (alpha c)
    end.
  (** joinasmwt.py:25-26 the condition of the while loop; the answer is the next node to be added, if any *)
  Definition joins_next (d : doc) (x : nat) : doc * res (option nat) :=
    let (d, v) := read_misc d x SpaceAfter in
    if val_is v No then
      match next_node (d_h d) x with
      | None => (d, Ok None)
      | Some y =>
        match d_mwt d y with
        | Some _ => (d, Ok None)
        | None => (d, rbind (last_alpha (n_form (d_at d x))) (fun a =>
                      if a then rbind (first_alpha (n_form (d_at d y))) (fun b => Ok (if b then Some y else None))
                      else Ok None))
        end
      end
    else (d, Ok None).
  (** joinasmwt.py:24-28 the while loop: the nodes added after [x].  [Diverge]: out of fuel. *)
  Fixpoint join_run (fl : nat) (d : doc) (x : nat) : doc * res (list nat) :=
    bind (joins_next d x) (fun d o =>
    match o with
    | None => (d, Ok [])
    | Some y => match fl with
                | O => (d, Diverge)
                | S fl => bind (join_run fl d y) (fun d l => (d, Ok (y :: l)))
                end
    end).
  (** ''.join(n.form for n in nodes) *)
  Fixpoint forms (d : doc) (l : list nat) : res str :=
    match l with
    | [] => Ok []
    | x :: l => match n_form (d_at d x) with
                | None => Raise TypeError
                | Some f => rbind (forms d l) (fun g => Ok (f ++ g))
                end
    end.
  (** joinasmwt.py:34-35: del node.misc['SpaceAfter'] *)
  Fixpoint del_space_after (d : doc) (l : list nat) : doc :=
    match l with
    | [] => d
    | x :: l => let a := d_at d x in
                del_space_after (put_at d x (set_misc a (Some (dd_del (dd_prop (n_misc a)) SpaceAfter)))) l
    end.
  (** joinasmwt.py:37-40; a value that is not a string (a flag) is assigned as it is: [None] form stands for it *)
  Definition OrigForm : str := s "OrigForm".
  Definition truthy (v : val) : bool := match v with VTrue => true | VNone | VStr [] => false | VStr _ => true end.
  Fixpoint revert_forms (d : doc) (l : list nat) : doc :=
    match l with
    | [] => d
    | x :: l =>
      let (d, v) := read_misc d x OrigForm in
      let d := if truthy v then
                 let a := set_form (d_at d x) (match v with VStr f => Some f | _ => None end) in
                 put_at d x (set_misc a (Some (dd_del (dd_prop (n_misc a)) OrigForm)))
               else d in
      revert_forms d l
    end.
  (** joinasmwt.py:21-40 process_node *)
  Definition join_node (revert : bool) (d : doc) (x : nat) : doc * res unit :=
    match d_mwt d x with
    | Some _ => (d, Ok tt)
    | None =>
      bind (join_run (length (h_desc (d_h d) (h_root (d_h d) x))) d x) (fun d l =>
      match l with
      | [] => (d, Ok tt)
      | _ =>
        let nodes := x :: l in
        bind (d, forms d nodes) (fun d f =>
        bind (create_multiword_token d (h_root (d_h d) x) nodes (Some f) []) (fun d m =>
        let last := last nodes x in
        let (d, v) := read_misc d last SpaceAfter in
        let d := if val_is v No then
                   let mw := d_m d m in
                   put_m d m (mkMwt (m_words mw) (m_form mw)
                                    (Some (dd_set (dd_prop (m_misc mw)) SpaceAfter (VStr No))) (m_root mw))
                 else d in
        let d := del_space_after d nodes in
        (if revert then revert_forms d nodes else d, Ok tt)))
      end)
    end.
  (** for node in l: process_node(node) *)
  Fixpoint each_node (f : doc -> nat -> doc * res unit) (d : doc) (l : list nat) : doc * res unit :=
    match l with
    | [] => (d, Ok tt)
    | x :: l => bind (f d x) (fun d _ => each_node f d l)
    end.
  (** udapi/core/block.py:55-62 process_tree *)
  Definition join_as_mwt (revert : bool) (d : doc) (r : nat) : doc * res unit :=
    each_node (join_node revert) d (h_desc (d_h d) r).
End join.

(** ---- udapi/block/ud/jointoken.py ---- *)
(** jointoken.py:57-60: does the attribute of the node trigger the joining?  ('' != v for values v other than strings;
    misc_value is used only if it is not empty) *)
Definition is_value (v : val) (x : str) : bool := match v with VStr y => str_eqb y x | _ => false end.
Definition triggers (misc_value : option str) (v : val) : bool :=
  negb (is_value v []) &&
  match misc_value with
  | None | Some [] => true
  | Some x => is_value v x
  end.
Definition Bug : str := s "Bug".
(** jointoken.py:85-86: for c in node.children: c.parent = prevnode *)
Fixpoint attach_to (d : doc) (p : nat) (l : list nat) : doc * res unit :=
  match l with
  | [] => (d, Ok tt)
  | c :: l => let (h, o) := set_parent (d_h d) c (Some p) in
              bind (with_h d h, o) (fun d _ => attach_to d p l)
  end.
(** a + b for forms *)
Definition add_forms (a b : option str) : res (option str) :=
  match a, b with Some a, Some b => Ok (Some (a ++ b)) | _, _ => Raise TypeError end.
(** jointoken.py:81-97: joining the node [x] with [p], the node before it *)
Definition join_with (d : doc) (p x : nat) : doc * res unit :=
  bind (d, descendants (d_h d) x) (fun d l =>
  bind (if mem p l then
          let (h, o) := set_parent (d_h d) p (h_par (d_h d) x) in
          bind (with_h d h, o) (fun d _ =>
          (put_at d p (set_deprel (d_at d p) (n_deprel (d_at d x))), Ok tt))
        else (d, Ok tt)) (fun d _ =>
  bind (attach_to d p (h_ch (d_h d) x)) (fun d _ =>
  bind (d, add_forms (n_form (d_at d p)) (n_form (d_at d x))) (fun d f =>
  let d := put_at d p (set_form (d_at d p) f) in
  let (d, v) := read_misc d x SpaceAfter in
  let d := put_misc d p SpaceAfter v in
  let (h, o) := node_remove (d_h d) x None in
  (with_h d h, o))))).
(** jointoken.py:46-97 process_node *)
Definition join_token (misc_name : str) (misc_value : option str) (d : doc) (x : nat) : doc * res unit :=
  let (d, v) := read_misc d x misc_name in
  if negb (triggers misc_value v) then (d, Ok tt)
  else
    bind (d, prev_node (d_h d) x) (fun d prev =>
    match prev with
    | None => (put_misc d x Bug (VStr (s "JoiningTokenNotSupportedHere")), Ok tt)
    | Some p =>
      match d_mwt d x, d_mwt d p with
      | None, None =>
        let (d, v) := read_misc d p SpaceAfter in
        if val_is v No then join_with d p x
        else (put_misc d x Bug (VStr (s "JoiningTokensWithSpaceNotSupported")), Ok tt)
      | _, _ => (put_misc d x Bug (VStr (s "JoiningTokenNotSupportedHere")), Ok tt)
      end
    end).
(** udapi/core/block.py:55-62 process_tree *)
Definition join_tokens (misc_name : str) (misc_value : option str) (d : doc) (r : nat) : doc * res unit :=
  each_node (join_token misc_name misc_value) d (h_desc (d_h d) r).
