(** Attributes of nodes, multi-word tokens and tree-level information: the parts of
    udapi/core/node.py, udapi/core/root.py and udapi/core/mwt.py that are not structural
    (the structure itself is in TreeModel). *)
From Coq Require Import String List NArith ZArith Bool.
From Verif Require Import PyStr PyList PyExn TreeModel DualDictModel.
Import ListNotations.
Local Open Scope Z_scope.

(** node.py:70-86 __slots__ of Node other than the structural ones and _mentions.
    [n_deps] is _deps: a list of (parent, deprel) pairs standing for the dicts
    {'parent': ..., 'deprel': ...}. *)
Record attrs := mkAttrs {
  n_form : option str; n_lemma : option str; n_upos : option str; n_xpos : option str;
  n_feats : option dualdict; n_deprel : option str; n_misc : option dualdict;
  n_raw_deps : option str; n_deps : option (list (nat * str)) }.

(** mwt.py:7 __slots__ *)
Record mwt := mkMwt { m_words : list nat; m_form : option str; m_misc : option dualdict; m_root : nat }.

(** root.py:14-15 __slots__ of Root that hold strings.  newpar/newdoc: None, True or a string.
    [ri_json] is root.json without the key '__doc__', [ri_doc_json] is root.json['__doc__'];
    a JSON value is represented by its json.dumps(..., sort_keys=True) text. *)
Record rinfo := mkRI {
  ri_sent_id : option str; ri_zone : option str; ri_text : option str; ri_comment : str;
  ri_newpar : val; ri_newdoc : val; ri_json : list (str * str); ri_doc_json : list (str * str) }.

(** The objects of a document: the heap of TreeModel, the attributes of the nodes, the
    multi-word tokens (numbered separately) and the information of the roots. *)
Record doc := mkDoc {
  d_h : heap;
  d_at : nat -> attrs;
  d_mwt : nat -> option nat;        (* node._mwt *)
  d_mwts : nat -> list nat;         (* root._mwts *)
  d_m : nat -> mwt;
  d_mnext : nat;                    (* MWTs with a number >= d_mnext do not exist yet *)
  d_ri : nat -> rinfo }.

Definition with_h d h := mkDoc h (d_at d) (d_mwt d) (d_mwts d) (d_m d) (d_mnext d) (d_ri d).
Definition put_at d x a := mkDoc (d_h d) (upd (d_at d) x a) (d_mwt d) (d_mwts d) (d_m d) (d_mnext d) (d_ri d).
Definition put_mwt d x v := mkDoc (d_h d) (d_at d) (upd (d_mwt d) x v) (d_mwts d) (d_m d) (d_mnext d) (d_ri d).
Definition put_mwts d r v := mkDoc (d_h d) (d_at d) (d_mwt d) (upd (d_mwts d) r v) (d_m d) (d_mnext d) (d_ri d).
Definition put_m d m v := mkDoc (d_h d) (d_at d) (d_mwt d) (d_mwts d) (upd (d_m d) m v) (d_mnext d) (d_ri d).
Definition put_ri d r v := mkDoc (d_h d) (d_at d) (d_mwt d) (d_mwts d) (d_m d) (d_mnext d) (upd (d_ri d) r v).

Definition set_misc (a : attrs) (m : option dualdict) : attrs :=
  mkAttrs (n_form a) (n_lemma a) (n_upos a) (n_xpos a) (n_feats a) (n_deprel a) m (n_raw_deps a) (n_deps a).
Definition set_deps (a : attrs) (raw : option str) (l : option (list (nat * str))) : attrs :=
  mkAttrs (n_form a) (n_lemma a) (n_upos a) (n_xpos a) (n_feats a) (n_deprel a) (n_misc a) raw l.

(** node.py:88-106 Node.__init__ attributes of a node created without arguments. *)
Definition no_attrs : attrs := mkAttrs None None None None None None None (Some US) None.
Definition no_rinfo : rinfo := mkRI None None None [] VNone VNone [] [].
Definition no_mwt : mwt := mkMwt [] None None 0%nat.
Definition doc0 : doc :=
  mkDoc heap0 (fun _ => no_attrs) (fun _ => None) (fun _ => []) (fun _ => no_mwt) 0 (fun _ => no_rinfo).

(** node.py:97, 99 and mwt.py:12: Feats(feats) if feats and feats != '_' else None, for a
    string argument (the constructor stores the string). *)
Definition opt_dd (x : str) : option dualdict :=
  match x with
  | [] => None
  | _ => if str_eqb x US then None else dd_new (Some (MStr x))
  end.

(** node.py:88-106: a new node of class [k] with attributes [a] *)
Definition new_node (d : doc) (k : kind) (r : nat) (a : attrs) : doc * nat :=
  let (h, n) := alloc (d_h d) k r in
  (put_mwt (put_at (with_h d h) n a) n None, n).
(** root.py:18-40 Root.__init__() *)
Definition doc_new_root (d : doc) : doc * nat :=
  let (h, r) := new_root (d_h d) in
  let ROOT := Some (s "<ROOT>") in
  let d := put_at (with_h d h) r (mkAttrs ROOT ROOT ROOT ROOT None ROOT None (Some US) None) in
  (put_ri (put_mwts (put_mwt d r None) r []) r no_rinfo, r).

(** node.py:210-233, mwt.py:17-25: the misc property (an absent dict is created on access). *)
Definition dd_prop (m : option dualdict) : dualdict := match m with Some x => x | None => dd_empty end.
Definition SpaceAfter : str := s "SpaceAfter".
Definition No : str := s "No".
Definition val_is (v : val) (x : str) : bool := match v with VStr y => str_eqb y x | _ => false end.

(** MISC value of a node or MWT without the effect of caching: misc[key] *)
Definition misc_get (m : option dualdict) (k : str) : val := snd (dd_get (dd_prop m) k).

(** mwt.py:40-44 MWT.remove: the words forget the MWT, then the root's list does (ValueError
    if the MWT is not in it). *)
Fixpoint forget (d : doc) (l : list nat) : doc :=
  match l with [] => d | w :: l => forget (put_mwt d w None) l end.
Definition mwt_remove (d : doc) (m : nat) : doc * res unit :=
  let d := forget d (m_words (d_m d m)) in
  let r := m_root (d_m d m) in
  match list_remove m (d_mwts d r) with
  | None => (d, Raise ValueError)
  | Some l => (put_mwts d r l, Ok tt)
  end.

(** root.py:180-182: remove all previous MWTs containing any of the words. *)
Fixpoint remove_old (d : doc) (l : list nat) : doc * res unit :=
  match l with
  | [] => (d, Ok tt)
  | w :: l => match d_mwt d w with
              | None => remove_old d l
              | Some m => bind (mwt_remove d m) (fun d _ => remove_old d l)
              end
  end.
(** mwt.py:14-15 *)
Fixpoint belong (d : doc) (m : nat) (l : list nat) : doc :=
  match l with [] => d | w :: l => belong (put_mwt d w (Some m)) m l end.
(** root.py:188-189 *)
Fixpoint clear_space_after (d : doc) (l : list nat) : doc :=
  match l with
  | [] => d
  | w :: l => let a := d_at d w in
              clear_space_after
                (put_at d w (set_misc a (Some (dd_set (dd_prop (n_misc a)) SpaceAfter (VStr []))))) l
  end.
(** root.py:167-190 create_multiword_token; mwt.py:9-15 MWT.__init__, where [misc] is the _misc of the new MWT. *)
Definition create_mwt (d : doc) (r : nat) (words : list nat) (form : option str) (misc : option dualdict)
  : doc * res nat :=
  bind (remove_old d words) (fun d _ =>
  let m := d_mnext d in
  let d := mkDoc (d_h d) (d_at d) (d_mwt d) (d_mwts d) (upd (d_m d) m (mkMwt words form misc r))
                 (S m) (d_ri d) in
  let d := belong d m words in
  let d := put_mwts d r (d_mwts d r ++ [m]) in
  match last_opt words with
  | None => (d, Raise IndexError)                                      (* words[-1] *)
  | Some w =>
    let a := d_at d w in
    let (dd, v) := dd_get (dd_prop (n_misc a)) SpaceAfter in
    let d := put_at d w (set_misc a (Some dd)) in
    let mw := d_m d m in
    let d := if val_is v No
             then put_m d m (mkMwt (m_words mw) (m_form mw)
                                   (Some (dd_set (dd_prop (m_misc mw)) SpaceAfter (VStr No))) (m_root mw))
             else d in
    (clear_space_after d words, Ok m)
  end).
(** The same with string (or None) misc; [None] misc is the empty string here. *)
Definition create_multiword_token (d : doc) (r : nat) (words : list nat) (form : option str) (misc : str)
  : doc * res nat := create_mwt d r words form (opt_dd misc).
(** The same with the misc of another MWT (mwt.py:12: a non-empty DualDict is copied). *)
Definition copy_misc (m : option dualdict) : option dualdict :=
  match dd_dict (deserialize_if_empty (dd_prop m)) with [] => None | l => Some (mkDD None l) end.

(** mwt.py:34-38 ord_range: sorts mwt.words, then first and last ord (IndexError if none). *)
Definition mwt_sorted (d : doc) (m : nat) : list nat := sort_nodes (d_h d) (m_words (d_m d m)).
Definition ord_range (d : doc) (m : nat) : res str :=
  match mwt_sorted d m, last_opt (mwt_sorted d m) with
  | w :: _, Some z => Ok (str_of_Z (h_ord (d_h d) w) ++ s "-" ++ str_of_Z (h_ord (d_h d) z))
  | _, _ => Raise IndexError
  end.

(** root.py:229-257 token_descendants *)
Inductive token := TWord (x : nat) | TMwt (m : nat).
Fixpoint token_loop (d : doc) (last_mwt_id : Z) (l : list nat) : res (list token) :=
  match l with
  | [] => Ok []
  | x :: l =>
    match d_mwt d x with
    | Some m =>
      if last_mwt_id <? h_ord (d_h d) x then
        match last_opt (m_words (d_m d m)) with
        | None => Raise IndexError
        | Some z => rbind (token_loop d (h_ord (d_h d) z) l) (fun ts => Ok (TMwt m :: ts))
        end
      else token_loop d last_mwt_id l
    | None => rbind (token_loop d last_mwt_id l) (fun ts => Ok (TWord x :: ts))
    end
  end.
Definition token_descendants (d : doc) (r : nat) : res (list token) := token_loop d 0 (h_desc (d_h d) r).

(** node.py:840-872 compute_text.  A missing form (None) makes the concatenation a TypeError. *)
Definition space_unless_no (m : option dualdict) : str := if val_is (misc_get m SpaceAfter) No then [] else [SP].
Fixpoint text_loop (d : doc) (use_mwt : bool) (last_mwt_id : Z) (acc : str) (l : list nat) : res str :=
  match l with
  | [] => Ok acc
  | x :: l =>
    match (if use_mwt then d_mwt d x else None) with
    | Some m =>
      if last_mwt_id <? h_ord (d_h d) x then
        match last_opt (m_words (d_m d m)), m_form (d_m d m) with
        | None, _ => Raise IndexError
        | Some z, None => Raise TypeError
        | Some z, Some f => text_loop d use_mwt (h_ord (d_h d) z) (acc ++ f ++ space_unless_no (m_misc (d_m d m))) l
        end
      else text_loop d use_mwt last_mwt_id acc l
    | None =>
      match n_form (d_at d x) with
      | None => Raise TypeError
      | Some f => text_loop d use_mwt last_mwt_id (acc ++ f ++ space_unless_no (n_misc (d_at d x))) l
      end
    end
  end.
Definition compute_text (d : doc) (x : nat) (use_mwt : bool) : res str :=
  rbind (if is_root (d_h d) x then Ok (h_desc (d_h d) x) else descendants_add_self (d_h d) x)
        (fun l => rbind (text_loop d use_mwt 0 [] l) (fun t => Ok (rstrip t))).

(** root.py:204-222 get_sentence *)
Definition get_sentence (d : doc) (r : nat) (if_missing : str) : res str :=
  match ri_text (d_ri d r) with
  | Some t => Ok t
  | None => if str_eqb if_missing (s "fatal") then Raise RuntimeError
            else if ends_with (s "detokenize") if_missing then compute_text d r true
            else Ok []
  end.

(** root.py:224-229 add_comment (root.comment is always a string here). *)
Definition add_comment (c x : str) : str := rstrip c ++ LF :: SP :: x.
