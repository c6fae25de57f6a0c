(** Model of udapi/core/dualdict.py (class DualDict, used for FEATS and MISC).
    [lower] stands for Python's str.lower and is an arbitrary function. *)
From Coq Require Import String List NArith ZArith Bool.
From Verif Require Import PyStr PyList.
Import ListNotations.

(** Values that occur in a DualDict: strings, the flag True, and None (only through
    assigning a mapping that contains None).  Simplification: other Python objects as
    values are not modelled. *)
Inductive val := VTrue | VNone | VStr (x : str).

(** A Python dict from str to values, in insertion order, keys pairwise different. *)
Definition dict := list (str * val).

(** d.get(k) with None for absent. *)
Fixpoint dict_get (d : dict) (k : str) : option val :=
  match d with
  | [] => None
  | (k', v) :: d' => if str_eqb k k' then Some v else dict_get d' k
  end.
(** d[k] = v: overwrite in place, or append. *)
Fixpoint dict_set (d : dict) (k : str) (v : val) : dict :=
  match d with
  | [] => [(k, v)]
  | (k', v') :: d' => if str_eqb k k' then (k', v) :: d' else (k', v') :: dict_set d' k v
  end.
(** del d[k]; [None] is KeyError. *)
Fixpoint dict_del (d : dict) (k : str) : option dict :=
  match d with
  | [] => None
  | (k', v') :: d' => if str_eqb k k' then Some d'
                      else match dict_del d' k with
                           | Some r => Some ((k', v') :: r)
                           | None => None
                           end
  end.

(** dualdict.py:31 __slots__ = ['_string', '_dict'] *)
Record dualdict := mkDD { dd_string : option str; dd_dict : dict }.

Definition BAR : char := 124%N.
Definition EQ : char := 61%N.
Definition US : str := s "_".

(** dualdict.py:45-48, formatting of one item in __str__: a flag is printed as its
    name, other values as name=value (None prints as the text None). *)
Definition item_str (kv : str * val) : str :=
  match snd kv with
  | VTrue => fst kv
  | VNone => fst kv ++ [EQ] ++ s "None"
  | VStr v => fst kv ++ [EQ] ++ v
  end.

(** dualdict.py:41-50 __str__: serialise (sorted by lower-cased name) and cache. *)
Definition serialize (lower : str -> str) (d : dict) : str :=
  match map item_str (isort (fun a b => str_leb (lower (fst a)) (lower (fst b))) d) with
  | [] => US
  | items => join [BAR] items
  end.
Definition dd_str (lower : str -> str) (d : dualdict) : dualdict * str :=
  match dd_string d with
  | Some x => (d, x)
  | None => let x := serialize lower (dd_dict d) in (mkDD (Some x) (dd_dict d), x)
  end.

(** dualdict.py:55-60, one raw feature. *)
Definition parse_item (d : dict) (raw : str) : dict :=
  match split1 EQ raw with
  | Some (name, value) => dict_set d name (VStr value)
  | None => dict_set d raw VTrue
  end.
(** dualdict.py:52-60 _deserialize_if_empty *)
Definition deserialize_if_empty (d : dualdict) : dualdict :=
  match dd_dict d, dd_string d with
  | [], Some x => if str_eqb x US then d
                  else mkDD (Some x) (fold_left parse_item (split BAR x) [])
  | _, _ => d
  end.

(** dualdict.py:62-64 __getitem__ *)
Definition dd_get (d : dualdict) (k : str) : dualdict * val :=
  let d := deserialize_if_empty d in
  (d, match dict_get (dd_dict d) k with Some v => v | None => VStr [] end).

(** dualdict.py:74-80 __delitem__ *)
Definition dd_del (d : dualdict) (k : str) : dualdict :=
  let d := deserialize_if_empty d in
  match dict_del (dd_dict d) k with
  | Some m => mkDD None m
  | None => d
  end.

(** dualdict.py:66-72 __setitem__ *)
Definition dd_set (d : dualdict) (k : str) (v : val) : dualdict :=
  let d := deserialize_if_empty d in
  let d := mkDD None (dd_dict d) in
  match v with
  | VNone | VStr [] => dd_del d k
  | _ => mkDD None (dict_set (dd_dict d) k v)
  end.

(** dualdict.py:82-84 __iter__ (the list of names in iteration order) *)
Definition dd_iter (d : dualdict) : dualdict * list str :=
  let d := deserialize_if_empty d in (d, map fst (dd_dict d)).
(** dualdict.py:86-88 __len__ *)
Definition dd_len (d : dualdict) : dualdict * nat :=
  let d := deserialize_if_empty d in (d, length (dd_dict d)).
(** dualdict.py:90-92 __contains__ *)
Definition dd_contains (d : dualdict) (k : str) : dualdict * bool :=
  let d := deserialize_if_empty d in
  (d, match dict_get (dd_dict d) k with Some _ => true | None => false end).
(** dualdict.py:94-96 clear *)
Definition dd_clear (d : dualdict) : dualdict := mkDD (Some US) [].

(** Values accepted by set_mapping: None, a string, a mapping, anything else. *)
Inductive mapval := MNone | MStr (x : str) | MMap (d : dict) | MOther.
(** dualdict.py:102-121 set_mapping; [None] is ValueError (the object is unchanged). *)
Definition dd_set_mapping (d : dualdict) (v : mapval) : option dualdict :=
  match v with
  | MNone => Some (dd_clear d)
  | MStr x => Some (mkDD (Some (match x with [] => US | _ => x end)) [])
  | MMap m => Some (mkDD None m)
  | MOther => None
  end.

(** dualdict.py:33-39 __init__ with a value only. *)
Definition dd_empty : dualdict := mkDD None [].
Definition dd_new (v : option mapval) : option dualdict :=
  match v with
  | None => Some dd_empty                       (* value=None: set_mapping is not called *)
  | Some v => dd_set_mapping dd_empty v
  end.
(** dualdict.py:33-39 __init__ with keyword arguments only. *)
Definition dd_new_kwargs (m : dict) : dualdict := mkDD None m.

(** Methods inherited from collections.abc.MutableMapping (CPython Lib/_collections_abc.py):
    get(k, default), pop(k, default), setdefault(k, default), update(mapping), popitem().
    They are defined there in terms of __getitem__ raising KeyError, which DualDict never does. *)
Definition dd_get_default (d : dualdict) (k : str) (dflt : val) : dualdict * val := dd_get d k.
Definition dd_pop (d : dualdict) (k : str) (dflt : val) : dualdict * val :=
  let (d, v) := dd_get d k in (dd_del d k, v).
Definition dd_setdefault (d : dualdict) (k : str) (dflt : val) : dualdict * val := dd_get d k.
Definition dd_update (d : dualdict) (m : dict) : dualdict :=
  fold_left (fun d kv => dd_set d (fst kv) (snd kv)) m d.

(** One operation of the public interface, with its visible answer. *)
Inductive op :=
| OGet (k : str) | OSet (k : str) (v : val) | ODel (k : str) | OIter | OLen
| OContains (k : str) | OStr | OClear | OSetMapping (v : mapval)
| OPop (k : str) (dflt : val) | OUpdate (m : dict).
Inductive answer :=
| AUnit | AVal (v : val) | AKeys (l : list str) | ANat (n : nat) | ABool (b : bool)
| AString (x : str) | AValueError.

Definition dd_step (lower : str -> str) (d : dualdict) (o : op) : dualdict * answer :=
  match o with
  | OGet k => let (d, v) := dd_get d k in (d, AVal v)
  | OSet k v => (dd_set d k v, AUnit)
  | ODel k => (dd_del d k, AUnit)
  | OIter => let (d, l) := dd_iter d in (d, AKeys l)
  | OLen => let (d, n) := dd_len d in (d, ANat n)
  | OContains k => let (d, b) := dd_contains d k in (d, ABool b)
  | OStr => let (d, x) := dd_str lower d in (d, AString x)
  | OClear => (dd_clear d, AUnit)
  | OSetMapping v => match dd_set_mapping d v with
                     | Some d => (d, AUnit)
                     | None => (d, AValueError)
                     end
  | OPop k dflt => let (d, v) := dd_pop d k dflt in (d, AVal v)
  | OUpdate m => (dd_update d m, AUnit)
  end.
Fixpoint dd_run (lower : str -> str) (d : dualdict) (os : list op) : dualdict * list answer :=
  match os with
  | [] => (d, [])
  | o :: os => let (d, a) := dd_step lower d o in
               let (d, l) := dd_run lower d os in (d, a :: l)
  end.
