(** Specification of FEATS/MISC attributes: an ordinary finite mapping.
    It has no lazy parts and no cache: the only thing remembered besides the mapping
    is the text that was assigned, as long as no update has been made since. *)
From Coq Require Import String List NArith ZArith Bool.
From Verif Require Import PyStr PyList DualDictModel.
Import ListNotations.

Record mapping := mkMap {
  m_names : list str;               (* names in insertion order *)
  m_val : str -> option val;        (* value of a name *)
  m_text : option str               (* assigned text, if not updated since *)
}.

Definition no_val : str -> option val := fun _ => None.
Definition present (m : mapping) (k : str) : bool :=
  match m_val m k with Some _ => true | None => false end.

Definition put (m : mapping) (k : str) (v : val) : mapping :=
  mkMap (if present m k then m_names m else m_names m ++ [k])
        (fun k' => if str_eqb k' k then Some v else m_val m k') None.
Definition without (m : mapping) (k : str) : mapping :=
  mkMap (filter (fun k' => negb (str_eqb k' k)) (m_names m))
        (fun k' => if str_eqb k' k then None else m_val m k') None.

(** The entries written in a text such as [Case=Nom|Foo|Number=Sing]. *)
Definition entry (raw : str) : str * val :=
  match split1 EQ raw with
  | Some (name, value) => (name, VStr value)
  | None => (raw, VTrue)
  end.
Definition entries (x : str) : list (str * val) := map entry (split BAR x).

(** First occurrences of names; the value of a name is the one written last. *)
Fixpoint firsts (seen : list str) (l : list str) : list str :=
  match l with
  | [] => []
  | k :: l' => if existsb (str_eqb k) seen then firsts seen l' else k :: firsts (k :: seen) l'
  end.
Definition last_value (l : list (str * val)) (k : str) : option val :=
  match find (fun kv => str_eqb k (fst kv)) (rev l) with
  | Some kv => Some (snd kv)
  | None => None
  end.

(** The mapping denoted by a text ('' and '_' denote the empty mapping). *)
Definition of_text (x : str) : mapping :=
  if str_eqb x [] || str_eqb x US then mkMap [] no_val (Some US)
  else mkMap (firsts [] (map fst (entries x))) (last_value (entries x)) (Some x).
(** The mapping given as a Python dict. *)
Definition of_dict (d : dict) : mapping := mkMap (map fst d) (dict_get d) None.

(** Canonical text: items in case-insensitive order of names, joined by '|'; '_' if none. *)
Definition item_of (m : mapping) (k : str) : str :=
  match m_val m k with Some v => item_str (k, v) | None => k end.
Definition canonical (lower : str -> str) (m : mapping) : str :=
  match map (item_of m) (isort (fun a b => str_leb (lower a) (lower b)) (m_names m)) with
  | [] => US
  | items => join [BAR] items
  end.
Definition text_of (lower : str -> str) (m : mapping) : str :=
  match m_text m with Some x => x | None => canonical lower m end.

Definition update_mapping (m : mapping) (k : str) (v : val) : mapping :=
  match v with
  | VNone | VStr [] => without m k
  | _ => put m k v
  end.

Definition map_step (lower : str -> str) (m : mapping) (o : op) : mapping * answer :=
  match o with
  | OGet k => (m, AVal (match m_val m k with Some v => v | None => VStr [] end))
  | OSet k v => (update_mapping m k v, AUnit)
  | ODel k => (if present m k then without m k else m, AUnit)
  | OIter => (m, AKeys (m_names m))
  | OLen => (m, ANat (length (m_names m)))
  | OContains k => (m, ABool (present m k))
  | OStr => (m, AString (text_of lower m))
  | OClear => (mkMap [] no_val (Some US), AUnit)
  | OSetMapping MNone => (mkMap [] no_val (Some US), AUnit)
  | OSetMapping (MStr x) => (of_text x, AUnit)
  | OSetMapping (MMap d) => (of_dict d, AUnit)
  | OSetMapping MOther => (m, AValueError)
  | OPop k _ => (if present m k then without m k else m,
                 AVal (match m_val m k with Some v => v | None => VStr [] end))
  | OUpdate d => (fold_left (fun m kv => update_mapping m (fst kv) (snd kv)) d m, AUnit)
  end.
Fixpoint map_run (lower : str -> str) (m : mapping) (os : list op) : mapping * list answer :=
  match os with
  | [] => (m, [])
  | o :: os => let (m, a) := map_step lower m o in
               let (m, l) := map_run lower m os in (m, a :: l)
  end.

(** Python dicts have pairwise different keys. *)
Definition is_dict (d : dict) : Prop := NoDup (map fst d).
Definition op_ok (o : op) : Prop :=
  match o with OSetMapping (MMap d) => is_dict d | _ => True end.

(** The mapping with which a new attribute starts. *)
Definition initial (v : option mapval) : option mapping :=
  match v with
  | None => Some (mkMap [] no_val None)
  | Some MNone => Some (mkMap [] no_val (Some US))
  | Some (MStr x) => Some (of_text x)
  | Some (MMap d) => Some (of_dict d)
  | Some MOther => None
  end.
Definition value_ok (v : option mapval) : Prop :=
  match v with Some (MMap d) => is_dict d | _ => True end.

(** States an attribute can be in: constructed from a value, then any operations. *)
Inductive reachable (lower : str -> str) : dualdict -> Prop :=
| reach v d0 os : value_ok v -> dd_new v = Some d0 -> Forall op_ok os ->
    reachable lower (fst (dd_run lower d0 os)).
Definition answers (lower : str -> str) (d : dualdict) (os : list op) : list answer :=
  snd (dd_run lower d os).

(** Well-formed names and values (C02). *)
Definition wf_name (k : str) : Prop := k <> [] /\ ~ In BAR k /\ ~ In EQ k.
Definition wf_val (v : val) : Prop :=
  match v with VTrue => True | VStr x => x <> [] /\ ~ In BAR x | VNone => False end.
Definition wf_dict (d : dict) : Prop := forall k v, In (k, v) d -> wf_name k /\ wf_val v.

(** Operations that only read (C03); deleting a name that the text does not contain
    is also harmless. *)
Definition reads (x : str) (o : op) : Prop :=
  match o with
  | OGet _ | OIter | OLen | OContains _ | OStr => True
  | ODel k => ~ In k (m_names (of_text x))
  | _ => False
  end.
Definition deletes (k : str) (o : op) : Prop := o = ODel k \/ o = OSet k VNone \/ o = OSet k (VStr []).
