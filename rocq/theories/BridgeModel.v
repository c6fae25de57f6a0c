(** Model of bridging links and split antecedents in udapi/core/coref.py: BridgingLinks (413-532), the attributes Bridge and
    SplitAnte in load_coref_from_misc (720-744, 757-763) and in store_coref_to_misc (895-918).
    Simplifications: strict=True; the header global.Entity has no GRP (tree2docid is None, eid_or_grp is eid); the legacy
    attribute Split is left out; the mentions themselves, which the attribute Entity describes, are given: see [bdoc] and CorefIOModel. *)
From Coq Require Import String List NArith ZArith Bool.
From Verif Require Import PyStr PyList PyExn TreeModel.
Import ListNotations.
Local Open Scope list_scope.

(** A document as far as bridging and split antecedents need it: doc.nodes_and_empty, all mentions in the order of
    CorefMention.__lt__ (142-175), the first word of a mention and the eid of its entity. An entity is named by its eid
    (the key in doc._eid_to_entity). *)
Record bdoc := mkBd { bd_nodes : list nat; bd_ms : list nat; bd_first : nat -> nat; bd_eid : nat -> str }.
(** coref.py:412-418 BridgingLink: the eid of the target and the relation *)
Definition link := (str * str)%type.

(** entity.mentions *)
Definition mentions_of (d : bdoc) (e : str) : list nat := filter (fun m => str_eqb (bd_eid d m) e) (bd_ms d).
Definition mentioned (d : bdoc) (e : str) : bool := nonempty (mentions_of d e).
(** the place of the first mention of an entity among all mentions *)
Fixpoint rank_in (d : bdoc) (l : list nat) (e : str) : nat :=
  match l with
  | [] => 0
  | m :: l => if str_eqb (bd_eid d m) e then 0 else S (rank_in d l e)
  end.
(** coref.py:311-327 CorefEntity.__lt__ *)
Definition entity_lt (d : bdoc) (a b : str) : bool :=
  if negb (mentioned d a) || negb (mentioned d b) then
    if negb (mentioned d a) && negb (mentioned d b) then negb (str_leb b a)
    else negb (mentioned d a)
  else Nat.ltb (rank_in d (bd_ms d) a) (rank_in d (bd_ms d) b).
(** coref.py:420-423 BridgingLink.__lt__ *)
Definition link_lt (d : bdoc) (a b : link) : bool :=
  if str_eqb (fst a) (fst b) then negb (str_leb (snd b) (snd a)) else entity_lt d (fst a) (fst b).
(** sorted(self._data) *)
Definition sort_links (d : bdoc) (l : list link) : list link := isort (fun a b => negb (link_lt d b a)) l.

(** ---- storing ---- *)
Definition COMMA : char := 44%N.
Definition LESS : char := 60%N.
Definition COLON : char := 58%N.
(** coref.py:511: one item of __str__ *)
Definition link_text (src : str) (l : link) : str :=
  fst l ++ [LESS] ++ src ++ (if str_eqb (snd l) (s "_") || str_eqb (snd l) [] then [] else COLON :: snd l).
(** coref.py:509-511 BridgingLinks.__str__; eid_or_grp (340-342) raises IndexError for an entity without mentions *)
Definition bridge_str (d : bdoc) (src : str) (l : list link) : res str :=
  if forallb (fun x => mentioned d (fst x)) l then Ok (join [COMMA] (map (link_text src) (sort_links d l)))
  else Raise IndexError.
Fixpoint remove_at {A} (i : nat) (l : list A) : list A :=
  match l with
  | [] => []
  | x :: l => match i with O => l | S i => x :: remove_at i l end
  end.
(** coref.py:527-532 _delete_targets_without_mentions: the list is changed while it is iterated over; [i] is the position of
    the iterator. Simplification: fuel, which the caller gives as the length of the list *)
Fixpoint prune_links (fuel : nat) (d : bdoc) (i : nat) (l : list link) : list link :=
  match fuel with
  | O => l
  | S f =>
    match nth_error l i with
    | None => l
    | Some x => prune_links f d (S i) (if mentioned d (fst x) then l else remove_at i l)
    end
  end.
(** node.misc['Bridge'] of every node, and the links of every mention *)
Record bstore := mkBs { bs_misc : nat -> str; bs_links : nat -> list link }.
(** coref.py:897-901 (and 903-909 for SplitAnte): adding to an attribute of MISC; setting '' deletes it (dualdict.py:66-72) *)
Definition add_text (misc : nat -> str) (n : nat) (t : str) : nat -> str :=
  upd misc n (match misc n with [] => t | old => old ++ [COMMA] ++ t end).
(** coref.py:895-901 *)
Definition store_bridge (d : bdoc) (st : bstore) (m : nat) : res bstore :=
  match bs_links st m with
  | [] => Ok st
  | l =>
    let l := prune_links (length l) d 0 l in
    rbind (bridge_str d (bd_eid d m) l) (fun t =>
      Ok (mkBs (add_text (bs_misc st) (bd_first d m) t) (upd (bs_links st) m l)))
  end.
Fixpoint store_bridges (d : bdoc) (st : bstore) (ms : list nat) : res bstore :=
  match ms with
  | [] => Ok st
  | m :: ms => rbind (store_bridge d st m) (fun st => store_bridges d st ms)
  end.
(** coref.py:789-792: the old attributes are deleted; then all mentions are stored in order *)
Definition store_all_bridges (d : bdoc) (links : nat -> list link) : res bstore :=
  store_bridges d (mkBs (fun _ => []) links) (bd_ms d).

(** l.remove(x) on a list of entities *)
Fixpoint remove_eid (x : str) (l : list str) : list str :=
  match l with
  | [] => []
  | y :: l => if str_eqb y x then l else y :: remove_eid x l
  end.
(** coref.py:906-909 *)
Fixpoint prune_split (fuel : nat) (d : bdoc) (i : nat) (l : list str) : list str :=
  match fuel with
  | O => l
  | S f =>
    match nth_error l i with
    | None => l
    | Some x => prune_split f d (S i) (if mentioned d x then l else remove_eid x l)
    end
  end.
Definition supd {A} (f : str -> A) (k : str) (v : A) : str -> A := fun x => if str_eqb x k then v else f x.
Record sstore := mkSs { ss_misc : nat -> str; ss_split : str -> list str }.
(** coref.py:904-918 *)
Definition store_split (d : bdoc) (st : sstore) (e : str) : res sstore :=
  match ss_split st e with
  | [] => Ok st
  | l =>
    let l := prune_split (length l) d 0 l in
    let split := supd (ss_split st) e l in
    if Nat.ltb (length l) 2 then Ok (mkSs (ss_misc st) split)
    else
      match mentions_of d e with
      | [] => Raise IndexError
      | m :: _ =>
        Ok (mkSs (add_text (ss_misc st) (bd_first d m) (join [COMMA] (map (fun a => a ++ [LESS] ++ e) l))) split)
      end
  end.
(** coref.py:904 for entity in doc.coref_entities *)
Fixpoint store_splits (d : bdoc) (st : sstore) (es : list str) : res sstore :=
  match es with
  | [] => Ok st
  | e :: es => rbind (store_split d st e) (fun st => store_splits d st es)
  end.
Definition store_all_splits (d : bdoc) (split : str -> list str) (es : list str) : res sstore :=
  store_splits d (mkSs (fun _ => []) split) es.

(** ---- loading ---- *)
(** coref.py:550 entities (eid to the mentions seen so far, in order), mention.bridging and entity.split_ante *)
Record bload := mkBl { bl_ents : list (str * list nat); bl_links : nat -> list link; bl_split : str -> list str }.
Fixpoint ents_get (l : list (str * list nat)) (k : str) : option (list nat) :=
  match l with
  | [] => None
  | (k', v) :: l => if str_eqb k k' then Some v else ents_get l k
  end.
Fixpoint ents_put (l : list (str * list nat)) (k : str) (v : list nat) : list (str * list nat) :=
  match l with
  | [] => [(k, v)]
  | (k', v') :: l => if str_eqb k k' then (k', v) :: l else (k', v') :: ents_put l k v
  end.
(** coref.py:296, 335-336: CHARS_FORBIDDEN_IN_ID = "-=| \t()" *)
Definition bad_eid (e : str) : bool := existsb (fun c => has_char c e) (s "-=| ()" ++ [TAB]).
(** coref.py:680-713 a mention whose first word is the current node; its entity may have been created by Bridge or SplitAnte *)
Definition add_mention (d : bdoc) (st : bload) (m : nat) : bload :=
  let e := bd_eid d m in
  let old := match ents_get (bl_ents st) e with Some l => l | None => [] end in
  mkBl (ents_put (bl_ents st) e (old ++ [m])) (bl_links st) (bl_split st).
(** coref.py:469-470, 740-741: the entity of a reference, created if needed *)
Definition refer (st : bload) (e : str) : res bload :=
  match ents_get (bl_ents st) e with
  | Some _ => Ok st
  | None => if bad_eid e then Raise ValueError else Ok (mkBl (ents_put (bl_ents st) e []) (bl_links st) (bl_split st))
  end.
(** coref.py:451-471 one item of Bridge. Simplification: src_str2bl only caches the object mention.bridging *)
Definition read_link (st : bload) (x : str) : res bload :=
  match split LESS x with
  | [trg; src0] =>
    let '(src, rel) := match split1 COLON src0 with Some p => p | None => (src0, []) end in
    if str_eqb trg src then Raise ValueError
    else
      match ents_get (bl_ents st) src with
      | None => Raise KeyError
      | Some ms =>
        match last_opt ms with
        | None => Raise IndexError
        | Some m =>
          rbind (refer st trg) (fun st =>
            Ok (mkBl (bl_ents st) (upd (bl_links st) m (bl_links st m ++ [(trg, rel)])) (bl_split st)))
        end
      end
  | _ => Raise ValueError
  end.
(** coref.py:733-742 one item of SplitAnte *)
Definition read_ante (st : bload) (x : str) : res bload :=
  match split LESS x with
  | [ante; this] =>
    if str_eqb ante this then Raise ValueError
    else
      rbind (refer st ante) (fun st =>
        match ents_get (bl_ents st) this with
        | None => Raise KeyError
        | Some _ => Ok (mkBl (bl_ents st) (bl_links st) (supd (bl_split st) this (bl_split st this ++ [ante])))
        end)
  | _ => Raise ValueError
  end.
Fixpoint read_items (f : bload -> str -> res bload) (st : bload) (l : list str) : res bload :=
  match l with
  | [] => Ok st
  | x :: l => rbind (f st x) (fun st => read_items f st l)
  end.
(** coref.py:720-742 for one node *)
Definition load_node (d : bdoc) (bridge split_ante : nat -> str) (st : bload) (n : nat) : res bload :=
  let st := fold_left (add_mention d) (filter (fun m => Nat.eqb (bd_first d m) n) (bd_ms d)) st in
  rbind (match bridge n with [] => Ok st | t => read_items read_link st (split COMMA t) end) (fun st =>
    match split_ante n with [] => Ok st | t => read_items read_ante st (split COMMA t) end).
Fixpoint load_nodes (d : bdoc) (bridge split_ante : nat -> str) (st : bload) (ns : list nat) : res bload :=
  match ns with
  | [] => Ok st
  | n :: ns => rbind (load_node d bridge split_ante st n) (fun st => load_nodes d bridge split_ante st ns)
  end.
(** coref.py:548-763: all nodes, then every entity must have a mention *)
Definition load_refs (d : bdoc) (bridge split_ante : nat -> str) : res bload :=
  rbind (load_nodes d bridge split_ante (mkBl [] (fun _ => []) (fun _ => [])) (bd_nodes d)) (fun st =>
    if forallb (fun kv => nonempty (snd kv)) (bl_ents st) then Ok st else Raise ValueError).

(** ---- the list mention.bridging ---- *)
(** Objects of class BridgingLinks have identities: mention._bridging (None if absent), the links, src_mention; mention._entity
    is given. A relation that is None becomes '' (418). *)
Record bridging := mkBr { br_next : nat; br_of : nat -> option nat; br_data : nat -> list link; br_src : nat -> nat }.
Definition br_put (b : bridging) (o : nat) (l : list link) : bridging := mkBr (br_next b) (br_of b) (upd (br_data b) o l) (br_src b).
(** coref.py:474-487 BridgingLinks(src_mention, value): an error leaves the mention as it was *)
Definition br_new (ent : nat -> str) (b : bridging) (m : nat) (v : list link) : bridging * res nat :=
  if existsb (fun l => str_eqb (fst l) (ent m)) v then (b, Raise ValueError)
  else (mkBr (S (br_next b)) (upd (br_of b) m (Some (br_next b))) (upd (br_data b) (br_next b) v) (upd (br_src b) (br_next b) m), Ok (br_next b)).
(** coref.py:214-218 mention.bridging: an empty list object is false, so it is replaced *)
Definition br_get (ent : nat -> str) (b : bridging) (m : nat) : bridging * res nat :=
  match br_of b m with
  | Some o => if nonempty (br_data b o) then (b, Ok o) else br_new ent b m []
  | None => br_new ent b m []
  end.
(** coref.py:504-507 insert; append(v) is insert(len(self), v) *)
Definition br_insert (ent : nat -> str) (b : bridging) (o : nat) (key : Z) (v : link) : bridging * res unit :=
  if str_eqb (fst v) (ent (br_src b o)) then (b, Raise ValueError)
  else let l := br_data b o in let k := py_bound l key in (br_put b o (firstn k l ++ v :: skipn k l), Ok tt).
Definition br_append (ent : nat -> str) (b : bridging) (o : nat) (v : link) : bridging * res unit :=
  br_insert ent b o (Z.of_nat (length (br_data b o))) v.
(** coref.py:496-499 __setitem__ *)
Definition br_set (ent : nat -> str) (b : bridging) (o : nat) (key : Z) (v : link) : bridging * res unit :=
  if str_eqb (fst v) (ent (br_src b o)) then (b, Raise ValueError)
  else match py_set (br_data b o) key v with Some l => (br_put b o l, Ok tt) | None => (b, Raise IndexError) end.
(** coref.py:501-502 __delitem__ *)
Definition br_del (b : bridging) (o : nat) (key : Z) : bridging * res unit :=
  match py_index (br_data b o) key with Some k => (br_put b o (remove_at k (br_data b o)), Ok tt) | None => (b, Raise IndexError) end.
(** coref.py:513-520 __call__ with a regular expression; [matches] is re.match on the relation *)
Definition br_call (ent : nat -> str) (matches : str -> bool) (b : bridging) (o : nat) : bridging * res nat :=
  br_new ent b (br_src b o) (filter (fun l => matches (snd l)) (br_data b o)).
(** coref.py:522-525 targets *)
Definition br_targets (b : bridging) (o : nat) : list str := map fst (br_data b o).
(** the links that store_coref_to_misc sees (895): those of mention._bridging *)
Definition br_links (b : bridging) (m : nat) : list link := match br_of b m with Some o => br_data b o | None => [] end.
