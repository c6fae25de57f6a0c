(** What storing and loading bridging links and split antecedents promises. *)
From Coq Require Import String List NArith ZArith Bool Permutation Sorted.
From Verif Require Import PyStr PyList PyExn TreeModel BridgeModel.
Import ListNotations.
Local Open Scope list_scope.

(** The mentions of a document: each starts at a node of the document; no id contains a character that CorefEntity.eid refuses,
    nor the separators of Bridge and SplitAnte. *)
Record good_doc (d : bdoc) : Prop := {
  gd_ms : NoDup (bd_ms d);
  gd_nodes : NoDup (bd_nodes d);
  gd_first : forall m, In m (bd_ms d) -> In (bd_first d m) (bd_nodes d);
  gd_ids : forall m, In m (bd_ms d) -> bad_eid (bd_eid d m) = false /\ ~ In COMMA (bd_eid d m) /\ ~ In LESS (bd_eid d m)
}.
(** e is the id of an entity with mentions *)
Definition is_entity (d : bdoc) (e : str) : Prop := exists m, In m (bd_ms d) /\ bd_eid d m = e.
(** no two mentions of one entity start at the same word *)
Definition distinct_starts (d : bdoc) : Prop := forall m m', In m (bd_ms d) -> In m' (bd_ms d) ->
  bd_eid d m = bd_eid d m' -> bd_first d m = bd_first d m' -> m = m'.
(** the links whose target has a mention *)
Definition live_links (d : bdoc) (l : list link) : list link := filter (fun x => mentioned d (fst x)) l.
(** links to entities without mentions are allowed, but not two in a row, and not only such links *)
Definition dead_apart (d : bdoc) (l : list link) : Prop :=
  (forall l1 a b l2, l = l1 ++ a :: b :: l2 -> is_entity d (fst a) \/ is_entity d (fst b)) /\
  (l <> [] -> exists x, In x l /\ is_entity d (fst x)).
(** links that the attribute Bridge can express *)
Definition good_links (d : bdoc) (m : nat) (l : list link) : Prop :=
  (l <> [] -> ~ In COLON (bd_eid d m)) /\
  forall trg rel, In (trg, rel) l -> is_entity d trg ->
    trg <> bd_eid d m /\ ~ In COMMA rel /\ ~ In LESS rel /\ rel <> s "_".
(** split antecedents that the attribute SplitAnte can express: none, or at least two *)
Definition good_antes (d : bdoc) (e : str) (l : list str) : Prop :=
  (l = [] \/ 2 <= length l) /\ forall a, In a l -> is_entity d a /\ a <> e.
(** a is mentioned before b: the first mention of a is before the first mention of b *)
Definition introduced_before (d : bdoc) (a b : str) : Prop :=
  exists l1 m l2, bd_ms d = l1 ++ m :: l2 /\ bd_eid d m = a /\ (forall m', In m' (l1 ++ [m]) -> bd_eid d m' <> b).
(** the order of links in a stored list: by the target, then by the relation *)
Definition link_le (d : bdoc) (a b : link) : Prop :=
  introduced_before d (fst a) (fst b) \/ (fst a = fst b /\ str_leb (snd a) (snd b) = true).

(** ---- mention.bridging as a list ---- *)
(** one statement of a program: every statement fetches mention.bridging and uses it at once *)
Inductive bop :=
| Read (m : nat)
| Append (m : nat) (v : link)
| Insert (m : nat) (key : Z) (v : link)
| SetItem (m : nat) (key : Z) (v : link)
| DelItem (m : nat) (key : Z).
Definition exec (ent : nat -> str) (b : bridging) (o : bop) : bridging * res unit :=
  match o with
  | Read m => bind (br_get ent b m) (fun b _ => (b, Ok tt))
  | Append m v => bind (br_get ent b m) (fun b x => br_append ent b x v)
  | Insert m k v => bind (br_get ent b m) (fun b x => br_insert ent b x k v)
  | SetItem m k v => bind (br_get ent b m) (fun b x => br_set ent b x k v)
  | DelItem m k => bind (br_get ent b m) (fun b x => br_del b x k)
  end.
(** the same statement on plain lists, one for each mention; None is an error, which changes nothing *)
Definition list_op (ent : nat -> str) (l : list link) (o : bop) : option (list link) :=
  match o with
  | Read _ => Some l
  | Append m v => if str_eqb (fst v) (ent m) then None else Some (l ++ [v])
  | Insert m k v => if str_eqb (fst v) (ent m) then None else Some (firstn (py_bound l k) l ++ v :: skipn (py_bound l k) l)
  | SetItem m k v => if str_eqb (fst v) (ent m) then None else py_set l k v
  | DelItem _ k => option_map (fun i => firstn i l ++ skipn (S i) l) (py_index l k)
  end.
Definition op_of (o : bop) : nat := match o with Read m | Append m _ | Insert m _ _ | SetItem m _ _ | DelItem m _ => m end.
Fixpoint list_run (ent : nat -> str) (L : nat -> list link) (ops : list bop) : nat -> list link :=
  match ops with
  | [] => L
  | o :: ops => list_run ent (match list_op ent (L (op_of o)) o with Some l => upd L (op_of o) l | None => L end) ops
  end.
(** a program that goes on after errors *)
Fixpoint run (ent : nat -> str) (b : bridging) (ops : list bop) : bridging :=
  match ops with
  | [] => b
  | o :: ops => run ent (fst (exec ent b o)) ops
  end.
(** every mention has its own list object, which knows its mention *)
Definition own_lists (b : bridging) : Prop := forall m o, br_of b m = Some o -> o < br_next b /\ br_src b o = m.
Definition no_lists : bridging := mkBr 0 (fun _ => None) (fun _ => []) (fun _ => 0).
