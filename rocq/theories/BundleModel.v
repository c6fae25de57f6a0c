(** Model of documents, bundles and zones: udapi/core/bundle.py, udapi/core/document.py (create_bundle),
    udapi/core/root.py (sent_id, zone, remove), udapi/core/node.py (precedes).
    Documents, bundles and trees are natural numbers; each attribute is a field of the store.
    The generic [Exception] raised by this code is modelled as RuntimeError.
    Simplification: document.json and root.json are left out (bundle.py:100-103). *)
From Coq Require Import String List NArith ZArith Bool.
From Verif Require Import PyStr PyList PyExn TreeModel.
Import ListNotations.

(** root.py:14-15, bundle.py:20, document.py:28-29: the attributes *)
Record store := mkSt {
  nt : nat; nb : nat; nd : nat;          (* trees, bundles, documents allocated so far *)
  t_zone : nat -> option str;            (* Root._zone *)
  t_sid : nat -> option str;             (* Root._sent_id *)
  t_bundle : nat -> option nat;          (* Root._bundle *)
  b_trees : nat -> list nat;             (* Bundle.trees *)
  b_id : nat -> option str;              (* Bundle._bundle_id *)
  b_number : nat -> option Z;            (* Bundle.number (None: the slot is not set) *)
  b_doc : nat -> nat;                    (* Bundle._document *)
  d_bundles : nat -> list nat;           (* Document.bundles *)
  d_highest : nat -> Z                   (* Document._highest_bundle_id *)
}.
Definition put_zone s x v := mkSt (nt s) (nb s) (nd s) (upd (t_zone s) x v) (t_sid s) (t_bundle s) (b_trees s) (b_id s) (b_number s) (b_doc s) (d_bundles s) (d_highest s).
Definition put_sid s x v := mkSt (nt s) (nb s) (nd s) (t_zone s) (upd (t_sid s) x v) (t_bundle s) (b_trees s) (b_id s) (b_number s) (b_doc s) (d_bundles s) (d_highest s).
Definition put_bundle s x v := mkSt (nt s) (nb s) (nd s) (t_zone s) (t_sid s) (upd (t_bundle s) x v) (b_trees s) (b_id s) (b_number s) (b_doc s) (d_bundles s) (d_highest s).
Definition put_trees s x v := mkSt (nt s) (nb s) (nd s) (t_zone s) (t_sid s) (t_bundle s) (upd (b_trees s) x v) (b_id s) (b_number s) (b_doc s) (d_bundles s) (d_highest s).
Definition put_bid s x v := mkSt (nt s) (nb s) (nd s) (t_zone s) (t_sid s) (t_bundle s) (b_trees s) (upd (b_id s) x v) (b_number s) (b_doc s) (d_bundles s) (d_highest s).
Definition put_number s x v := mkSt (nt s) (nb s) (nd s) (t_zone s) (t_sid s) (t_bundle s) (b_trees s) (b_id s) (upd (b_number s) x v) (b_doc s) (d_bundles s) (d_highest s).
Definition put_bundles s x v := mkSt (nt s) (nb s) (nd s) (t_zone s) (t_sid s) (t_bundle s) (b_trees s) (b_id s) (b_number s) (b_doc s) (upd (d_bundles s) x v) (d_highest s).
Definition put_highest s x v := mkSt (nt s) (nb s) (nd s) (t_zone s) (t_sid s) (t_bundle s) (b_trees s) (b_id s) (b_number s) (b_doc s) (d_bundles s) (upd (d_highest s) x v).

Definition store0 : store :=
  mkSt 0 0 0 (fun _ => None) (fun _ => None) (fun _ => None) (fun _ => []) (fun _ => None) (fun _ => None)
       (fun _ => 0) (fun _ => []) (fun _ => 0%Z).

(** document.py:16-32 Document() *)
Definition new_document (s : store) : store * nat :=
  let d := nd s in
  (mkSt (nt s) (nb s) (S d) (t_zone s) (t_sid s) (t_bundle s) (b_trees s) (b_id s) (b_number s) (b_doc s)
        (upd (d_bundles s) d []) (upd (d_highest s) d 0%Z), d).
(** bundle.py:22-25 Bundle(bundle_id, document); the slot number stays unset *)
Definition new_bundle (s : store) (d : nat) (id : str) : store * nat :=
  let b := nb s in
  (mkSt (nt s) (S b) (nd s) (t_zone s) (t_sid s) (t_bundle s) (upd (b_trees s) b []) (upd (b_id s) b (Some id))
        (upd (b_number s) b None) (upd (b_doc s) b d) (d_bundles s) (d_highest s), b).
(** document.py:58-64 create_bundle *)
Definition create_bundle (s : store) (d : nat) : store * nat :=
  let s := put_highest s d (d_highest s d + 1)%Z in
  let (s, b) := new_bundle s d (str_of_Z (d_highest s d)) in
  let s := put_bundles s d (d_bundles s d ++ [b]) in
  (put_number s b (Some (Z.of_nat (length (d_bundles s d)))), b).
(** root.py:18-40 Root(zone) *)
Definition new_tree (s : store) (zone : option str) : store * nat :=
  let t := nt s in
  (mkSt (S t) (nb s) (nd s) (upd (t_zone s) t zone) (upd (t_sid s) t None) (upd (t_bundle s) t None)
        (b_trees s) (b_id s) (b_number s) (b_doc s) (d_bundles s) (d_highest s), t).

(** [A-Za-z0-9-] and [a-z-] *)
Definition zone_lower (c : char) : bool := ((97 <=? c) && (c <=? 122) || (c =? 45))%N.
Definition zone_any (c : char) : bool := zone_lower c || ((65 <=? c) && (c <=? 90))%N || is_digit c.
(** bundle.py:8 the regular expression ^[a-z-]*(_[A-Za-z0-9-]+)?$ with re.match: the part after the
    first underscore, and $ also matches before a final newline. *)
Definition cut_newline (x : str) : str :=
  match rev x with
  | c :: r => if N.eqb c LF then rev r else x
  | [] => x
  end.
Definition valid_zone (x : str) : bool :=
  let x := cut_newline x in
  match split1 95%N x with
  | None => forallb zone_lower x
  | Some (a, b) => forallb zone_lower a && nonempty b && forallb zone_any b
  end.

Definition zone_is (s : store) (z : str) (t : nat) : bool :=
  match t_zone s t with Some y => str_eqb y z | None => false end.
(** bundle.py:79-87 check_zone *)
Definition check_zone (s : store) (b : nat) (z : str) : res unit :=
  if negb (valid_zone z) then Raise ValueError
  else if str_eqb z (PyStr.s "all") then Raise ValueError
  else if existsb (zone_is s z) (b_trees s b) then Raise RuntimeError
  else Ok tt.
(** bundle.py:112-114 address; root.py:47 the zone part *)
Definition b_address (s : store) (b : nat) : str := match b_id s b with Some i => i | None => PyStr.s "?" end.
Definition slash (z : str) : str := if nonempty z then PyStr.s "/" ++ z else [].
Definition zone_str (s : store) (t : nat) : str := match t_zone s t with Some z => z | None => [] end.

(** bundle.py:89-104 add_tree *)
Definition add_tree (s : store) (b t : nat) : store * res unit :=
  let s := match t_zone s t with None => put_zone s t (Some []) | Some _ => s end in
  let z := zone_str s t in
  match check_zone s b z with
  | Raise e => (s, Raise e)
  | Diverge => (s, Diverge)
  | Ok _ =>
    let s := match b_id s b with
             | Some ((_ :: _) as i) => put_sid s t (Some (i ++ slash z))
             | _ => s
             end in
    let s := put_bundle s t (Some b) in
    (put_trees s b (b_trees s b ++ [t]), Ok tt)
  end.
(** bundle.py:72-77 create_tree *)
Definition create_tree (s : store) (b : nat) (zone : option str) : store * res nat :=
  let (s, t) := new_tree s zone in
  bind (add_tree s b t) (fun s _ => (s, Ok t)).
(** bundle.py:32-39 bundle_id setter *)
Fixpoint set_sids (s : store) (id : str) (l : list nat) : store :=
  match l with
  | [] => s
  | t :: l => set_sids (put_sid s t (Some (id ++ PyStr.s "/" ++ zone_str s t))) id l
  end.
Definition set_bundle_id (s : store) (b : nat) (id : str) : store :=
  let s := put_bid s b (Some id) in
  match b_trees s b with
  | [t] => if zone_is s [] t then put_sid s t (Some id) else set_sids s id [t]
  | l => set_sids s id l
  end.
(** root.py:92-104 zone setter *)
Definition set_zone (s : store) (t : nat) (z : str) : store * res unit :=
  match (match t_bundle s t with Some b => check_zone s b z | None => Ok tt end) with
  | Raise e => (s, Raise e)
  | Diverge => (s, Diverge)
  | Ok _ =>
    let s := put_zone s t (Some z) in
    (put_sid s t (Some (match t_bundle s t, t_sid s t with
                        | Some b, _ => b_address s b ++ slash z
                        | None, Some ((_ :: _) as i) =>
                            match split1 47%N i with Some (a, _) => a | None => i end ++ slash z
                        | None, _ => PyStr.s "?" ++ slash z
                        end)), Ok tt)
  end.
(** root.py:54-61 sent_id setter *)
Definition set_sent_id (s : store) (t : nat) (v : str) : store * res unit :=
  match t_bundle s t with
  | None => (put_sid s t (Some v), Ok tt)
  | Some b =>
    match split1 47%N v with
    | None => (put_sid (set_bundle_id s b v) t (Some v), Ok tt)
    | Some (i, z) => bind (set_zone (set_bundle_id s b i) t z) (fun s _ => (put_sid s t (Some v), Ok tt))
    end
  end.
(** root.py:42-52 sent_id getter; it stores what it computes if the tree is in a bundle *)
Definition sent_id (s : store) (t : nat) : store * str :=
  match t_sid s t with
  | Some v => (s, v)
  | None =>
    match t_bundle s t with
    | Some b => let v := b_address s b ++ slash (zone_str s t) in (put_sid s t (Some v), v)
    | None => (s, PyStr.s "?" ++ slash (zone_str s t))
    end
  end.
(** root.py:139-150 Root.remove (with the default children=None); the tree keeps its _bundle *)
Definition tree_remove (s : store) (t : nat) : store * res unit :=
  match t_bundle s t with
  | None => (s, Raise AttributeError)
  | Some b => (put_trees s b (filter (fun x => negb (Nat.eqb x t)) (b_trees s b)), Ok tt)
  end.
(** bundle.py:54-63 get_tree, 65-70 has_tree *)
Definition get_tree (s : store) (b : nat) (z : str) : res nat :=
  match filter (zone_is s z) (b_trees s b) with
  | [t] => Ok t
  | _ => Raise RuntimeError
  end.
Definition has_tree (s : store) (b : nat) (z : str) : bool := existsb (zone_is s z) (b_trees s b).
(** bundle.py:106-110 Bundle.remove *)
Fixpoint number_from (s : store) (i : Z) (l : list nat) : store :=
  match l with
  | [] => s
  | b :: l => number_from (put_number s b (Some i)) (i + 1)%Z l
  end.
Definition bundle_remove (s : store) (b : nat) : store :=
  let d := b_doc s b in
  let s := put_bundles s d (filter (fun x => negb (Nat.eqb x b)) (d_bundles s d)) in
  number_from s 0 (d_bundles s d).

(** node.py:745-759 precedes; a node is given by its tree and ord *)
Definition precedes (s : store) (x y : nat * Z) : res bool :=
  if Nat.eqb (fst x) (fst y) then Ok (snd x <? snd y)%Z
  else
    let same := match t_zone s (fst x), t_zone s (fst y) with
                | Some a, Some b => str_eqb a b
                | None, None => true
                | _, _ => false
                end in
    if negb same then Raise ValueError
    else match t_bundle s (fst x), t_bundle s (fst y) with
         | Some b, Some c =>
           if negb (Nat.eqb (b_doc s b) (b_doc s c)) then Raise ValueError
           else match b_number s b, b_number s c with
                | Some m, Some n => Ok (m <? n)%Z
                | _, _ => Raise AttributeError
                end
         | _, _ => Raise AttributeError
         end.
