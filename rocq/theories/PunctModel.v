(** Model of the block ud.FixPunct (udapi/block/ud/fixpunct.py): re-attaching punctuation. *)
From Coq Require Import String List NArith ZArith Bool.
From Verif Require Import PyStr PyList PyExn TreeModel DeprelModel RehangModel.
Import ListNotations.
Local Open Scope Z_scope.

(** fixpunct.py:24-39 PAIRED_PUNCT: opening mark, closing mark (code points) *)
Definition paired_punct : list (str * str) :=
  [([40], [41]); ([91], [93]); ([123], [125]); ([34], [34]); ([39], [39]); ([8220], [8221]);
   ([8222], [8220]); ([171], [187]); ([8249], [8250]); ([12298], [12299]); ([12300], [12301]);
   ([12302], [12303]); ([191], [63]); ([161], [33])]%N.
(** PAIRED_PUNCT.get(form) *)
Fixpoint paired_get (l : list (str * str)) (f : str) : option str :=
  match l with
  | [] => None
  | (o, c) :: l => if str_eqb f o then Some c else paired_get l f
  end.
(** fixpunct.py:69 and 220, membership of the form in a string of the two ASCII quote marks
    (code points 39 and 34): the form is a substring *)
Definition in_quotes (f : str) : bool :=
  existsb (str_eqb f) [[]; [39]; [34]; [39; 34]]%N.
(** form in FINAL_PUNCT (fixpunct.py:41, 145): the substrings of ".?!" *)
Definition in_final (f : str) : bool :=
  existsb (str_eqb f) [[]; [46]; [63]; [33]; [46; 63]; [63; 33]; [46; 63; 33]]%N.

(** The values of self._punct_type (fixpunct.py:89): a list indexed by node.ord, here a
    function of the ord; all indices used are ords of words of the tree, so the list is long enough. *)
Inductive ptype := Opening | Closing.
Definition ptypes := Z -> option ptype.
Definition put_type (pt : ptypes) (k : Z) (v : ptype) : ptypes := fun z => if z =? k then Some v else pt z.
Definition is_opening (t : option ptype) : bool := match t with Some Opening => true | _ => false end.
Definition is_closing (t : option ptype) : bool := match t with Some Closing => true | _ => false end.

(** Running a computation that reads the state but does not change it. *)
Definition query {A} (st : lst) (m : res A) : lst * res A := (st, m).
(** x.parent == y for a possibly missing parent *)
Definition parent_is (st : lst) (x y : nat) : bool :=
  match h_par (l_heap st) x with Some p => Nat.eqb p y | None => false end.

Section Punct.
(** fixpunct.py:47-62: the option check_paired_punct_upos; copy_to_enhanced is left out (False).
    [form] gives the forms; the block does not change them.  Simplification: a form is a string
    (never None). *)
Variables (check_upos : bool) (form : nat -> str).

Definition ord (st : lst) (x : nat) : Z := h_ord (l_heap st) x.
(** node.upos == 'PUNCT' *)
Definition upos_punct (st : lst) (x : nat) : bool := ostr_eqb (l_upos st x) (s "PUNCT").

(** fixpunct.py:64-73 _is_punct *)
Definition is_punct (st : lst) (x : nat) : bool :=
  if upos_punct st x then true
  else if check_upos then false
  else if in_quotes (form x) then false
  else existsb (fun oc => str_eqb (form x) (fst oc) || str_eqb (form x) (snd oc)) paired_punct.

(** fixpunct.py:80-81: while self._is_punct(node.parent): node.parent = node.parent.parent *)
Fixpoint leave_punct (fl : nat) (st : lst) (x : nat) : lst * res unit :=
  match the_parent st x with
  | Ok p => if is_punct st p then
              match fl with
              | O => (st, Diverge)
              | S f => bind (lift_once st x) (fun st _ => leave_punct f st x)
              end
            else (st, Ok tt)
  | Raise e => (st, Raise e)
  | Diverge => (st, Diverge)
  end.

(** fixpunct.py:215-216 _causes_gap *)
Definition causes_gap (st : lst) (x : nat) : res bool :=
  rbind (is_nonprojective_gap (l_heap st) x) (fun b =>
  if b then rbind (the_parent st x) (fun p =>
            rbind (is_nonprojective_gap (l_heap st) p) (fun c => Ok (negb c)))
  else Ok false).
(** fixpunct.py:211-213 _will_be_projective: the attachment is tried on the tree itself *)
Definition will_be_projective (st : lst) (x cand : nat) : lst * res bool :=
  bind (assign_parent st x (Some cand)) (fun st _ =>
  query st (rbind (is_nonprojective (l_heap st) x) (fun b =>
            if b then Ok false else rbind (causes_gap st x) (fun g => Ok (negb g))))).

(** fixpunct.py:237-257 the loop collecting heads and punct_heads *)
Fixpoint find_heads (st : lst) (o c : nat) (l heads phs : list nat) : res (list nat * list nat) :=
  match l with
  | [] => Ok (heads, phs)
  | x :: l =>
    if Nat.eqb x o || Nat.eqb x c then find_heads st o c l heads phs
    else
      rbind (the_parent st x) (fun p =>
      if (ord st o <? ord st x) && (ord st x <? ord st c) then
        if (ord st p <? ord st o) || (ord st c <? ord st p) then
          if upos_punct st x then find_heads st o c l heads (phs ++ [x])
          else find_heads st o c l (heads ++ [x]) phs
        else find_heads st o c l heads phs
      else if (ord st o <? ord st p) && (ord st p <? ord st c) then
        if upos_punct st p then find_heads st o c l heads (phs ++ [p])
        else find_heads st o c l (heads ++ [p]) phs
      else find_heads st o c l heads phs)
  end.

(** The condition shared by the two repair loops (fixpunct.py:294-295, 300-301) *)
Definition still_bad (st : lst) (x p : nat) : res bool :=
  if upos_punct st p then Ok true
  else rbind (is_nonprojective (l_heap st) x) (fun b => if b then Ok true else causes_gap st x).
(** fixpunct.py:293-296: the opening mark is moved to the right, word by word *)
Fixpoint move_right (fl : nat) (st : lst) (o c : nat) : lst * res unit :=
  bind (query st (the_parent st o)) (fun st p =>
  if ord st p <? ord st c - 1 then
    bind (query st (still_bad st o p)) (fun st b =>
    if b then match fl with
              | O => (st, Diverge)
              | S f => bind (assign_parent st o (next_node (l_heap st) p)) (fun st _ => move_right f st o c)
              end
    else (st, Ok tt))
  else (st, Ok tt)).
(** fixpunct.py:299-302: the closing mark is moved to the left *)
Fixpoint move_left (fl : nat) (st : lst) (o c : nat) : lst * res unit :=
  bind (query st (the_parent st c)) (fun st p =>
  if ord st o + 1 <? ord st p then
    bind (query st (still_bad st c p)) (fun st b =>
    if b then match fl with
              | O => (st, Diverge)
              | S f => bind (query st (prev_node (l_heap st) p)) (fun st q =>
                       bind (assign_parent st c q) (fun st _ => move_left f st o c))
              end
    else (st, Ok tt))
  else (st, Ok tt)).

(** fixpunct.py:233-302 _fix_pair; the result is the new self._punct_type *)
Definition fix_pair (st : lst) (pt : ptypes) (r o c : nat) : lst * res ptypes :=
  bind (query st (find_heads st o c (h_desc (l_heap st) r) [] [])) (fun st '(heads, phs) =>
  let heads := match heads with [] => phs | _ => heads end in
  let heads := sort_nodes (l_heap st) heads in
  match heads, last_opt heads with
  | first :: _, Some last =>
    bind (assign_parent st o (Some first)) (fun st _ =>
    bind (assign_parent st c (Some last)) (fun st _ =>
    let pt := put_type (put_type pt (ord st o) Opening) (ord st c) Closing in
    bind (query st (causes_gap st o)) (fun st b =>
    bind (if b then bind (assign_parent st o (next_node (l_heap st) o)) (fun st _ =>
                    move_right (fuel (l_heap st)) st o c)
          else (st, Ok tt)) (fun st _ =>
    bind (query st (causes_gap st c)) (fun st b =>
    bind (if b then bind (query st (prev_node (l_heap st) c)) (fun st q =>
                    bind (assign_parent st c q) (fun st _ =>
                    move_left (fuel (l_heap st)) st o c))
          else (st, Ok tt)) (fun st _ =>
    (st, Ok pt)))))))
  | _, _ => (st, Ok pt)
  end).

(** fixpunct.py:222-231: looking for the closing mark *)
Fixpoint find_closing (opening closing : str) (level : nat) (l : list nat) : option nat :=
  match l with
  | [] => None
  | x :: l => if str_eqb (form x) closing then
                match level with
                | O => Some x
                | S k => find_closing opening closing k l
                end
              else if str_eqb (form x) opening then find_closing opening closing (S level) l
              else find_closing opening closing level l
  end.
(** fixpunct.py:218-231 _fix_paired_punct *)
Definition fix_paired (st : lst) (pt : ptypes) (r o : nat) (closing : str) : lst * res ptypes :=
  if (check_upos || in_quotes (form o)) && negb (upos_punct st o) then (st, Ok pt)
  else match find_closing (form o) closing 0 (py_from (h_desc (l_heap st) r) (ord st o)) with
       | Some c => fix_pair st pt r o c
       | None => (st, Ok pt)
       end.
(** fixpunct.py:90-94 *)
Fixpoint fix_pairs (l : list nat) (st : lst) (pt : ptypes) (r : nat) : lst * res ptypes :=
  match l with
  | [] => (st, Ok pt)
  | x :: l =>
    bind (if is_closing (pt (ord st x)) then (st, Ok pt)
          else match paired_get paired_punct (form x) with
               | Some closing => fix_paired st pt r x closing
               | None => (st, Ok pt)
               end) (fun st pt => fix_pairs l st pt r)
  end.

(** fixpunct.py:147-151: the nearest word to the left that is not punctuation *)
Fixpoint left_cand (fl : nat) (st : lst) (pt : ptypes) (x : nat) (c : option nat) : res (option nat) :=
  match c with
  | None => Raise AttributeError
  | Some c =>
    if (0 <? ord st c) && upos_punct st c then
      if is_opening (pt (ord st c)) && negb (parent_is st c x) then Ok None
      else match fl with
           | O => Diverge
           | S f => rbind (prev_node (l_heap st) c) (left_cand f st pt x)
           end
    else Ok (Some c)
  end.
(** fixpunct.py:152-156: to the right *)
Fixpoint right_cand (fl : nat) (st : lst) (pt : ptypes) (x : nat) (c : option nat) : res (option nat) :=
  match c with
  | None => Ok None
  | Some c =>
    if upos_punct st c then
      if is_closing (pt (ord st c)) && negb (parent_is st c x) then Ok None
      else match fl with
           | O => Diverge
           | S f => right_cand f st pt x (next_node (l_heap st) c)
           end
    else Ok (Some c)
  end.
(** Does the subtree of c lie entirely to the left (right) of x?
    not node < c.descendants(add_self=1)[-1], not c.descendants(add_self=1)[0] < node *)
Definition left_of (st : lst) (c x : nat) : res bool :=
  rbind (descendants_add_self (l_heap st) c) (fun l =>
  match last_opt l with Some z => Ok (negb (ord st x <? ord st z)) | None => Raise IndexError end).
Definition right_of (st : lst) (c x : nat) : res bool :=
  rbind (descendants_add_self (l_heap st) c) (fun l =>
  match l with z :: _ => Ok (negb (ord st z <? ord st x)) | [] => Raise IndexError end).
(** fixpunct.py:161-168: climbing up from the left candidate; the path, lowest node first *)
Fixpoint left_path (fl : nat) (st : lst) (x c : nat) : res (list nat) :=
  rbind (the_parent st c) (fun p =>
  if negb (is_root (l_heap st) p) && (ord st p <? ord st x) then
    rbind (left_of st c x) (fun b =>
    if b then match fl with
              | O => Diverge
              | S f => rbind (left_path f st x p) (fun l => Ok (c :: l))
              end
    else Ok [c])
  else Ok [c]).
(** fixpunct.py:169-173 *)
Fixpoint right_path (fl : nat) (st : lst) (x c : nat) : res (list nat) :=
  rbind (the_parent st c) (fun p =>
  if negb (is_root (l_heap st) p) && (ord st x <? ord st p) then
    rbind (right_of st c x) (fun b =>
    if b then match fl with
              | O => Diverge
              | S f => rbind (right_path f st x p) (fun l => Ok (c :: l))
              end
    else Ok [c])
  else Ok [c]).
(** fixpunct.py:178-179: the list comprehensions, which try every candidate in turn *)
Fixpoint filter_path (st : lst) (x : nat) (l : list nat) : lst * res (list nat) :=
  match l with
  | [] => (st, Ok [])
  | c :: l => bind (will_be_projective st x c) (fun st b =>
              bind (filter_path st x l) (fun st l => (st, Ok (if b then c :: l else l))))
  end.
(** cand.is_descendant_of(other), where other may be None (node.py:426) *)
Definition below (st : lst) (a b : option nat) : res bool :=
  match a, b with
  | Some a, Some b => is_descendant_of (l_heap st) a b
  | _, _ => Ok false
  end.
Definition is_some {A} (o : option A) : bool := match o with Some _ => true | None => false end.

(** fixpunct.py:136-140: a pair of marks around the subtree of the parent *)
Definition paired_already (st : lst) (x p : nat) : res bool :=
  rbind (descendants_add_self (l_heap st) p) (fun l =>
  match l, last_opt l with
  | a :: _, Some z =>
    Ok ((Nat.eqb x a || Nat.eqb x z)
        && (Z.of_nat (length l) =? ord st z - ord st a + 1)
        && upos_punct st a && upos_punct st z && parent_is st a p && parent_is st z p)
  | _, _ => Raise IndexError
  end).
(** fixpunct.py:188-197: the new parent and the parents that may be kept *)
Definition select (st : lst) (lp rp : list nat) : res (option (nat * list nat)) :=
  let lc := last_opt lp in
  let rc := last_opt rp in
  rbind (below st lc rc) (fun b =>
  match b, lc with
  | true, Some l => Ok (Some (l, lp))
  | _, _ =>
    rbind (below st rc lc) (fun b' =>
    match b', lc, rc with
    | true, _, Some r => Ok (Some (r, rp))
    | _, Some l, _ => Ok (Some (l, lp ++ rp))
    | _, None, Some r => Ok (Some (r, lp ++ rp))
    | _, None, None => Ok None
    end)
  end).
(** fixpunct.py:126-209 _fix_subord_punct *)
Definition fix_subord (st : lst) (pt : ptypes) (x : nat) : lst * res unit :=
  bind (query st (the_parent st x)) (fun st p =>
  bind (query st (prev_node (l_heap st) x)) (fun st prev =>
  if str_eqb (form x) (s ".") && (match prev with Some q => Nat.eqb p q | None => false end) then (st, Ok tt)
  else
  bind (query st (paired_already st x p)) (fun st b =>
  if b then (st, Ok tt)
  else
  bind (query st (left_cand (fuel (l_heap st)) st pt x prev)) (fun st lc =>
  bind (query st (right_cand (fuel (l_heap st)) st pt x
                    (if in_final (form x) then None else next_node (l_heap st) x))) (fun st rc =>
  bind (query st (match lc with
                  | None => Ok []
                  | Some c => if is_root (l_heap st) c then Ok [] else left_path (fuel (l_heap st)) st x c
                  end)) (fun st lp =>
  bind (query st (match rc with
                  | None => Ok []
                  | Some c => right_path (fuel (l_heap st)) st x c
                  end)) (fun st rp =>
  bind (filter_path st x lp) (fun st lp =>
  bind (filter_path st x rp) (fun st rp =>
  bind (assign_parent st x (Some p)) (fun st _ =>
  bind (query st (select st lp rp)) (fun st sel =>
  match sel with
  | None => (st, Ok tt)
  | Some (cand, path) =>
    bind (if mem p path then (st, Ok tt) else assign_parent st x (Some cand)) (fun st _ =>
    (set_dep st x (Some (s "punct")), Ok tt))
  end))))))))))).

(** node.udeprel = v *)
Definition set_udep (st : lst) (x : nat) (v : str) : lst := set_dep st x (set_udeprel (l_dep st x) v).
(** fixpunct.py:104-108: a single child of the root *)
Definition one_subroot (st : lst) (r : nat) : lst * res unit :=
  match children (l_heap st) r with
  | first :: _ :: _ =>
    let sel := match List.find (fun x => ostr_eqb (udep st x) (s "root")) (children (l_heap st) r) with
               | Some x => x
               | None => first
               end in
    for_each (fun st x => if Nat.eqb x sel then (st, Ok tt) else assign_parent st x (Some sel))
             (children (l_heap st) r) st
  | _ => (st, Ok tt)
  end.
(** fixpunct.py:112-118: the child of the root is labelled root, and no other word is *)
Definition label_root (st : lst) (r : nat) : lst * res unit :=
  match children (l_heap st) r with
  | [] => (st, Raise IndexError)
  | c :: _ =>
    if ostr_eqb (udep st c) (s "root") then (st, Ok tt)
    else
      let st := set_udep st c (s "root") in
      bind (query st (descendants (l_heap st) c)) (fun st l =>
      for_each (fun st x => (if ostr_eqb (udep st x) (s "root") then set_udep st x (s "punct") else st, Ok tt)) l st)
  end.

(** fixpunct.py:75-124 process_tree *)
Definition fix_punct (st : lst) (r : nat) : lst * res unit :=
  bind (for_each (fun st x => leave_punct (fuel (l_heap st)) st x) (h_desc (l_heap st) r) st) (fun st _ =>
  bind (fix_pairs (h_desc (l_heap st) r) st (fun _ => None) r) (fun st pt =>
  bind (for_each (fun st x => if upos_punct st x && negb (is_some (pt (ord st x))) then fix_subord st pt x
                              else (st, Ok tt)) (h_desc (l_heap st) r) st) (fun st _ =>
  bind (one_subroot st r) (fun st _ =>
  label_root st r)))).
End Punct.
