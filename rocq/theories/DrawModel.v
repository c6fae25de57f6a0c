(** Model of write.TextModeTrees.process_tree, which node.draw() uses: block/write/textmodetrees.py.
    Left out: colours (color=False, so self.lengths are the lengths of self.lines), marked_only, the headers above the tree.
    The values of the printed attributes (node.get_attrs) and whether a node is marked are parameters. *)
From Coq Require Import String List NArith ZArith Bool.
From Verif Require Import PyStr PyList PyExn TreeModel.
Import ListNotations.
Local Open Scope nat_scope.

(** ─ │ ╭ ╰ ╪ ┡ ┢ ┾ ┮ ┶ ╼ ├ *)
Definition cH : char := 9472%N.
Definition cV : char := 9474%N.
Definition cTop : char := 9581%N.
Definition cBot : char := 9584%N.
Definition cCross : char := 9578%N.
Definition cAfter : char := 9505%N.
Definition cBefore : char := 9506%N.
Definition cMid : char := 9534%N.
Definition cDown : char := 9518%N.
Definition cUp : char := 9526%N.
Definition cLeaf : char := 9596%N.
Definition cTee : char := 9500%N.
Definition SPACE : char := 32%N.

Inductive layout := Classic | Compact | AlignWords | Align.
Record dopts := mkDopts { o_indent : nat; o_hints : bool; o_mincross : bool; o_empty : bool; o_layout : layout; o_attrs : nat }.
Definition classic (o : dopts) : bool := match o_layout o with Classic => true | _ => false end.

(** textmodetrees.py:198-210: self._horiz, _draw, _space, _vert *)
Definition line (o : dopts) : str := repeat cH (o_indent o).
Definition blank (o : dopts) : str := repeat SPACE (o_indent o).
Definition horiz (o : dopts) : str := line o ++ [cLeaf].
Definition draw_sym (o : dopts) (bottommost topmost : bool) : str :=
  if bottommost then (if topmost then horiz o else line o ++ [cUp]) else line o ++ [if topmost then cDown else cMid].
Definition space_sym (o : dopts) (precedes_parent topmost_or_bottommost : bool) : str :=
  blank o ++ [if topmost_or_bottommost then (if precedes_parent then cTop else cBot)
              else if o_hints o then (if precedes_parent then cBefore else cAfter) else cTee].
Definition vert_sym (o : dopts) (crossing : bool) : str := if crossing then line o ++ [cCross] else blank o ++ [cV].

(** textmodetrees.py:337-338 _ends(idx, '─╭╰╪┡┢') *)
Definition ends_open (l : str) : bool :=
  match last_opt l with Some a => existsb (N.eqb a) [cH; cTop; cBot; cCross; cAfter; cBefore] | None => false end.

(** textmodetrees.py:364-377 add_node, without colours *)
Definition node_text (h : heap) (marked : nat -> bool) (values : list str) (x : nat) : str :=
  if is_root h x then []
  else if marked x then s " **" ++ join [SPACE] values ++ s "**"
  else SPACE :: join [SPACE] values.

(** textmodetrees.py:250-259: the printed nodes *)
Definition rows (h : heap) (o : dopts) (x : nat) : res (list nat) :=
  if o_empty o then
    if is_root h x then Ok (x :: descendants_and_empty h x)
    else rbind (descendants_add_self h x) (fun all =>
         match all, last_opt all with
         | a :: _, Some z =>
           Ok (sort_on (okey h) (all ++ filter (fun e => Z.ltb (okey h a) (okey h e) && Z.ltb (okey h e) (okey h z)) (h_emp h (h_root h x))))
         | _, _ => Raise IndexError
         end)
  else descendants_add_self h x.

(** textmodetrees.py:262 _index_of[node.ord]; the last node with this ord wins *)
Fixpoint index_of (h : heap) (all : list nat) (i : nat) (x : nat) : option nat :=
  match all with
  | [] => None
  | y :: all => match index_of h all (S i) x with
                | Some j => Some j
                | None => if Z.eqb (okey h y) (okey h x) then Some i else None
                end
  end.

(** textmodetrees.py:228-236 _compute_gaps: leftmost and rightmost index, number of nodes.  Simplification: all nodes of the
    subtree have an index (0 is used if not), the depth of the recursion is bounded by the number of nodes. *)
Fixpoint extent (fl : nat) (h : heap) (all : list nat) (x : nat) : nat * nat * nat :=
  let i := match index_of h all 0 x with Some i => i | None => 0 end in
  match fl with
  | O => (i, i, 1)
  | S f =>
    let '(l, r, n) := fold_left (fun acc c => let '(l, r, n) := acc in let '(l', r', n') := extent f h all c in (Nat.min l' l, Nat.max r' r, n + n'))
                                (h_ch h x) (i, i, 0) in
    (l, r, n + 1)
  end.
Definition gaps (h : heap) (all : list nat) (x : nat) : Z :=
  let '(l, r, n) := extent (fuel h) h all x in (Z.of_nat r - Z.of_nat l - (Z.of_nat n - 1))%Z.

(** node.py:306-309 Node.parent, 1036-1038 EmptyNode.parent *)
Definition the_parent (h : heap) (x : nat) : option nat := if is_empty h x then None else h_par h x.
(** textmodetrees.py:277-299: what happens to line number [idx] with node [y] when the children of [v] are drawn; [vi] is the
    index of v, [lo] and [hi] the first and last index, [m] the column. *)
Definition pad (m : nat) (l : str) : str := l ++ repeat (if ends_open l then cH else SPACE) (m - length l).
Definition step_row (o : dopts) (h : heap) (text : nat -> str) (v vi lo hi m idx y : nat) (l : str) : str * list nat :=
  let l := pad m l in
  let topmost := Nat.eqb idx lo in
  let botmost := Nat.eqb idx hi in
  if Nat.eqb y v then (l ++ draw_sym o botmost topmost ++ (if classic o then text v else []), [])
  else if (match the_parent h y with Some p => Nat.eqb p v | None => false end) then
    let l := l ++ space_sym o (Nat.ltb idx vi) (topmost || botmost) in
    match h_ch h y with
    | [] => (l ++ horiz o ++ (if classic o then text y else []), [])
    | _ => (l, [y])
    end
  else (l ++ vert_sym o (ends_open l), []).
Fixpoint step_rows (o : dopts) (h : heap) (text : nat -> str) (v vi lo hi m i : nat) (all : list nat) (P : list str) : list str * list nat :=
  match all, P with
  | y :: all, l :: P =>
    let (P, st) := step_rows o h text v vi lo hi m (S i) all P in
    if (lo <=? i) && (i <=? hi) then let (l, st1) := step_row o h text v vi lo hi m i y l in (l :: P, st1 ++ st)
    else (l :: P, st)
  | _, _ => ([], [])
  end.
Definition max_length (P : list str) : nat := fold_left Nat.max (map (@length char) P) 0.

(** textmodetrees.py:270-303; the Python stack has its top at the end *)
Fixpoint draw_loop (fl : nat) (o : dopts) (h : heap) (text : nat -> str) (all : list nat) (P : list str) (stack : list nat) : res (list str) :=
  match last_opt stack with
  | None => Ok P
  | Some v =>
    match fl with
    | O => Diverge
    | S f =>
      let ch := list_call h v (h_ch h v) true false false in
      match index_of h all 0 v, ch, last_opt ch with
      | Some vi, a :: _, Some z =>
        match index_of h all 0 a, index_of h all 0 z with
        | Some lo, Some hi =>
          let m := max_length (firstn (S hi - lo) (skipn lo P)) in
          let (P, st) := step_rows o h text v vi lo hi m 0 all P in
          let stack := removelast stack ++ st in
          draw_loop f o h text all P (if o_mincross o then sort_on (fun x => (- gaps h all x)%Z) stack else stack)
        | _, _ => Raise KeyError
        end
      | _, _, _ => Raise KeyError
      end
    end
  end.

(** textmodetrees.py:305-318: the texts of the nodes *)
Fixpoint add_texts (f : nat -> str -> str) (all : list nat) (P : list str) : list str :=
  match all, P with y :: all, l :: P => f y l :: add_texts f all P | _, _ => [] end.
Definition aligned (text : nat -> str) (all : list nat) (P : list str) : list str :=
  let m := max_length P in add_texts (fun y l => l ++ repeat SPACE (m - length l) ++ text y) all P.
Definition finish (o : dopts) (h : heap) (marked : nat -> bool) (values : nat -> list str) (all : list nat) (P : list str) : list str :=
  let text y := node_text h marked (values y) y in
  match o_layout o with
  | Classic => add_texts (fun y l => if is_empty h y then l ++ text y else l) all P
  | Compact => add_texts (fun y l => l ++ text y) all P
  | AlignWords => aligned text all P
  | Align => fold_left (fun P j => aligned (fun y => node_text h marked [nth j (values y) []] y) all P) (seq 0 (o_attrs o)) P
  end.

(** textmodetrees.py:248-326 process_tree: the lines of the tree *)
Definition draw (o : dopts) (h : heap) (marked : nat -> bool) (values : nat -> list str) (x : nat) : res (list str) :=
  rbind (rows h o x) (fun all =>
  rbind (draw_loop (S (length all)) o h (fun y => node_text h marked (values y) y) all (repeat [] (length all)) [x]) (fun P =>
  Ok (finish o h marked values all P))).
