(** Model of udapi/block/eval/f1.py: find_lcs and the counters of block eval.F1. *)
From Coq Require Import String List NArith ZArith QArith Bool.
From Verif Require Import PyStr PyList PyExn.
Import ListNotations.
Local Close Scope Q_scope.
Local Open Scope nat_scope.

(** f1.py:211-213: the length of the longest common prefix *)
Fixpoint prefix_len (x y : list str) : nat :=
  match x, y with
  | a :: x, b :: y => if str_eqb a b then S (prefix_len x y) else 0
  | _, _ => 0
  end.

(** f1.py:218-219, the elements C[i][j], C[i][j+1], ... of one row of the table, where
    [a] = x[i-1], [y] is the rest of y from position j-1, [prev] the previous row from
    position j-1 and [left] = C[i][j-1] *)
Fixpoint row (a : str) (y : list str) (prev : list nat) (left : nat) : list nat :=
  match y, prev with
  | b :: y, diag :: ((up :: _) as prev) =>
    let v := if str_eqb a b then S diag else Nat.max left up in
    v :: row a y prev v
  | _, _ => []
  end.
(** f1.py:216-219, the rows after the row [prev] *)
Fixpoint rows (x y : list str) (prev : list nat) : list (list nat) :=
  match x with
  | [] => []
  | a :: x => let r := 0 :: row a y prev 0 in r :: rows x y r
  end.
Definition table (x y : list str) : list (list nat) :=
  let r := repeat 0 (length y + 1) in r :: rows x y r.
Definition cell (C : list (list nat)) (i j : nat) : nat := nth j (nth i C []) 0.

(** f1.py:222-229, the while loop; [lcs] has None where nothing has been stored yet.
    Simplification: the fuel is m + n. *)
Fixpoint back (fl : nat) (x y : list str) (C : list (list nat)) (m n : nat) (index : Z) (lcs : list (option str))
  : res (list (option str)) :=
  match m, n with
  | S m', S n' =>
    match fl with
    | O => Diverge
    | S f =>
      match nth_error x m', nth_error y n' with
      | Some a, Some b =>
        if str_eqb a b then
          match py_set lcs (index - 1) (Some a) with
          | Some lcs => back f x y C m' n' (index - 1) lcs
          | None => Raise IndexError
          end
        else if cell C m n' <? cell C m' n then back f x y C m' n index lcs
        else back f x y C m n' index lcs
      | _, _ => Raise IndexError
      end
    end
  | _, _ => Ok lcs
  end.
(** A list element that is still None is outside the model (it is proved not to occur). *)
Fixpoint stored (l : list (option str)) : res (list str) :=
  match l with
  | [] => Ok []
  | Some a :: l => rbind (stored l) (fun r => Ok (a :: r))
  | None :: _ => Raise NotImplementedError
  end.

(** f1.py:216-230, the else branch *)
Definition lcs_table (x y : list str) : res (list str) :=
  let C := table x y in
  let index := cell C (length x) (length y) in
  rbind (back (length x + length y) x y C (length x) (length y) (Z.of_nat index) (repeat None index)) stored.
(** f1.py:205-230 find_lcs; [fl] bounds the recursion (two levels are needed). *)
Fixpoint find_lcs_rec (fl : nat) (x y : list str) : res (list str) :=
  match fl with
  | O => Diverge
  | S f =>
    match x, y with
    | [], _ => Ok []
    | _, [] => Ok []
    | a :: _, b :: _ =>
      if str_eqb a b then
        let i := prefix_len x y in
        if i <? Nat.min (length x) (length y)
        then rbind (find_lcs_rec f (skipn i x) (skipn i y)) (fun r => Ok (firstn i x ++ r))
        else Ok (firstn i x ++ [])
      else lcs_table x y
    end
  end.
Definition find_lcs (x y : list str) : res (list str) := find_lcs_rec 2 x y.

(** f1.py:131-133 and 134-136: while t != tokens[i]: un.append(tokens[i]); i += 1.
    A position i of a token list is represented by the rest of the list from i. *)
Fixpoint skip_until (t : str) (tokens un : list str) : res (list str * list str) :=
  match tokens with
  | [] => Raise IndexError
  | a :: tokens' => if str_eqb t a then Ok (tokens, un) else skip_until t tokens' (un ++ [a])
  end.
(** f1.py:139-140: the rests of nf_common, pred_tokens and gold_tokens *)
Fixpoint advance (nf pred gold : list str) : res (list str * list str * list str) :=
  match nf with
  | [] => Ok (nf, pred, gold)
  | t :: nf' =>
    match pred with
    | [] => Raise IndexError
    | p :: pred' =>
      if str_eqb t p then
        match gold with
        | [] => Raise IndexError
        | g :: gold' => if str_eqb t g then advance nf' pred' gold' else Ok (nf, pred, gold)
        end
      else Ok (nf, pred, gold)
    end
  end.
(** f1.py:127-140 *)
Fixpoint align (fl : nat) (nf pred gold common : list str) : res (list str) :=
  match pred, gold with
  | _ :: _, _ :: _ =>
    match nf with
    | [] => rbind (find_lcs pred gold) (fun l => Ok (common ++ l))
    | t :: _ =>
      match fl with
      | O => Diverge
      | S f =>
        rbind (skip_until t pred []) (fun '(pred, un_pred) =>
        rbind (skip_until t gold []) (fun '(gold, un_gold) =>
        rbind (find_lcs un_pred un_gold) (fun l =>
        rbind (advance nf pred gold) (fun '(nf, pred, gold) =>
        align f nf pred gold (common ++ l)))))
      end
    end
  | _, _ => Ok common
  end.
(** f1.py:116-143: the lists common, pred_tokens and gold_tokens that are counted.
    [focus] is self.focus.fullmatch, None if no focus was given. *)
Definition matched (focus : option (str -> bool)) (pred gold : list str) : res (list str * list str * list str) :=
  match focus with
  | None => rbind (find_lcs pred gold) (fun common => Ok (common, pred, gold))
  | Some f =>
    let nf := filter (fun t => negb (f t)) in
    rbind (find_lcs (nf pred) (nf gold)) (fun nf_common =>
    rbind (align (length nf_common) nf_common pred gold []) (fun common =>
    Ok (filter f common, filter f pred, filter f gold)))
  end.

(** f1.py:99-105: the counters of the block (the four Counter objects are functions) *)
Record f1st := mkF1 { f_correct : nat; f_pred : nat; f_gold : nat;
                      f_ncommon : str -> nat; f_npred : str -> nat; f_ngold : str -> nat }.
Definition f1_init : f1st := mkF1 0 0 0 (fun _ => 0) (fun _ => 0) (fun _ => 0).
(** for x in l: c[x] += 1 *)
Fixpoint count_up (c : str -> nat) (l : list str) : str -> nat :=
  match l with
  | [] => c
  | x :: l => count_up (fun t => if str_eqb x t then S (c t) else c t) l
  end.
(** f1.py:107-157 process_tree, from the token lists of a predicted tree and its gold tree (lines
    113-114); _total is the sum of _pred and _gold and is left out, details is not 0. *)
Definition f1_tree (focus : option (str -> bool)) (st : f1st) (pg : list str * list str) : res f1st :=
  rbind (matched focus (fst pg) (snd pg)) (fun '(common, pred, gold) =>
  Ok (mkF1 (f_correct st + length common) (f_pred st + length pred) (f_gold st + length gold)
           (count_up (f_ncommon st) common) (count_up (f_npred st) pred) (count_up (f_ngold st) gold))).
Fixpoint f1_trees (focus : option (str -> bool)) (st : f1st) (l : list (list str * list str)) : res f1st :=
  match l with
  | [] => Ok st
  | pg :: l => rbind (f1_tree focus st pg) (fun st => f1_trees focus st l)
  end.

(** f1.py:159-164 and 196-199, in exact arithmetic (the code uses floats) *)
Definition qn (n : nat) : Q := inject_Z (Z.of_nat n).
Definition or1 (q : Q) : Q := if Qeq_bool q 0 then 1%Q else q.
Definition precision (correct pred : nat) : Q := (qn correct / or1 (qn pred))%Q.
Definition recall (correct gold : nat) : Q := (qn correct / or1 (qn gold))%Q.
Definition f1_score (correct pred gold : nat) : Q :=
  let p := precision correct pred in
  let r := recall correct gold in
  (2 * p * r / or1 (p + r))%Q.
