(** Python list built-ins used by the modelled code. *)
From Coq Require Import List ZArith Bool Lia.
Import ListNotations.

(** Stable sort with respect to a boolean "less or equal" (Python's list.sort/sorted:
    the result of a stable sort is unique, so insertion sort stands for Timsort). *)
Fixpoint insert {A} (leb : A -> A -> bool) (x : A) (l : list A) : list A :=
  match l with
  | [] => [x]
  | y :: l' => if leb x y then x :: l else y :: insert leb x l'
  end.
Fixpoint isort {A} (leb : A -> A -> bool) (l : list A) : list A :=
  match l with
  | [] => []
  | x :: l' => insert leb x (isort leb l')
  end.

(** Sort by an integer key. *)
Definition sort_on {A} (key : A -> Z) (l : list A) : list A :=
  isort (fun a b => Z.leb (key a) (key b)) l.

(** [l.remove(x)] on a list of object identities: deletes the first occurrence,
    [None] is ValueError. *)
Fixpoint list_remove (x : nat) (l : list nat) : option (list nat) :=
  match l with
  | [] => None
  | y :: l' => if Nat.eqb y x then Some l'
               else match list_remove x l' with
                    | Some r => Some (y :: r)
                    | None => None
                    end
  end.

(** [x in l] on a list of object identities. *)
Definition mem (x : nat) (l : list nat) : bool := existsb (Nat.eqb x) l.

(** Python index normalisation: negative indices count from the end. *)
Definition py_index {A} (l : list A) (i : Z) : option nat :=
  let n := Z.of_nat (length l) in
  if (0 <=? i)%Z then (if (i <? n)%Z then Some (Z.to_nat i) else None)
  else (if (- n <=? i)%Z then Some (Z.to_nat (n + i)) else None).

(** [l[i]]; [None] is IndexError. *)
Definition py_nth {A} (l : list A) (i : Z) : option A :=
  match py_index l i with
  | Some k => nth_error l k
  | None => None
  end.

(** [l[i] = v]; [None] is IndexError. *)
Fixpoint set_nth {A} (k : nat) (v : A) (l : list A) : list A :=
  match l with
  | [] => []
  | x :: l' => match k with O => v :: l' | S k' => x :: set_nth k' v l' end
  end.
Definition py_set {A} (l : list A) (i : Z) (v : A) : option (list A) :=
  match py_index l i with
  | Some k => Some (set_nth k v l)
  | None => None
  end.

(** Slice bound normalisation: negative bounds count from the end, then clipped. *)
Definition py_bound {A} (l : list A) (i : Z) : nat :=
  let n := Z.of_nat (length l) in
  if (0 <=? i)%Z then Z.to_nat (Z.min i n) else Z.to_nat (Z.max 0 (n + i)).

(** [l[i:]], [l[:j]], [l[i:j]]. *)
Definition py_from {A} (l : list A) (i : Z) : list A := skipn (py_bound l i) l.
Definition py_to {A} (l : list A) (j : Z) : list A := firstn (py_bound l j) l.
Definition py_slice {A} (l : list A) (i j : Z) : list A :=
  firstn (py_bound l j - py_bound l i) (skipn (py_bound l i) l).

(** [enumerate(l, start)]. *)
Fixpoint enumerate {A} (start : Z) (l : list A) : list (Z * A) :=
  match l with
  | [] => []
  | x :: l' => (start, x) :: enumerate (start + 1)%Z l'
  end.

Definition nonempty {A} (l : list A) : bool := match l with [] => false | _ => true end.

(** Last element, for [l[-1]] on a list known to be non-empty. *)
Fixpoint last_opt {A} (l : list A) : option A :=
  match l with
  | [] => None
  | [x] => Some x
  | _ :: l' => last_opt l'
  end.
