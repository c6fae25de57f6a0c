(** Python strings as lists of Unicode code points, and the few [str] methods
    that the modelled code uses.  No udapi code here; each definition names the
    CPython built-in it stands for. *)
From Coq Require Import Ascii String List NArith ZArith Bool Lia.
Import ListNotations.

Definition char := N.
Definition str := list char.

(** ASCII literals: [s "abc"] is the Python literal 'abc'. *)
Fixpoint s (x : string) : str :=
  match x with
  | EmptyString => []
  | String a x' => N_of_ascii a :: s x'
  end.

Arguments s x%string_scope.

Definition TAB : char := 9%N.
Definition LF : char := 10%N.
Definition CR : char := 13%N.
Definition SP : char := 32%N.

(** [a == b] on str. *)
Fixpoint str_eqb (a b : str) : bool :=
  match a, b with
  | [], [] => true
  | x :: a', y :: b' => N.eqb x y && str_eqb a' b'
  | _, _ => false
  end.

(** Code-point lexicographic comparison, [a <= b] on str. *)
Fixpoint str_leb (a b : str) : bool :=
  match a, b with
  | [], _ => true
  | _ :: _, [] => false
  | x :: a', y :: b' => if N.ltb x y then true else if N.eqb x y then str_leb a' b' else false
  end.

(** [ch in s] for a one-character string [ch]. *)
Definition has_char (ch : char) (x : str) : bool := existsb (N.eqb ch) x.

(** [x.split(ch, 1)]: [Some (before, after)] iff [ch] occurs (first occurrence). *)
Fixpoint split1 (ch : char) (x : str) : option (str * str) :=
  match x with
  | [] => None
  | a :: x' => if N.eqb a ch then Some ([], x')
               else match split1 ch x' with
                    | Some (l, r) => Some (a :: l, r)
                    | None => None
                    end
  end.

(** [x.split(ch)]: always a non-empty list. *)
Fixpoint split (ch : char) (x : str) : list str :=
  match x with
  | [] => [[]]
  | a :: x' => if N.eqb a ch then [] :: split ch x'
               else match split ch x' with
                    | [] => [[a]]
                    | h :: t => (a :: h) :: t
                    end
  end.

(** [sep.join(l)]. *)
Fixpoint join (sep : str) (l : list str) : str :=
  match l with
  | [] => []
  | [x] => x
  | x :: l' => x ++ sep ++ join sep l'
  end.

(** [x.startswith(p)]. *)
Fixpoint starts_with (p x : str) : bool :=
  match p, x with
  | [], _ => true
  | _ :: _, [] => false
  | a :: p', b :: x' => N.eqb a b && starts_with p' x'
  end.

(** [x.endswith(p)]. *)
Definition ends_with (p x : str) : bool := starts_with (rev p) (rev x).

(** [str.isspace] of one character (CPython's Py_UNICODE_ISSPACE); it is also
    what the regular-expression class [\s] matches in str patterns. *)
Definition is_space (a : char) : bool :=
  ((9 <=? a) && (a <=? 13) || ((28 <=? a) && (a <=? 32)) || (a =? 133) || (a =? 160)
   || (a =? 5760) || ((8192 <=? a) && (a <=? 8202)) || (a =? 8232) || (a =? 8233)
   || (a =? 8239) || (a =? 8287) || (a =? 12288))%N.

(** [x.lstrip()] / [x.rstrip()] / [x.strip()]. *)
Fixpoint lstrip (x : str) : str :=
  match x with
  | [] => []
  | a :: x' => if is_space a then lstrip x' else x
  end.
Definition rstrip (x : str) : str := rev (lstrip (rev x)).
Definition strip (x : str) : str := rstrip (lstrip x).

(** [x.rstrip(chars)]. *)
Fixpoint lstrip_chars (p : char -> bool) (x : str) : str :=
  match x with
  | [] => []
  | a :: x' => if p a then lstrip_chars p x' else x
  end.
Definition rstrip_chars (p : char -> bool) (x : str) : str := rev (lstrip_chars p (rev x)).

(** [ch.isdigit()] for ASCII characters. *)
Definition is_digit (a : char) : bool := ((48 <=? a) && (a <=? 57))%N.
Definition digit_val (a : char) : Z := (Z.of_N a - 48)%Z.

(** [int(x)] for decimal ASCII strings: surrounding whitespace, an optional sign,
    digits possibly separated by single underscores; [None] is ValueError.
    Simplification: non-ASCII decimal digits are not recognised. *)
Fixpoint digits_to_Z (acc : Z) (after_digit : bool) (x : str) : option Z :=
  match x with
  | [] => if after_digit then Some acc else None
  | a :: x' =>
      if is_digit a then digits_to_Z (acc * 10 + digit_val a)%Z true x'
      else if (N.eqb a 95 && after_digit)%bool then
             match x' with
             | [] => None
             | _ => digits_to_Z acc false x'
             end
      else None
  end.
Definition py_int (x : str) : option Z :=
  match strip x with
  | [] => None
  | a :: x' =>
      if N.eqb a 45 then option_map Z.opp (digits_to_Z 0 false x')
      else if N.eqb a 43 then digits_to_Z 0 false x'
      else digits_to_Z 0 false (a :: x')
  end.

(** [str(n)] for ints.  [fuel] bounds the number of digits; the wrapper gives enough. *)
Fixpoint nat_digits (fuel : nat) (n : Z) (acc : str) : str :=
  match fuel with
  | O => acc
  | S f => let d := Z.to_N (n mod 10 + 48) in
           if (n <? 10)%Z then d :: acc else nat_digits f (n / 10)%Z (d :: acc)
  end.
Definition str_of_Z (n : Z) : str :=
  if (n <? 0)%Z then 45%N :: nat_digits (S (Z.to_nat (Z.log2_up (Z.opp n + 1)))) (Z.opp n) []
  else nat_digits (S (Z.to_nat (Z.log2_up (n + 1)))) n [].
