(** Vocabulary of the properties of scenarios, file lists and util.Split. *)
From Coq Require Import String List NArith ZArith Bool.
From Verif Require Import PyStr PyList PyExn DualDictModel RunModel.
Import ListNotations.
Local Open Scope Z_scope.

(** ---- scenarios ---- *)

(** A scenario: blocks with their parameters (name, value as written). *)
Definition scenario := list (str * list (str * str)).
(** ... and how it is written on the command line. *)
Definition written (sc : scenario) : list str :=
  flat_map (fun b => fst b :: map (fun kv => fst kv ++ EQ :: snd kv) (snd b)) sc.
(** Names of blocks and parameters contain no equal sign. *)
Definition proper (sc : scenario) : Prop :=
  forall b, In b sc -> ~ In EQ (fst b) /\ forall kv, In kv (snd b) -> ~ In EQ (fst kv).
(** No parameter value contains a superscript or subscript digit. *)
Definition plain_values (sc : scenario) : Prop :=
  forall b kv, In b sc -> In kv (snd b) -> forall a, In a (snd kv) -> is_superscript a = false.
(** A value of digits only is a number, other values are strings. *)
Definition number (v : str) : Z := fold_left (fun n a => 10 * n + (Z.of_N a - 48)) v 0.
Definition value_of (v : str) : aval :=
  if nonempty v && forallb is_digit v then AInt (number v) else AStr v.
(** The value a dict has for [k], and the last one written for [k]. *)
Definition lookup (k : str) (d : list (str * aval)) : option aval :=
  option_map snd (find (fun kv => str_eqb (fst kv) k) d).
Definition last_written (k : str) (ps : list (str * str)) : option aval :=
  option_map (fun kv => value_of (snd kv)) (find (fun kv => str_eqb (fst kv) k) (rev ps)).

(** ---- execution ---- *)
Section Run.
  Context {W : Type} (B : behaviour W).
  (** calling [f] for the blocks one after another leads from [w] to [w'] without an exception *)
  Inductive calls (f : nat -> W -> W * res unit) : list nat -> W -> W -> Prop :=
  | calls_nil w : calls f [] w w
  | calls_cons b bs w w1 w2 : f b w = (w1, Ok tt) -> calls f bs w1 w2 -> calls f (b :: bs) w w2.
  (** one document is created and every block is applied to it *)
  Definition one_round (bs : list nat) (w w' : W) : Prop := calls (bh_apply B) bs (bh_new B w) w'.
  (** [k] rounds: before the last one some reader is not finished, after it all are *)
  Inductive k_rounds (bs readers : list nat) : nat -> W -> W -> Prop :=
  | rounds_last w w' : one_round bs w w' ->
      (forall r, In r readers -> bh_finished B r w' = Some true) -> k_rounds bs readers 1 w w'
  | rounds_more k w w1 w' : one_round bs w w1 ->
      (exists l r l', readers = l ++ r :: l' /\ bh_finished B r w1 = Some false /\
                      forall x, In x l -> bh_finished B x w1 = Some true) ->
      k_rounds bs readers k w1 w' -> k_rounds bs readers (S k) w w'.
  Definition is_reader (w : W) (b : nat) : bool := match bh_finished B b w with Some _ => true | None => false end.
  (** the blocks that run: a default reader is added in front if there is no reader *)
  Definition with_reader (conllu : nat) (bs : list nat) (w : W) : list nat :=
    if existsb (is_reader w) bs then bs else conllu :: bs.
  Definition readers_of (conllu : nat) (bs : list nat) (w : W) : list nat :=
    if existsb (is_reader w) bs then filter (is_reader w) bs else [conllu].
End Run.
(** the calls made by [k] rounds *)
Definition round_log (bs : list nat) : list event := EDocument :: map EApply bs.
Definition full_log (starts bs : list nat) (k : nat) : list event :=
  map EStart starts ++ concat (repeat (round_log bs) k) ++ map EEnd bs.

(** ---- file lists ---- *)
Inductive fop := NextName | NextHandle | HasNext | CurName.
Inductive fans := AnsName (x : res (option str)) | AnsHandle (x : res (option handle)) | AnsBool (b : bool).
(** the answers of the object *)
Fixpoint file_calls (can_open : str -> bool) (f : files) (l : list fop) : list fans :=
  match l with
  | [] => []
  | NextName :: l => let (f, r) := next_filename f in AnsName r :: file_calls can_open f l
  | NextHandle :: l => let (f, r) := next_filehandle can_open f in AnsHandle r :: file_calls can_open f l
  | HasNext :: l => AnsBool (has_next_file f) :: file_calls can_open f l
  | CurName :: l => AnsName (cur_filename f) :: file_calls can_open f l
  end.
(** what they should be: [seen] files of [names] have been visited *)
Definition expected_handle (can_open : str -> bool) (name : option str) : res (option handle) :=
  match name with
  | None => Ok None
  | Some n => if str_eqb n (s "-") then Ok (Some HStdin)
              else if can_open n then Ok (Some (HFile (opener_of n) n)) else Raise RuntimeError
  end.
Fixpoint file_answers (can_open : str -> bool) (names : list str) (seen : nat) (l : list fop) : list fans :=
  match l with
  | [] => []
  | NextName :: l => AnsName (Ok (nth_error names seen)) :: file_answers can_open names (S seen) l
  | NextHandle :: l => AnsHandle (expected_handle can_open (nth_error names seen))
                       :: file_answers can_open names (S seen) l
  | HasNext :: l => AnsBool (Nat.ltb seen (length names)) :: file_answers can_open names seen l
  | CurName :: l => AnsName (Ok (match seen with O => None | S k => nth_error names k end))
                    :: file_answers can_open names seen l
  end.
(** A file name that needs no special treatment in a file list string. *)
Definition plain_name (x : str) : Prop :=
  x <> [] /\ (forall a, In a x -> is_space a = false /\ a <> COMMA) /\
  (forall c y, x = c :: y -> c <> 33%N /\ c <> 64%N).

(** ---- util.Split ---- *)
(** one document with the bundles [l], then empty ones *)
Definition only (l : list nat) (k : nat) : list nat := match k with O => l | _ => [] end.
(** every part but the last has exactly [n] elements, the last one at most [n] *)
Fixpoint parts_of_size (n : Z) (parts : list (list nat)) : Prop :=
  match parts with
  | [] => True
  | [p] => Z.of_nat (length p) <= n
  | p :: parts => Z.of_nat (length p) = n /\ parts_of_size n parts
  end.
