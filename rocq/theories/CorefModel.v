(** Model of udapi/core/coref.py (mentions, entities, spans) and of udapi/core/document.py (create_coref_entity).
    Loading from and storing to MISC, bridging, split antecedents and the attribute other are not in this file.
    Mentions and entities are natural numbers, nodes are those of the tree model. *)
From Coq Require Import String List NArith ZArith QArith Bool.
From Verif Require Import PyStr PyList PyExn TreeModel DepsModel BundleModel.
Import ListNotations.
Local Close Scope Q_scope.

(** ---- spans ---- *)

(** float(x), exactly: digits, optionally followed by '.' and digits; surrounding whitespace is ignored.
    Simplification: signs, exponents, underscores, inf and nan are rejected, and so are numbers without a digit
    on either side of the dot; the value is not rounded to a double. *)
Definition all_digits (x : str) : bool := nonempty x && forallb is_digit x.
Definition py_float (x : str) : option Q :=
  let x := strip x in
  match split1 46%N x with
  | None => if all_digits x then option_map (fun n => Qmake n 1) (digits_to_Z 0 false x) else None
  | Some (a, b) =>
    if all_digits a && all_digits b
    then option_map (fun n => Qmake n (10 ^ Pos.of_nat (length b))) (digits_to_Z 0 false (a ++ b))
    else None
  end.
(** coref.py:923-930 one piece of the span *)
Definition parse_range (x : str) : option (Q * Q) :=
  match split1 45%N x with
  | None => option_map (fun v => (v, v)) (py_float x)
  | Some _ =>
    match split 45%N x with
    | [a; b] => match py_float a, py_float b with Some lo, Some hi => Some (lo, hi) | _, _ => None end
    | _ => None
    end
  end.
Fixpoint parse_ranges (l : list str) : option (list (Q * Q)) :=
  match l with
  | [] => Some []
  | x :: l => match parse_range x with
              | None => None
              | Some r => option_map (cons r) (parse_ranges l)
              end
  end.
(** comparison of pairs of numbers, for ranges.sort() *)
Definition range_leb (a b : Q * Q) : bool :=
  if Qeq_bool (fst a) (fst b) then Qle_bool (snd a) (snd b) else Qle_bool (fst a) (fst b).
(** coref.py:933-939 _num_in_ranges *)
Fixpoint num_in_ranges (ranges : list (Q * Q)) (num : Q) : bool :=
  match ranges with
  | [] => false
  | (lo, hi) :: ranges => if negb (Qle_bool lo num) then false
                          else if Qle_bool num hi then true
                          else num_in_ranges ranges num
  end.
(** node.ord of a word or an empty node *)
Definition ordq (h : heap) (x : nat) : Q := Qmake (okey h x) 10.
(** coref.py:920-941 span_to_nodes *)
Definition span_to_nodes (h : heap) (r : nat) (span : str) : res (list nat) :=
  match parse_ranges (split 44%N span) with
  | None => Raise ValueError
  | Some ranges => Ok (filter (fun w => num_in_ranges (isort range_leb ranges) (ordq h w)) (descendants_and_empty h r))
  end.

(** coref.py:963-964 the inner while loop: the nodes of the run, and the nodes after it *)
Fixpoint take_run (nodes : list nat) (l : list nat) : list nat * list nat :=
  match l with
  | [] => ([], [])
  | x :: l' => if mem x nodes then let (run, rest) := take_run nodes l' in (x :: run, rest) else ([], l)
  end.
(** coref.py:965-966 *)
Definition show_range (h : heap) (lo hi : nat) : str :=
  if (okey h lo <? okey h hi)%Z then id_str h lo ++ PyStr.s "-" ++ id_str h hi else id_str h lo.
(** coref.py:957-966 the outer while loop. [l] is all_nodes[i+1:]; [todo] is len(nodes) - found (the loop ends
    when it is not positive). Simplification: [fl] bounds the number of iterations. *)
Fixpoint span_loop (fl : nat) (h : heap) (nodes : list nat) (todo : Z) (l : list nat) : res (list str) :=
  match l with
  | [] => Ok []
  | x :: l' =>
    if (todo <=? 0)%Z then Ok []
    else match fl with
         | O => Diverge
         | S f =>
           if mem x nodes then
             let (run, rest) := take_run nodes l in
             rbind (span_loop f h nodes (todo - Z.of_nat (length run)) (tl rest))
                   (fun rs => Ok (show_range h x (last run x) :: rs))
           else span_loop f h nodes todo l'
         end
  end.
(** coref.py:944-967 nodes_to_span *)
Definition nodes_to_span (h : heap) (nodes : list nat) : res str :=
  match nodes with
  | [] => Ok []
  | x :: _ =>
    let all_nodes := descendants_and_empty h (h_root h x) in
    rbind (span_loop (length all_nodes) h nodes (Z.of_nat (length nodes)) all_nodes)
          (fun rs => Ok (join (PyStr.s ",") rs))
  end.

(** ---- mentions and entities ---- *)

(** coref.py:111, 302, document.py:32, node.py:85: the attributes *)
Record coref := mkCo {
  co_doc : store;                 (* documents, bundles and zones *)
  co_h : heap;                    (* nodes *)
  co_tree : nat -> nat;           (* the tree in co_doc of a root in co_h *)
  m_next : nat; e_next : nat;     (* mentions and entities allocated so far *)
  m_words : nat -> list nat;      (* CorefMention._words *)
  m_head : nat -> nat;            (* CorefMention._head *)
  m_ent : nat -> nat;             (* CorefMention._entity *)
  e_eid : nat -> str;             (* CorefEntity._eid *)
  e_type : nat -> option str;     (* CorefEntity.etype *)
  e_ments : nat -> list nat;      (* CorefEntity._mentions *)
  n_ments : nat -> list nat;      (* Node._mentions *)
  eids : list (str * nat)         (* Document._eid_to_entity of the document, in insertion order *)
}.
Definition put_words c m v := mkCo (co_doc c) (co_h c) (co_tree c) (m_next c) (e_next c) (upd (m_words c) m v) (m_head c) (m_ent c) (e_eid c) (e_type c) (e_ments c) (n_ments c) (eids c).
Definition put_head c m v := mkCo (co_doc c) (co_h c) (co_tree c) (m_next c) (e_next c) (m_words c) (upd (m_head c) m v) (m_ent c) (e_eid c) (e_type c) (e_ments c) (n_ments c) (eids c).
Definition put_ent c m v := mkCo (co_doc c) (co_h c) (co_tree c) (m_next c) (e_next c) (m_words c) (m_head c) (upd (m_ent c) m v) (e_eid c) (e_type c) (e_ments c) (n_ments c) (eids c).
Definition put_eid c e v := mkCo (co_doc c) (co_h c) (co_tree c) (m_next c) (e_next c) (m_words c) (m_head c) (m_ent c) (upd (e_eid c) e v) (e_type c) (e_ments c) (n_ments c) (eids c).
Definition put_ements c e v := mkCo (co_doc c) (co_h c) (co_tree c) (m_next c) (e_next c) (m_words c) (m_head c) (m_ent c) (e_eid c) (e_type c) (upd (e_ments c) e v) (n_ments c) (eids c).
Definition put_nments c w v := mkCo (co_doc c) (co_h c) (co_tree c) (m_next c) (e_next c) (m_words c) (m_head c) (m_ent c) (e_eid c) (e_type c) (e_ments c) (upd (n_ments c) w v) (eids c).
Definition put_nodes c h := mkCo (co_doc c) h (co_tree c) (m_next c) (e_next c) (m_words c) (m_head c) (m_ent c) (e_eid c) (e_type c) (e_ments c) (n_ments c) (eids c).

(** a < b on str *)
Definition str_ltb (a b : str) : bool := negb (str_leb b a).
(** node.py:745-759 precedes, on nodes *)
Definition node_precedes (c : coref) (x y : nat) : res bool :=
  precedes (co_doc c) (co_tree c (h_root (co_h c) x), okey (co_h c) x) (co_tree c (h_root (co_h c) y), okey (co_h c) y).
(** coref.py:160-163: mention._words, or the head if there are none *)
Definition words_or_head (c : coref) (m : nat) : list nat :=
  match m_words c m with [] => [m_head c m] | l => l end.
Definition touch (c : coref) (m : nat) : coref := put_words c m (words_or_head c m).
(** coref.py:165-175 the result of CorefMention.__lt__ *)
Definition mention_lt (c : coref) (m n : nat) : res bool :=
  let u := words_or_head c m in
  let v := words_or_head c n in
  let u0 := hd 0 u in let v0 := hd 0 v in
  let u1 := last u 0 in let v1 := last v 0 in
  if Nat.eqb u0 v0 then
    if Nat.ltb (length v) (length u) then Ok true
    else if Nat.ltb (length u) (length v) then Ok false
    else rbind (node_precedes c u1 v1) (fun b =>
         if b then Ok true
         else rbind (node_precedes c v1 u1) (fun b =>
              if b then Ok false
              else Ok (str_ltb (e_eid c (m_ent c m)) (e_eid c (m_ent c n)))))
  else node_precedes c u0 v0.
(** functools.total_ordering: m > n is not (m < n) and m is not n *)
Definition mention_gt (c : coref) (m n : nat) : res bool :=
  rbind (mention_lt c m n) (fun b => Ok (negb b && negb (Nat.eqb m n))).
(** coref.py:311-327 CorefEntity.__lt__ *)
Definition entity_lt (c : coref) (d e : nat) : res bool :=
  match e_ments c d, e_ments c e with
  | [], [] => Ok (str_ltb (e_eid c d) (e_eid c e))
  | [], _ :: _ => Ok true
  | _ :: _, [] => Ok false
  | m :: _, n :: _ => mention_lt c m n
  end.

(** list.sort() with a comparison that may raise: the stable sort. *)
Fixpoint insert_r (lt : nat -> nat -> res bool) (x : nat) (l : list nat) : res (list nat) :=
  match l with
  | [] => Ok [x]
  | y :: l' => rbind (lt y x) (fun b => if b then rbind (insert_r lt x l') (fun r => Ok (y :: r)) else Ok (x :: l))
  end.
Fixpoint sort_r (lt : nat -> nat -> res bool) (l : list nat) : res (list nat) :=
  match l with
  | [] => Ok []
  | x :: l => rbind (sort_r lt l) (insert_r lt x)
  end.
(** coref.py:160-163: comparing sets missing words *)
Fixpoint touch_all (c : coref) (l : list nat) : coref :=
  match l with
  | [] => c
  | m :: l => touch_all (touch c m) l
  end.
(** Sorting a list of mentions. Simplification: if a comparison raises, the list keeps its order. *)
Definition sort_mentions (c : coref) (l : list nat) : coref * res (list nat) :=
  let c := match l with _ :: _ :: _ => touch_all c l | _ => c end in
  (c, sort_r (mention_lt c) l).
(** coref.py:124-129 and 244-249: word._mentions.append(self), and sort if self does not come last *)
Definition add_backlink (c : coref) (m w : nat) : coref * res unit :=
  match last_opt (n_ments c w) with
  | None => (put_nments c w [m], Ok tt)
  | Some k =>
    let c := touch (touch c m) k in
    match mention_gt c m k with
    | Raise e => (c, Raise e)
    | Diverge => (c, Diverge)
    | Ok gt =>
      let c := put_nments c w (n_ments c w ++ [m]) in
      if gt then (c, Ok tt)
      else bind (sort_mentions c (n_ments c w)) (fun c l => (put_nments c w l, Ok tt))
    end
  end.
Fixpoint add_backlinks (c : coref) (m : nat) (l : list nat) : coref * res unit :=
  match l with
  | [] => (c, Ok tt)
  | w :: l => bind (add_backlink c m w) (fun c _ => add_backlinks c m l)
  end.
(** coref.py:113-129 CorefMention([head], head, entity) *)
Definition new_mention (c : coref) (e head : nat) : coref * res nat :=
  let m := m_next c in
  let c := mkCo (co_doc c) (co_h c) (co_tree c) (S m) (e_next c) (upd (m_words c) m [head]) (upd (m_head c) m head)
                (upd (m_ent c) m e) (e_eid c) (e_type c) (upd (e_ments c) e (e_ments c e ++ [m])) (n_ments c) (eids c) in
  bind (add_backlinks c m [head]) (fun c _ => (c, Ok m)).
(** coref.py:222-229 words getter *)
Definition words (c : coref) (m : nat) : coref * list nat :=
  let l := sort_on (okey (co_h c)) (m_words c m) in (put_words c m l, l).
(** coref.py:237-241: old_word._mentions.remove(self) for the words that are no longer there *)
Fixpoint drop_backlinks (c : coref) (m : nat) (l : list nat) : coref * res unit :=
  match l with
  | [] => (c, Ok tt)
  | w :: l => match list_remove m (n_ments c w) with
              | None => (c, Raise ValueError)
              | Some r => drop_backlinks (put_nments c w r) m l
              end
  end.
(** coref.py:231-249 words setter. Simplification: nodes of different trees with the same ord, whose order in
    sorted(list(set(...))) is arbitrary, are kept in the order of the argument. *)
Definition set_words (c : coref) (m : nat) (new_words : list nat) : coref * res unit :=
  if nonempty new_words && negb (mem (m_head c m) new_words) then (c, Raise ValueError)
  else
    let new_words := sort_on (okey (co_h c)) (nodup Nat.eq_dec new_words) in
    let kept := filter (fun w => mem w new_words) (m_words c m) in
    bind (drop_backlinks c m (filter (fun w => negb (mem w new_words)) (m_words c m))) (fun c _ =>
    add_backlinks (put_words c m new_words) m (filter (fun w => negb (mem w kept)) new_words)).
(** coref.py:251-258 span getter and setter *)
Definition span (c : coref) (m : nat) : res str := nodes_to_span (co_h c) (m_words c m).
Definition set_span (c : coref) (m : nat) (x : str) : coref * res unit :=
  bind (c, span_to_nodes (co_h c) (h_root (co_h c) (m_head c m)) x) (fun c l => set_words c m l).
(** coref.py:194-198 head setter *)
Definition set_head (c : coref) (m x : nat) : coref * res unit :=
  if nonempty (m_words c m) && negb (mem x (m_words c m)) then (c, Raise ValueError)
  else (put_head c m x, Ok tt).
(** bisect.insort: the index found by the binary search in [l] between [lo] and [lo + n] *)
Fixpoint bisect (fl : nat) (lt : nat -> nat -> res bool) (x : nat) (l : list nat) (lo hi : nat) : res nat :=
  if Nat.ltb lo hi then
    match fl with
    | O => Diverge
    | S f => let mid := Nat.div2 (lo + hi) in
             rbind (lt x (nth mid l 0)) (fun b => if b then bisect f lt x l lo mid else bisect f lt x l (S mid) hi)
    end
  else Ok lo.
(** coref.py:204-212 entity setter. Simplification: setting missing words during the search is left out. *)
Definition set_entity (c : coref) (m e : nat) : coref * res unit :=
  match list_remove m (e_ments c (m_ent c m)) with
  | None => (c, Raise ValueError)
  | Some l =>
    let c := put_ent (put_ements c (m_ent c m) l) m e in
    let old := e_ments c e in
    bind (c, bisect (length old) (mention_lt c) m old 0 (length old)) (fun c i =>
    (put_ements c e (firstn i old ++ m :: skipn i old), Ok tt))
  end.
(** coref.py:264-267 CorefMention.remove *)
Definition mention_remove (c : coref) (m : nat) : coref * res unit :=
  bind (drop_backlinks c m (m_words c m)) (fun c _ =>
  match list_remove m (e_ments c (m_ent c m)) with
  | None => (c, Raise ValueError)
  | Some l => (put_ements c (m_ent c m) l, Ok tt)
  end).

(** coref.py:296 and 333-337 the eid setter *)
Definition forbidden_in_id (x : str) : bool := existsb (fun a => has_char a x) (PyStr.s "-=| ()" ++ [TAB]).
Definition set_eid (c : coref) (e : nat) (x : str) : coref * res unit :=
  if forbidden_in_id x then (c, Raise ValueError) else (put_eid c e x, Ok tt).
(** self._eid_to_entity.get(x): entities are never false *)
Fixpoint find_eid (l : list (str * nat)) (x : str) : option nat :=
  match l with
  | [] => None
  | (k, e) :: l => if str_eqb k x then Some e else find_eid l x
  end.
Definition auto_eid (n : Z) : str := PyStr.s "e" ++ str_of_Z n.
(** document.py:161-163. Simplification: fuel *)
Fixpoint free_counter (fl : nat) (l : list (str * nat)) (n : Z) : res Z :=
  match find_eid l (auto_eid n) with
  | None => Ok n
  | Some _ => match fl with O => Diverge | S f => free_counter f l (n + 1)%Z end
  end.
(** document.py:158-169 create_coref_entity and coref.py:304-309 CorefEntity.__init__; the entities are loaded. *)
Definition create_entity (c : coref) (eid : option str) (etype : option str) : coref * res nat :=
  bind (c, match eid with
           | None | Some [] => rbind (free_counter (length (eids c)) (eids c) 1) (fun n => Ok (auto_eid n))
           | Some x => match find_eid (eids c) x with Some _ => Raise ValueError | None => Ok x end
           end) (fun c x =>
  if forbidden_in_id x then (c, Raise ValueError)
  else let e := e_next c in
       (mkCo (co_doc c) (co_h c) (co_tree c) (m_next c) (S e) (m_words c) (m_head c) (m_ent c) (upd (e_eid c) e x)
             (upd (e_type c) e etype) (upd (e_ments c) e []) (n_ments c) (eids c ++ [(x, e)]), Ok e)).
(** coref.py:355-389 create_mention; words=None or [], span=None or '' are all None here, except that
    head=None with words=[] raises IndexError instead of ValueError. *)
Definition create_mention (c : coref) (e : nat) (head : option nat) (ws : list nat) (sp : option str) : coref * res nat :=
  match sp, ws with
  | Some _, _ :: _ => (c, Raise ValueError)
  | _, _ =>
    match head, ws with
    | None, [] => (c, Raise ValueError)
    | Some h, _ :: _ => if mem h ws then bind (new_mention c e h) (fun c m => bind (set_words c m ws) (fun c _ =>
                                            bind (sort_mentions c (e_ments c e)) (fun c l => (put_ements c e l, Ok m))))
                        else (c, Raise ValueError)
    | None, h :: _ => bind (new_mention c e h) (fun c m => bind (set_words c m ws) (fun c _ =>
                      bind (sort_mentions c (e_ments c e)) (fun c l => (put_ements c e l, Ok m))))
    | Some h, [] => bind (new_mention c e h) (fun c m =>
                    bind (match sp with Some x => set_span c m x | None => (c, Ok tt) end) (fun c _ =>
                    bind (sort_mentions c (e_ments c e)) (fun c l => (put_ements c e l, Ok m))))
    end
  end.
