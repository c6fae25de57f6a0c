(** Model of udapi/core/coref.py load_coref_from_misc (548-768) and store_coref_to_misc (771-918): entities and mentions
    in the MISC attribute Entity.
    Simplifications: the document has the header global.Entity = eid-etype-head-other and no tree of the document has Bridge,
    SplitAnte or Split; bridging and split antecedents are empty; strict=True; the flag newdoc and document.meta are left out;
    Entity is never a flag without a value. *)
From Coq Require Import String List NArith ZArith Bool.
From Verif Require Import PyStr PyList PyExn TreeModel DualDictModel CorefModel.
Import ListNotations.
Local Open Scope list_scope.

(** Mentions and entities, mention.other (as a mapping; empty if mention._other is None) and node.misc['Entity'] ('' if missing). *)
Record corefs := mkCs { cs_c : coref; cs_other : nat -> dict; cs_misc : nat -> str }.
Definition with_c (x : corefs) (c : coref) : corefs := mkCs c (cs_other x) (cs_misc x).
Definition put_other (x : corefs) (m : nat) (v : dict) : corefs := mkCs (cs_c x) (upd (cs_other x) m v) (cs_misc x).
Definition put_misc (x : corefs) (n : nat) (v : str) : corefs := mkCs (cs_c x) (cs_other x) (upd (cs_misc x) n v).

(** ---- OtherDualDict (coref.py:971-1071) ---- *)
Definition COMMA : char := 44%N.
Definition COLON : char := 58%N.
(** coref.py:1018-1026 deserialising: one item *)
Definition parse_other_item (d : dict) (raw : str) : dict :=
  match split1 COLON raw with
  | Some (name, value) => dict_set d name (VStr value)
  | None => dict_set d raw VTrue
  end.
Definition parse_other (x : str) : dict :=
  match x with
  | [] => []
  | _ => fold_left parse_other_item (split COMMA x) []
  end.
(** coref.py:1006-1016 __str__; lower is str.lower *)
Definition other_item (kv : str * val) : str :=
  match snd kv with
  | VTrue => fst kv
  | VNone => fst kv ++ [COLON] ++ s "None"
  | VStr v => fst kv ++ [COLON] ++ v
  end.
Definition other_str (lower : str -> str) (d : dict) : str :=
  join [COMMA] (map other_item (isort (fun a b => str_leb (lower (fst a)) (lower (fst b))) d)).
(** coref.py:1032-1039: the value stored by __setitem__ (commas are escaped) *)
Definition escape_commas (x : str) : str := flat_map (fun a => if N.eqb a COMMA then s "%2C" else [a]) x.

(** ---- chunks of the attribute Entity ---- *)
Definition LP : char := 40%N.
Definition RP : char := 41%N.
Definition is_paren (a : char) : bool := N.eqb a LP || N.eqb a RP.
(** the longest prefix without parentheses: [^()]* *)
Fixpoint take_plain (x : str) : str * str :=
  match x with
  | [] => ([], [])
  | a :: x' => if is_paren a then ([], x) else let (run, rest) := take_plain x' in (a :: run, rest)
  end.
(** coref.py:584 [x for x in re.split(r'(\([^()]+\)?|[^()]+\))', misc_entity) if x]; [skipped] is the text before the
    next match. Simplification: fuel *)
Fixpoint chunk_loop (fl : nat) (skipped x : str) : list str :=
  let flush := match skipped with [] => [] | _ => [skipped] end in
  match x with
  | [] => flush
  | a :: x' =>
    match fl with
    | O => flush
    | S f =>
      if N.eqb a LP then
        match take_plain x' with
        | ([], _) => chunk_loop f (skipped ++ [a]) x'
        | (run, []) => flush ++ [LP :: run]
        | (run, b :: rest) =>
          if N.eqb b RP then flush ++ (LP :: run ++ [RP]) :: chunk_loop f [] rest
          else flush ++ (LP :: run) :: chunk_loop f [] (b :: rest)
        end
      else if N.eqb a RP then chunk_loop f (skipped ++ [a]) x'
      else
        match take_plain x with
        | (run, []) => [skipped ++ run]
        | (run, b :: rest) =>
          if N.eqb b RP then flush ++ (run ++ [RP]) :: chunk_loop f [] rest
          else chunk_loop f (skipped ++ run) (b :: rest)
        end
    end
  end.
Definition chunks (x : str) : list str := chunk_loop (length x) [] x.
(** chunk.strip('()') *)
Definition strip_parens (x : str) : str := rstrip_chars is_paren (lstrip_chars is_paren x).
Definition opens (x : str) : bool := match x with a :: _ => N.eqb a LP | [] => false end.
Definition closes (x : str) : bool := match last_opt x with Some a => N.eqb a RP | None => false end.

(** coref.py:541 RE_DISCONTINUOUS.match: ^([^[]+)\[(\d+)/(\d+)\]. Simplification: ASCII digits *)
Fixpoint take_digits (x : str) : str * str :=
  match x with
  | a :: x' => if is_digit a then let (run, rest) := take_digits x' in (a :: run, rest) else ([], x)
  | [] => ([], [])
  end.
Definition match_disc (x : str) : option (str * str * str) :=
  match split1 91%N x with
  | Some (a :: eid, rest) =>
    match take_digits rest with
    | (i :: idx, 47%N :: rest) =>
      match take_digits rest with
      | (t :: total, 93%N :: _) => Some (a :: eid, i :: idx, t :: total)
      | _ => None
      end
    | _ => None
    end
  | _ => None
  end.

(** ---- loading ---- *)

(** collections.defaultdict(list) with string keys, in insertion order *)
Fixpoint dl_get {A} (l : list (str * list A)) (k : str) : list A :=
  match l with
  | [] => []
  | (k', v) :: l => if str_eqb k k' then v else dl_get l k
  end.
Fixpoint dl_has {A} (l : list (str * list A)) (k : str) : bool :=
  match l with
  | [] => false
  | (k', _) :: l => str_eqb k k' || dl_has l k
  end.
Fixpoint dl_put {A} (l : list (str * list A)) (k : str) (v : list A) : list (str * list A) :=
  match l with
  | [] => [(k, v)]
  | (k', v') :: l => if str_eqb k k' then (k', v) :: l else (k', v') :: dl_put l k v
  end.
(** coref.py:550-552 entities, unfinished_mentions, discontinuous_mentions *)
Record loader := mkLd {
  ld_x : corefs;
  ld_ents : list (str * nat);
  ld_open : list (str * list (nat * option Z));
  ld_disc : list (str * list nat)
}.
Definition ld_c (l : loader) : coref := cs_c (ld_x l).
Definition ld_with_c (l : loader) (c : coref) : loader := mkLd (with_c (ld_x l) c) (ld_ents l) (ld_open l) (ld_disc l).
Definition ld_with_x (l : loader) (x : corefs) : loader := mkLd x (ld_ents l) (ld_open l) (ld_disc l).
Definition ld_put_open (l : loader) (k : str) (v : list (nat * option Z)) : loader :=
  mkLd (ld_x l) (ld_ents l) (dl_put (ld_open l) k v) (ld_disc l).
Definition ld_put_disc (l : loader) (k : str) (v : list nat) : loader :=
  mkLd (ld_x l) (ld_ents l) (ld_open l) (dl_put (ld_disc l) k v).
Definition put_etype (c : coref) (e : nat) (v : option str) : coref :=
  mkCo (co_doc c) (co_h c) (co_tree c) (m_next c) (e_next c) (m_words c) (m_head c) (m_ent c) (e_eid c) (upd (e_type c) e v)
       (e_ments c) (n_ments c) (eids c).

(** coref.py:626-631: the words after last_word up to the node *)
Fixpoint extend_mention (c : coref) (m last_word node : nat) (l : list nat) : coref * res unit :=
  match l with
  | [] => (c, Ok tt)
  | w :: l =>
    bind (c, node_precedes c last_word w) (fun c b =>
    if b then
      let c := put_words c m (m_words c m ++ [w]) in
      let c := put_nments c w (n_ments c w ++ [m]) in
      if Nat.eqb w node then (c, Ok tt) else extend_mention c m last_word node l
    else extend_mention c m last_word node l)
  end.
(** coref.py:632-639: if head_idx and ...: mention.head = mention.words[head_idx - 1] *)
Definition load_head (c : coref) (m : nat) (head_idx : option Z) : coref * res unit :=
  match head_idx with
  | None => (c, Ok tt)
  | Some 0%Z => (c, Ok tt)
  | Some i =>
    let (c, ws) := words c m in
    match py_nth ws (i - 1) with
    | None => (c, Raise ValueError)
    | Some w => set_head c m w
    end
  end.
(** coref.py:640-643, 708-710: m = discontinuous_mentions[eid].pop(), which must be the mention *)
Definition pop_disc (l : loader) (eid : str) (m : nat) : loader * res unit :=
  match rev (dl_get (ld_disc l) eid) with
  | [] => (ld_put_disc l eid [], Raise IndexError)
  | k :: rest => (ld_put_disc l eid (rev rest), if Nat.eqb k m then Ok tt else Raise ValueError)
  end.
Definition on_c {A} (l : loader) (m : coref * res A) : loader * res A := (ld_with_c l (fst m), snd m).
(** coref.py:592-643 a closing bracket *)
Definition load_closing (l : loader) (node : nat) (chunk : str) : loader * res unit :=
  let found := if dl_has (ld_open l) chunk then Some (chunk, None)
               else match match_disc chunk with
                    | None => None
                    | Some (eid, idx, total) => Some (eid, Some (str_eqb idx total))
                    end in
  match found with
  | None => (l, Raise ValueError)
  | Some (eid, sub) =>
    match rev (dl_get (ld_open l) eid) with
    | [] => (ld_put_open l eid [], Raise ValueError)
    | (m, head_idx) :: rest =>
      let l := ld_put_open l eid (rev rest) in
      let (c, ws) := words (ld_c l) m in
      let l := ld_with_c l c in
      match last_opt ws with
      | None => (l, Raise IndexError)
      | Some last_word =>
        let r := h_root (co_h c) node in
        if negb (Nat.eqb r (h_root (co_h c) last_word)) then (l, Raise ValueError)
        else
          bind (on_c l (extend_mention c m last_word node (descendants_and_empty (co_h c) r))) (fun l _ =>
          bind (match sub with
                | Some false => (l, Ok tt)
                | _ => on_c l (load_head (ld_c l) m head_idx)
                end) (fun l _ =>
          match sub with
          | Some true => pop_disc l eid m
          | _ => (l, Ok tt)
          end))
      end
    end
  end.

(** coref.py:684-695 the entity of the mention: found or created; the result is the entity and the attribute other *)
Definition load_entity (l : loader) (eid : str) (etype : option str) (other : dict) (later : bool) : loader * res (nat * dict) :=
  match find_eid (ld_ents l) eid with
  | None =>
    if later then (l, Raise ValueError)
    else if forbidden_in_id eid then (l, Raise ValueError)
    else
      let c := ld_c l in
      let e := e_next c in
      let c := mkCo (co_doc c) (co_h c) (co_tree c) (m_next c) (S e) (m_words c) (m_head c) (m_ent c) (upd (e_eid c) e eid)
                    (upd (e_type c) e etype) (upd (e_ments c) e []) (n_ments c) (eids c) in
      (mkLd (with_c (ld_x l) c) (ld_ents l ++ [(eid, e)]) (ld_open l) (ld_disc l), Ok (e, other))
  | Some e =>
    match etype, e_type (ld_c l) e with
    | Some (a :: t), Some (b :: u) =>
      if str_eqb (a :: t) (b :: u) then (l, Ok (e, other))
      else (l, Ok (e, dict_set other (s "orig_etype") (VStr (escape_commas (a :: t)))))
    | Some (a :: t), None => (ld_with_c l (put_etype (ld_c l) e etype), Ok (e, other))
    | _, _ => (l, Ok (e, other))
    end
  end.
(** coref.py:713-717: CorefMention([node], entity=entity, add_word_backlinks=False) *)
Definition load_mention (x : corefs) (e node : nat) (other : dict) : corefs * nat :=
  let c := cs_c x in
  let m := m_next c in
  let c := mkCo (co_doc c) (co_h c) (co_tree c) (S m) (e_next c) (upd (m_words c) m [node]) (upd (m_head c) m node)
                (upd (m_ent c) m e) (e_eid c) (e_type c) (upd (e_ments c) e (e_ments c e ++ [m])) (n_ments c) (eids c) in
  (put_other (with_c x c) m other, m).
(** coref.py:648-683 the fields of an opening bracket: eid; for a piece of a discontinuous mention, whether it is the first and
    whether it is the last one; etype; head; other *)
Definition parse_opening (chunk : str) : res (str * option (bool * bool) * option str * option Z * dict) :=
  let values := split 45%N chunk in
  let eid := hd [] values in
  let other := match nth_error values 3 with None => [] | Some v => parse_other v end in
  rbind (match nth_error values 2 with
         | None => Ok None
         | Some v => match py_int v with Some i => Ok (Some i) | None => Raise ValueError end
         end) (fun head_idx =>
  rbind (match last_opt eid with
         | None => Raise IndexError                                       (* eid[-1] *)
         | Some a => if N.eqb a 93 then
                       match match_disc eid with
                       | None => Raise ValueError
                       | Some (eid, idx, total) => Ok (eid, Some (str_eqb idx (s "1"), str_eqb idx total))
                       end
                     else Ok (eid, None)
         end) (fun es =>
  Ok (fst es, snd es, nth_error values 1, head_idx, other))).
(** coref.py:697-711 a later piece of a discontinuous mention *)
Definition load_later (l : loader) (node : nat) (closing : bool) (eid : str) (last_piece : bool) (head_idx : option Z) : loader * res nat :=
  let opened := map fst (dl_get (ld_open l) eid) in
  let l := ld_put_open l eid (dl_get (ld_open l) eid) in                  (* unfinished_mentions[eid] makes the key *)
  match find (fun m => negb (mem m opened)) (dl_get (ld_disc l) eid) with
  | None => (l, Raise RuntimeError)                                       (* StopIteration *)
  | Some m =>
    let l := ld_with_c l (put_words (ld_c l) m (m_words (ld_c l) m ++ [node])) in
    if closing && last_piece then
      bind (pop_disc l eid m) (fun l _ =>
      match head_idx with
      | None => (l, Raise TypeError)
      | Some i => match py_nth (m_words (ld_c l) m) (i - 1) with
                  | None => (l, Raise ValueError)
                  | Some w => bind (on_c l (set_head (ld_c l) m w)) (fun l _ => (l, Ok m))
                  end
      end)
    else (l, Ok m)
  end.
(** coref.py:712-718 a new mention *)
Definition load_first (l : loader) (node e : nat) (eid : str) (discontinuous : bool) (other : dict) : loader * nat :=
  let (x, m) := load_mention (ld_x l) e node other in
  let l := ld_with_x l x in
  (if discontinuous then ld_put_disc l eid (dl_get (ld_disc l) eid ++ [m]) else l, m).
(** coref.py:646-724 an opening bracket or a single word *)
Definition load_opening (l : loader) (node : nat) (closing : bool) (chunk : str) : loader * res unit :=
  bind (l, parse_opening chunk) (fun l f =>
  let '(eid, sub, etype, head_idx, other) := f in
  bind (load_entity l eid etype other (match sub with Some (false, _) => true | _ => false end)) (fun l eo =>
  let (e, other) := eo in
  bind (match sub with
        | Some (false, last_piece) => load_later l node closing eid last_piece head_idx
        | _ => let (l, m) := load_first l node e eid (match sub with Some _ => true | None => false end) other in (l, Ok m)
        end) (fun l m =>
  let l := ld_with_c l (put_nments (ld_c l) node (n_ments (ld_c l) node ++ [m])) in
  if closing then (l, Ok tt)
  else (ld_put_open l eid (dl_get (ld_open l) eid ++ [(m, head_idx)]), Ok tt)))).
(** coref.py:585-724 one chunk *)
Definition load_chunk (l : loader) (node : nat) (chunk : str) : loader * res unit :=
  if opens chunk then load_opening l node (closes chunk) (strip_parens chunk)
  else if closes chunk then load_closing l node (strip_parens chunk)
  else (l, Ok tt).                                                        (* only a warning *)
Fixpoint load_chunks (l : loader) (node : nat) (cs : list str) : loader * res unit :=
  match cs with
  | [] => (l, Ok tt)
  | c :: cs => bind (load_chunk l node c) (fun l _ => load_chunks l node cs)
  end.
(** coref.py:572-724 the loop over the nodes *)
Fixpoint load_nodes (l : loader) (nodes : list nat) : loader * res unit :=
  match nodes with
  | [] => (l, Ok tt)
  | n :: nodes => bind (load_chunks l n (chunks (cs_misc (ld_x l) n))) (fun l _ => load_nodes l nodes)
  end.
(** coref.py:749-756 mentions that have not been closed: deleted *)
Fixpoint drop_unfinished (l : loader) (eid : str) (ms : list (nat * option Z)) : loader * res unit :=
  match ms with
  | [] => (l, Ok tt)
  | (m, _) :: ms =>
    bind (on_c l (set_words (ld_c l) m [])) (fun l _ =>
    let e := m_ent (ld_c l) m in
    match list_remove m (e_ments (ld_c l) e) with
    | None => (l, Raise ValueError)
    | Some rest =>
      let l := ld_with_c l (put_ements (ld_c l) e rest) in
      match rest with
      | [] => drop_unfinished (mkLd (ld_x l) (filter (fun p => negb (str_eqb (fst p) eid)) (ld_ents l)) (ld_open l) (ld_disc l)) eid ms
      | _ => drop_unfinished l eid ms
      end
    end)
  end.
Fixpoint drop_all_unfinished (l : loader) (o : list (str * list (nat * option Z))) : loader * res unit :=
  match o with
  | [] => (l, Ok tt)
  | (eid, ms) :: o => bind (drop_unfinished l eid ms) (fun l _ => drop_all_unfinished l o)
  end.
(** coref.py:766-767 for node in mention._words: node._mentions.sort() *)
Fixpoint sort_backlinks (c : coref) (nodes : list nat) : coref * res unit :=
  match nodes with
  | [] => (c, Ok tt)
  | w :: nodes => bind (sort_mentions c (n_ments c w)) (fun c l => sort_backlinks (put_nments c w l) nodes)
  end.
Fixpoint sort_all_backlinks (c : coref) (ms : list nat) : coref * res unit :=
  match ms with
  | [] => (c, Ok tt)
  | m :: ms => bind (sort_backlinks c (m_words c m)) (fun c _ => sort_all_backlinks c ms)
  end.
(** coref.py:761-767 *)
Fixpoint sort_entities (c : coref) (es : list (str * nat)) : coref * res unit :=
  match es with
  | [] => (c, Ok tt)
  | (_, e) :: es =>
    match e_ments c e with
    | [] => (c, Raise ValueError)
    | ms => bind (sort_mentions c ms) (fun c l =>
            let c := put_ements c e l in
            bind (sort_all_backlinks c l) (fun c _ => sort_entities c es))
    end
  end.
Definition put_eids (c : coref) (v : list (str * nat)) : coref :=
  mkCo (co_doc c) (co_h c) (co_tree c) (m_next c) (e_next c) (m_words c) (m_head c) (m_ent c) (e_eid c) (e_type c) (e_ments c) (n_ments c) v.
(** document.py:92-98 nodes_and_empty; [roots] are the roots of the trees of the document, in its order *)
Definition nodes_and_empty (c : coref) (roots : list nat) : list nat :=
  flat_map (descendants_and_empty (co_h c)) roots.
(** coref.py:548-768 load_coref_from_misc *)
Definition load_coref (x : corefs) (roots : list nat) : corefs * res unit :=
  let (l, r) := bind (load_nodes (mkLd x [] [] []) (nodes_and_empty (cs_c x) roots)) (fun l _ =>
                bind (drop_all_unfinished l (ld_open l)) (fun l _ =>
                bind (on_c l (sort_entities (ld_c l) (ld_ents l))) (fun l _ =>
                bind (l, sort_r (entity_lt (ld_c l)) (map snd (ld_ents l))) (fun l es =>
                (ld_with_c l (put_eids (ld_c l) (map (fun e => (e_eid (ld_c l) e, e)) es)), Ok tt))))) in
  (ld_x l, r).

(** ---- storing ---- *)

(** l.index(x) *)
Fixpoint index_of (x : nat) (l : list nat) : option Z :=
  match l with
  | [] => None
  | y :: l => if Nat.eqb y x then Some 0%Z else option_map Z.succ (index_of x l)
  end.
(** coref.py:801-813 one subspan: a new entity and a new mention *)
Definition fake_mention (x : corefs) (m e : nat) (eid : str) (ws : list nat) : corefs * res nat :=
  if forbidden_in_id eid then (x, Raise ValueError)
  else match ws with
       | [] => (x, Raise ValueError)
       | w :: _ =>
         let c := cs_c x in
         let k := m_next c in
         let f := e_next c in
         let c := mkCo (co_doc c) (co_h c) (co_tree c) (S k) (S f) (upd (m_words c) k ws) (upd (m_head c) k w)
                       (upd (m_ent c) k f) (upd (e_eid c) f eid) (upd (e_type c) f (e_type c e)) (upd (e_ments c) f [k])
                       (n_ments c) (eids c) in
         (put_other (with_c x c) k (cs_other x m), Ok k)
       end.
(** coref.py:799-814 the loop over the subspans; [i] is idx, [n] is len(subspans) *)
Fixpoint fake_mentions (x : corefs) (m e root : nat) (i n : Z) (spans : list str) : corefs * res (list nat) :=
  match spans with
  | [] => (x, Ok [])
  | sp :: spans =>
    bind (x, span_to_nodes (co_h (cs_c x)) root sp) (fun x ws =>
    bind (fake_mention x m e (e_eid (cs_c x) e ++ s "[" ++ str_of_Z i ++ s "/" ++ str_of_Z n ++ s "]") ws) (fun x k =>
    bind (fake_mentions x m e root (i + 1) n spans) (fun x ks => (x, Ok (k :: ks)))))
  end.
(** coref.py:790-814: the mentions to be written and the heads of the new ones (strings) *)
Fixpoint doc_mentions (x : corefs) (ms : list nat) : corefs * res (list nat * list (nat * str)) :=
  match ms with
  | [] => (x, Ok ([], []))
  | m :: ms =>
    bind (x, span (cs_c x) m) (fun x sp =>
    bind (if has_char COMMA sp then
            let (c, ws) := words (cs_c x) m in
            let x := with_c x c in
            bind (x, match index_of (m_head c m) ws with None => Raise ValueError | Some i => Ok (str_of_Z (i + 1)) end) (fun x head =>
            bind (x, match ws with [] => Raise IndexError | w :: _ => Ok (h_root (co_h c) w) end) (fun x root =>
            let spans := split COMMA sp in
            bind (fake_mentions x m (m_ent c m) root 1 (Z.of_nat (length spans)) spans) (fun x ks =>
            (x, Ok (ks, map (fun k => (k, head)) ks)))))
          else (x, Ok ([m], []))) (fun x kh =>
    bind (doc_mentions x ms) (fun x r => (x, Ok (fst kh ++ fst r, snd kh ++ snd r)))))
  end.
Fixpoint find_head (l : list (nat * str)) (m : nat) : option str :=
  match l with
  | [] => None
  | (k, h) :: l => if Nat.eqb k m then Some h else find_head l m
  end.
(** coref.py:784: the fields of global.Entity; all of them are taken for names in mention.other (the condition
    f not in ([...], ) is always true), and removed from it *)
Definition fields : list str := [s "eid"; s "etype"; s "head"; s "other"].
Definition without_fields (d : dict) : dict := filter (fun kv => negb (existsb (str_eqb (fst kv)) fields)) d.
(** coref.py:855-857 while values and values[-1] == '': del values[-1] *)
Fixpoint drop_empty (l : list str) : list str :=
  match l with
  | [] => []
  | x :: l => match x, drop_empty l with
              | [], [] => []
              | _, r => x :: r
              end
  end.
(** coref.py:818-858 the opening bracket of a mention *)
Definition mention_str (lower : str -> str) (x : corefs) (heads : list (nat * str)) (m : nat) : corefs * res str :=
  let c := cs_c x in
  let e := m_ent c m in
  let eid := e_eid c e in
  if forbidden_in_id eid then (x, Raise NameError)                        (* strict is not defined *)
  else
    let etype := match e_type c e with None => [] | Some t => t end in
    bind (match find_head heads m with
          | Some h => (x, Ok h)
          | None => let (c, ws) := words c m in
                    (with_c x c, match index_of (m_head c m) ws with None => Raise ValueError | Some i => Ok (str_of_Z (i + 1)) end)
          end) (fun x head =>
    let other := match cs_other x m with
                 | [] => []
                 | d => other_str lower (without_fields d)
                 end in
    (x, Ok ([LP] ++ join (s "-") (drop_empty [eid; etype; head; other])))).
(** coref.py:860-884: writing the brackets *)
Definition add_single (misc : str) (chunk : str) : str :=
  if negb (closes misc) then misc ++ chunk
  else if negb (has_char LP misc) then chunk ++ misc
  else if existsb (fun c => opens c && negb (closes c)) (chunks misc) then misc ++ chunk
  else chunk ++ misc.
Definition write_mention (lower : str -> str) (x : corefs) (heads : list (nat * str)) (m : nat) : corefs * res unit :=
  bind (mention_str lower x heads m) (fun x open =>
  let (c, ws) := words (cs_c x) m in
  let x := with_c x c in
  match ws with
  | [] => (x, Raise IndexError)
  | [w] => (put_misc x w (add_single (cs_misc x w) (open ++ [RP])), Ok tt)
  | w :: _ =>
    let x := put_misc x w (cs_misc x w ++ open) in
    let z := last ws w in
    (put_misc x z (e_eid c (m_ent c m) ++ [RP] ++ cs_misc x z), Ok tt)
  end).
Fixpoint write_mentions (lower : str -> str) (x : corefs) (heads : list (nat * str)) (ms : list nat) : corefs * res unit :=
  match ms with
  | [] => (x, Ok tt)
  | m :: ms => bind (write_mention lower x heads m) (fun x _ => write_mentions lower x heads ms)
  end.
(** coref.py:786-789 *)
Definition clear_misc (x : corefs) (nodes : list nat) : corefs :=
  mkCs (cs_c x) (cs_other x) (fun n => if mem n nodes then [] else cs_misc x n).
Definition on_x {A} (x : corefs) (m : coref * res A) : corefs * res A := (with_c x (fst m), snd m).
(** coref.py:771-884 store_coref_to_misc *)
Definition store_coref (lower : str -> str) (x : corefs) (roots : list nat) : corefs * res unit :=
  match eids (cs_c x) with
  | [] => (x, Ok tt)
  | es =>
    let x := clear_misc x (nodes_and_empty (cs_c x) roots) in
    bind (on_x x (sort_mentions (cs_c x) (flat_map (fun p => e_ments (cs_c x) (snd p)) es))) (fun x ms =>
    bind (doc_mentions x ms) (fun x r =>
    bind (on_x x (sort_mentions (cs_c x) (fst r))) (fun x ms =>
    write_mentions lower x (snd r) ms)))
  end.
