(** Model of udapi/block/read/conllu.py (parse_comment_line, read_tree_from_lines) and
    udapi/block/write/conllu.py (process_tree), on lists of lines.
    Lines never contain a line feed: they come from split('\n') or from file iteration.
    [lower] stands for str.lower; [canon] for x -> json.dumps(json.loads(x), ensure_ascii=False,
    sort_keys=True), where [None] means that json.loads raises JSONDecodeError (a ValueError). *)
From Coq Require Import String List NArith ZArith Bool.
From Verif Require Import PyStr PyList PyExn TreeModel DualDictModel DocModel.
Import ListNotations.
Local Open Scope Z_scope.

(** read/conllu.py:23-35: the parameters (empty_parent only influences warnings). *)
Record rcfg := mkRcfg { rc_strict : bool; rc_fix_cycles : bool }.

(** x with the prefix p removed, if it starts with p *)
Fixpoint after (p x : str) : option str :=
  match p, x with
  | [], _ => Some x
  | _ :: _, [] => None
  | a :: p', b :: x' => if N.eqb a b then after p' x' else None
  end.
(** longest prefix of non-space characters (regular expression class \S) *)
Fixpoint nonspace_run (x : str) : str :=
  match x with
  | [] => []
  | a :: x' => if is_space a then [] else a :: nonspace_run x'
  end.
(** '=' at the start *)
Definition eat_eq (x : str) : option str := after [EQ] x.

(** read/conllu.py:13 RE_SENT_ID ^# sent_id\s*=?\s*(\S+): group 1.  If nothing follows the
    equal sign, the regular expression backtracks and \S+ takes the equal sign. *)
Definition re_sent_id (line : str) : option str :=
  match after (s "# sent_id") line with
  | None => None
  | Some x =>
    match lstrip x with
    | [] => None
    | y => match eat_eq y with
           | Some z => match lstrip z with [] => Some [EQ] | w => Some (nonspace_run w) end
           | None => Some (nonspace_run y)
           end
    end
  end.
(** read/conllu.py:14 RE_TEXT ^# text\s*=\s*(.* ): group 1 *)
Definition re_text (line : str) : option str :=
  match after (s "# text") line with
  | None => None
  | Some x => match eat_eq (lstrip x) with
              | None => None
              | Some y => Some (lstrip y)
              end
  end.
(** \s*(.+): the value after the equal sign.  If there are only spaces, the regular expression
    backtracks and .+ takes the last one; no match on the empty string. *)
Definition space_value (x : str) : option str :=
  match lstrip x with
  | [] => match last_opt x with Some a => Some [a] | None => None end
  | y => Some y
  end.
(** read/conllu.py:15, the part (?:\s+id\s*=\s*(.+))?$ of RE_NEWPARDOC: group 2 (VTrue if missing) *)
Definition pardoc_tail (x : str) : option val :=
  match x with
  | [] => Some VTrue
  | a :: _ =>
    if is_space a then
      match after (s "id") (lstrip x) with
      | None => None
      | Some y => match eat_eq (lstrip y) with
                  | None => None
                  | Some z => match space_value z with Some v => Some (VStr v) | None => None end
                  end
      end
    else None
  end.
(** read/conllu.py:15 RE_NEWPARDOC ^# (newpar|newdoc)(?:\s+id\s*=\s*(.+))?$: is it newpar, and
    group 2 *)
Definition re_newpardoc (line : str) : option (bool * val) :=
  match after (s "# newpar") line with
  | Some x => match pardoc_tail x with Some v => Some (true, v) | None => None end
  | None => match after (s "# newdoc") line with
            | Some x => match pardoc_tail x with Some v => Some (false, v) | None => None end
            | None => None
            end
  end.
(** [^ =]+ *)
Fixpoint key_run (x : str) : str :=
  match x with
  | [] => []
  | a :: x' => if N.eqb a SP || N.eqb a EQ then [] else a :: key_run x'
  end.
(** read/conllu.py:16, the part ([^ =]+)\s*=\s*(.+) of RE_JSON *)
Definition json_tail (d : bool) (x : str) : option (bool * str * str) :=
  match key_run x with
  | [] => None
  | k => match eat_eq (lstrip (skipn (length k) x)) with
         | None => None
         | Some z => match space_value z with Some v => Some (d, k, v) | None => None end
         end
  end.
(** read/conllu.py:16 RE_JSON ^# (doc_)?json_([^ =]+)\s*=\s*(.+): is it doc_json, groups 2, 3 *)
Definition re_json (line : str) : option (bool * str * str) :=
  match after (s "# doc_json_") line with
  | Some x => json_tail true x
  | None => match after (s "# json_") line with
            | Some x => json_tail false x
            | None => None
            end
  end.
(** read/conllu.py:17 RE_GLOBAL_ENTITY ^# global.Entity\s*=\s*(\S+): group 1 (the dot is any
    character) *)
Definition re_global_entity (line : str) : option str :=
  match after (s "# global") line with
  | Some (_ :: x) =>
    match after (s "Entity") x with
    | None => None
    | Some y => match eat_eq (lstrip y) with
                | None => None
                | Some z => match lstrip z with [] => None | w => Some (nonspace_run w) end
                end
    end
  | _ => None
  end.

(** Assignment to a key of root.json or root.json['__doc__'].  Simplification: a comment
    json___doc__ itself, which would clash with the latter, is not treated specially. *)
Fixpoint jset (l : list (str * str)) (k v : str) : list (str * str) :=
  match l with
  | [] => [(k, v)]
  | (k', v') :: l => if str_eqb k k' then (k', v) :: l else (k', v') :: jset l k v
  end.

Definition add_line (ri : rinfo) (x : str) : rinfo :=
  mkRI (ri_sent_id ri) (ri_zone ri) (ri_text ri) (ri_comment ri ++ x ++ [LF]) (ri_newpar ri) (ri_newdoc ri)
       (ri_json ri) (ri_doc_json ri).
Definition P_SENT_ID := s "$SENT_ID".
Definition P_TEXT := s "$TEXT".
Definition P_NEWPAR := s "$NEWPAR".
Definition P_NEWDOC := s "$NEWDOC".
Definition P_GE := s "$GLOBAL.ENTITY".

(** read/conllu.py:37-81 parse_comment_line; [ge] is self._global_entity.  The root has no
    bundle yet, so assigning root.sent_id only stores the string (root.py:54-61). *)
Definition parse_comment (canon : str -> option str) (ri : rinfo) (ge : option str) (line : str)
  : (rinfo * option str) * res unit :=
  match re_sent_id line with
  | Some x => ((add_line (mkRI (Some x) (ri_zone ri) (ri_text ri) (ri_comment ri) (ri_newpar ri) (ri_newdoc ri)
                               (ri_json ri) (ri_doc_json ri)) P_SENT_ID, ge), Ok tt)
  | None =>
  match re_text line with
  | Some x => ((add_line (mkRI (ri_sent_id ri) (ri_zone ri) (Some x) (ri_comment ri) (ri_newpar ri) (ri_newdoc ri)
                               (ri_json ri) (ri_doc_json ri)) P_TEXT, ge), Ok tt)
  | None =>
  match re_newpardoc line with
  | Some (true, v) => ((add_line (mkRI (ri_sent_id ri) (ri_zone ri) (ri_text ri) (ri_comment ri) v (ri_newdoc ri)
                                       (ri_json ri) (ri_doc_json ri)) P_NEWPAR, ge), Ok tt)
  | Some (false, v) => ((add_line (mkRI (ri_sent_id ri) (ri_zone ri) (ri_text ri) (ri_comment ri) (ri_newpar ri) v
                                        (ri_json ri) (ri_doc_json ri)) P_NEWDOC, ge), Ok tt)
  | None =>
  match re_json line with
  | Some (isdoc, k, x) =>
    match canon x with
    | None => ((ri, ge), Raise ValueError)
    | Some v => ((if isdoc
                  then mkRI (ri_sent_id ri) (ri_zone ri) (ri_text ri) (ri_comment ri) (ri_newpar ri) (ri_newdoc ri)
                            (ri_json ri) (jset (ri_doc_json ri) k v)
                  else mkRI (ri_sent_id ri) (ri_zone ri) (ri_text ri) (ri_comment ri) (ri_newpar ri) (ri_newdoc ri)
                            (jset (ri_json ri) k v) (ri_doc_json ri), ge), Ok tt)
    end
  | None =>
  match re_global_entity line with
  | Some x => ((add_line ri P_GE, Some x), Ok tt)
  | None => ((add_line ri (tl line), ge), Ok tt)
  end end end end end.

(** The local variables of read_tree_from_lines. *)
Record rd := mkRd { rd_d : doc; rd_ge : option str; rd_nodes : list nat; rd_parents : list Z; rd_mwts : list (list str) }.

Definition DOT : char := 46%N.
Definition MINUS : char := 45%N.
(** '_' means None (read/conllu.py:150-155) *)
Definition unless_us (x : str) : option str := if str_eqb x US then None else Some x.

(** float(x) in tenths (node.py:1051-1060 EmptyNode.ord setter with a string).  Modelled for
    digits, a dot and one digit possibly followed by zeros; what happens for any other string
    is outside the model and marked by NotImplementedError. *)
Definition float_tenths (x : str) : res Z :=
  match split1 DOT x with
  | Some (a, b :: zeros) =>
    if forallb is_digit a && is_digit b && forallb (N.eqb 48) zeros then
      match digits_to_Z 0 false a with
      | Some z => Ok (10 * z + digit_val b)
      | None => Raise NotImplementedError
      end
    else Raise NotImplementedError
  | _ => Raise NotImplementedError
  end.

Definition field (fields : list str) (i : nat) : str := nth i fields [].

(** read/conllu.py:143-148, root.py:155-165 Root.create_empty_child *)
Definition read_empty (d : doc) (r : nat) (fields : list str) : doc * res unit :=
  let f := field fields in
  let (d, n) := new_node d KEmpty r (mkAttrs (Some (f 1%nat)) (Some (f 2%nat)) (Some (f 3%nat)) (Some (f 4%nat))
                                             (opt_dd (f 5%nat)) None (opt_dd (f 9%nat)) (Some US) None) in
  let d := with_h d (put_emp (d_h d) r (h_emp (d_h d) r ++ [n])) in
  match float_tenths (f 0%nat) with
  | Raise e => (d, Raise e)
  | Diverge => (d, Diverge)
  | Ok o =>
    let d := with_h d (put_eord (d_h d) n o) in
    (put_at d n (set_deps (d_at d n) (Some (f 8%nat)) None), Ok tt)
  end.

(** read/conllu.py:150-174; the last component is the HEAD *)
Definition read_word (strict : bool) (d : doc) (r : nat) (fields : list str) : doc * res (nat * Z) :=
  let f := field fields in
  let (d, n) := new_node d KNode r (mkAttrs (Some (f 1%nat)) (Some (f 2%nat)) (unless_us (f 3%nat)) (unless_us (f 4%nat))
                                            (opt_dd (f 5%nat)) (unless_us (f 7%nat)) (opt_dd (f 9%nat)) (Some US) None) in
  let d := with_h d (put_desc (d_h d) r (h_desc (d_h d) r ++ [n])) in
  match py_int (f 0%nat) with
  | None => (d, Raise ValueError)
  | Some o =>
    let d := with_h d (put_ord (d_h d) n o) in
    let d := if str_eqb (f 8%nat) US then d else put_at d n (set_deps (d_at d n) (Some (f 8%nat)) None) in
    match py_int (f 6%nat) with
    | Some p => (d, Ok (n, p))
    | None => if negb strict && str_eqb (f 6%nat) US then (d, Ok (n, 0)) else (d, Raise ValueError)
    end
  end.

(** read/conllu.py:130-174, one line *)
Definition HASH : char := 35%N.
Definition read_line (cfg : rcfg) (canon : str -> option str) (r : nat) (st : rd) (line : str) : rd * res unit :=
  match line with
  | [] => (st, Raise IndexError)                                   (* line[0] *)
  | c :: _ =>
    if N.eqb c HASH then
      match parse_comment canon (d_ri (rd_d st) r) (rd_ge st) line with
      | ((ri, ge), x) => (mkRd (put_ri (rd_d st) r ri) ge (rd_nodes st) (rd_parents st) (rd_mwts st), x)
      end
    else
      let fields := split TAB line in
      if negb (Nat.eqb (length fields) 10) && rc_strict cfg then (st, Raise RuntimeError)
      else
        let fields := fields ++ repeat US (10 - length fields) in
        if has_char MINUS (field fields 0) then
          (mkRd (rd_d st) (rd_ge st) (rd_nodes st) (rd_parents st) (rd_mwts st ++ [fields]), Ok tt)
        else if has_char DOT (field fields 0) then
          let (d, x) := read_empty (rd_d st) r fields in
          (mkRd d (rd_ge st) (rd_nodes st) (rd_parents st) (rd_mwts st), x)
        else
          match read_word (rc_strict cfg) (rd_d st) r fields with
          | (d, Ok (n, p)) => (mkRd d (rd_ge st) (rd_nodes st ++ [n]) (rd_parents st ++ [p]) (rd_mwts st), Ok tt)
          | (d, Raise e) => (mkRd d (rd_ge st) (rd_nodes st) (rd_parents st) (rd_mwts st), Raise e)
          | (d, Diverge) => (mkRd d (rd_ge st) (rd_nodes st) (rd_parents st) (rd_mwts st), Diverge)
          end
  end.
Fixpoint read_lines (cfg : rcfg) (canon : str -> option str) (r : nat) (st : rd) (lines : list str) : rd * res unit :=
  match lines with
  | [] => (st, Ok tt)
  | l :: lines => bind (read_line cfg canon r st l) (fun st _ => read_lines cfg canon r st lines)
  end.

(** read/conllu.py:192-216: [todo] are the remaining nodes with their HEADs. *)
Fixpoint attach_loop (fix_cycles : bool) (h : heap) (r : nat) (nodes : list nat) (todo : list (nat * Z)) : heap * res unit :=
  match todo with
  | [] => (h, Ok tt)
  | (node, p) :: todo =>
    match py_nth nodes p with
    | None => (h, Raise ValueError)                                 (* HEAD is out of range *)
    | Some parent =>
      let attach (h : heap) (parent : nat) :=
        let h := put_par h node (Some parent) in
        attach_loop fix_cycles (put_ch h parent (h_ch h parent ++ [node])) r nodes todo in
      if Nat.eqb node parent then
        (if fix_cycles then
           let h := put_par h node (Some r) in
           let h := put_ch h r (h_ch h r ++ [node]) in
           attach h parent
         else (h, Raise ValueError))
      else if nonempty (h_ch h node) then
        match climbs_to (fuel h) h node (h_par h parent) with
        | Ok true => if fix_cycles then attach h r else (h, Raise ValueError)
        | Ok false => attach h parent
        | Raise e => (h, Raise e)
        | Diverge => (h, Diverge)
        end
      else attach h parent
    end
  end.

(** read/conllu.py:219-226 *)
Fixpoint mwt_loop (d : doc) (r : nat) (nodes : list nat) (l : list (list str)) : doc * res unit :=
  match l with
  | [] => (d, Ok tt)
  | fields :: l =>
    match split MINUS (field fields 0) with
    | [a; b] =>
      match py_int a, py_int b with
      | Some a, Some b =>
        bind (create_multiword_token d r (py_slice nodes a (b + 1)) (Some (field fields 1))
                                     (match last_opt fields with Some x => x | None => [] end))
             (fun d _ => mwt_loop d r nodes l)
      | _, _ => (d, Raise ValueError)
      end
    | _ => (d, Raise ValueError)                                    (* too many values to unpack *)
    end
  end.

(** str(x.misc) of a node or MWT whose _misc is m *)
Definition misc_str (lower : str -> str) (m : option dualdict) : str := snd (dd_str lower (dd_prop m)).
Definition EmptyYes : str := s "Empty=Yes".

(** read/conllu.py:125-228 read_tree_from_lines.  Result: the objects, self._global_entity,
    and the returned root or None. *)
Definition read_tree_from_lines (cfg : rcfg) (canon : str -> option str) (lower : str -> str)
           (d : doc) (ge : option str) (lines : list str) : (doc * option str) * res (option nat) :=
  let (d, r) := doc_new_root d in
  match read_lines cfg canon r (mkRd d ge [r] [0] []) lines with
  | (st, Raise e) => ((rd_d st, rd_ge st), Raise e)
  | (st, Diverge) => ((rd_d st, rd_ge st), Diverge)
  | (st, Ok _) =>
    match rd_nodes st with
    | [_] => ((rd_d st, rd_ge st), Ok None)
    | _ =>
      let (d, nodes) :=
        match rd_nodes st with
        | [r'; n] =>
          let a := d_at (rd_d st) n in
          (* nodes[1].misc creates the DualDict and str() caches its text *)
          let d := put_at (rd_d st) n (set_misc a (Some (fst (dd_str lower (dd_prop (n_misc a)))))) in
          if str_eqb (misc_str lower (n_misc a)) EmptyYes
          then (with_h d (put_desc (put_ch (d_h d) r []) r []), [r'])
          else (d, [r'; n])
        | l => (rd_d st, l)
        end in
      match attach_loop (rc_fix_cycles cfg) (d_h d) r nodes (combine (tl nodes) (tl (rd_parents st))) with
      | (h, Raise e) => ((with_h d h, rd_ge st), Raise e)
      | (h, Diverge) => ((with_h d h, rd_ge st), Diverge)
      | (h, Ok _) =>
        match mwt_loop (with_h d h) r nodes (rd_mwts st) with
        | (d, Ok _) => ((d, rd_ge st), Ok (Some r))
        | (d, Raise e) => ((d, rd_ge st), Raise e)
        | (d, Diverge) => ((d, rd_ge st), Diverge)
        end
      end
    end
  end.

(** ---- The writer ---- *)

(** write/conllu.py:8-12 *)
Record wcfg := mkWcfg { wc_sent_id : bool; wc_text : bool; wc_empty_trees : bool }.
Definition wdefault : wcfg := mkWcfg true true true.

(** What the tree sees of its document: tree.bundle.address() (None: the tree is in no bundle)
    and document.meta.get('global.Entity'). *)
Record wenv := mkWenv { we_bundle : option str; we_ge : option str }.

(** str.splitlines(): CPython's line boundaries. *)
Definition is_linebreak (a : char) : bool :=
  ((10 <=? a) && (a <=? 13) || ((28 <=? a) && (a <=? 30)) || (a =? 133) || (a =? 8232) || (a =? 8233))%N.
(** the line under construction is kept reversed; [None]: nothing since the last boundary *)
Fixpoint splitlines_from (cur : option str) (x : str) : list str :=
  match x with
  | [] => match cur with None => [] | Some l => [rev l] end
  | a :: x' =>
    if is_linebreak a then
      rev (match cur with None => [] | Some l => l end) ::
      (match x' with
       | b :: x'' => if N.eqb a CR && N.eqb b LF then splitlines_from None x'' else splitlines_from None x'
       | [] => []
       end)
    else splitlines_from (Some (a :: match cur with None => [] | Some l => l end)) x'
  end.
Definition splitlines (x : str) : list str := splitlines_from None x.

(** root.py:42-52 sent_id getter (without storing the result) *)
Definition shown_sent_id (env : wenv) (ri : rinfo) : str :=
  match ri_sent_id ri with
  | Some x => x
  | None =>
    let zone := match ri_zone ri with Some (c :: z) => s "/" ++ (c :: z) | _ => [] end in
    match we_bundle env with Some b => b ++ zone | None => s "?" ++ zone end
  end.
(** write/conllu.py:37-40, 103 *)
Definition shown_text (d : doc) (r : nat) : res str :=
  match ri_text (d_ri d r) with
  | None => compute_text d r true
  | Some t => Ok (rstrip (filter (fun a => negb (N.eqb a LF) && negb (N.eqb a CR)) t))
  end.
(** Python truth of newdoc/newpar and of global.Entity *)
Definition truthy (v : val) : bool := match v with VTrue => true | VNone => false | VStr x => nonempty x end.
Definition some_nonempty (x : option str) : option str := match x with Some [] => None | _ => x end.
(** ' newdoc' + (' id = ' + tree.newdoc if tree.newdoc is not True else '') *)
Definition pardoc (name : str) (v : val) : str := name ++ match v with VStr x => s " id = " ++ x | _ => [] end.
(** tree.document.meta.get('global.Entity'), AttributeError without a bundle *)
Definition shown_ge (env : wenv) : res (option str) :=
  match we_bundle env with None => Raise AttributeError | Some _ => Ok (some_nonempty (we_ge env)) end.

(** write/conllu.py:30-59, one line of comment_lines after the loop *)
Definition render (cfg : wcfg) (env : wenv) (d : doc) (r : nat) (c : str) : res (option str) :=
  let ri := d_ri d r in
  if str_eqb c P_SENT_ID then Ok (if wc_sent_id cfg then Some (s " sent_id = " ++ shown_sent_id env ri) else None)
  else if str_eqb c P_TEXT then
    (if wc_text cfg then rbind (shown_text d r) (fun t => Ok (Some (s " text = " ++ t))) else Ok (Some c))
  else if str_eqb c P_NEWDOC then
    Ok (if wc_sent_id cfg && truthy (ri_newdoc ri) then Some (pardoc (s " newdoc") (ri_newdoc ri)) else None)
  else if str_eqb c P_NEWPAR then
    Ok (if wc_sent_id cfg && truthy (ri_newpar ri) then Some (pardoc (s " newpar") (ri_newpar ri)) else None)
  else if str_eqb c P_GE then
    rbind (shown_ge env) (fun ge => Ok (match ge with Some x => Some (s " global.Entity = " ++ x) | None => None end))
  else Ok (Some c).
Fixpoint map_res {A B} (f : A -> res B) (l : list A) : res (list B) :=
  match l with
  | [] => Ok []
  | x :: l => rbind (f x) (fun y => rbind (map_res f l) (fun ys => Ok (y :: ys)))
  end.
(** i_newdoc etc.: the last index of a placeholder, as the number of lines up to and including
    it; 0 stands for -1. *)
Fixpoint upto (c : str) (l : list str) : nat :=
  match l with
  | [] => 0%nat
  | x :: l => match upto c l with
              | O => if str_eqb x c then 1%nat else 0%nat
              | n => S n
              end
  end.
(** if c_line: print('#' + c_line) *)
Definition print_comment (c : option str) : list str :=
  match c with Some (a :: x) => [HASH :: a :: x] | _ => [] end.
(** while printed_i < i: printed_i += 1; print; [k] = printed_i + 1, [i] as in [upto] *)
Definition flush (l : list (option str)) (k i : nat) : list str :=
  flat_map print_comment (firstn (i - k) (skipn k l)).

(** write/conllu.py:65-107: the printed comment lines *)
Definition comment_lines (cfg : wcfg) (env : wenv) (d : doc) (r : nat) : res (list str) :=
  let ri := d_ri d r in
  let raw := splitlines (ri_comment ri) in
  rbind (map_res (render cfg env d r) raw) (fun l =>
  (* lines 66-68 *)
  rbind (match l with
         | [] => Ok ([], 0%nat)
         | None :: _ => Raise AttributeError                        (* None.startswith *)
         | Some c :: _ => Ok (if starts_with (s " global.columns") c then ([HASH :: c], 1%nat) else ([], 0%nat))
         end) (fun '(out0, k0) =>
  (* one special comment: [place c missing k] = printed lines and the new k *)
  let place (c missing : str) (k : nat) : list str * nat :=
    match upto c raw with
    | O => ([missing], k)
    | i => (flush l k i, Nat.max k i)
    end in
  rbind (if wc_sent_id cfg then
           rbind (if truthy (ri_newdoc ri) then
                    let (o1, k1) := place P_NEWDOC (HASH :: pardoc (s " newdoc") (ri_newdoc ri)) k0 in
                    rbind (shown_ge env) (fun ge =>
                    Ok (match ge with
                        | Some x => let (o2, k2) := place P_GE (s "# global.Entity = " ++ x) k1 in (o1 ++ o2, k2)
                        | None => (o1, k1)
                        end))
                  else Ok ([], k0)) (fun '(o2, k2) =>
           let (o3, k3) := if truthy (ri_newpar ri)
                           then place P_NEWPAR (HASH :: pardoc (s " newpar") (ri_newpar ri)) k2
                           else ([], k2) in
           let (o4, k4) := place P_SENT_ID (s "# sent_id = " ++ shown_sent_id env ri) k3 in
           Ok (o2 ++ o3 ++ o4, k4))
         else Ok ([], k0)) (fun '(o4, k4) =>
  rbind (if wc_text cfg then
           match upto P_TEXT raw with
           | O => rbind (shown_text d r) (fun t => Ok [s "# text = " ++ t])
           | _ => Ok []
           end
         else Ok []) (fun o5 =>
  Ok (out0 ++ o4 ++ o5 ++ flush l k4 (length l)))))).

(** write/conllu.py:110-112 *)
Definition json_lines (ri : rinfo) : list str :=
  map (fun kv => s "# json_" ++ fst kv ++ s " = " ++ snd kv)
      (isort (fun a b => str_leb (fst a) (fst b)) (ri_json ri)).

(** str(node._ord) *)
Definition ord_str (h : heap) (x : nat) : str :=
  if is_empty h x then str_of_Z (h_eord h x / 10) ++ [DOT] ++ str_of_Z (h_eord h x mod 10)
  else str_of_Z (h_ord h x).
(** node.py:235-249 raw_deps getter (without storing the result) *)
Definition shown_deps (d : doc) (a : attrs) : option str :=
  match n_deps a with
  | Some ((_ :: _) as l) => Some (join [BAR] (map (fun pd => ord_str (d_h d) (fst pd) ++ s ":" ++ snd pd) l))
  | _ => n_raw_deps a
  end.
(** '_' if v is None else v *)
Definition col (x : option str) : str := match x with Some y => y | None => US end.
(** '_' if node._feats is None else str(node.feats) *)
Definition dd_col (lower : str -> str) (m : option dualdict) : str :=
  match m with None => US | Some x => snd (dd_str lower x) end.

(** write/conllu.py:132-135 *)
Definition node_line (lower : str -> str) (d : doc) (x : nat) : str :=
  let a := d_at d x in
  join [TAB] [ord_str (d_h d) x; col (n_form a); col (n_lemma a); col (n_upos a); col (n_xpos a);
              dd_col lower (n_feats a);
              match h_par (d_h d) x with None => US | Some p => ord_str (d_h d) p end;
              col (n_deprel a); col (shown_deps d a); dd_col lower (n_misc a)].
(** write/conllu.py:118-121 *)
Definition mwt_line (lower : str -> str) (d : doc) (m : nat) (range : str) : str :=
  join [TAB] [range; col (m_form (d_m d m)); s "_"; s "_"; s "_"; s "_"; s "_"; s "_"; s "_";
              dd_col lower (m_misc (d_m d m))].
(** write/conllu.py:114-135; last_mwt_id in tenths.  The in-place sorting of mwt.words by
    ord_range has no further effect on what is printed. *)
Fixpoint token_lines (lower : str -> str) (d : doc) (last_mwt_id : Z) (l : list nat) : res (list str) :=
  match l with
  | [] => Ok []
  | x :: l =>
    let rest last := rbind (token_lines lower d last l) (fun ls => Ok (node_line lower d x :: ls)) in
    match d_mwt d x with
    | Some m =>
      if last_mwt_id <? okey (d_h d) x then
        rbind (ord_range d m) (fun range =>
        match last_opt (mwt_sorted d m) with
        | None => Raise IndexError
        | Some z => rbind (rest (okey (d_h d) z)) (fun ls => Ok (mwt_line lower d m range :: ls))
        end)
      else rest last_mwt_id
    | None => rest last_mwt_id
    end
  end.

Definition ARTIFICIAL : str := join [TAB] [s "1"; US; US; US; US; US; s "0"; US; US; EmptyYes].

(** write/conllu.py:14-144 process_tree: the printed lines.  Output printed before an exception
    is not modelled. *)
Definition process_tree (cfg : wcfg) (env : wenv) (lower : str -> str) (d : doc) (r : nat) : res (list str) :=
  let nodes := if nonempty (h_emp (d_h d) r) then descendants_and_empty (d_h d) r else h_desc (d_h d) r in
  if negb (nonempty nodes) && negb (wc_empty_trees cfg) then Ok []
  else
    rbind (comment_lines cfg env d r) (fun comments =>
    rbind (token_lines lower d 0 nodes) (fun tokens =>
    Ok (comments ++ json_lines (d_ri d r) ++ tokens ++
        (if nonempty (h_desc (d_h d) r) then [] else [ARTIFICIAL]) ++ [[]]))).
