(** Properties C30, C38, C39, C40, C58: scenarios, file lists, util.Split. *)
From Coq Require Import String List NArith ZArith Bool Lia.
From Verif Require Import PyStr PyList PyExn DualDictModel RunModel RunSpec RunProofs.
Import ListNotations.
Local Open Scope string_scope.
Local Open Scope list_scope.
Local Open Scope Z_scope.

(** C38: a command line is read as the blocks and parameters written in it: the block names in
    order, and for each block a dict with, for every parameter name, the last value written (a
    number if it consists of digits). *)
Theorem C38_parse : forall sc, proper sc -> plain_values sc ->
  exists args, parse_command_line (written sc) = Ok (map fst sc, args) /\
    Forall2 (fun b d => NoDup (map fst d) /\ forall k, lookup k d = last_written k (snd b)) sc args.
Proof. exact parse_ok. Qed.
Print Assumptions C38_parse.

(** Every command line is written from some scenario, or starts with a parameter and is rejected. *)
Theorem C38_every_command_line : forall tokens,
  (exists sc, proper sc /\ tokens = written sc) \/
  (exists k v rest, tokens = (k ++ EQ :: v) :: rest /\ parse_command_line tokens = Raise RuntimeError).
Proof. exact every_command_line. Qed.
Print Assumptions C38_every_command_line.

(** ... and from at most one. *)
Theorem C38_unambiguous : forall sc1 sc2, proper sc1 -> proper sc2 -> written sc1 = written sc2 -> sc1 = sc2.
Proof. exact written_inj. Qed.
Print Assumptions C38_unambiguous.

Definition demo_scenario : scenario :=
  [(s "read.Conllu", [(s "files", s "a.conllu")]);
   (s "util.Eval", [(s "node", s "node.form = ""_"""); (s "n", s "07"); (s "n", s "12")]); (s "write.Conllu", [])].
Example C38_example : proper demo_scenario /\ plain_values demo_scenario /\
  parse_command_line [s "read.Conllu"; s "files=a.conllu"; s "util.Eval"; s "node=node.form = ""_"""; s "n=07"; s "n=12"; s "write.Conllu"]
  = Ok ([s "read.Conllu"; s "util.Eval"; s "write.Conllu"],
        [[(s "files", AStr (s "a.conllu"))]; [(s "node", AStr (s "node.form = ""_""")); (s "n", AInt 12)]; []]).
Proof.
  split; [|split; [|reflexivity]].
  - intros b H. assert (G : forall x, In x [s "read.Conllu"; s "files"; s "util.Eval"; s "node"; s "n"; s "write.Conllu"] -> ~ In EQ x).
    { intros x Hx E. simpl in Hx. intuition (subst; simpl in E; intuition discriminate). }
    destruct H as [<-|[<-|[<-|[]]]]; (split; [apply G; simpl; tauto|]); simpl; intros kv Hkv;
      repeat destruct Hkv as [<-|Hkv]; try (apply G; simpl; tauto); destruct Hkv.
  - intros b kv Hb Hk a Ha.
    destruct Hb as [<-|[<-|[<-|[]]]]; simpl in Hk; repeat destruct Hk as [<-|Hk]; try destruct Hk; simpl in Ha;
      repeat destruct Ha as [<-|Ha]; try reflexivity; destruct Ha.
Qed.

(** A value that consists of superscript digits is an error. *)
Theorem C38_superscript_refuted :
  proper [(s "b", [(s "n", [178%N])])] /\ parse_command_line (written [(s "b", [(s "n", [178%N])])]) = Raise ValueError.
Proof.
  split; [|vm_compute; reflexivity]. intros b [<-|[]]. split; simpl.
  - intuition discriminate.
  - intros kv [<-|[]]. simpl. intuition discriminate.
Qed.
Print Assumptions C38_superscript_refuted.

(** Block names: the class is the part after the last dot. *)
Theorem C38_block_name : forall x, let (path, cls) := parse_block_name x in
  ~ In DOTC cls /\ ((~ In DOTC x /\ path = [] /\ cls = x) \/ x = path ++ DOTC :: cls).
Proof. exact block_name. Qed.
Print Assumptions C38_block_name.
Example C38_block_name_example : parse_block_name (s "ud.cs.FixEdeprels") = (s "ud.cs", s "FixEdeprels").
Proof. reflexivity. Qed.

(** C39: a run without an exception starts every block of the scenario, then processes [k]
    documents, applying every block in order to each of them, and ends all blocks; the k-th
    document is the first one after which all readers are finished.  Conversely each such
    execution is a run. *)
Theorem C39_run : forall W (B : behaviour W) fuel conllu blocks w w' log,
  run_blocks fuel B conllu blocks w = ((w', log), Ok tt) <->
  exists k w1 w2, (k <= fuel)%nat /\
    calls (bh_start B) blocks w w1 /\
    k_rounds B (with_reader B conllu blocks w1) (readers_of B conllu blocks w1) k w1 w2 /\
    calls (bh_end B) (with_reader B conllu blocks w1) w2 w' /\
    log = full_log blocks (with_reader B conllu blocks w1) k.
Proof. exact (fun W B => run_ok B). Qed.
Print Assumptions C39_run.

(** Whatever the blocks do, raise or never finish: the calls made are a beginning of those of a
    complete run. *)
Theorem C39_prefix : forall W (B : behaviour W) fuel conllu blocks w, exists bs k rest,
  (bs = blocks \/ bs = conllu :: blocks) /\
  snd (fst (run_blocks fuel B conllu blocks w)) ++ rest = full_log blocks bs k.
Proof. exact (fun W B => run_prefix B). Qed.
Print Assumptions C39_prefix.

(** Example: block 0 is a reader of three documents, block 1 is not a reader. *)
Definition three_docs : behaviour nat :=
  mkBeh nat (fun _ w => (w, Ok tt)) (fun b w => ((if Nat.eqb b 0 then S w else w), Ok tt)) (fun w => w)
        (fun _ w => (w, Ok tt)) (fun b w => if Nat.eqb b 0 then Some (Nat.leb 3 w) else None).
Example C39_example : run_blocks 10 three_docs 9 [0%nat; 1%nat] 0%nat
  = ((3%nat, full_log [0%nat; 1%nat] [0%nat; 1%nat] 3), Ok tt).
Proof. reflexivity. Qed.
Example C39_default_reader :
  snd (fst (run_blocks 10 three_docs 0 [1%nat] 2%nat))
  = [EStart 1; EDocument; EApply 0; EApply 1; EEnd 0; EEnd 1].
Proof. reflexivity. Qed.

(** C40: every interleaving of calls on a list of file names gets the expected answers: the names in
    turn, then None for ever. *)
Theorem C40_files : forall can_open names ops, ~ In (s "<filehandle_input>") names ->
  file_calls can_open (files_of_list names) ops = file_answers can_open names 0 ops.
Proof. exact files_ok. Qed.
Print Assumptions C40_files.
Theorem C40_names_in_turn : forall can_open names, ~ In (s "<filehandle_input>") names -> forall n,
  file_calls can_open (files_of_list names) (repeat NextName (length names + n))
  = map (fun x => AnsName (Ok (Some x))) names ++ repeat (AnsName (Ok None)) n.
Proof. exact names_in_turn. Qed.
Print Assumptions C40_names_in_turn.
Example C40_example : ~ In (s "<filehandle_input>") [s "a.gz"; s "-"] /\
  file_calls (fun _ => true) (files_of_list [s "a.gz"; s "-"]) [HasNext; NextHandle; CurName; HasNext; NextHandle; HasNext; NextHandle; CurName]
  = [AnsBool true; AnsHandle (Ok (Some (HFile OpenGz (s "a.gz")))); AnsName (Ok (Some (s "a.gz"))); AnsBool true;
     AnsHandle (Ok (Some HStdin)); AnsBool false; AnsHandle (Ok None); AnsName (Ok None)].
Proof. split; [|reflexivity]. simpl. intuition discriminate. Qed.
(** A file named <filehandle_input> is not opened: the previous handle is returned again. *)
Theorem C40_reserved_name_refuted :
  file_calls (fun _ => true) (files_of_list [s "a"; s "<filehandle_input>"]) [NextHandle; NextHandle]
  = [AnsHandle (Ok (Some (HFile OpenPlain (s "a")))); AnsHandle (Ok (Some (HFile OpenPlain (s "a"))))].
Proof. vm_compute. reflexivity. Qed.
Print Assumptions C40_reserved_name_refuted.
(** Compressed files are recognised by their extension (also when it is the whole name). *)
Theorem C40_opener : forall name,
  (opener_of name = OpenGz <-> name = s "gz" \/ exists x, name = x ++ s ".gz") /\
  (opener_of name = OpenXz <-> name = s "xz" \/ exists x, name = x ++ s ".xz") /\
  (opener_of name = OpenBz2 <-> name = s "bz2" \/ exists x, name = x ++ s ".bz2").
Proof. exact opener_ok. Qed.
Print Assumptions C40_opener.
(** Plain names separated by commas or whitespace are the list of these names. *)
Theorem C40_separated_names : forall glob lines sep names, (sep = COMMA \/ is_space sep = true) ->
  names <> [] -> (forall x, In x names -> plain_name x) ->
  string_to_filenames glob lines (join [sep] names) = Ok names.
Proof. exact filenames_ok. Qed.
Print Assumptions C40_separated_names.
Example C40_separated_example :
  plain_name (s "dir/a.conllu") /\
  string_to_filenames (fun _ => []) (fun _ => None) (s "dir/a.conllu, b") = Ok [s "dir/a.conllu"; s "b"].
Proof.
  split; [|reflexivity]. split; [discriminate|]. split.
  - intros a Ha. simpl in Ha. intuition (subst; try reflexivity; discriminate).
  - intros c y E. injection E as <- _. split; discriminate.
Qed.

(** C58 (refuted): names in a file list should be taken relative to the directory of the list unless
    they are absolute; the code does the opposite for every file list in another directory. *)
Theorem C58_filelist_refuted : forall glob lines d c name l,
  c <> SLASH -> ~ In SLASH name -> d ++ [c] <> s "." ->
  (forall a, In a ((d ++ [c]) ++ SLASH :: name) -> is_space a = false /\ a <> COMMA) ->
  (d ++ [c]) ++ SLASH :: name <> s "-" ->
  lines ((d ++ [c]) ++ SLASH :: name) = Some l -> (forall f, In f l -> f <> []) ->
  string_to_filenames glob lines (64%N :: (d ++ [c]) ++ SLASH :: name) =
  Ok (map (fun f => match f with 47%N :: _ => (d ++ [c]) ++ SLASH :: f | _ => f end) l).
Proof. exact filelist. Qed.
Print Assumptions C58_filelist_refuted.
Example C58_example :
  string_to_filenames (fun _ => []) (fun x => if str_eqb x (s "dir/list") then Some [s "a"; s "/b"] else None) (s "@dir/list")
  = Ok [s "a"; s "dir//b"].
Proof. reflexivity. Qed.
Theorem C58_stdin_refuted : forall glob lines, string_to_filenames glob lines (s "@-") = Raise TypeError.
Proof. reflexivity. Qed.
Print Assumptions C58_stdin_refuted.

(** C30: util.Split on one document. *)
Theorem C30_bundles_per_doc : forall n L fuel, 1 <= n -> (length L < fuel)%nat ->
  exists outs, split_rounds fuel (only L) 1 0 (split_per_doc n) = Ok outs /\ concat outs = L /\
    parts_of_size n outs /\ (L <> [] -> Forall (fun o => o <> []) outs) /\ (L = [] -> outs = [[]]).
Proof. exact split_per_doc_ok. Qed.
Print Assumptions C30_bundles_per_doc.
Theorem C30_parts : forall p L fuel, 1 <= p -> (length L < fuel)%nat ->
  exists outs, split_rounds fuel (only L) 1 0 (split_parts p) = Ok outs /\ concat outs = L /\
    (exists n, parts_of_size n outs) /\ (L <> [] -> Forall (fun o => o <> []) outs) /\ (L = [] -> outs = [[]]) /\
    Z.of_nat (length outs) <= p.
Proof. exact split_parts_ok. Qed.
Print Assumptions C30_parts.
Example C30_example : split_rounds 9 (only [1; 2; 3; 4; 5; 6; 7]%nat) 1 0 (split_parts 3) = Ok [[1; 2; 3]; [4; 5; 6]; [7]]%nat.
Proof. reflexivity. Qed.
(** ... and on several documents: nothing is lost, and it ends. *)
Theorem C30_several_documents : forall n inputs nin fuel outs, 0 <= n ->
  split_rounds fuel inputs nin 0 (split_per_doc n) = Ok outs ->
  concat outs = flat_map inputs (seq 0 (length outs)) /\ (nin <= length outs)%nat /\
  Forall (fun o => Z.of_nat (length o) <= n) outs.
Proof. exact split_any. Qed.
Print Assumptions C30_several_documents.
Theorem C30_several_documents_end : forall n inputs nin, 1 <= n -> (forall k, (nin <= k)%nat -> inputs k = []) ->
  exists fuel outs, split_rounds fuel inputs nin 0 (split_per_doc n) = Ok outs.
Proof. exact split_any_stops. Qed.
Print Assumptions C30_several_documents_end.
Example C30_several_example :
  split_rounds 9 (fun k => match k with 0 => [1; 2; 3; 4; 5] | 1 => [6] | _ => [] end%nat) 2 0 (split_per_doc 2)
  = Ok [[1; 2]; [3; 4]; [5; 6]]%nat.
Proof. reflexivity. Qed.
(** With parts=p and several documents: at most p parts is wrong, ... *)
Theorem C30_parts_exceeded_refuted :
  split_rounds 9 (fun k => match k with 0 => [1] | 1 => [2; 3] | _ => [] end%nat) 2 0 (split_parts 1) = Ok [[1]; [2]; [3]]%nat.
Proof. vm_compute. reflexivity. Qed.
Print Assumptions C30_parts_exceeded_refuted.
(** ... and it never ends if the first document is empty and the second is not. *)
Theorem C30_parts_diverges_refuted : forall p inputs nin fuel x rest, 1 <= p -> inputs 0%nat = [] ->
  inputs 1%nat = x :: rest -> (2 <= nin)%nat -> split_rounds fuel inputs nin 0 (split_parts p) = Diverge.
Proof. exact split_parts_diverges. Qed.
Print Assumptions C30_parts_diverges_refuted.
