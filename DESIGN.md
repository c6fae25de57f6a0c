# Formal model of udapi-python in Rocq

Source: `/repo` (udapi/udapi-python at the pinned commit), read as text.
Model and proofs: `rocq/theories/` (logical name `Verif`).
Claims: `properties.jsonl`, their status: `MANIFEST.json`, mutation log: `seeded/LOG.jsonl`.

## Method

* The Python code is translated function by function into small total Gallina
  functions (files `*Model.v`, no proofs inside).  Every definition cites the file and lines.
* Python objects live in an explicit heap: object identities are `nat`s and each
  attribute is a field of the heap.  A method call returns the new heap together with
  a result or an exception value, so a mutation done *before* an exception is visible.
* `while` loops over pointer structures take fuel; running out of fuel is a separate
  result (`Diverge`), and theorems prove it does not happen where termination is claimed.
* Python strings are lists of Unicode code points (`list N`).
* Specifications are in separate files (`*Spec.v`) which do not mention the heap or the
  algorithms: e.g. an abstract tree is a list of words in order plus a parent function.
* Theorems that state the properties are in `Props_*.v`; each is followed by
  `Print Assumptions` and by an `Example` showing a non-trivial instance of its hypotheses.
* Where the code violates a property a user would expect, the theorem is a refutation
  (`…_refuted`, with a concrete witness run through the model) next to the strongest
  positive theorem that does hold.

## Plan per property

| id | what is modelled | how it is proved |
|----|------------------|------------------|
| C01-C04 | `DualDict` with its two fields `_string`, `_dict`; all methods | simulation with an association map, induction over operation lists; split/join lemmas |
| C05 | `udeprel`/`sdeprel` getters and setters on strings | string lemmas on split at first `:` |
| C06-C10, C45 | heap with `_ord,_parent,_children,_root,_descendants,empty_nodes`; parent setter, create_child, remove, `_shift_before_ord` (all three code paths), shift_*, flatten | refinement to an abstract tree; induction over operation sequences |
| C08 | same, two trees in one heap | refutation by witness + positive part |
| C11, C12, C13, C17 | traversal loops, ListOfNodes.__call__, prev/next_node, `_get_attr` | loop invariants on well-formed heaps |
| C14, C15 | counting / parent-scanning algorithms | equivalence with a span-based specification |
| C16 | find_minimal_common_treelet with its dictionaries | loop invariant on climbing components |
| C18, C19 | MWT objects, token_descendants, compute_text | invariant over operation sequences; list induction |
| C20-C22, C59-C62 | raw_deps/deps, create_empty_child, empties renumbering (ords in tenths; float rounding idealised, except a dedicated refutation) | round trip, invariants, refutations |
| C23-C27 | read_tree_from_lines, parse_comment_line, process_tree of the writer on lists of lines | invariant of the attaching loop; round trips |
| C28-C30 | process_document/try_fast_load state machine, util.Split | induction over inputs |
| C31, C32 | bundle/zone/sent_id fields | invariant over operation sequences; refutation |
| C33-C35, C65 | entity ids, nodes_to_span/span_to_nodes, mention `__lt__`; creating, changing and removing mentions | pigeonhole for freshness; round trip; order laws; invariant over histories |
| C68 | store_coref_to_misc and load_coref_from_misc, with the text of the brackets | the events of the document in order: writing gives a well-nested list of brackets per entity, loading it is simulated step by step; refutations |
| C69 | max_docs in try_fast_load, process_document and read_trees | the run with max_docs is simulated by a run without it on shortened files (ReaderMax), then C28; refutations |
| C70 | write_file: process_tree for all trees and the printed text; read_file and BaseReader on that text | the lines of a tree contain no line ends (ConlluFileProofs), so splitting the text gives them back; C23/C25 per tree; a tree is not changed by reading further trees (ConlluFrame); bundles by C28 and grouping of equal ids (ConlluFileBundles); refutations |
| C71 | TextModeTrees.process_tree: rows, the loop over the stack, the four layouts | a picture is read cell by cell (DrawSpec); invariant of the loop: every line is blank, pending or finished and every column of a drawn node is a vertical line (DrawProofs); instantiated for consistent trees (DrawTree); refutation |
| C72, C73 | BridgingLinks.__str__, from_string, _delete_targets_without_mentions; Bridge and SplitAnte in storing and loading | the text of each node is the join of the items of the mentions starting there (invariant of storing); invariant of loading over the nodes read so far: links and antecedents of exactly the mentions and entities starting there (BridgeProofs) |
| C74 | BridgingLinks objects with identities; mention.bridging | simulation by one plain list per mention for every history (BridgeThms) |
| C75 | FixPunct.process_tree with all its loops on trees with labels, tags and forms | a Hoare-style predicate for partial functions: the invariant (rehung tree, labels) holds in every state, also after an exception; measures for every loop (PunctProofs, PunctFix); the first step by reduction to FixPunctChild (PunctThms); for marks that are not neighbours, an invariant over the processed marks: attached projectively and inside every subtree that surrounds them (PunctProj); for a pair around a phrase, the list of heads is computed and shown to contain only the head of the phrase, and no later step moves the two marks (PunctPairs) |
| C76 | RemoveMwt.process_tree: the loop over the shrinking list, the attributes given to the first word, removal of the other words | the sentence as a list of tokens (view, TokProofs); an invariant relating the tokens before and after each removal; the text as the concatenation of the pieces of the tokens |
| C77 | JoinAsMwt.process_node for every node of a tree; isalpha is a parameter | the effect on the tokens is an inductive relation between the token lists before and after (regrouped, TokSpec); induction over the tokens left; states equal up to how MISC is stored (TokJoin) |
| C78 | JoinToken.process_node for every node of a tree (logging dropped) | the result is described by the groups of input words (grp) with to_join, joined_word (TokSpec); induction over the words left with an invariant on the tree edges, attributes and text (TokTree, TokToken) |
| C79 | segment.Merge.process_document for bundles with one tree | induction over the bundles with an invariant that each sentence of the result consists of the words, tokens and texts of its group (ResegProofs.state); the group is described by `appended` (ResegSpec) |
| C80 | JoinSentence.process_document, both modes; Bundle.remove | the same invariant, with the MISC attributes cleared so far; the sent_id mode is refuted |
| C81 | SplitSentence.process_document, both modes; make_zeros_roots | the tokens fall apart at the split point; steal_nodes theorem of C66 for the moved words; the later steps change only deprel, MISC and text |
| C82 | MergeSameSpan.process_tree; the set is an arbitrary permutation of the mentions | invariant over the pairs: the state is the first one without the dead mentions, each dead one has a living duplicate with no larger id |
| C83 | Normalize.process_bundle, process_tree, process_node | induction over documents and bundles; the simulation of C01; renumbering of a sorted list keeps it sorted |
| C84 | Basic2Enhanced.process_tree over the states of DEPS of C20 | induction over the nodes: a step changes only its own node; the written column is read back with C20; following basic heads for reachability |
| C85 | FixMwtSpace.process_node on the token sequences of C76 | induction over the tokens: each block of words is visited with its token, the view of the sentence as tokens is kept |
| C86 | IndexClusters.process_document on the coreference state of C33, threaded over documents | induction over the entities: the ids given so far are the first ones of a list of distinct ids; the table of entities has distinct entities after any calls (frame lemma for each call) |
| C87 | RemoveNoCorefEntities.process_document | the dict comprehension is a filter when ids are unique; a storable document stays storable with fewer entities, then C68 |
| C88 | FixMultiSubjects.process_node on the labelled trees of C43, with both regular expressions | invariant over the visited words: each word is relabelled at its parent only; the later ones of an increasing list are those with a smaller one |
| C89 | Parsing.process_tree and process_end on labelled trees | induction over the words; a relational count (number) that is unique, monotone and invariant under permutation |
| C90 | ud.FixPseudoCop on the tree state of C48 with tags; lemmas are an argument. One word: exact effect (PcopProofs.pcop_edge); the run: induction over the visited words with the invariant that words not visited yet have their old label or xcomp and are at the top only if they were before. |
| C91 | ud.FixCompoundName on the tree state of C48 with tags; forms and the set of digits are arguments. One name: the words above the old head are never moved, so no cycle can arise (CnameProofs.chain_same, name_run); the run: invariant over the visited words. The inverted test for digits is refuted by two trees. |
| C36, C37 | find_lcs with its table, F1.process_tree loops, counters | DP correctness by induction |
| C38-C40, C58 | run.py parsing and main loop, files.py | list induction |
| C41, C42 | tokenizers, SetSpaceAfterFromText | string induction |
| C63 | segment.Simple with an arbitrary boundary test | induction over tokens, trees and bundles |
| C50, C64 | core/block.py with arbitrary overridden methods and live Python lists | invariant of the nested loops over what is still to be visited |
| C46, C66, C67 | root.steal_nodes | invariant of the moving loop; refutations |
| C43, C44, C48, C49 | block-level transformations on the heap, document traversal | reuse of the refinement theorems |

Nothing in the list is considered inexpressible.  Not modelled at all (and no claim made):
terminal drawing, HTML/LaTeX writers, UDPipe binding, block import by `exec`,
compression and real file I/O, logging.

The trusted base and the exact list of modelled code are kept in the last section,
which is updated with the development.

## Trusted base

* The kernel and `vm_compute` of Coq 8.16.1.
* Axioms: `Print Assumptions` prints "Closed under the global context" for every theorem in
  `Props_*.v`.  No file declares an axiom, parameter or section-less variable.  The libraries
  loaded contain the seven `Coq.ssr.ssrunder.Under_rel.*` parameters of the standard library;
  no theorem depends on them.
* The reading of the Python source: that the definitions in the `*Model.v` files say what the
  cited lines do, and that CPython behaves as modelled in `PyStr.v`, `PyList.v`, `PyExn.v`.

## Modelled code

| files | model | simplifications |
|-------|-------|-----------------|
| core/dualdict.py, core/feats.py (constructor) | DualDictModel | `str.lower` is an arbitrary function |
| core/node.py udeprel, sdeprel | DeprelModel | |
| core/node.py structure, traversal, shift_*, remove, create_child, create_empty_child, projectivity, treelets; core/root.py flatten | TreeModel | ords of empty nodes are integers in tenths; `_ord` None is 0; logging dropped |
| core/root.py steal_nodes | StealModel | the given nodes are words |
| core/coref.py load_coref_from_misc, store_coref_to_misc, OtherDualDict (parsing, printing) | CorefIOModel | header eid-etype-head-other, no bridging, no split antecedents, strict=True; mention.other is a mapping (caching of its text is left out); flags newdoc and document.meta left out |
| core/coref.py BridgingLink, BridgingLinks, attributes Bridge and SplitAnte in load_coref_from_misc and store_coref_to_misc | BridgeModel | mentions are given (first word, entity); strict=True; no GRP in the header; legacy attribute Split left out; the regular expression of a query is an arbitrary predicate |
| block/ud/fixpunct.py (all but copy_to_enhanced) | PunctModel | forms are strings (never None); _punct_type is a function of ord; deps are not changed |
| block/ud/removemwt.py, block/ud/joinasmwt.py, block/ud/jointoken.py | TokModel | logging left out; enhanced dependencies are not read; isalpha is a parameter; reading FEATS of words that are removed does not change them |
| block/segment/merge.py, block/util/joinsentence.py | ResegModel | one tree per bundle; bundle numbers and logging left out |
| block/util/splitsentence.py | SplitModel | one tree per bundle; bundle numbers and logging left out; in the MISC mode one bundle at a time |
| block/corefud/mergesamespan.py | SameSpanModel | warnings left out |
| block/util/normalize.py | NormModel | newdoc_from_filename left out; the file name stem is given; empty node ords in tenths; enhanced dependencies left out |
| block/ud/basic2enhanced.py | EnhModel | deprels are a function beside the tree |
| block/ud/fixmwtspace.py | MwtSpaceModel | - |
| block/corefud/indexclusters.py, block/corefud/removenocorefentities.py | EidModel | - |
| block/ud/fixmultisubjects.py | SubjModel | - |
| block/eval/parsing.py | ParsModel | the gold tree of the bundle is given; exact rationals; formatting of the scores left out |
| block/ud/fixpseudocop.py | PcopModel | process_node in full; the split of the argument lemmas at commas is not modelled; enhanced dependencies are not touched by the code |
| block/ud/fixcompoundname.py | CnameModel | process_node; the log message about enhanced dependencies is not modelled (it does not stop the run) |
| block/write/textmodetrees.py process_tree, _compute_gaps, add_node | DrawModel | attribute values and marks are parameters; colours, marked_only, headers and width of characters left out |
| core/basewriter.py printing, files.py text mode, block/read/conllu.py read_trees on a text | ConlluFileModel | universal newlines as a function on the text; doc_json comments left out; encoding to bytes not modelled |
| core/bundle.py, core/document.py create_bundle, core/root.py sent_id, zone, remove, core/node.py precedes | BundleModel | document.json/root.json left out |
| core/block.py process_document, _should_process_tree | BlockModel | overridden methods are arbitrary functions; super() calls left out |
| block/segment/simple.py segment_string, process_document | SegModel | is_boundary is an arbitrary function |
| core/coref.py spans, CorefMention, CorefEntity; core/document.py create_coref_entity | CorefModel | loading from and storing to MISC, bridging, split antecedents, `other` left out; spans with signs, exponents or unrounded decimals are rejected; a failed sort keeps the order |
| block/tokenize/{onwhitespace,simple}.py, block/ud/setspaceafterfromtext.py | TextModel | the class `\w` is a parameter; warnings dropped; text None is AttributeError in both tokenizers |
| core/basereader.py, core/files.py has_next_file, next_filehandle | ReaderModel | a file is the list of what read_tree/read_trees return on it; document.meta and gc left out; opening never fails |
| block/read/conllu.py read_tree, read_trees; block/read/sentences.py; block/write/sentences.py process_tree | ReaderFiles | the text of a file with '\n' line ends; a file on which one call of read_tree raises counts as unreadable as a whole; newpar left out |
| core/node.py deps, raw_deps, EmptyNode.remove | DepsModel | node.deps holds lists of {'parent', 'deprel'} dicts |
| block/transform/{flatten,proj,deproj}.py, block/ud/{fixchain,fixrightheaded,fixleaf,fixpunctchild,fixroot}.py, block/demo/rehangprepositions.py, core/block.py process_tree | RehangModel | `misc` reduced to `pproj`; enhanced dependencies in FixLeaf and Deproj label=deprel left out |
| core/node.py attributes, compute_text; core/mwt.py; core/root.py create_multiword_token, token_descendants, compute_text, get_sentence, add_comment | DocModel | misc given as a string |
| block/read/conllu.py parse_comment_line, read_tree_from_lines; block/write/conllu.py process_tree | ConlluModel | lists of lines; `json` an arbitrary canonicalising function; `str.lower` arbitrary; IDs of empty nodes other than digits.digit(0*) not modelled; the parameters separate, attributes, sent_id_parent etc. at their defaults; lines printed before an exception dropped |
| block/eval/f1.py find_lcs, F1 (process_tree, counters, scores) | EvalModel | exact rationals instead of floats; trees given as token lists of strings |
| core/run.py parsing and run_blocks; core/files.py; block/util/split.py | RunModel | importing and constructing blocks left out; blocks are arbitrary state transformers; file system and glob are parameters; OSError is RuntimeError; non-ASCII decimal digits not recognised; math.ceil exact |

## Disagreements between the code and what a user expects

* `feats.get(name, default)` ignores the default, `setdefault` stores nothing (C51).
* Assigning a word of another tree as parent raises after the word has been taken out of its
  parent's children (C08).
* `is_nonprojective_gap` can answer True for the technical root (C15).
* `find_minimal_common_treelet` does not return the lowest common ancestor or a connected
  treelet for some nodes that are far apart (C16).
* `transform.Proj` can leave a non-projective word (C43); `root.flatten(deprel)` ignores its
  argument (C45); `ud.FixChain` leaves head-final chains, `ud.FixRightheaded` leaves
  right-headed words when several are nested (C48).
* `transform.Flatten(oneroot=1)` and `ud.FixRoot` raise IndexError on an empty tree (C44, C53);
  `demo.RehangPrepositions` raises ValueError on a preposition under the root (C55).
* `MWT.remove` called again on an MWT that is no longer in the tree raises ValueError after
  taking its former words out of the MWT they belong to by now (C18).
* `read.Conllu`: negative HEADs are accepted (C57); with fix_cycles a word that is its own HEAD
  gives an inconsistent tree or an endless loop (C24); `1.10` is read as `1.1` (C26).
* `write.Conllu`: duplicated `# sent_id`/`# text` comments are printed twice with the last
  value, a comment `#$TEXT` is taken for a placeholder, a bare `#` is dropped, and AttributeError
  is raised if the first comment was newdoc/newpar/global.Entity and its value was deleted (C27).
* A `SpaceAfter=No` in the MISC of a word inside a multi-word token is moved to the token, so such
  a sentence is not reproduced verbatim (C26, excluded by `inner_misc`).
* run.py: a parameter value made of superscript digits raises ValueError (C38); the default reader
  gets process_end but not process_start (C39).
* files.py: a file called `<filehandle_input>` is not opened (C40); the directory of a file list is
  put before absolute names instead of relative ones, `@-` raises TypeError (C58).
* util.Split with parts and several documents: too many parts, or an endless loop if the first
  document is empty (C30).
* The tenth `create_empty_child` after one word raises TypeError (C21); removing a word can give an
  empty node the ID of a word (C22); moving a word that has empty nodes on both sides gives two
  empty nodes the same ID, moving a subtree does not renumber empty nodes (C59).
* `en._ord -= 1` in `_shift_before_ord` is not rounded: on doubles 2.2 - 1 is not 1.2, so the ID of
  the empty node becomes 1.2000000000000002 (C59; all other theorems use exact tenths).
* A DEPS string that has not been parsed does not follow renumbering (C20); a failed `node.deps`
  leaves a truncated list that the next access returns, negative heads are accepted (C60);
  `node.deps.clear()` is not reflected by `raw_deps` (C61).
* `EmptyNode.remove` replaces the parsed DEPS of all other nodes by `{('parent', 'deprel')}`, can
  number an empty node like a word, and renumbers again if called twice (C62).
* `root.steal_nodes`: the words left behind are not renumbered; if the last moved word is in a multi-word token and more
  than one word is moved, ValueError is raised when the words are in neither tree (C67); when a whole sentence is moved,
  `mwt.root` still points to the old tree, so `mwt.remove()` raises after unlinking the words, and the empty nodes stay
  in the old tree (C66).
* A tree added to a second bundle stays in the first one, and its zone is then only checked against the second, so
  a bundle can get two trees with the same zone (C31).
* A zone may end with a newline, because `$` in VALID_ZONE_REGEX matches before it (C31).
* `tree.zone = tree.zone` raises for a tree in a bundle, and so does `tree.sent_id = tree.sent_id` if the zone is not
  empty (C31, C32).
* Assigning bundle_id to a bundle with several trees gives the one with the empty zone a sent_id ending in "/" (C32).
* Assigning a sent_id without "/" to a tree with a non-empty zone leaves the zone, so sent_id, bundle_id and zone
  disagree (C32).
* The bundles created by segment.Simple (and udpipe.Base) have no `number`, so `precedes` raises AttributeError (C47).
* A `process_empty_node` that removes the node it gets misses every second empty node, because the list is iterated
  in place; a `process_tree` that adds a tree to the bundle is called for the new tree too (C50).
* `if_empty_tree=delete` and `=fail` are applied before `zones`, so they also affect trees of other zones (C64).
* `entity.eid = x` does not update `document.eid_to_entity`, so two entities can get the same id (C33).
* Mentions in different zones cannot be compared (ValueError), which makes e.g. create_mention raise after the mention has
  been created; after words have been moved, the order of mentions depends on whether `mention.words` has been read (C35).
* `mention.words = []` and a span without nodes are accepted; the next comparison restores the head as the only word, but
  not the link from the head to the mention. create_mention with a bad span raises and leaves a mention behind.
  Assigning `words` does not re-sort `entity.mentions`; `node.remove()` leaves the node in `mention.words` (C65).
* Storing coreference (C68): the brackets of crossing mentions of one entity are read back as nested ones; discontinuous mentions
  of one entity whose pieces alternate cannot be loaded; a hyphen in the value of an other attribute cuts the value, a hyphen
  in an entity type makes loading fail; ids like `a[1/2]` are accepted and read as pieces of a discontinuous mention; entities
  without mentions are lost; other attributes named eid, etype, head or other are dropped (the condition that should
  exclude the header fields, `f not in ([...], )`, is always true); if a document has no entities, nothing is written and the
  old brackets stay.
* With keep_spaces a text without words leaves no trace of its whitespace in the words (C41, excluded).
* Readers: a tree kept in the buffer between documents does not set `last_bundle_id`, so the next tree of the same
  sentence gets its own bundle; a tree without sent_id takes over the id of the preceding bundle; with zone= a buffered
  tree without sent_id names its bundle "?"; a buffered last tree of a file makes the document go on with the next file
  although merge is off; a reader of an open file returns an extra empty document (C28).
* Reading a whole file at once differs from reading tree by tree: with merge (the first sentence of a file never joins
  the bundle of the last one of the preceding file), on empty files (an empty document), with max_docs (documents
  without newdoc are not counted) and on irregular layout: without the final empty line, with an empty first line or
  a line of spaces the fast path raises (IndexError or RuntimeError); two empty lines end the document in the slow path (C29).
* max_docs (C69): documents are counted per file by read_trees and over all files by the reader, so a file that goes on with a
  document is read although earlier documents have been left out; with split_docs only the first tree of the last document is
  read; with bundles_per_doc, or when every file is a document, more than max_docs documents are returned; a last sentence
  without an empty line after it is lost, whatever max_docs is.
* read.Sentences with newdoc_if_empty_line raises IndexError for an empty file, and when bundles_per_doc divides the
  number of lines (C49).
* Saving documents (C70): a carriage return inside a form or MISC is written as it is and ends the line when the file is read
  (text mode translates it), so the file cannot be loaded; neighbouring bundles with equal ids are loaded as one; the document's
  global.Entity is written only with a tree that has newdoc or a place for it, and is lost otherwise.
* `mention.bridging(regex)` constructs a BridgingLinks object for the same mention, which replaces the links of the mention by the
  matching ones: asking changes the document (C74). `mention.bridging` makes a new list on each access as long as it is empty, so
  an empty list fetched earlier is no longer the list of the mention (C74).
- ud.FixPunct: `( , )` with the opening bracket tagged SYM, and overlapping pairs such as `( " { " }` with all marks tagged PUNCT,
  make it stop with CycleError; an empty sentence with IndexError; in `, . w w` the full stop stays attached across the head; in
  `w ( , )` the comma gets children; a second word on the root keeps its label root below the first one (C75).
- ud.JoinToken: the check for the first word of a sentence is never true, because prev_node is then the technical root; the word is
  reported as preceded by a space (C78). With enhanced dependencies it only logs and goes on.
- ud.RemoveMwt: with two multi-word tokens the second one stays; `words[0].feats = words[0].feats` forgets features that
  have not been read yet, so a first word with Gender=Masc followed by words without features ends up without features (C76).
* `_delete_targets_without_mentions` and the loop over split_ante delete from the list they iterate over, so of two neighbouring
  dead references the second survives: storing then raises IndexError (bridging), or the stored file cannot be loaded (split
  antecedents) (C72, C73). If all links of a mention are dead, a comma without a link may be written (C72).
* Bridge names only the source entity, so links of the first of two mentions of one entity starting at one word are loaded into the
  second (C72).
* util.JoinSentence with sent_id (C80): previous_tree is set only in the MISC branch, so the block raises AttributeError whenever the
  sentence is found. A marked first sentence raises it too (logging.fatal does not stop). Empty nodes of appended sentences are lost,
  also in segment.Merge (C79); segment.Merge raises IndexError on an empty document or an empty sentence.
* util.SplitSentence (C81): if the sentence ends with a multi-word token, steal_nodes raises ValueError after the words were re-hung
  (C81_last_token_refuted). "n.ord > 1 and n.misc[name] and value == None or n.misc[name] == value" binds the guard to the first
  alternative only: with misc_value a marked first word leaves an empty sentence (C81_first_word_refuted).
* corefud.MergeSameSpan (C82) can leave entities without mentions in the document (C82_entity_refuted; a TODO in the code says so).
* util.Normalize (C83): with sent_id_from_filename the file a1 with number 1 and the file a with number 11 both give a11
  (C83_files_refuted); with sent_id_reset_at_newdoc two newdocs in one file give the same ids (C83_reset_refuted).
* ud.Basic2Enhanced (C84) raises AttributeError for an empty node without enhanced dependencies (its parent is None), does not
  fill a node after `node.deps = []` (raw_deps is None, not "_"), and a loop closed by basic heads stays unreachable from the root,
  although the docstring says that the block makes such a file valid.
* ud.FixMwtSpace (C85) removes a token with SpaceAfter=No without moving the attribute to its last word: the text gets a space.
* corefud.IndexClusters (C86) does not sort node.coref_mentions again, although mentions with the same words are ordered by entity id.
* corefud.RemoveNoCorefEntities (C87): if every entity is removed, store_coref_to_misc returns at once and the file keeps the old annotation; node.coref_mentions keeps the mentions of removed entities.
* ud.FixMultiSubjects (C88) visits words only: several subjects attached to the technical root stay.
* ud.FixPseudoCop (C90) matches labels with re.match and no end anchor, so labels that only begin with a listed label move as well: ccomp moves because of cc (C90_labels_refuted). A listed copula attached to the technical root raises ValueError (C90_top).
* ud.FixCompoundName (C91) says that names with numbers are skipped, but the test is inverted: only names that contain a digit are converted (C91_numbers_refuted), and names without one never are (C91_names_refuted, C91_tree).
* Drawing trees with hints=False (C71): the branch sign is then ├, which is missing in the list of signs after which a line is
  continued with ─, so there are spaces between the branch and the node.
