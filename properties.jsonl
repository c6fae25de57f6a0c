{"id": "C01", "title": "FEATS/MISC behave as one mapping under any history of accesses", "statement": "Whatever sequence of item reads, item writes, deletions, whole-value assignments (string, mapping, None), clear(), len(), iteration, membership tests and str() calls is applied to node.feats / node.misc, every answer is the answer an ordinary finite map from names to values would give after the same updates (missing names read as ''); the hidden string cache and lazy deserialization are never observable.", "quantifier": "every initial value and every finite sequence of operations on it", "why_tests_cant": "The two internal representations are synchronised lazily, so a stale cache shows only for particular interleavings of reads and writes; the set of interleavings is infinite.", "anchors": ["udapi/core/dualdict.py:DualDict", "udapi/core/feats.py:Feats", "udapi/core/node.py:Node.feats", "udapi/core/node.py:Node.misc"]}
{"id": "C02", "title": "Serialising FEATS/MISC and parsing the string back gives the same mapping", "statement": "For every mapping whose names are non-empty and contain neither '|' nor '=' and whose values are non-empty strings without '|' (or the flag value True), assigning str(mapping) back to the attribute yields the same mapping; the string is '_' exactly for the empty mapping, lists entries in case-insensitive name order, and depends only on the mapping's contents when no two names differ only in case. A mapping whose only entry is a flag named '_' is the one exception.", "quantifier": "every mapping over well-formed names and values, every insertion order", "why_tests_cant": "Unbounded key/value strings and insertion orders; escaping errors appear only for unusual characters.", "anchors": ["udapi/core/dualdict.py:DualDict.__str__", "udapi/core/dualdict.py:DualDict._deserialize_if_empty"]}
{"id": "C03", "title": "FEATS/MISC strings read but not modified are preserved verbatim", "statement": "After a string is assigned to node.feats or node.misc, any sequence of reads (items, len, iteration, membership, str) leaves str() equal to that string character for character ('_' for the empty string); so unmodified columns are copied through reading and writing unchanged.", "quantifier": "every string (well-formed or not) and every sequence of read operations, including deletions of absent names", "why_tests_cant": "All strings and all read sequences.", "anchors": ["udapi/core/dualdict.py:DualDict.set_mapping", "udapi/core/dualdict.py:DualDict.__str__", "udapi/core/dualdict.py:DualDict.__delitem__"]}
{"id": "C04", "title": "The three ways of deleting a FEATS/MISC value are equivalent and safe", "statement": "del d[k], d[k]=None and d[k]='' leave the same mapping, in which k is absent and every other name is unchanged; repeating a deletion, or deleting an absent name, changes no value and raises nothing.", "quantifier": "every dictionary state reachable by any operation sequence and every name", "why_tests_cant": "States reachable through lazy synchronisation are unbounded.", "anchors": ["udapi/core/dualdict.py:DualDict.__setitem__", "udapi/core/dualdict.py:DualDict.__delitem__"]}
{"id": "C05", "title": "deprel splits into universal part and subtype without loss", "statement": "udeprel never contains ':'; setting udeprel keeps the subtype and setting sdeprel keeps the universal part; reading back what was set (a universal part without ':', any subtype) returns it; re-setting the parts just read restores the original deprel unless it ends with an empty subtype ('x:').", "quantifier": "every deprel string, including None and strings with several colons, and every new part", "why_tests_cant": "All strings.", "anchors": ["udapi/core/node.py:Node.udeprel", "udapi/core/node.py:Node.sdeprel"]}
{"id": "C06", "title": "Tree consistency is preserved by every history of editing calls", "statement": "Starting from an empty tree, after any sequence of create_child, parent assignment, remove (all modes), shift_* (all variants and flags), and flatten calls on nodes currently in the tree - including calls that raise - the tree stays consistent: root.descendants lists every node exactly once with ord 1..n in order; every node's parent is the root or a node of the tree; node.children are exactly the nodes having it as parent, in word order; following parents always reaches the root.", "quantifier": "every finite sequence of API calls with arbitrary arguments among the live nodes of the tree", "why_tests_cant": "Interleavings of structural edits are unbounded; the bookkeeping (children lists, ord, root list) is maintained separately by each method.", "anchors": ["udapi/core/node.py:Node.create_child", "udapi/core/node.py:Node.parent", "udapi/core/node.py:Node.remove", "udapi/core/node.py:Node._shift_before_ord", "udapi/core/root.py:Root.flatten"]}
{"id": "C07", "title": "Assigning a parent succeeds exactly when no cycle would arise, and changes only that edge", "statement": "For nodes a, b of one tree, a.parent=b raises exactly when b is a itself or a descendant of a (and a's parent is not already b); when it raises nothing in the tree changes; when it succeeds the only change is a's parent (and correspondingly the two children lists), and word order is unchanged.", "quantifier": "every consistent tree and every pair of its nodes", "why_tests_cant": "All tree shapes and depths; cycle check climbs an unbounded chain.", "anchors": ["udapi/core/node.py:Node.parent", "udapi/core/node.py:Node.is_descendant_of"]}
{"id": "C08", "title": "Failed cross-tree parent assignment leaves both trees unchanged", "statement": "Assigning as parent a node of another tree raises ValueError and leaves both trees as they were (expected by users; the code violates it).", "quantifier": "every pair of consistent trees and nodes", "why_tests_cant": "Exception atomicity must hold from every state.", "anchors": ["udapi/core/node.py:Node.parent"]}
{"id": "C09", "title": "remove() deletes exactly the subtree; remove(children='rehang') deletes exactly the node", "statement": "node.remove() leaves exactly the nodes that are neither node nor its descendants, in their previous word order renumbered 1..n, with unchanged parents. With children='rehang' only node disappears and its former children are attached to node's former parent, all others keep their parent. The warn variants have the same effect.", "quantifier": "every consistent tree, every non-root node, every mode", "why_tests_cant": "All tree shapes, including non-projective ones and nodes with many children.", "anchors": ["udapi/core/node.py:Node.remove"]}
{"id": "C10", "title": "shift_* produce exactly the documented word order and never change the topology", "statement": "shift_before_node/shift_after_node/shift_before_subtree/shift_after_subtree move the node (with its subtree, or alone with without_children) so that the new word order is: all unmoved words preceding the reference point, the moved words in their previous relative order, the remaining unmoved words; relative orders are otherwise unchanged, no parent changes, and the call is refused (or skipped) exactly when the reference is a descendant of the moved node and its subtree moves too.", "quantifier": "every consistent tree (including non-projective subtrees with gaps), every node/reference pair and flag combination", "why_tests_cant": "The implementation has three in-place index-shuffling code paths whose boundaries depend on the tree; the space of trees is unbounded.", "anchors": ["udapi/core/node.py:Node._shift_before_ord", "udapi/core/node.py:Node.shift_before_node", "udapi/core/node.py:Node.shift_after_node", "udapi/core/node.py:Node.shift_before_subtree", "udapi/core/node.py:Node.shift_after_subtree"]}
{"id": "C11", "title": "descendants, children and siblings return exactly the right nodes in word order", "statement": "node.descendants contains exactly the nodes from which node is reachable by following parents, each once, sorted by ord; children/siblings likewise; the call forms add_self, following_only and preceding_only filter as documented; traversal terminates.", "quantifier": "every consistent tree and node, every option combination", "why_tests_cant": "All tree shapes; termination of the stack loop.", "anchors": ["udapi/core/node.py:Node.descendants", "udapi/core/node.py:Node.children", "udapi/core/node.py:Node.siblings", "udapi/core/node.py:Node.unordered_descendants", "udapi/core/node.py:ListOfNodes.__call__"]}
{"id": "C12", "title": "is_descendant_of is the strict ancestor relation", "statement": "a.is_descendant_of(b) holds exactly if b is reachable from a by one or more parent steps; it is irreflexive and transitive and always terminates.", "quantifier": "every consistent tree and pair of nodes, root included", "why_tests_cant": "Unbounded depth.", "anchors": ["udapi/core/node.py:Node.is_descendant_of", "udapi/core/root.py:Root.is_descendant_of"]}
{"id": "C13", "title": "prev_node/next_node walk the sentence without gaps", "statement": "next_node of the i-th word is the (i+1)-th word (None at the end), prev_node its inverse with the root before the first word; iterating next_node from the root visits every word once in order.", "quantifier": "every consistent tree", "why_tests_cant": "All lengths, Python negative-index pitfalls at the borders.", "anchors": ["udapi/core/node.py:Node.prev_node", "udapi/core/node.py:Node.next_node"]}
{"id": "C14", "title": "is_nonprojective detects exactly the non-projective edges", "statement": "node.is_nonprojective() is True exactly when some word lies strictly between node and its parent in word order and is not a descendant of the parent.", "quantifier": "every consistent tree and node", "why_tests_cant": "The implementation only compares counts; equivalence must hold for all trees.", "anchors": ["udapi/core/node.py:Node.is_nonprojective"]}
{"id": "C15", "title": "is_nonprojective_gap detects exactly the nodes inside foreign spans", "statement": "node.is_nonprojective_gap() is True exactly when there is a node X such that node is neither X nor a descendant of X but lies strictly between the leftmost and rightmost nodes of X's subtree (X included).", "quantifier": "every consistent tree and node", "why_tests_cant": "The implementation inspects only parents of other nodes, not spans; equivalence is a theorem about all trees.", "anchors": ["udapi/core/node.py:Node.is_nonprojective_gap"]}
{"id": "C16", "title": "find_minimal_common_treelet returns the smallest connected subtree", "statement": "For distinct nodes of one tree the returned head is their lowest common ancestor-or-self, and the added nodes together with the given ones are exactly the nodes lying on the paths from given nodes up to that head; the search terminates.", "quantifier": "every consistent tree and every non-empty list of distinct nodes", "why_tests_cant": "Parallel climbing with tentative additions; interleavings depend on the tree.", "anchors": ["udapi/core/node.py:find_minimal_common_treelet"]}
{"id": "C17", "title": "Depth and directions computed by get_attrs agree with the tree", "statement": "get_attrs(['depth']) equals the number of edges from the root; 'dir' is left/right/root exactly by position relative to the parent; 'edge' is ord minus parent's ord (0 under the root); 'children'/'siblings' are the numbers of children/siblings.", "quantifier": "every consistent tree and node", "why_tests_cant": "Unbounded depth and size.", "anchors": ["udapi/core/node.py:Node._get_attr", "udapi/core/node.py:Node.get_attrs"]}
{"id": "C18", "title": "Multi-word tokens never overlap", "statement": "After any sequence of create_multiword_token calls (with words of the tree) and MWT.remove calls on MWTs that are still in their tree, each word belongs to at most one MWT, node.multiword_token and mwt.words agree with each other, and the tree's MWT list has exactly the live MWTs, each once.", "quantifier": "every sequence of MWT creations and removals", "why_tests_cant": "Creation implicitly removes overlapping MWTs; histories are unbounded.", "anchors": ["udapi/core/root.py:Root.create_multiword_token", "udapi/core/mwt.py:MWT"]}
{"id": "C19", "title": "token_descendants covers every word exactly once", "statement": "When MWTs span contiguous words, expanding the tokens returned by root.token_descendants into their words yields root.descendants, in order, each word once; consequently compute_text of the root concatenates exactly these tokens' forms with a space after each token unless SpaceAfter=No, right-stripped.", "quantifier": "every consistent tree with any set of disjoint contiguous MWTs", "why_tests_cant": "The last_mwt_id bookkeeping must be right for all layouts.", "anchors": ["udapi/core/root.py:Root.token_descendants", "udapi/core/node.py:Node.compute_text"]}
{"id": "C20", "title": "Enhanced dependencies round-trip between string and node form", "statement": "For a DEPS string whose heads are valid word or empty-node IDs, reading node.deps gives the corresponding nodes and labels in order, and raw_deps read afterwards re-serialises to the same string; after renumbering, raw_deps follows the new ords of the same head nodes.", "quantifier": "every consistent tree and every well-formed DEPS string, labels with colons included", "why_tests_cant": "All strings/trees; caching in both directions.", "anchors": ["udapi/core/node.py:Node.deps", "udapi/core/node.py:Node.raw_deps"]}
{"id": "C21", "title": "Empty nodes keep strictly increasing positions", "statement": "create_empty_child places the new empty node after (before) the given word, and the empty nodes of the tree stay strictly ordered with fractional positions.", "quantifier": "every tree and every sequence of create_empty_child calls, any number of empty nodes after one word", "why_tests_cant": "Number of empty nodes is unbounded; the tenth one exercises a different code path.", "anchors": ["udapi/core/node.py:Node.create_empty_child", "udapi/core/node.py:OrdTuple"]}
{"id": "C22", "title": "Removing words keeps empty nodes between the same surviving neighbours", "statement": "After node.remove(), every empty node still follows the same last surviving word as before, empty nodes keep their relative order, and their ords stay distinct and fractional.", "quantifier": "every consistent tree with any placement of empty nodes, every removed node", "why_tests_cant": "Re-numbering interacts with how many empties share an integer part.", "anchors": ["udapi/core/node.py:Node.remove"]}
{"id": "C23", "title": "Reading a CoNLL-U sentence yields a consistent tree or an error", "statement": "For every sentence with IDs 1..n and non-negative HEADs, read.Conllu returns a consistent tree whose words are the lines in order with the given columns and heads if and only if every HEAD is in range and the HEADs contain no cycle; otherwise it raises ValueError. For any lines whatsoever it never returns a cyclic tree and never loops.", "quantifier": "every representable sentence and every HEAD assignment; the second part every list of lines", "why_tests_cant": "All graphs over n nodes for all n; cycles are detected incrementally while attaching in file order.", "anchors": ["udapi/block/read/conllu.py:Conllu.read_tree_from_lines"]}
{"id": "C24", "title": "fix_cycles always yields a consistent tree", "statement": "With fix_cycles=1 the reader returns a consistent tree for every in-range HEAD assignment (expected by users; violated when a node is its own HEAD).", "quantifier": "every HEAD assignment", "why_tests_cant": "All graphs.", "anchors": ["udapi/block/read/conllu.py:Conllu.read_tree_from_lines"]}
{"id": "C25", "title": "Writing then reading a tree preserves it", "statement": "For every tree whose attribute values are representable in CoNLL-U columns (no tabs, newlines; IDs consistent), write.Conllu followed by read.Conllu reproduces the same words, attributes, heads, MWTs, empty nodes, sent_id, text and comments.", "quantifier": "every representable tree", "why_tests_cant": "Unbounded sizes, all strings; placeholders and special comments interact.", "anchors": ["udapi/block/read/conllu.py:Conllu", "udapi/block/write/conllu.py:Conllu.process_tree"]}
{"id": "C26", "title": "Reading then writing a canonical CoNLL-U sentence is the identity", "statement": "For every sentence text in canonical form, the lines produced by write.Conllu after read.Conllu are exactly the input lines.", "quantifier": "every canonical sentence (comments, MWT lines, empty-node lines, word lines)", "why_tests_cant": "All texts.", "anchors": ["udapi/block/read/conllu.py:Conllu", "udapi/block/write/conllu.py:Conllu.process_tree"]}
{"id": "C27", "title": "Comment lines keep their order and placeholders their position", "statement": "Ordinary comments are printed unchanged and in order, and sent_id/text/newdoc/newpar comments that were present on input are printed at their original positions with their current values, each exactly once.", "quantifier": "every list of comment lines and every current value", "why_tests_cant": "All interleavings of special and ordinary comments.", "anchors": ["udapi/block/read/conllu.py:Conllu.parse_comment_line", "udapi/block/write/conllu.py:Conllu.process_tree"]}
{"id": "C28", "title": "Readers put every tree of the input into exactly one bundle, in order", "statement": "process_document adds each tree read (and accepted by the filter) to exactly one bundle; consecutive trees with the same bundle id and different zones share a bundle; bundle order equals input order; nothing is lost or duplicated across successive documents.", "quantifier": "every sequence of trees and every combination of reader options modelled", "why_tests_cant": "Buffering across documents gives state carried between calls; histories unbounded.", "anchors": ["udapi/core/basereader.py:BaseReader.process_document", "udapi/core/basereader.py:BaseReader.try_fast_load"]}
{"id": "C29", "title": "Fast and slow loading give the same document", "statement": "Loading a file through the batch interface (read_trees) gives the same bundles and trees as reading one tree at a time.", "quantifier": "every file content", "why_tests_cant": "All inputs; two independent code paths.", "anchors": ["udapi/core/basereader.py:BaseReader.try_fast_load", "udapi/core/basereader.py:BaseReader.process_document", "udapi/block/read/conllu.py:Conllu.read_trees"]}
{"id": "C30", "title": "util.Split partitions the document", "statement": "The parts produced by util.Split concatenated in order are the original list of bundles, each part except the last has exactly the requested number of bundles, no part is empty for a non-empty input, and with parts=k at most k parts are produced.", "quantifier": "every number of bundles and every parts / bundles_per_doc value", "why_tests_cant": "Arithmetic over all sizes; state carried between calls.", "anchors": ["udapi/block/util/split.py:Split"]}
{"id": "C31", "title": "Zones are unique within a bundle", "statement": "After any sequence of create_tree, add_tree, zone assignments and tree removals, the zones of a bundle's trees are pairwise different, none is 'all', and get_tree(zone) returns the tree with that zone whenever has_tree(zone).", "quantifier": "every sequence of operations on a bundle", "why_tests_cant": "Histories unbounded; checks are spread over methods.", "anchors": ["udapi/core/bundle.py:Bundle.check_zone", "udapi/core/bundle.py:Bundle.add_tree", "udapi/core/bundle.py:Bundle.get_tree", "udapi/core/root.py:Root.zone"]}
{"id": "C32", "title": "sent_id, bundle id and zone stay consistent", "statement": "After any sequence of bundle_id, sent_id and zone assignments, a tree's sent_id equals bundle_id, or bundle_id/zone if the zone is non-empty (expected; violated by one code path).", "quantifier": "every sequence of assignments", "why_tests_cant": "Cached sent_id must be refreshed by all paths.", "anchors": ["udapi/core/root.py:Root.sent_id", "udapi/core/root.py:Root.zone", "udapi/core/bundle.py:Bundle.bundle_id", "udapi/core/bundle.py:Bundle.add_tree"]}
{"id": "C33", "title": "create_coref_entity yields a fresh entity id", "statement": "create_coref_entity() without eid returns the smallest unused id e1, e2, ...; with an eid already in use it raises and changes nothing; ids stay unique under any sequence of creations.", "quantifier": "every set of existing entities and every sequence of calls", "why_tests_cant": "Termination of the search and uniqueness for all sets.", "anchors": ["udapi/core/document.py:Document.create_coref_entity"]}
{"id": "C34", "title": "Mention spans: words and span strings are inverse", "statement": "For any non-empty list of nodes of one tree (words and empty nodes), converting it to a span string and back gives the same nodes in word order without duplicates; the string uses maximal ranges.", "quantifier": "every consistent tree and every set of its nodes", "why_tests_cant": "All subsets, including discontinuous ones around empty nodes.", "anchors": ["udapi/core/coref.py:nodes_to_span", "udapi/core/coref.py:span_to_nodes"]}
{"id": "C35", "title": "Mention ordering is a strict total order", "statement": "The order used to sort coreference mentions is irreflexive, transitive and total up to equality of the compared attributes, hence sorting is well-defined and independent of input order.", "quantifier": "every set of mentions", "why_tests_cant": "Comparison is multi-level with special cases; transitivity must hold for all triples.", "anchors": ["udapi/core/coref.py:CorefMention.__lt__"]}
{"id": "C36", "title": "find_lcs returns a longest common subsequence", "statement": "The list returned is a subsequence of both arguments and no common subsequence is longer; hence correct <= min(pred, gold) in eval.F1.", "quantifier": "every pair of lists", "why_tests_cant": "Dynamic programming with a prefix shortcut; optimality is a statement over all alternatives.", "anchors": ["udapi/block/eval/f1.py:find_lcs"]}
{"id": "C37", "title": "eval.F1 counters are sound", "statement": "For any sequence of trees and any focus regular expression, correct never exceeds pred or gold, so precision, recall and F1 lie between 0 and 1, and identical trees give 1; the focused alignment loop always terminates without index errors.", "quantifier": "every pair of token lists and focus predicate", "why_tests_cant": "Nested index loops over unbounded lists.", "anchors": ["udapi/block/eval/f1.py:F1.process_tree", "udapi/block/eval/f1.py:F1.f1"]}
{"id": "C38", "title": "Scenario arguments are parsed unambiguously", "statement": "Splitting a command line into blocks and parameters: an argument containing '=' is a parameter (name before the first '=', value after it) of the preceding block, any other argument opens a new block; for a repeated parameter the last value counts, and values made of digits become numbers; the reading is unambiguous; a parameter before any block is rejected.", "quantifier": "every argument list", "why_tests_cant": "All strings.", "anchors": ["udapi/core/run.py:_parse_command_line_arguments", "udapi/core/run.py:_parse_block_name"]}
{"id": "C39", "title": "The scenario stops exactly when all readers are finished and processes every document once per block", "statement": "run applies each non-reader block to every loaded document exactly once and in scenario order, and terminates as soon as all readers report finished.", "quantifier": "every scenario (list of blocks) and every number of documents", "why_tests_cant": "Schedules of unbounded length.", "anchors": ["udapi/core/run.py:Run.run_blocks", "udapi/core/block.py:Block"]}
{"id": "C40", "title": "File lists are iterated completely and in order", "statement": "next_filehandle returns the given files one after another, each exactly once, then None for ever; has_next_file is true exactly while some remain; file_number counts them.", "quantifier": "every list of file names and every interleaving of calls", "why_tests_cant": "Call histories unbounded.", "anchors": ["udapi/core/files.py:Files"]}
{"id": "C41", "title": "Tokenizing on whitespace and detokenizing reproduces the sentence", "statement": "After tokenize.OnWhitespace (or Simple) on an untokenized tree, the words' forms are the tokens in order and compute_text() equals the original text with leading/trailing whitespace removed and inner whitespace runs collapsed to one space; with keep_spaces a text with at least one word is exactly recoverable from SpacesBefore/SpacesAfter/SpaceAfter.", "quantifier": "every text", "why_tests_cant": "All strings over all whitespace characters.", "anchors": ["udapi/block/tokenize/onwhitespace.py:OnWhitespace.process_tree", "udapi/block/tokenize/simple.py:Simple"]}
{"id": "C42", "title": "SetSpaceAfterFromText makes the detokenized sentence equal the stored text", "statement": "After ud.SetSpaceAfterFromText on a tree whose tokens match its text, compute_text() equals the whitespace-normalised text.", "quantifier": "every text and every matching tokenization", "why_tests_cant": "All strings and token lists.", "anchors": ["udapi/block/ud/setspaceafterfromtext.py:SetSpaceAfterFromText"]}
{"id": "C43", "title": "transform.Proj yields a projective tree", "statement": "After transform.Proj no node is non-projective (expected by users; the code violates it for some trees); the transformation terminates, only lifts nodes to ancestors, keeps word order and leaves projective trees untouched.", "quantifier": "every consistent tree", "why_tests_cant": "All tree shapes; one pass over edges found initially.", "anchors": ["udapi/block/transform/proj.py:Proj"]}
{"id": "C44", "title": "transform.Flatten attaches every word to the root (or to the first word)", "statement": "After transform.Flatten every word's parent is the technical root with deprel 'root'; with oneroot the first word is the only child of the root and all others depend on it with deprel 'dep'; word order is unchanged.", "quantifier": "every consistent tree", "why_tests_cant": "All tree shapes; per-node parent assignment must never raise.", "anchors": ["udapi/block/transform/flatten.py:Flatten"]}
{"id": "C45", "title": "root.flatten() attaches all words to the root and resets deprels", "statement": "After root.flatten(deprel) every word is a child of the root, no word has children, and every deprel is the given one (the deprel part is documented but violated).", "quantifier": "every consistent tree and deprel", "why_tests_cant": "All trees.", "anchors": ["udapi/core/root.py:Root.flatten"]}
{"id": "C46", "title": "steal_nodes of a whole sentence appends it intact", "statement": "root.steal_nodes(other.descendants) appends all words of the other tree after the existing ones in order; edges inside the moved sentence are kept, words that hung on the other root hang on the new root, both trees stay consistent and the old one is empty.", "quantifier": "every pair of consistent trees", "why_tests_cant": "All trees; ords, root pointers, children lists and MWTs updated separately.", "anchors": ["udapi/core/root.py:Root.steal_nodes"]}
{"id": "C47", "title": "precedes is a strict order on the words of a document zone", "statement": "For nodes of one document and zone, precedes is irreflexive and transitive, agrees with ord inside one tree and with bundle order across trees.", "quantifier": "every document and all node triples", "why_tests_cant": "All documents; combines two comparison levels.", "anchors": ["udapi/core/node.py:Node.precedes"]}
{"id": "C48", "title": "FixChain-style rehanging blocks preserve tree consistency and terminate", "statement": "ud.FixChain, ud.FixRightheaded and ud.FixLeaf always terminate without raising on consistent trees, keep word order and the set of words, and leave a consistent tree satisfying the structural condition they enforce.", "quantifier": "every consistent tree and deprel labelling", "why_tests_cant": "All trees; loops rehang nodes while iterating.", "anchors": ["udapi/block/ud/fixchain.py:FixChain", "udapi/block/ud/fixrightheaded.py:FixRightheaded", "udapi/block/ud/fixleaf.py:FixLeaf"]}
{"id": "C49", "title": "Sentence readers and writers of plain text are inverse", "statement": "write.Sentences after read.Sentences prints the input lines (each right-stripped of the configured characters), one per tree, and the number of trees equals the number of lines (non-empty lines with ignore_empty_lines).", "quantifier": "every text file content", "why_tests_cant": "All inputs.", "anchors": ["udapi/block/read/sentences.py:Sentences", "udapi/block/write/sentences.py:Sentences"]}
{"id": "C50", "title": "Blocks visit exactly the selected trees and nodes", "statement": "A block's process_tree is called exactly once for each tree whose zone is selected by zones and that is not skipped by if_empty_tree, in document order; process_node exactly once per word of those trees.", "quantifier": "every document and block configuration", "why_tests_cant": "All documents.", "anchors": ["udapi/core/block.py:Block.process_document", "udapi/core/block.py:Block._should_process_tree"]}
{"id": "C51", "title": "Defaults of the inherited mapping methods", "statement": "feats.get(name, default) returns the default for an absent name and feats.setdefault(name, value) stores the value (expected from the MutableMapping interface; the code violates it: the answer is always '' and nothing is stored).", "quantifier": "every attribute state, name and default", "why_tests_cant": "All states; the violation follows from __getitem__ never raising KeyError.", "anchors": ["udapi/core/dualdict.py:DualDict.__getitem__"]}
{"id": "C52", "title": "ud.FixPunctChild leaves no dependents on punctuation", "statement": "After ud.FixPunctChild no word's parent has deprel 'punct'; words move only to former ancestors, words whose parent was not punctuation stay, labels, word set and word order are unchanged, and the block never raises or loops forever.", "quantifier": "every consistent tree, of any size and labelling, whose technical root is not labelled punct", "why_tests_cant": "The while loop must end and the condition must hold for every tree shape.", "anchors": ["udapi/block/ud/fixpunctchild.py:FixPunctChild.process_node"]}
{"id": "C53", "title": "ud.FixRoot leaves exactly one root relation", "statement": "After ud.FixRoot on a non-empty tree the technical root has exactly one child, that child is the only word with universal deprel root, the other former children hang on it as parataxis, and nothing else changes. On an empty tree the block raises IndexError.", "quantifier": "every consistent tree and labelling", "why_tests_cant": "All trees.", "anchors": ["udapi/block/ud/fixroot.py:FixRoot.process_tree"]}
{"id": "C54", "title": "transform.Deproj re-attaches marked words safely", "statement": "transform.Deproj never raises, keeps a consistent tree with the same words and order, leaves unmarked words where they are, and attaches a marked word to a node with the marked relation among its siblings and their descendants whenever one exists.", "quantifier": "every consistent tree, labelling and marking", "why_tests_cant": "All trees and markings; cycles must be impossible.", "anchors": ["udapi/block/transform/deproj.py:Deproj.process_node"]}
{"id": "C55", "title": "demo.RehangPrepositions swaps a preposition with its parent", "statement": "Processing a preposition whose parent is a word attaches it to its grandparent and its former parent to it, and moves nothing else; a preposition attached to the technical root raises ValueError and changes nothing.", "quantifier": "every consistent tree and every word of it", "why_tests_cant": "All trees.", "anchors": ["udapi/block/demo/rehangprepositions.py:RehangPrepositions.process_node"]}
{"id": "C56", "title": "SpaceAfter=No moves from the last word to the multi-word token", "statement": "create_multiword_token takes SpaceAfter out of the MISC of every covered word, gives the MWT SpaceAfter=No iff the last word had it or the given misc had it, and leaves all other MISC attributes of words and MWT, and all other words, unchanged.", "quantifier": "every document state, non-empty word list, form and misc string", "why_tests_cant": "All MISC contents and call histories.", "anchors": ["udapi/core/root.py:Root.create_multiword_token"]}
{"id": "C57", "title": "Negative HEADs are rejected", "statement": "A token line whose HEAD is a negative number is rejected by read.Conllu (expected by users; violated: Python indexing from the end attaches the word to another word).", "quantifier": "every list of lines with a negative HEAD", "why_tests_cant": "All inputs.", "anchors": ["udapi/block/read/conllu.py:Conllu.read_tree_from_lines"]}
{"id": "C58", "title": "File lists are resolved relative to the list", "statement": "Names in an @filelist are taken relative to the directory of the list unless they are absolute, and @- reads the list from standard input (expected by users; violated: the directory is put before absolute names and not before relative ones, and @- raises TypeError).", "quantifier": "every file list with non-empty lines in a directory other than the current one", "why_tests_cant": "All directories, lists and names.", "anchors": ["udapi/core/files.py:Files._token_to_filenames", "udapi/core/files.py:Files.string_to_filenames"]}
{"id": "C59", "title": "Moving a word keeps empty nodes in place", "statement": "shift_*_node/subtree keeps every empty node between the same unmoved words and gives no two empty nodes the same ID.", "quantifier": "every consistent tree with any placement of empty nodes, every word and reference", "why_tests_cant": "All trees, placements of empty nodes and moves; violated when empty nodes stand on both sides of the moved word and when a whole subtree moves.", "anchors": ["udapi/core/node.py:Node.shift_after_node", "udapi/core/node.py:Node._shift_before_ord"]}
{"id": "C60", "title": "Malformed DEPS are rejected", "statement": "Reading node.deps raises on a DEPS string with a head that is not the ID of a node of the tree, each time it is read, and otherwise gives the denoted nodes and labels in order.", "quantifier": "every tree, node and DEPS string", "why_tests_cant": "All strings; the caching of a partial result shows only on a second access (violated), and negative heads are accepted (violated).", "anchors": ["udapi/core/node.py:Node.deps"]}
{"id": "C61", "title": "Changes of node.deps are reflected by raw_deps", "statement": "After changing the list returned by node.deps in place, or assigning a new one, raw_deps gives the serialisation of the current list.", "quantifier": "every tree, node, previous DEPS and new list", "why_tests_cant": "All lists; the empty list is a special case (violated: the old string is returned).", "anchors": ["udapi/core/node.py:Node.raw_deps", "udapi/core/node.py:Node.deps"]}
{"id": "C62", "title": "Removing an empty node", "statement": "e.remove() takes e out of the tree and its edges out of the enhanced dependencies of the other nodes, keeps all their other enhanced dependencies, keeps the remaining empty nodes correctly numbered between the same words, and does nothing if e was already removed.", "quantifier": "every tree with any number of empty nodes, every DEPS of the other nodes", "why_tests_cant": "All trees and caching states; violated: parsed DEPS of other nodes are destroyed, an empty node can get the ID of a word, a second call renumbers again.", "anchors": ["udapi/core/node.py:EmptyNode.remove"]}
{"id": "C63", "title": "Sentence splitting loses no text", "statement": "segment.Simple cuts a text exactly at the token boundaries accepted by is_boundary; the sentences joined by a space (with keep_spaces: just put together) are the original text; for a document, the texts of each zone in document order are the sentences of the original texts.", "quantifier": "every text, boundary test, and document of untokenized trees", "why_tests_cant": "All texts and documents with any number of bundles and zones.", "anchors": ["udapi/block/segment/simple.py:Simple.segment_string", "udapi/block/segment/simple.py:Simple.process_document"]}
{"id": "C64", "title": "Trees of unselected zones are left alone", "statement": "A block with zones=... neither removes, nor fails on, nor visits trees of other zones (violated with if_empty_tree=delete and =fail: emptiness is checked before the zone).", "quantifier": "every document and block configuration", "why_tests_cant": "All documents and parameter combinations.", "anchors": ["udapi/core/block.py:Block._should_process_tree"]}
{"id": "C65", "title": "Mentions, words and entities stay linked both ways", "statement": "After any sequence of calls that create, change, move or remove mentions and edit trees: entity.mentions are exactly the mentions of that entity, node.coref_mentions are exactly the mentions containing the node (each once), the words of a mention are different nodes of one tree and its head is one of them; a failing create_mention leaves no trace; entity.mentions stay sorted; removed nodes leave their mentions. (Only the linking holds, and only if words are never emptied.)", "quantifier": "every sequence of calls on every document", "why_tests_cant": "Back links are maintained by hand in five setters; histories are unbounded.", "anchors": ["udapi/core/coref.py:CorefMention", "udapi/core/coref.py:CorefEntity.create_mention"]}
{"id": "C66", "title": "Moving a sentence moves its multi-word tokens and empty nodes", "statement": "After root.steal_nodes(other.descendants) the multi-word tokens of the other tree are multi-word tokens of this tree with the same words, forms and MISC and can be used and removed as before, and the empty nodes of the other tree belong to this tree. (Only the lists of tokens, their words, forms and MISC are right: mwt.root is not updated, so mwt.remove() raises, and empty nodes stay behind.)", "quantifier": "every pair of consistent trees with any multi-word tokens", "why_tests_cant": "Back references of tokens and of words are maintained by hand.", "anchors": ["udapi/core/root.py:Root.steal_nodes", "udapi/core/mwt.py:MWT.remove"]}
{"id": "C67", "title": "Moving part of a sentence leaves two consistent trees", "statement": "root.steal_nodes(part) appends the given words in word order; edges between two moved or two kept words stay, a moved word whose parent was not moved hangs on the new root, a kept word whose parent was moved hangs on the old root; both trees are consistent afterwards; all other trees and all attributes are unchanged. (The words left behind keep their old ords, so gaps appear unless the words were taken from the end; if the last moved word is in a multi-word token and two words are moved, the call raises and the words are in neither tree.)", "quantifier": "every pair of consistent trees and every subset of the words of one of them, in any order", "why_tests_cant": "All trees and subsets; parents, children lists, ords and roots are updated one node at a time.", "anchors": ["udapi/core/root.py:Root.steal_nodes"]}
{"id": "C68", "title": "Storing and loading coreference keeps entities and mentions", "statement": "After store_coref_to_misc(document), reading the same trees and loading the coreference gives the same entities (ids and types) with the same mentions: the same words, head and other attributes; entity.mentions are sorted, and entities, mentions and nodes are linked both ways. (Not for crossing or alternating discontinuous mentions of one entity, hyphens in types and other attributes, ids such as a[1/2], entities without mentions, other attributes named like fields of the header, or a document whose last entity has been removed.)", "quantifier": "every document with any entities and mentions, continuous and discontinuous, nested and overlapping", "why_tests_cant": "The brackets of all mentions share the same strings; the result depends on the order in which they are written and on the stacks of the loader.", "anchors": ["udapi/core/coref.py:store_coref_to_misc", "udapi/core/coref.py:load_coref_from_misc"]}
{"id": "C69", "title": "max_docs reads the first documents", "statement": "A reader with max_docs=N returns the sentences of the first N documents of its input (marked by newdoc), in order and all of them, and nothing after them; with N or fewer documents in the input it returns everything. (Not when a file does not start with newdoc, with split_docs or bundles_per_doc, or when the last empty line of a file is missing.)", "quantifier": "every list of files, every N and every combination of the other options", "why_tests_cant": "Documents are counted in two places (per file and over all files), and where the reader stops depends on where files and documents end.", "anchors": ["udapi/core/basereader.py:BaseReader.try_fast_load", "udapi/core/basereader.py:BaseReader.process_document", "udapi/block/read/conllu.py:Conllu.read_trees"]}
{"id": "C70", "title": "Saving a document in CoNLL-U and loading it gives the same document", "statement": "A document whose trees are written with write.Conllu and loaded with read.Conllu has the same bundles with the same ids, in the same order, the same trees with the same zones, and every tree has the same words, empty nodes, multi-word tokens, comments and values; what was loaded before is not changed. (Not if a value contains a line end, if neighbouring bundles have the same id; global.Entity is lost unless some tree shows it.)", "quantifier": "every document of any number of bundles and trees that CoNLL-U can hold, every heap it is loaded into, every reader option concerning errors", "why_tests_cant": "All documents; the text of a file is split into sentences, lines and columns, and bundles are recovered from the sent_ids.", "anchors": ["udapi/block/write/conllu.py:Conllu.process_tree", "udapi/block/read/conllu.py:Conllu.read_trees", "udapi/core/basereader.py:BaseReader.process_document", "udapi/core/document.py:Document.store_conllu"]}
{"id": "C71", "title": "A drawn tree shows exactly the tree", "statement": "node.draw() and write.TextModeTrees print one line for each node of the subtree (with print_empty also the empty nodes), in word order; from every node but the top one the lines of the picture lead to its parent and to no other node; every line contains the texts of its node; so two trees with the same picture have the same parents. No tree, also non-projective, makes the drawing fail. (With hints=False the line from a node to its parent may be interrupted.)", "quantifier": "every consistent tree, every node as the top, every layout, indent and order of drawing, any attribute values", "why_tests_cant": "All trees; columns are shared by nested and crossing edges, and each line of the picture is extended in many rounds.", "anchors": ["udapi/block/write/textmodetrees.py:TextModeTrees.process_tree", "udapi/core/node.py:Node.draw"]}
{"id": "C72", "title": "Storing and loading keeps bridging links", "statement": "After storing the coreference of a document in MISC and loading it, every mention has the same bridging links (targets and relations) as before, except links to entities without mentions, which are dropped; storing keeps the other links in memory; a link never moves to another mention. Whatever the file says, no loaded link points to the entity of its own mention. (Not with two neighbouring links to entities without mentions: IndexError; not with only such links; not if two mentions of one entity start at the same word; not for the relation _ or relations with a comma.)", "quantifier": "every document, every set of mentions and every list of links of each mention", "why_tests_cant": "The links of all mentions starting at a word share one string; targets may be introduced later than the link.", "anchors": ["udapi/core/coref.py:BridgingLinks", "udapi/core/coref.py:store_coref_to_misc", "udapi/core/coref.py:load_coref_from_misc"]}
{"id": "C73", "title": "Storing and loading keeps split antecedents", "statement": "After storing the coreference of a document in MISC and loading it, every entity has the same split antecedents in the same order; antecedents without mentions are dropped. Whatever the file says, no loaded entity is its own antecedent. (A single antecedent is dropped; of two neighbouring antecedents without mentions the second is kept and the stored document cannot be loaded.)", "quantifier": "every document, every set of entities and every list of antecedents of each entity", "why_tests_cant": "The antecedents of all entities whose first mention starts at a word share one string.", "anchors": ["udapi/core/coref.py:store_coref_to_misc", "udapi/core/coref.py:load_coref_from_misc"]}
{"id": "C74", "title": "mention.bridging behaves as a list", "statement": "mention.bridging can be read, appended to, inserted into, assigned to and deleted from as a list; each mention has its own list; a link to the mention's own entity is refused and changes nothing; queries such as mention.bridging('part') return the matching links and change nothing. (A query replaces the links of the mention by its result; an empty list that has been fetched before is detached by the next access.)", "quantifier": "every sequence of such calls on any number of mentions", "why_tests_cant": "Histories are unbounded; list objects are created lazily and know their mention.", "anchors": ["udapi/core/coref.py:BridgingLinks", "udapi/core/coref.py:CorefMention.bridging"]}
{"id": "C75", "title": "ud.FixPunct re-attaches punctuation projectively and keeps the sentence", "statement": "ud.FixPunct ends for every sentence and leaves a consistent tree with the same words in the same order, in which the root has exactly one child, the only word labelled root; only labels of this tree change; punctuation ends up attached projectively and without children; words that are not punctuation move only if they hung on punctuation or on the root. (An empty sentence raises IndexError; CycleError is raised for an opening mark not tagged PUNCT around punctuation and for overlapping pairs; punctuation may stay non-projective or have children; a second word may keep the label root.)", "quantifier": "every consistent tree with any forms, tags and labels, with and without check_paired_punct_upos", "why_tests_cant": "All trees, projective or not, and all placements of marks; candidates are tried by re-attaching the word in the tree itself, in nested loops.", "anchors": ["udapi/block/ud/fixpunct.py:FixPunct.process_tree", "udapi/block/ud/fixpunct.py:FixPunct._fix_pair", "udapi/block/ud/fixpunct.py:FixPunct._fix_subord_punct"]}
{"id": "C76", "title": "ud.RemoveMwt replaces multi-word tokens by single words and keeps the text", "statement": "ud.RemoveMwt never fails on a well-formed sentence; afterwards the tree is consistent, the text is the same and no multi-word token is left; the first word of each former token stands for it, with its form and MISC, and with the features of all its words (the last one wins); the other words and tokens are not changed. (The list of tokens is shortened while it is iterated, so every second token stays; if no word but the first has features, they are lost.)", "quantifier": "every well-formed sentence with any number of multi-word tokens of any length", "why_tests_cant": "The tokens, the words in them and their children are unbounded; the block changes the list it iterates over.", "anchors": ["udapi/block/ud/removemwt.py:RemoveMwt.process_tree", "udapi/block/ud/removemwt.py:RemoveMwt.guess_feats"]}
{"id": "C77", "title": "ud.JoinAsMwt joins exactly the glued words and keeps the text", "statement": "On a well-formed sentence whose words have non-empty forms, ud.JoinAsMwt never fails, keeps the text and the tree, and turns each longest sequence of at least two words outside multi-word tokens, without spaces between them and with letters on both sides of each boundary, into one multi-word token: its form is the forms joined, it is followed by a space iff the last word was, its words no longer have SpaceAfter and (with revert_orig_form) their FORM is restored from OrigForm. All other words, tokens and attributes stay. (A word with the empty form can raise IndexError.)", "quantifier": "every well-formed sentence, any forms and MISC, any notion of letters, with and without revert_orig_form", "why_tests_cant": "Sequences of any length; the block visits words which earlier steps have already put into a token.", "anchors": ["udapi/block/ud/joinasmwt.py:JoinAsMwt.process_node", "udapi/core/root.py:Root.create_multiword_token"]}
{"id": "C78", "title": "ud.JoinToken contracts exactly the marked words and keeps the text", "statement": "On a well-formed sentence, ud.JoinToken never fails and keeps the text. The words of the result are groups of consecutive words of the input: a word is joined with the one before it iff it carries the MISC attribute (with the value, if one is given), there is no space between them and neither is in a multi-word token. A joined word has the forms of its group concatenated, SpaceAfter of the last one, and the other attributes of the first. The result is a tree, each of its dependencies is a dependency (with the same relation) between words of the two groups. A marked word which cannot be joined gets MISC Bug, all other attributes and the multi-word tokens stay. (The first word of a sentence is reported as if a space preceded it.)", "quantifier": "every well-formed sentence, any tree, any placing of marks, spaces and multi-word tokens, any attribute name and value", "why_tests_cant": "Chains of marked words of any length in trees of any shape: each step moves children and can invert a dependency, later steps work on the changed tree.", "anchors": ["udapi/block/ud/jointoken.py:JoinToken.process_node", "udapi/core/node.py:Node.remove", "udapi/core/node.py:Node.prev_node"]}
{"id": "C79", "title": "segment.Merge joins exactly the sentences after a semicolon and loses nothing", "statement": "On a document of non-empty well-formed sentences, segment.Merge never fails. A sentence is appended to the one before it iff the last word before it ends with a semicolon; the order of sentences and their ids stay. A joined sentence has the words of its parts in order, with all attributes, dependencies and multi-word tokens, top words hang on the root, it is a consistent tree and its text is the texts of the parts joined. (An empty document, or an empty sentence reached by the loop, raises IndexError; the empty nodes of the appended sentences stay behind in the discarded tree.)", "quantifier": "every document with one tree per bundle, any number of sentences of any length and shape", "why_tests_cant": "Chains of sentences of any length, with any trees and multi-word tokens, are moved node by node into one tree.", "anchors": ["udapi/block/segment/merge.py:Merge.process_document", "udapi/core/root.py:Root.steal_nodes"]}
{"id": "C80", "title": "util.JoinSentence joins exactly the marked sentences and clears the marks", "statement": "util.JoinSentence appends a sentence to the preceding one iff one of its words carries the given MISC attribute (with the value, if one is given), and clears this attribute on exactly these words; or, with sent_id, it appends the sentence with that id. The joined sentence has the words, dependencies, multi-word tokens and texts of its parts in order; all other attributes and sentences stay. (With sent_id the block always fails with AttributeError when the sentence exists; so it does when the first sentence is marked.)", "quantifier": "every document of well-formed sentences with one tree per bundle, any attribute name and value, any placing of marks, any sent_id", "why_tests_cant": "Documents, chains of marked sentences and trees are unbounded; the list of bundles is replaced while it is iterated.", "anchors": ["udapi/block/util/joinsentence.py:JoinSentence.process_document", "udapi/core/bundle.py:Bundle.remove", "udapi/core/root.py:Root.steal_nodes"]}
{"id": "C81", "title": "util.SplitSentence splits exactly at the chosen words and keeps everything else", "statement": "util.SplitSentence with sent_id and word_id splits the sentence with that id before that word: the words before it stay, the others become a new sentence right after it, and the ids get A and B. With misc_name it splits before each word that carries the attribute (except the first word of a sentence) and clears the attribute on these words. Words keep their order, attributes and multi-word tokens; a dependency inside one part stays, a word whose parent is elsewhere hangs on the root; all words on the root have the relation root; both trees are consistent, their text attributes are the texts of their tokens, no sentence is empty and all other sentences stay. An unknown id changes nothing, a word_id after the end raises IndexError. (The empty nodes stay in the first part.)", "quantifier": "every document of well-formed sentences with one tree per bundle, any split point outside multi-word tokens, any attribute name and value", "why_tests_cant": "Sentences, trees and dependencies across the split point are unbounded.", "anchors": ["udapi/block/util/splitsentence.py:SplitSentence.process_document", "udapi/block/util/splitsentence.py:SplitSentence.make_zeros_roots", "udapi/core/root.py:Root.steal_nodes"]}
{"id": "C82", "title": "corefud.MergeSameSpan leaves one mention per span, whatever the order of the set", "statement": "For every state in which mentions, words and entities are linked, and for every order in which the set of mentions of a sentence is iterated, corefud.MergeSameSpan never fails; afterwards, of each group of mentions of the sentence with the same words (with same_entity_only: and the same entity) exactly one is left, one whose entity has the smallest id of the group; which entity that is does not depend on the order of the set. Entities and words have lost exactly the removed mentions, the survivors keep their words, heads and entities, mentions of other sentences are not touched, and everything is still linked both ways. (An entity whose only mention is removed stays in the document without mentions.)", "quantifier": "every linked coreference state, any number of mentions with any overlaps, every iteration order of the set, with and without same_entity_only", "why_tests_cant": "Python sets of objects have no fixed order; the pairs that are compared include mentions emptied by earlier pairs.", "anchors": ["udapi/block/corefud/mergesamespan.py:MergeSameSpan.process_tree", "udapi/core/coref.py:CorefMention.words"]}
{"id": "C83", "title": "util.Normalize gives unique sentence ids and keeps FEATS, MISC and the order of empty nodes", "statement": "util.Normalize with sent_id numbers the bundles of all documents of a run in order (prefix + consecutive integers from start_sent_id), so all ids are different; with sent_id_from_filename ids of different bundles are also different, and with sent_id_reset_at_newdoc they start from 1 at each newdoc. After any history of accesses, normalised FEATS and MISC are the same mapping and are printed sorted. With empty_node_ord the order of words and empty nodes stays, the i-th empty node after word n gets n.i, and nothing else changes. (Ids are not unique if a file has two newdocs and the reset is on, or if the file names of a run end with digits.)", "quantifier": "every run over any documents, any parameters; every history of accesses to FEATS and MISC; every tree with at most nine empty nodes in a row", "why_tests_cant": "The numbers of documents, bundles, accesses and nodes are unbounded; collisions need particular file names.", "anchors": ["udapi/block/util/normalize.py:Normalize.process_bundle", "udapi/block/util/normalize.py:Normalize.process_tree", "udapi/block/util/normalize.py:Normalize.process_node"]}
{"id": "C84", "title": "ud.Basic2Enhanced fills the missing enhanced dependencies with the basic ones", "statement": "ud.Basic2Enhanced gives every word whose DEPS column is an underscore exactly one enhanced dependency, its basic head with its deprel, readable both as text and as nodes; every other node keeps its enhanced dependencies, and the tree does not change. Afterwards every node is reachable from the root in the enhanced graph. (It raises AttributeError if an empty node has no enhanced dependencies; a node whose list of dependencies was emptied by assignment is not filled; a loop closed by the basic heads stays unreachable.)", "quantifier": "every tree with any number of words and empty nodes, and every mixture of unread, read, changed and missing enhanced dependencies", "why_tests_cant": "Which nodes are filled depends on the history of accesses to each node (text or list), and reachability on the whole graph.", "anchors": ["udapi/block/ud/basic2enhanced.py:Basic2Enhanced.process_tree", "udapi/core/node.py:Node.raw_deps", "udapi/core/node.py:EmptyNode.parent"]}
{"id": "C85", "title": "ud.FixMwtSpace replaces exactly the needless multi-word tokens", "statement": "On a well-formed sentence ud.FixMwtSpace never raises; the sequence of tokens changes exactly by replacing each multi-word token whose form contains a space and equals the forms of its words separated by single spaces by those words; all words, attributes, other tokens and other trees stay, the sentence stays well-formed, and its text is the same. (The text changes if SpaceAfter of the token differs from that of its words: SpaceAfter=No of the token is lost.)", "quantifier": "every well-formed sentence with any number of words and multi-word tokens", "why_tests_cant": "Tokens are removed while words are visited; the number and positions of tokens are unbounded.", "anchors": ["udapi/block/ud/fixmwtspace.py:FixMwtSpace.process_node", "udapi/core/mwt.py:MWT.remove", "udapi/core/node.py:Node.compute_text"]}
{"id": "C86", "title": "corefud.IndexClusters gives consecutive, unique entity ids across all documents of a run", "statement": "With a prefix free of forbidden characters and start >= 0, corefud.IndexClusters never fails: the entities of each document keep their order and get the ids prefix + consecutive integers, continued over all documents of the run, so all ids of the run are different; afterwards every entity is listed under its own id, even if ids had been assigned inconsistently before; mentions, words, heads, types and all links stay. A forbidden character in the prefix or a negative start raises ValueError at the first document with entities, and nothing is changed. (node.coref_mentions of nodes with several mentions of the same words is not sorted again by the new ids.)", "quantifier": "every run over any number of documents, after any sequence of coreference calls, with any prefix and start", "why_tests_cant": "The number of documents and entities and the history of id assignments are unbounded.", "anchors": ["udapi/block/corefud/indexclusters.py:IndexClusters.process_document", "udapi/core/coref.py:CorefEntity.eid"]}
{"id": "C87", "title": "corefud.RemoveNoCorefEntities removes exactly the NOCOREF entities", "statement": "corefud.RemoveNoCorefEntities takes exactly the entities whose id begins with NOCOREF out of the document and keeps all others in order with ids, types and mentions; a file saved afterwards and loaded again has exactly the other entities with the same mentions, and nodes list mentions of entities of the document only. (If every entity is removed, saving leaves the old annotation in the file; the nodes still list the mentions of removed entities.)", "quantifier": "every document with any number of entities and mentions whose ids are unique; for saving: every document that can be stored (see C68)", "why_tests_cant": "The entities, their mentions and their overlaps are unbounded; what the file contains depends on the saving code that runs later.", "anchors": ["udapi/block/corefud/removenocorefentities.py:RemoveNoCorefEntities.process_document", "udapi/core/coref.py:store_coref_to_misc"]}
{"id": "C88", "title": "ud.FixMultiSubjects leaves each word at most one subject and relabels nothing else", "statement": "On every consistent tree whose words have a deprel, ud.FixMultiSubjects never raises; exactly the words labelled nsubj, csubj or a subtype other than :outer that follow another such dependent of the same word are relabelled, to obl (from nsubj) or advcl (from csubj); the first subject of each word, all other labels and attributes and the tree itself stay. Afterwards no word has two such dependents. (Dependents of the technical root are not treated; a word below another word whose deprel is None raises TypeError.)", "quantifier": "every consistent tree of any size and shape with any labels without line breaks", "why_tests_cant": "The number of words, of dependents and the order in which words and their parents are visited are unbounded; labels are arbitrary strings.", "anchors": ["udapi/block/ud/fixmultisubjects.py:FixMultiSubjects.process_node"]}
{"id": "C89", "title": "eval.Parsing counts exactly the words with the same head and label", "statement": "For any sequence of pairs of trees with the same numbers of words, eval.Parsing never fails while counting: UAS, LAS (deprel) and LAS (udeprel) are 100 times the number of words whose head has the same position, and whose deprel or udeprel is also the same, divided by the number of words; 0 <= LAS (deprel) <= LAS (udeprel) <= UAS <= 100, a score is 100 exactly if all words agree, exchanging the predicted and the gold trees gives the same scores and so does any order of the sentences. Trees of the gold zone are not compared with themselves. Different numbers of words raise ValueError without counting anything. (If no word was compared, the end of the run fails with a division by zero.)", "quantifier": "every sequence of pairs of consistent trees of any size with any labels", "why_tests_cant": "Trees, labels and the number of sentences are unbounded; symmetry and the inequalities hold for all of them.", "anchors": ["udapi/block/eval/parsing.py:Parsing.process_tree", "udapi/block/eval/parsing.py:Parsing.process_end"]}
{"id": "C90", "title": "ud.FixPseudoCop turns listed copulas into heads and keeps the tree consistent", "statement": "On every consistent tree whose words have a deprel and where no word to be fixed is attached to the technical root, ud.FixPseudoCop never raises and keeps a consistent tree with the same words in the same order. A word with a listed lemma labelled cop (or aux, if noncopaux) takes the place and label of its parent, which becomes its xcomp; exactly those dependents of the parent whose label begins with one of the clause labels move to it; all others and all other labels stay. Tags change only to VERB and only for listed lemmas; a tree without a word to be fixed keeps its structure and labels. (Labels are compared by their beginnings, so a ccomp moves because of cc; a word to be fixed that is attached to the technical root raises ValueError; a sibling of a word to be fixed whose deprel is None raises TypeError.)", "quantifier": "every consistent tree of any size and shape with any labels, lemmas, tags and list of lemmas", "why_tests_cant": "The tree is changed while its words are visited; the number of words to be fixed and how they are nested are unbounded.", "anchors": ["udapi/block/ud/fixpseudocop.py:FixPseudoCop.process_node"]}
{"id": "C91", "title": "ud.FixCompoundName turns compound names into flat names and skips names with numbers", "statement": "On every consistent tree ud.FixCompoundName never raises and keeps a consistent tree with the same words in the same order and the same tags. A proper noun with other proper nouns attached to it as compounds (a name) is converted: the first word of the name takes the place and label of the old head and all other words of the name are attached to it as flat:name; all other words keep their parent and label. Names that contain a digit are skipped. (The code has the last test the other way round: it converts exactly the names that contain a digit.)", "quantifier": "every consistent tree of any size and shape with any labels, tags and forms, and any set of digits", "why_tests_cant": "The tree is changed while its words are visited; the length of a name, the position of its head and the number and nesting of names are unbounded.", "anchors": ["udapi/block/ud/fixcompoundname.py:FixCompoundName.process_node"]}
