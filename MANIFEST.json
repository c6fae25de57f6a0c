{
 "claims": [
  {
   "property": "C01",
   "status": "proved",
   "theorems": [
    "C01_behaves_as_mapping"
   ],
   "note": "all operations of DualDict incl. inherited pop/update; str.lower arbitrary"
  },
  {
   "property": "C02",
   "status": "proved",
   "theorems": [
    "C02_round_trip",
    "C02_order_independent",
    "C02_underscore_flag_lost"
   ],
   "note": ""
  },
  {
   "property": "C03",
   "status": "proved",
   "theorems": [
    "C03_verbatim"
   ],
   "note": ""
  },
  {
   "property": "C04",
   "status": "proved",
   "theorems": [
    "C04_deletion",
    "C04_repeated_deletion"
   ],
   "note": ""
  },
  {
   "property": "C05",
   "status": "proved",
   "theorems": [
    "C05_udeprel_no_colon",
    "C05_parts",
    "C05_set_udeprel",
    "C05_set_sdeprel",
    "C05_reset"
   ],
   "note": ""
  },
  {
   "property": "C06",
   "status": "proved",
   "theorems": [
    "C06_every_history_consistent",
    "C06_trees_disjoint",
    "C06_calls_terminate",
    "C06_other_trees_untouched"
   ],
   "note": ""
  },
  {
   "property": "C07",
   "status": "proved",
   "theorems": [
    "C07_parent_assignment",
    "C07_no_parent",
    "C07_root_has_no_parent"
   ],
   "note": ""
  },
  {
   "property": "C08",
   "status": "partial",
   "theorems": [
    "C08_failed_call_changes_nothing_refuted",
    "C08_failed_call_partial"
   ],
   "note": "the expected behaviour is refuted: ValueError is raised, but the word has already been taken out of its parent's children; the partial theorem says exactly what changes"
  },
  {
   "property": "C09",
   "status": "proved",
   "theorems": [
    "C09_remove"
   ],
   "note": ""
  },
  {
   "property": "C10",
   "status": "proved",
   "theorems": [
    "C10_shift_after_node",
    "C10_shift_before_node",
    "C10_shift_after_subtree",
    "C10_shift_before_subtree",
    "C10_shift_before_root_refused"
   ],
   "note": ""
  },
  {
   "property": "C11",
   "status": "proved",
   "theorems": [
    "C11_descendants",
    "C11_children",
    "C11_siblings"
   ],
   "note": ""
  },
  {
   "property": "C12",
   "status": "proved",
   "theorems": [
    "C12_is_descendant_of",
    "C12_irreflexive",
    "C12_transitive"
   ],
   "note": ""
  },
  {
   "property": "C13",
   "status": "proved",
   "theorems": [
    "C13_neighbours",
    "C13_walk"
   ],
   "note": ""
  },
  {
   "property": "C14",
   "status": "proved",
   "theorems": [
    "C14_nonprojective"
   ],
   "note": ""
  },
  {
   "property": "C15",
   "status": "proved",
   "theorems": [
    "C15_nonprojective_gap",
    "C15_gap_of_root_refuted"
   ],
   "note": "for words; on the technical root itself the method can answer True (refutation)"
  },
  {
   "property": "C16",
   "status": "partial",
   "theorems": [
    "C16_head_refuted",
    "C16_path_refuted",
    "C16_terminates",
    "C16_treelet_partial"
   ],
   "note": "the full statement is refuted for nodes far apart; proved under a distance condition, termination and no exception for all inputs"
  },
  {
   "property": "C17",
   "status": "proved",
   "theorems": [
    "C17_depth",
    "C17_position"
   ],
   "note": ""
  },
  {
   "property": "C18",
   "status": "proved",
   "theorems": [
    "C18_mwts_agree",
    "C18_one_mwt_per_word",
    "C18_create",
    "C18_remove",
    "C18_second_remove_refuted"
   ],
   "note": "removing an MWT a second time breaks the agreement (refutation)"
  },
  {
   "property": "C19",
   "status": "proved",
   "theorems": [
    "C19_tokens_cover_words"
   ],
   "note": ""
  },
  {
   "property": "C20",
   "status": "partial",
   "theorems": [
    "C20_read_then_write",
    "C20_write_then_read",
    "C20_unread_refuted"
   ],
   "note": "both round trips proved for every tree and list; a string not yet parsed does not follow renumbering (refutation)"
  },
  {
   "property": "C21",
   "status": "partial",
   "theorems": [
    "C21_create_empty_partial",
    "C21_sequence_partial",
    "C21_history_partial",
    "C21_tenth_refuted"
   ],
   "note": "fully proved for up to nine empty nodes after a word; the tenth raises TypeError (refutation)"
  },
  {
   "property": "C22",
   "status": "partial",
   "theorems": [
    "C22_remove_partial",
    "C22_remove_refuted"
   ],
   "note": "proved when enough decimals are free; otherwise an empty node gets the ID of a word (refutation)"
  },
  {
   "property": "C23",
   "status": "proved",
   "theorems": [
    "C23_read_iff_tree",
    "C23_any_lines"
   ],
   "note": "representable sentences include comments, MWTs and empty nodes"
  },
  {
   "property": "C24",
   "status": "partial",
   "theorems": [
    "C24_fix_cycles_refuted",
    "C24_fix_cycles_diverges",
    "C24_fix_cycles_partial"
   ],
   "note": "refuted for a word that is its own HEAD (inconsistent tree or endless loop); proved for all other in-range HEADs, with only words on a cycle changed"
  },
  {
   "property": "C25",
   "status": "proved",
   "theorems": [
    "C25_write_then_read"
   ],
   "note": "representable: see ConlluSpec.representable"
  },
  {
   "property": "C26",
   "status": "proved",
   "theorems": [
    "C26_read_then_write",
    "C26_tenth_empty_refuted"
   ],
   "note": "canonical = conllu_lines of a representable sentence with all special comments; with ten empty nodes after one word the identity fails (refutation)"
  },
  {
   "property": "C27",
   "status": "partial",
   "theorems": [
    "C27_read_keeps_comments",
    "C27_write_keeps_order_partial",
    "C27_written_unless_first_deleted",
    "C27_first_deleted_refuted",
    "C27_duplicate_refuted",
    "C27_placeholder_refuted"
   ],
   "note": "order and values proved; \"exactly once\", \"ordinary comments unchanged\" and absence of exceptions are refuted in the corner cases shown"
  },
  {
   "property": "C28",
   "status": "partial",
   "theorems": [
    "C28_every_tree_once",
    "C28_bundles_partial",
    "C28_no_empty_bundle",
    "C28_ignore_sent_id",
    "C28_bundles_per_doc",
    "C28_split_docs",
    "C28_one_file_per_document",
    "C28_into_document",
    "C28_reading_ends",
    "C28_reading_succeeds",
    "C28_buffer_refuted",
    "C28_no_id_refuted",
    "C28_question_mark_refuted",
    "C28_split_continues_refuted",
    "C28_filehandle_refuted"
   ],
   "note": "every tree exactly once and in order is proved for all options; sharing of bundles is proved for trees with sent_ids without bundles_per_doc, split_docs and merge, and refuted for buffered trees and trees without sent_id"
  },
  {
   "property": "C29",
   "status": "partial",
   "theorems": [
    "C29_well_formed_text",
    "C29_no_final_newline",
    "C29_fast_is_slow_partial",
    "C29_unbatched",
    "C29_merge_refuted",
    "C29_empty_file_refuted",
    "C29_max_docs_refuted",
    "C29_layout_refuted",
    "C29_two_empty_lines_refuted"
   ],
   "note": "proved for well-formed CoNLL-U files (one empty line after each sentence, at least one sentence) without merge and max_docs, and for all files when bundles_per_doc, a filter or split_docs is used; refuted for merge, max_docs, empty files and irregular layout"
  },
  {
   "property": "C30",
   "status": "partial",
   "theorems": [
    "C30_bundles_per_doc",
    "C30_parts",
    "C30_several_documents",
    "C30_several_documents_end",
    "C30_parts_exceeded_refuted",
    "C30_parts_diverges_refuted"
   ],
   "note": "fully proved for one document; with several documents bundles_per_doc is proved, parts is refuted (too many parts, endless loop)"
  },
  {
   "property": "C31",
   "status": "partial",
   "theorems": [
    "C31_zones_unique_partial",
    "C31_stolen_refuted",
    "C31_newline_refuted",
    "C31_same_zone_refuted"
   ],
   "note": "proved for all histories in which no tree is added to a second bundle while being in another one; refuted without that restriction; two further surprises of zone assignment are refuted expectations"
  },
  {
   "property": "C32",
   "status": "partial",
   "theorems": [
    "C32_ids_agree_partial",
    "C32_bundle_id_refuted",
    "C32_sent_id_refuted",
    "C32_same_sent_id_refuted"
   ],
   "note": "proved for all histories with careful id assignments, refuted in general"
  },
  {
   "property": "C33",
   "status": "proved",
   "theorems": [
    "C33_fresh",
    "C33_taken",
    "C33_forbidden",
    "C33_given",
    "C33_unique",
    "C33_renamed_refuted"
   ],
   "note": "assigning entity.eid afterwards can make two entities share an id (refutation)"
  },
  {
   "property": "C34",
   "status": "proved",
   "theorems": [
    "C34_round_trip",
    "C34_maximal_ranges",
    "C34_any_span"
   ],
   "note": ""
  },
  {
   "property": "C35",
   "status": "partial",
   "theorems": [
    "C35_less_partial",
    "C35_order_partial",
    "C35_sort_partial",
    "C35_entities_partial",
    "C35_zones_refuted",
    "C35_moved_refuted"
   ],
   "note": "proved for all mentions of words of one zone of a document; comparing mentions of different zones raises; after moving words the result depends on whether mention.words has been read"
  },
  {
   "property": "C36",
   "status": "proved",
   "theorems": [
    "C36_find_lcs"
   ],
   "note": ""
  },
  {
   "property": "C37",
   "status": "proved",
   "theorems": [
    "C37_counts",
    "C37_sound",
    "C37_identical",
    "C37_one_iff"
   ],
   "note": "scores in exact rational arithmetic; an empty pair of trees counts as F1 0"
  },
  {
   "property": "C38",
   "status": "proved",
   "theorems": [
    "C38_parse",
    "C38_every_command_line",
    "C38_unambiguous",
    "C38_superscript_refuted",
    "C38_block_name"
   ],
   "note": "a value of superscript digits raises ValueError (refutation outside plain_values)"
  },
  {
   "property": "C39",
   "status": "proved",
   "theorems": [
    "C39_run",
    "C39_prefix"
   ],
   "note": "blocks are arbitrary state transformers; a default reader gets process_end but no process_start"
  },
  {
   "property": "C40",
   "status": "proved",
   "theorems": [
    "C40_files",
    "C40_names_in_turn",
    "C40_reserved_name_refuted",
    "C40_opener",
    "C40_separated_names"
   ],
   "note": "a file called <filehandle_input> is not opened (refutation)"
  },
  {
   "property": "C41",
   "status": "proved",
   "theorems": [
    "C41_words",
    "C41_on_whitespace",
    "C41_on_whitespace_keep",
    "C41_simple",
    "C41_simple_keep",
    "C41_already_tokenized"
   ],
   "note": "the class of word characters is arbitrary but contains no whitespace"
  },
  {
   "property": "C42",
   "status": "proved",
   "theorems": [
    "C42_text_restored",
    "C42_normalised"
   ],
   "note": "tokens match the text: forms in order separated by whitespace, not empty and not surrounded by whitespace"
  },
  {
   "property": "C43",
   "status": "partial",
   "theorems": [
    "C43_projective_refuted",
    "C43_proj_partial",
    "C43_repeated_proj"
   ],
   "note": "one run may leave a non-projective word (refuted); everything else in the statement is proved, and repeated runs always reach a projective tree"
  },
  {
   "property": "C44",
   "status": "proved",
   "theorems": [
    "C44_flatten",
    "C44_flatten_oneroot",
    "C44_oneroot_empty_tree"
   ],
   "note": "with oneroot an empty tree raises IndexError"
  },
  {
   "property": "C45",
   "status": "partial",
   "theorems": [
    "C45_flatten_deprel_refuted",
    "C45_flatten_partial"
   ],
   "note": "the argument deprel is ignored by the code (refuted); the structural part is proved"
  },
  {
   "property": "C46",
   "status": "proved",
   "theorems": [
    "C46_whole_sentence",
    "C46_no_nodes",
    "C46_several_trees"
   ],
   "note": "the nodes may be given in any order; multi-word tokens and empty nodes are the subject of C66"
  },
  {
   "property": "C47",
   "status": "proved",
   "theorems": [
    "C47_precedes",
    "C47_strict_order",
    "C47_segmented_refuted"
   ],
   "note": "for documents built with create_bundle; bundles made by segment.Simple have no number, so there precedes raises (refutation)"
  },
  {
   "property": "C48",
   "status": "partial",
   "theorems": [
    "C48_fixchain",
    "C48_no_chain_refuted",
    "C48_no_chain_partial",
    "C48_fixrightheaded",
    "C48_fixrightheaded_edge",
    "C48_left_headed_refuted",
    "C48_fixleaf"
   ],
   "note": "FixLeaf fully; FixChain and FixRightheaded do not enforce their condition on all trees (refuted), FixChain does on head-first chains"
  },
  {
   "property": "C49",
   "status": "proved",
   "theorems": [
    "C49_sentences",
    "C49_reading_succeeds",
    "C49_empty_file_refuted",
    "C49_bundles_per_doc_refuted"
   ],
   "note": "newdoc=1/newpar=1 of the writer are not covered; with newdoc_if_empty_line the reader may raise (two refutations)"
  },
  {
   "property": "C50",
   "status": "partial",
   "theorems": [
    "C50_visits_partial",
    "C50_trees_left",
    "C50_coref_visits",
    "C50_removed_empty_refuted",
    "C50_added_tree_refuted"
   ],
   "note": "proved for all documents and all methods that change only the tree they are called for (without changing its list of empty nodes while that is iterated); refuted for methods that remove the empty node they get or add trees to the bundle; blocks mixing coreference and tree methods are not covered by one theorem"
  },
  {
   "property": "C51",
   "status": "proved",
   "theorems": [
    "C51_get_default_refuted"
   ],
   "note": "refutation: the code violates the inherited contract"
  },
  {
   "property": "C52",
   "status": "proved",
   "theorems": [
    "C52_fixpunctchild"
   ],
   "note": ""
  },
  {
   "property": "C53",
   "status": "proved",
   "theorems": [
    "C53_fixroot",
    "C53_empty_tree_refuted"
   ],
   "note": ""
  },
  {
   "property": "C54",
   "status": "proved",
   "theorems": [
    "C54_deproj",
    "C54_deproj_word"
   ],
   "note": "label=misc; the label=deprel variant is not modelled"
  },
  {
   "property": "C55",
   "status": "proved",
   "theorems": [
    "C55_rehang_preposition",
    "C55_top_preposition_refuted"
   ],
   "note": ""
  },
  {
   "property": "C56",
   "status": "proved",
   "theorems": [
    "C56_space_after_moves_to_mwt"
   ],
   "note": ""
  },
  {
   "property": "C57",
   "status": "proved",
   "theorems": [
    "C57_negative_head_refuted"
   ],
   "note": "refutation: the code violates the expectation"
  },
  {
   "property": "C58",
   "status": "proved",
   "theorems": [
    "C58_filelist_refuted",
    "C58_stdin_refuted"
   ],
   "note": "refutation: the code violates the expectation"
  },
  {
   "property": "C59",
   "status": "partial",
   "theorems": [
    "C59_shift_single_partial",
    "C59_shift_subtree",
    "C59_unique_refuted",
    "C59_subtree_refuted",
    "C59_double_refuted"
   ],
   "note": "order and IDs proved for moving one word without empty nodes on both sides; two empty nodes can get the same ID, and moving a subtree can change the neighbours of an empty node (refutations)"
  },
  {
   "property": "C60",
   "status": "partial",
   "theorems": [
    "C60_first_access_partial",
    "C60_second_access_refuted",
    "C60_negative_refuted"
   ],
   "note": "the first access is fully characterised apart from negative heads; a second access after a failure returns a truncated list (refutation)"
  },
  {
   "property": "C61",
   "status": "partial",
   "theorems": [
    "C61_changed_partial",
    "C61_emptied_refuted"
   ],
   "note": "proved for non-empty lists, refuted for the empty one"
  },
  {
   "property": "C62",
   "status": "partial",
   "theorems": [
    "C62_empty_remove_partial",
    "C62_deps_refuted",
    "C62_blocked_refuted",
    "C62_twice_refuted"
   ],
   "note": "the effect on the tree, numbering and all DEPS is proved exactly; the expectations violated by the code are refuted"
  },
  {
   "property": "C63",
   "status": "proved",
   "theorems": [
    "C63_join",
    "C63_concat",
    "C63_keep_spaces",
    "C63_cut_at_boundaries",
    "C63_document"
   ],
   "note": ""
  },
  {
   "property": "C64",
   "status": "partial",
   "theorems": [
    "C64_unselected_partial",
    "C64_delete_refuted",
    "C64_fail_refuted"
   ],
   "note": "proved for process, skip and skip_warn; refuted for delete and fail"
  },
  {
   "property": "C65",
   "status": "partial",
   "theorems": [
    "C65_linked_partial",
    "C65_kept_partial",
    "C65_no_words_refuted",
    "C65_span_refuted",
    "C65_create_refuted",
    "C65_sorted_refuted",
    "C65_removed_refuted"
   ],
   "note": "linking proved for all histories in which words are given as a non-empty list of nodes of one tree and changing the entity does not raise; the other parts are refuted"
  },
  {
   "property": "C66",
   "status": "partial",
   "theorems": [
    "C66_lists_partial",
    "C66_mwts_refuted",
    "C66_remove_refuted",
    "C66_empty_refuted"
   ],
   "note": "tokens keep their words, form and MISC and change the list; mwt.root is stale and empty nodes stay in the old tree"
  },
  {
   "property": "C67",
   "status": "partial",
   "theorems": [
    "C67_part_partial",
    "C67_consistent_refuted",
    "C67_mwt_refuted"
   ],
   "note": "everything but the ords of the words left behind is proved for all subsets whose last word is in no multi-word token; full consistency if the moved words are the last ones"
  },
  {
   "property": "C68",
   "status": "partial",
   "theorems": [
    "C68_round_trip_partial",
    "C68_crossing_refuted",
    "C68_discontinuous_refuted",
    "C68_hyphen_refuted",
    "C68_reserved_refuted",
    "C68_type_refuted",
    "C68_id_refuted",
    "C68_no_mentions_refuted",
    "C68_no_entities_refuted"
   ],
   "note": "proved for every document meeting [storable] (mentions of different entities may cross in any way; discontinuous mentions, nesting and empty nodes are included); headers other than eid-etype-head-other are not modelled; bridging and split antecedents: C72, C73"
  },
  {
   "property": "C69",
   "status": "partial",
   "theorems": [
    "C69_first_documents_partial",
    "C69_not_a_prefix_refuted",
    "C69_split_docs_refuted",
    "C69_bundles_per_doc_refuted",
    "C69_too_many_refuted",
    "C69_last_sentence_refuted"
   ],
   "note": "proved for well-formed CoNLL-U files each starting with newdoc, for all N and all such files, with or without merge; refuted for files that go on with a document, split_docs, bundles_per_doc, a missing empty line at the end; the number of documents may be N+1"
  },
  {
   "property": "C70",
   "status": "proved",
   "theorems": [
    "C70_trees",
    "C70_bundles",
    "C70_line_end_refuted",
    "C70_entity_refuted",
    "C70_same_id_refuted"
   ],
   "note": "the property with the exceptions named in it, each of which is a refutation; doc_json comments and coreference are not part of this model (coreference: C68)"
  },
  {
   "property": "C71",
   "status": "partial",
   "theorems": [
    "C71_drawing_partial",
    "C71_one_parent",
    "C71_determines_partial",
    "C71_hints_refuted"
   ],
   "note": "proved for hints=True (the default); with hints=False the code leaves gaps in the lines (C71_hints_refuted); colours, marked_only and the headers above the tree are not modelled"
  },
  {
   "property": "C72",
   "status": "partial",
   "theorems": [
    "C72_round_trip_partial",
    "C72_memory_partial",
    "C72_loaded",
    "C72_dead_links_refuted",
    "C72_only_dead_refuted",
    "C72_same_start_refuted",
    "C72_relation_refuted"
   ],
   "note": "proved for all documents in which no two mentions of an entity start at the same word, links to entities without mentions are apart, and relations contain no separator; the mentions themselves are the subject of C68; no GRP header"
  },
  {
   "property": "C73",
   "status": "partial",
   "theorems": [
    "C73_round_trip_partial",
    "C73_loaded",
    "C73_single_refuted",
    "C73_dead_refuted"
   ],
   "note": "proved for all documents whose entities have no or at least two antecedents, all with mentions"
  },
  {
   "property": "C74",
   "status": "partial",
   "theorems": [
    "C74_list_partial",
    "C74_step_partial",
    "C74_query_partial",
    "C74_targets",
    "C74_query_refuted",
    "C74_held_refuted"
   ],
   "note": "all histories of list operations through mention.bridging; queries and references to empty lists are refuted"
  },
  {
   "property": "C75",
   "status": "partial",
   "theorems": [
    "C75_result_partial",
    "C75_no_pairs_partial",
    "C75_isolated_partial",
    "C75_pair_partial",
    "C75_empty",
    "C75_projective_refuted",
    "C75_symbol_refuted",
    "C75_overlap_refuted",
    "C75_children_refuted",
    "C75_label_refuted"
   ],
   "note": "termination, the words, the single child of the root, its label, the frame and the only possible exception are proved for all non-empty sentences; freedom from exceptions and what happens to the other words for all sentences without an opening mark; projective attachment of every mark, also in non-projective trees, if no two marks are neighbours and there is no opening mark; the first pair of marks around a phrase without further marks is attached to the head of the phrase, projectively; the rest is refuted; copy_to_enhanced is not modelled"
  },
  {
   "property": "C76",
   "status": "partial",
   "theorems": [
    "C76_remove_partial",
    "C76_feats_partial",
    "C76_all_removed_refuted",
    "C76_feats_refuted"
   ],
   "note": "text, well-formedness and exactly which tokens are removed are proved for all sentences; every second token stays (C76_all_removed_refuted); the features are proved if some word but the first has one, otherwise they are lost (C76_feats_refuted)"
  },
  {
   "property": "C77",
   "status": "proved",
   "theorems": [
    "C77_join",
    "C77_empty_form"
   ],
   "note": "for all well-formed sentences with non-empty forms and OrigForm not used as a flag without a value"
  },
  {
   "property": "C78",
   "status": "proved",
   "theorems": [
    "C78_join"
   ],
   "note": "for all well-formed sentences; no MISC SpaceAfter assigned None through a mapping; the technical root has no SpaceAfter=No"
  },
  {
   "property": "C79",
   "status": "proved",
   "theorems": [
    "C79_merge",
    "C79_empty"
   ],
   "note": "one tree per bundle, non-empty sound sentences; empty nodes of appended sentences are lost (as the statement says); MWT.root of moved tokens is stale (C66)"
  },
  {
   "property": "C80",
   "status": "partial",
   "theorems": [
    "C80_by_misc_partial",
    "C80_first_marked",
    "C80_by_id_partial",
    "C80_by_id_refuted"
   ],
   "note": "the MISC mode is proved in full; with sent_id the code never joins: previous_tree is not set in that mode"
  },
  {
   "property": "C81",
   "status": "partial",
   "theorems": [
    "C81_by_id_partial",
    "C81_by_id_errors",
    "C81_by_misc_partial",
    "C81_unmarked",
    "C81_last_token_refuted",
    "C81_first_word_refuted"
   ],
   "note": "the sent_id mode is proved for all sentences whose last word is not in a multi-word token (otherwise ValueError: C81_last_token_refuted); the MISC mode for one bundle with one split point, or none; with misc_value a mark on the first word leaves an empty sentence (C81_first_word_refuted); not proved: several split points in one sentence"
  },
  {
   "property": "C82",
   "status": "proved",
   "theorems": [
    "C82_merge",
    "C82_any_order",
    "C82_mentions",
    "C82_entity_refuted"
   ],
   "note": "for all linked states (C65) and all iteration orders of the set; C82_entity_refuted shows the exception that the statement names"
  },
  {
   "property": "C83",
   "status": "partial",
   "theorems": [
    "C83_ids",
    "C83_ids_file_partial",
    "C83_ids_reset_partial",
    "C83_reset_refuted",
    "C83_files_refuted",
    "C83_mapping",
    "C83_empty_ords"
   ],
   "note": "numbering without file names, FEATS/MISC and empty nodes are proved in full; with file names ids are proved unique within a document without reset, or with newdoc in its first bundle only; otherwise refuted"
  },
  {
   "property": "C84",
   "status": "partial",
   "theorems": [
    "C84_fill",
    "C84_empty_node_error",
    "C84_reachable_partial",
    "C84_reachable_refuted",
    "C84_cleared_refuted"
   ],
   "note": "filling and keeping are proved in full, with the error for empty nodes; reachability is proved if words with their own enhanced dependencies have the basic head among them and empty nodes have a head that is not empty, and refuted in general"
  },
  {
   "property": "C85",
   "status": "partial",
   "theorems": [
    "C85_tokens",
    "C85_text_partial",
    "C85_text_refuted"
   ],
   "note": "the tokens are proved in full; the text is proved to be kept if SpaceAfter of the removed token and of its words agree, and refuted otherwise"
  },
  {
   "property": "C86",
   "status": "proved",
   "theorems": [
    "C86_index",
    "C86_run",
    "C86_error",
    "C86_reached",
    "C86_linked",
    "C86_order_refuted"
   ],
   "note": "C86_reached shows that the hypothesis on the table of entities holds after any calls; C86_order_refuted shows the exception that the statement names"
  },
  {
   "property": "C87",
   "status": "partial",
   "theorems": [
    "C87_remove",
    "C87_saved_partial",
    "C87_saved_refuted",
    "C87_nodes_refuted"
   ],
   "note": "removing is proved in full; the saved file is proved to have exactly the other entities for storable documents (C68) with some other entity, and refuted if there is none; that nodes list only mentions of entities of the document is refuted"
  },
  {
   "property": "C88",
   "status": "proved",
   "theorems": [
    "C88_relabelled",
    "C88_at_most_one",
    "C88_error",
    "C88_root_refuted"
   ],
   "note": "for all consistent trees whose labels have no line break; C88_root_refuted and C88_error show the exceptions that the statement names"
  },
  {
   "property": "C89",
   "status": "proved",
   "theorems": [
    "C89_counts",
    "C89_bounds",
    "C89_perfect",
    "C89_symmetric",
    "C89_any_order",
    "C89_mismatch",
    "C89_scores",
    "C89_percent"
   ],
   "note": "exact rationals instead of floats; printing with two decimals is not modelled"
  },
  {
   "property": "C90",
   "status": "proved",
   "theorems": [
    "C90_tree",
    "C90_edge",
    "C90_other",
    "C90_top",
    "C90_unlabelled",
    "C90_labels_refuted"
   ],
   "note": "C90_top, C90_unlabelled and C90_labels_refuted show the exceptions that the statement names; what happens to one word is proved for every state of the run (C90_edge, C90_other), and the whole run by an invariant (C90_tree)"
  },
  {
   "property": "C91",
   "status": "partial",
   "theorems": [
    "C91_tree",
    "C91_name_partial",
    "C91_other",
    "C91_numbers_refuted",
    "C91_names_refuted"
   ],
   "note": "that the block never raises and keeps the tree, and how a name is converted, is proved for all trees; that names with digits are skipped and the others converted is refuted: the test in the code is inverted, so C91_name_partial is about names with a digit"
  }
 ]
}
