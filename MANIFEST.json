{
 "claims": [
  {
   "property": "C01",
   "status": "proved",
   "theorems": [
    "C01_concat_text",
    "C01_nesting"
   ],
   "note": ""
  },
  {
   "property": "C02",
   "status": "proved",
   "theorems": [
    "C02_prefix_text",
    "C02_prefixed_lines"
   ],
   "note": ""
  },
  {
   "property": "C03",
   "status": "proved",
   "theorems": [
    "C03_edits"
   ],
   "note": "positions fit i32 (end < i32::MAX) and sixteenths are 0..15"
  },
  {
   "property": "C04",
   "status": "proved",
   "theorems": [
    "C04_reads",
    "C04_order",
    "C04_equal_keys"
   ],
   "note": "for source, node and list_map"
  },
  {
   "property": "C05",
   "status": "proved",
   "theorems": [
    "C05_pieces",
    "C05_exact"
   ],
   "note": ""
  },
  {
   "property": "C06",
   "status": "proved",
   "theorems": [
    "C06_size"
   ],
   "note": ""
  },
  {
   "property": "C07",
   "status": "proved",
   "theorems": [
    "C07_column_text",
    "C07_prefix_exceptions_refuted"
   ],
   "note": "all trees; the exceptions named in the statement are the hypothesis prefix_fine, and the second theorem shows they are real"
  },
  {
   "property": "C08",
   "status": "proved",
   "theorems": [
    "C08_line_text",
    "C08_whole_lines",
    "C08_edits_refuted",
    "C08_far_refuted",
    "C08_prefix_refuted"
   ],
   "note": "Under the stated side conditions; the condition on prefixed pieces is shown to hold for trees made of whole lines. The refuted theorems show that the conditions are needed."
  },
  {
   "property": "C09",
   "status": "proved",
   "theorems": [
    "C09_vlq_round_trip",
    "C09_alphabet",
    "C09_format"
   ],
   "note": "unbounded integers; crate vlq modelled from its documentation"
  },
  {
   "property": "C10",
   "status": "proved",
   "theorems": [
    "C10_mappings_string",
    "C10_after_apply"
   ],
   "note": "decoded by an independent reader of the v3 format (SpecMap.v)"
  },
  {
   "property": "C11",
   "status": "proved",
   "theorems": [
    "C11_generator",
    "C11_emitted",
    "C11_tree",
    "C11_dense",
    "C11_empty_chunk_refuted"
   ],
   "note": "generator list: every chunk tree; emitted string: no empty chunk, the last theorem shows the condition is needed"
  },
  {
   "property": "C12",
   "status": "proved",
   "theorems": [
    "C12_columns",
    "C12_columns_bytes",
    "C12_lines",
    "C12_columns_refuted"
   ],
   "note": "exact columns for ASCII text whose carriage returns only stand before newlines, as in the statement"
  },
  {
   "property": "C13",
   "status": "proved",
   "theorems": [
    "C13_column_map",
    "C13_line_map"
   ],
   "note": "Column map and line map, every character."
  },
  {
   "property": "C14",
   "status": "proved",
   "theorems": [
    "C14_concat",
    "C14_concat_dense"
   ],
   "note": ""
  },
  {
   "property": "C15",
   "status": "proved",
   "theorems": [
    "C15_prefix",
    "C15_prefix_emitted"
   ],
   "note": ""
  },
  {
   "property": "C16",
   "status": "proved",
   "theorems": [
    "C16_replace",
    "C16_inside_chunk",
    "C16_boundary_refuted"
   ],
   "note": "at a chunk boundary new text belongs to the chunk before"
  },
  {
   "property": "C17",
   "status": "proved",
   "theorems": [
    "C17_line_map",
    "C17_ascii_columns"
   ],
   "note": "For all lists of text nodes whose line counts are right, which is what every constructor yields. Columns are bytes; for ASCII texts they are character columns."
  },
  {
   "property": "C18",
   "status": "proved",
   "theorems": [
    "C18_map_code",
    "C18_pieces",
    "C18_identity",
    "C18_test",
    "C18_merge",
    "C18_untidy_refuted"
   ],
   "note": "Text: any stateful function, including its failure. Attribution: if each output piece has its single newline, if any, at the end; refuted otherwise."
  },
  {
   "property": "C19",
   "status": "proved",
   "theorems": [
    "C19_read_text",
    "C19_decoding_suffices"
   ],
   "note": ""
  },
  {
   "property": "C20",
   "status": "proved",
   "theorems": [
    "C20_read_lines"
   ],
   "note": "Source indices and lines below 2^32."
  },
  {
   "property": "C21",
   "status": "proved",
   "theorems": [
    "C21_text",
    "C21_source"
   ],
   "note": ""
  },
  {
   "property": "C22",
   "status": "proved",
   "theorems": [
    "C22_map",
    "C22_data",
    "C22_generator"
   ],
   "note": ""
  },
  {
   "property": "C23",
   "status": "proved",
   "theorems": [
    "C23_apply",
    "C23_source",
    "C23_again",
    "C23_set",
    "C23_twice"
   ],
   "note": ""
  },
  {
   "property": "C24",
   "status": "proved",
   "theorems": [
    "C24_closest",
    "C24_after_apply"
   ],
   "note": ""
  },
  {
   "property": "C25",
   "status": "proved",
   "theorems": [
    "C25_order_independent",
    "C25_after_apply_refuted"
   ],
   "note": "proved for histories of addMapping, queries, serializations and content updates; the refuted theorem is the finding that reads matter once applySourceMap is followed by addMapping"
  },
  {
   "property": "C26",
   "status": "proved",
   "theorems": [
    "C26_no_duplicates_complete",
    "C26_first_use_order",
    "C26_order_after_apply",
    "C26_list_sources"
   ],
   "note": "generator maps; list maps are covered with the list-map theorems"
  },
  {
   "property": "C27",
   "status": "partial",
   "theorems": [
    "C27_aligned_partial",
    "C27_contents",
    "C27_aligned_refuted",
    "C27_list_aligned_partial",
    "C27_list_refuted"
   ],
   "note": "false in general: sources without content are skipped; proved when every source has a content. C27_contents says over all histories what is listed: the first content of each source since the last removal"
  },
  {
   "property": "C28",
   "status": "proved",
   "theorems": [
    "C28_write_read"
   ],
   "note": "also for equal generated positions; fields must fit u32 as the reader requires; contents when every source has one (see C27)"
  },
  {
   "property": "C29",
   "status": "partial",
   "theorems": [
    "C29_indices_partial",
    "C29_indices_refuted"
   ],
   "note": "false in general: duplicates are removed before indexing; proved for duplicate-free arrays or check_dup = false"
  },
  {
   "property": "C30",
   "status": "partial",
   "theorems": [
    "C30_reads_partial",
    "C30_steady_data",
    "C30_steady_generator",
    "C30_columns",
    "C30_lines",
    "C30_settled",
    "C30_refuted",
    "C30_unordered_refuted"
   ],
   "note": "False in general: a SourceMapSource made from an emitted generator answers with other column maps after its line map was read (C30_refuted, C30_unordered_refuted). Proved: on any graph, for programs that read only texts, sizes and column maps, or only texts, sizes and line maps; for all later reads of an object whose line map (module not false) was read once; and for all reads if every SourceMapSource was made from map data, or from an ordered generator without an inner map."
  },
  {
   "property": "C31",
   "status": "proved",
   "theorems": [
    "C31_snapshot",
    "C31_unaffected",
    "C31_shared",
    "C31_self"
   ],
   "note": "Adding a ConcatSource copies the current children; other children are shared handles."
  },
  {
   "property": "C32",
   "status": "proved",
   "theorems": [
    "C32_terminates",
    "C32_cycle_or_text",
    "C32_panic_iff_cycle",
    "C32_like_tree",
    "C32_tree_exists"
   ],
   "note": "Every read terminates; source() panics exactly when a cycle is reachable; acyclic sharing is indistinguishable from a tree."
  },
  {
   "property": "C33",
   "status": "proved",
   "theorems": [
    "C33_split",
    "C33_split_at",
    "C33_substr",
    "C33_char_split",
    "C33_offset_back",
    "C33_bytes",
    "C33_reader"
   ],
   "note": "The unsafe accesses are modelled as partial functions on (buffer, start, length) that fail outside the buffer or inside a character; the theorems show they never fail."
  },
  {
   "property": "C34",
   "status": "proved",
   "theorems": [
    "C34_keep",
    "C34_drop"
   ],
   "note": ""
  },
  {
   "property": "C35",
   "status": "proved",
   "theorems": [
    "C35_chars",
    "C35_fast",
    "C35_slice",
    "C35_flags"
   ],
   "note": ""
  },
  {
   "property": "C36",
   "status": "proved",
   "theorems": [
    "C36_interning",
    "C36_forever",
    "C36_cleared"
   ],
   "note": "All sequences of add and addUnchecked calls."
  },
  {
   "property": "C37",
   "status": "partial",
   "theorems": [
    "C37_cached_partial",
    "C37_map_refuted",
    "C37_size_refuted"
   ],
   "note": "Faithful for call sequences without map(options) misses that drop options and for ASCII sizes; both exceptions are refuted by witness."
  },
  {
   "property": "C38",
   "status": "partial",
   "theorems": [
    "C38_mirror_partial",
    "C38_text",
    "C38_mirror_refuted"
   ],
   "note": "True for nodes and lists; false for strings, where the test of the source is inverted."
  },
  {
   "property": "C39",
   "status": "partial",
   "theorems": [
    "C39_to_string_partial",
    "C39_to_string_refuted"
   ],
   "note": "True only for lists of single-line nodes; code and source nodes are not printed."
  },
  {
   "property": "C40",
   "status": "proved",
   "theorems": [
    "C40_answers",
    "C40_serialised",
    "C40_wrapped_string",
    "C40_duplicate_source_refuted"
   ],
   "note": "For every object graph built by API calls from well-formed duplicate-free maps or maps emitted earlier. Exceptions proved: cycles and directly wrapped strings; a map listing a source twice panics (finding)."
  },
  {
   "property": "C41",
   "status": "partial",
   "theorems": [
    "C41_prefix_partial",
    "C41_single_line",
    "C41_prefix_refuted"
   ],
   "note": "True for pieces with a newline; exact result given for the others, where the claim is false."
  },
  {
   "property": "C42",
   "status": "proved",
   "theorems": [
    "C42_emitted",
    "C42_leaves",
    "C42_map_source",
    "C42_concat",
    "C42_prefix",
    "C42_prefix_whole"
   ],
   "note": "ReplaceSource is the subject of C43."
  },
  {
   "property": "C43",
   "status": "partial",
   "theorems": [
    "C43_edits_partial",
    "C43_any_source_partial",
    "C43_near",
    "C43_text",
    "C43_newline_refuted"
   ],
   "note": "Exact for texts without newline; for arbitrary texts every character is at most one line off (C43_near), and the exact claim is false (C43_newline_refuted)."
  },
  {
   "property": "C44",
   "status": "partial",
   "theorems": [
    "C44_unread",
    "C44_read",
    "C44_inner",
    "C44_contents",
    "C44_inner_contents",
    "C44_read_refuted"
   ],
   "note": "An unread result is taken over exactly for every tree; after reads, and through plain fields, exactly when no mapped chunk is empty (all trees without removals of whole mapped chunks). C44_read_refuted shows the exception is real. Texts below 2^31 characters; for the plain fields original places and table sizes below 2^32. As inner map: C44_inner, read or unread, under the same condition. Contents (C44_contents, C44_inner_contents) for trees whose SourceMapSources have not been read before and without edits around ConcatSources."
  },
  {
   "property": "C45",
   "status": "partial",
   "theorems": [
    "C45_scalars",
    "C45_exact",
    "C45_pieces",
    "C45_refuted"
   ],
   "note": "Exact characterisation of the strings that survive; C45_refuted shows lost byte order mark, lone surrogates and pairs given in two pieces."
  },
  {
   "property": "C46",
   "status": "partial",
   "theorems": [
    "C46_positions",
    "C46_negative_refuted",
    "C46_large_refuted"
   ],
   "note": "Exact for non-negative or whole positions within 32 bits; every finite double is modelled (z / 2^k). Refuted for negative fractions, for positions from 2^31 on and for Infinity."
  },
  {
   "property": "C47",
   "status": "partial",
   "theorems": [
    "C47_source",
    "C47_size",
    "C47_pair_refuted",
    "C47_bom_refuted",
    "C47_size_refuted"
   ],
   "note": "Text: all trees with well-formed strings whose edited texts contain no surrogates and that do not start with U+FEFF. Size: exactly for leaves and ASCII texts. The exceptions are refuted."
  },
  {
   "property": "C48",
   "status": "partial",
   "theorems": [
    "C48_columns",
    "C48_refuted"
   ],
   "note": "Per line: every line without surrogates is read correctly, whatever the other lines contain. Refuted for lines with surrogate pairs and for a first line with a byte order mark."
  },
  {
   "property": "C49",
   "status": "partial",
   "theorems": [
    "C49_hash",
    "C49_collisions",
    "C49_change",
    "C49_unseen",
    "C49_prefix_refuted"
   ],
   "note": "No collisions among trees of Raw, Original, Replace and Concat sources. With all classes a single changed text changes the hash (C49_change) and changed names or maps do not (C49_unseen). In general false: a prefix is hashed behind the text without separator."
  },
  {
   "property": "C50",
   "status": "partial",
   "theorems": [
    "C50_stable",
    "C50_assigned",
    "C50_shows",
    "C50_lost",
    "C50_text",
    "C50_text_stable",
    "C50_text_lost",
    "C50_used",
    "C50_again",
    "C50_again_refuted",
    "C50_in_place_refuted",
    "C50_names_refuted"
   ],
   "note": "All histories. Reads before wrapping or clear() and properties read once are right forever; what is used is what is shown unless an array is changed in place; repeated wrapping works exactly while all properties are readable. The exceptions are proved (C50_lost) or refuted by witnesses. Elements of arrays may be null. The same holds of r.source (C50_text, C50_text_stable, C50_text_lost)."
  },
  {
   "property": "C51",
   "status": "partial",
   "theorems": [
    "C51_safe",
    "C51_unshared",
    "C51_clear",
    "C51_stale",
    "C51_allocator",
    "C51_reuse_safe",
    "C51_reuse_clear",
    "C51_clear_refuted",
    "C51_free_refuted",
    "C51_reuse_refuted",
    "C51_alias_refuted",
    "C51_leak_refuted"
   ],
   "note": "Proved for all histories that do not free RawSources by hand nor use them across clear(), and for all histories in which RawSources have different texts; no leak if nothing threw and no node() was taken; for addresses that are never reused and (C51_allocator) for any allocator that reuses them, where using another object at the same address is a fault too. False otherwise, with witnesses. Contents are not modelled there."
  },
  {
   "property": "C52",
   "status": "proved",
   "theorems": [
    "C52_map",
    "C52_lines",
    "C52_numbering",
    "C52_raw"
   ],
   "note": "For columns true (C52_map) and false (C52_lines), module true or false. Hypotheses: texts are BMP without surrogates; for C52_map OriginalSource texts ASCII with CR only before LF, no empty string children; for C52_lines a PrefixSource has a prefix without line breaks and is around pieces that end lines, a PrefixSource inside is around one source or ends with a line break, and for module: true a SourceMapSource inside does not end with one (false otherwise: C08_prefix_refuted); input maps sound (no duplicate sources or names, 32-bit numbers, indices in range, no two disagreeing segments), no ReplaceSource; elements of arrays may be null (C52_null_case); the text claim also excludes a BOM at the start (see C45). A RawSource by itself has map null."
  },
  {
   "property": "C53",
   "status": "partial",
   "theorems": [
    "C53_emitted",
    "C53_own_or_empty",
    "C53_in_order",
    "C53_edit",
    "C53_read",
    "C53_original",
    "C53_files",
    "C53_edited_original",
    "C53_cache_refuted"
   ],
   "note": "Proved: what any node's map says (C53_emitted), the bound (C53_own_or_empty), exactness for sources in order (the rest). False in general, and dependent on what was put into StringCache before: C53_cache_refuted. Names of text at one place may be exchanged; a consumer is taken to read the last of several segments at one place."
  },
  {
   "property": "C54",
   "status": "partial",
   "theorems": [
    "C54_node",
    "C54_tree",
    "C54_says",
    "C54_needed",
    "C54_edited_refuted"
   ],
   "note": "Proved for all nodes with non-empty chunks and for all trees without edits whose maps can be read (dense); refuted for edited sources, where removed text leaves listed sources and second segments for one place."
  },
  {
   "property": "C55",
   "status": "partial",
   "theorems": [
    "C55_result",
    "C55_value",
    "C55_lines",
    "C55_order",
    "C55_order_after",
    "C55_fresh",
    "C55_repeat",
    "C55_edited_refuted"
   ],
   "note": "Proved for line maps of all expressions (C55_lines), for column maps of all expressions without ReplaceSource (C55_result, C55_value), and for column maps of all expressions whatsoever if their strings were first seen in the same order (C55_order; C55_fresh and C55_repeat are the cases of new strings and of repeated evaluation). Refuted for column maps of edited sources whose strings were seen in another order."
  },
  {
   "property": "C56",
   "status": "partial",
   "theorems": [
    "C56_program",
    "C56_edited",
    "C56_meaning",
    "C56_moved",
    "C56_freed",
    "C56_array",
    "C56_prepend_refuted",
    "C56_prefix_refuted"
   ],
   "note": "Proved for all programs of the covered calls; false for strings that are prepended (their source is dropped, or a nameless source is made up) and for mapGeneratedCode with a prefix on pieces that do not end lines (C56_prefix_refuted). mapGeneratedCode is covered, any number of times, for prefixes on lists of whole lines and for the identity where C18 holds; not for the function of the tests (C18). listMap() of expressions with ReplaceSources is covered by C56_edited, where the lines of edited text are known only as far as C59 says."
  },
  {
   "property": "C57",
   "status": "partial",
   "theorems": [
    "C57_program",
    "C57_added",
    "C57_built",
    "C57_freed",
    "C57_self",
    "C57_line_refuted"
   ],
   "note": "Proved for all programs under the stated conditions; false for nodes with line 0 (C57_line_refuted), for which the map cannot be read."
  },
  {
   "property": "C58",
   "status": "partial",
   "theorems": [
    "C58_map",
    "C58_fresh",
    "C58_modules",
    "C58_contents_refuted"
   ],
   "note": "Proved under the stated conditions. That no content is lost is false for a ReplaceSource around a ConcatSource (C58_contents_refuted: deleting text across two sources loses the content of the second, and the later contents move up), though what is listed was given for its source; without the order of places the map can be wrong (C53_cache_refuted). A prefix around edits may get the place of deleted text. For columns: false see C59."
  },
  {
   "property": "C59",
   "status": "partial",
   "theorems": [
    "C59_map",
    "C59_contents",
    "C59_prefix_refuted"
   ],
   "note": "PrefixSources stand around pieces that end lines, with edits inside lines in them; around an edit at the beginning of a line the text itself is wrong (C59_prefix_refuted). For overlapping edits the text is another one than source() (C08_edits_refuted). For edits inside edits or around PrefixSources, and texts with line breaks, lines are only determined up to the next one"
  },
  {
   "property": "C60",
   "status": "partial",
   "theorems": [
    "C60_source",
    "C60_size",
    "C60_map",
    "C60_same",
    "C60_lines",
    "C60_edited",
    "C60_line_edited",
    "C60_hash",
    "C60_cached",
    "C60_cached_stays",
    "C60_hash_refuted",
    "C60_hash_loop_refuted"
   ],
   "note": "Proved for all programs; the maps for the expressions of C52, C58, C59 (their conditions apply). updateHash does not follow the text: C60_hash_refuted, C60_hash_loop_refuted. sourceAndMap of a CachedSource: C62."
  },
  {
   "property": "C61",
   "status": "proved",
   "theorems": [
    "C61_succeeds",
    "C61_throws",
    "C61_runs",
    "C61_proper",
    "C61_denotes",
    "C61_hash",
    "C61_hash_throws",
    "C61_hash_proper"
   ],
   "note": "Which calls are allowed is said in SpecThrow.v by what the objects hold; no heap, borrow or pointer. sourceAndMap of a CachedSource (C62 says when it returns a map) counts as not allowed here. The depth of the stack is a parameter of updateHash: C61_hash says it returns for all depths from some on, C61_hash_throws for none."
  },
  {
   "property": "C62",
   "status": "partial",
   "theorems": [
    "C62_pair",
    "C62_map",
    "C62_fresh",
    "C62_text",
    "C62_again",
    "C62_again_map",
    "C62_stale_refuted",
    "C62_shared_refuted",
    "C62_text_refuted",
    "C62_nested_refuted"
   ],
   "note": "Proved for all programs for the expressions of C52, C58 and C59, for CachedSources at any depth around each other. False without the conditions: C62_stale_refuted (text from before, map from after a change), C62_shared_refuted (a map used in a SourceMapSource is unreadable for the next caller), C62_text_refuted (source() depends on an earlier sourceAndMap where C07 fails), C62_nested_refuted (columns: false is dropped between CachedSources). Missing: the SourceMapSource made of a result is not an object of the program (C44, C50)."
  },
  {
   "property": "C63",
   "status": "partial",
   "theorems": [
    "C63_again",
    "C63_direct",
    "C63_inside",
    "C63_lines",
    "C63_edited",
    "C63_contents_refuted",
    "C63_lines_refuted",
    "C63_edited_refuted"
   ],
   "note": "Proved for the expressions of C52, columns true and false; for false the text is ASCII (columns of such maps are bytes, C17) and the numbers of the emitted map fit 32 bits. Edited expressions (C58): the copy says the same if the map has one segment for a place and its numbers fit 32 bits; otherwise it can say something else (C63_edited_refuted). The contents inside other expressions are false in general: sourcesContent leaves out sources without content, so a copy gives the others to the wrong sources (C63_contents_refuted). Asked for lines again, a copy is not the same where a line has two sources (C63_lines_refuted)."
  },
  {
   "property": "C64",
   "status": "proved",
   "theorems": [
    "C64_arguments",
    "C64_call",
    "C64_string",
    "C64_ints",
    "C64_history",
    "C64_leak",
    "C64_leak_refuted"
   ],
   "note": "For every allocator and module function that keep the discipline of SpecGlue.v (the functions of the module themselves are modelled elsewhere, on values). C64_leak says exactly what stays allocated if the glue throws before the module is reached; C64_leak_refuted is a case. Elements of arrays are whole numbers."
  },
  {
   "property": "C65",
   "status": "partial",
   "theorems": [
    "C65_says",
    "C65_same",
    "C65_lines",
    "C65_edited",
    "C65_edited_lines",
    "C65_regrouped",
    "C65_written_refuted",
    "C65_prefix_refuted"
   ],
   "note": "C65_regrouped: for all expressions, nesting of ConcatSources does not matter for anything that is read. The other rearrangements (texts cut or joined, prefixes): for all chains of them in the scope of C52; in a ReplaceSource (C65_edited, C65_edited_lines) for kept characters, and for insertions with columns for new text too, under the conditions of C58 and C59. Not proved: that after these the maps of edited expressions are the same altogether. That the mappings string is the same also without columns is false (C65_written_refuted): RawSources 'x' and 'y\\n' give 'A;', RawSource 'xy\\n' gives ';'. C65_prefix_refuted: the side conditions on prefixes are needed."
  },
  {
   "property": "C66",
   "status": "partial",
   "theorems": [
    "C66_text",
    "C66_map",
    "C66_lines",
    "C66_contents_refuted",
    "C66_seam_refuted",
    "C66_lines_refuted"
   ],
   "note": "Texts: proved for all trees and all edits that do not cross a seam. Maps with columns: proved for kept characters under the conditions of C58 (in_order). Line maps: proved for kept characters under the conditions of C59. The same sourcesContent is false (C66_contents_refuted), and so are the same attribution of text inserted at a seam if it is done in the second part (C66_seam_refuted) and the same line mappings (C66_lines_refuted)."
  },
  {
   "property": "C67",
   "status": "partial",
   "theorems": [
    "C67_text",
    "C67_one",
    "C67_one_by_one",
    "C67_undone",
    "C67_order_refuted",
    "C67_map",
    "C67_written_refuted"
   ],
   "note": "Texts: proved for all trees, all forward edits of the first step and all edits of the second step that are apart from them, go from front to back and are inside the text. Without that order it is false (C67_order_refuted). Maps with columns: proved for kept characters under the conditions of C58 (in_order); the same mappings are false (C67_written_refuted). Line maps are not covered."
  },
  {
   "property": "C68",
   "status": "partial",
   "theorems": [
    "C68_idle",
    "C68_lines",
    "C68_lines_refuted",
    "C68_hash_refuted",
    "C68_string_refuted"
   ],
   "note": "With columns: proved for all expressions; equality of the whole result object of sourceAndMap, of source(), of size() between wrapper classes and of StringCache. source() is compared with a leaf only if the text of the leaf is well-formed UTF-16 without BOM (C45). Without columns (C68_lines): same attribution of every character and same sources, for expressions in the scope of C59 whose ReplaceSources have no edits and stand around sources without prefixes; equality of the mappings strings themselves and of sourcesContent is not proved there. False without columns in general (C68_lines_refuted), for updateHash (C68_hash_refuted) and around plain strings (C68_string_refuted)."
  },
  {
   "property": "C69",
   "status": "partial",
   "theorems": [
    "C69_coarse",
    "C69_edited",
    "C69_prefixed",
    "C69_refuted"
   ],
   "note": "Proved for all expressions in the scope of C52 with SourceMapSources whose maps go by lines (by_lines); for bundles of ReplaceSources around such expressions for kept characters, in the scope of C58 and C59 (C69_edited); and with PrefixSources around those (C69_prefixed). There the claim for the map with columns has the condition that both calls return the same text, which is proved if no PrefixSource is around edits that leave a newline at the end (unended; see C07_prefix_exceptions_refuted for a prefix too many). False for other SourceMapSources and without module (C69_refuted). ReplaceSources inside other ReplaceSources are not covered."
  }
 ]
}