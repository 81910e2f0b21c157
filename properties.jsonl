{"id": "C01", "title": "ConcatSource text is the concatenation of its children", "statement": "source() of a ConcatSource equals the concatenation, in the order of the add() calls, of the source() text of what was added. Adding a ConcatSource contributes exactly the text its children have, so nesting or flattening concatenations never changes the text.", "quantifier": "all lists of added items (strings and sources of every kind), all nestings of ConcatSource inside ConcatSource, all Unicode texts", "why_tests_cant": "the number, order and nesting of items is unbounded; tests fix two or three literal children", "anchors": ["src/concat_source.rs:ConcatSource::add", "src/concat_source.rs:ConcatSource::source"]}
{"id": "C02", "title": "PrefixSource puts the prefix at the start of every line", "statement": "source() of a PrefixSource is the wrapped text with the prefix inserted at the very start and right after each newline that is followed by at least one more character; nothing else is added, dropped or reordered.", "quantifier": "all wrapped texts (any number of lines, empty lines, trailing newline or not, multi-byte characters) and all prefixes, including prefixes containing newlines", "why_tests_cant": "texts and prefixes are unbounded; edge positions of newlines are infinitely many", "anchors": ["src/prefix_source.rs:make_prefixed_string", "src/prefix_source.rs:PrefixSource::source"]}
{"id": "C03", "title": "ReplaceSource performs exactly the requested edits", "statement": "For pairwise non-overlapping edits, source() of a ReplaceSource is the original text in which every range [start,end] given to replace() is exchanged for its new text and every insert(pos) text is put before character pos; all untouched characters are kept in order. Positions count Unicode characters.", "quantifier": "all texts, all finite lists of non-overlapping replace/insert calls in any call order, including positions before the start or after the end of the text", "why_tests_cant": "the space of edit lists and texts is unbounded, and multi-byte characters make byte and character positions differ", "anchors": ["src/replace_source.rs:ReplaceSource::replace", "src/replace_source.rs:ReplaceSource::insert", "src/replace_source.rs:ReplaceSource::replace_string", "src/utils.rs:split_str"]}
{"id": "C04", "title": "Order of replace/insert calls and interleaved reads do not matter", "statement": "The result of a ReplaceSource depends only on the list of edits: reading it (source, size, map) between edits never changes later results, and calling the same edits in another order gives the same text unless two edits have exactly equal start and end keys, in which case the earlier call comes first in the output.", "quantifier": "all interleavings of replace, insert, source, node and listMap calls; all permutations of edits with distinct keys", "why_tests_cant": "needs every history and every permutation of unboundedly many calls", "anchors": ["src/replace_source.rs:ReplaceSource::sort_replacements", "src/replace_source.rs:ReplaceSource::replace", "src/replace_source.rs:ReplaceSource::insert"]}
{"id": "C05", "title": "Every replacement text survives, even for overlapping edits", "statement": "For arbitrary (possibly overlapping, out-of-range or inverted) edits source() never panics; the result consists of all replacement texts, each exactly once and ordered by (end, start, call order), interleaved with disjoint pieces of the original text in their original order.", "quantifier": "all texts and all finite lists of edits with 32-bit positions", "why_tests_cant": "overlap patterns are unbounded", "anchors": ["src/replace_source.rs:ReplaceSource::replace_string", "src/utils.rs:split_str"]}
{"id": "C06", "title": "size() is the UTF-8 length of source()", "statement": "For every source object, size() computed by the library equals the number of UTF-8 bytes of source(); for texts made of ASCII characters it therefore also equals the JavaScript string length.", "quantifier": "all trees of sources (concat, prefix, replace, leaves) and all texts", "why_tests_cant": "ConcatSource computes the size without building the text; agreement is needed for all trees", "anchors": ["src/source.rs:SourceTrait::size", "src/concat_source.rs:ConcatSource::size"]}
{"id": "C07", "title": "sourceAndMap({columns:true}) returns the same text as source()", "statement": "For every source tree, the text produced together with a column-accurate map equals source(). The only exceptions are prefixes over a tree that yields no text chunk, or whose last chunk is empty while the text ends in a newline.", "quantifier": "all source trees in which a plain string is only used as a ConcatSource child, all columns/module options", "why_tests_cant": "the two computations are independent recursive algorithms over unbounded trees", "anchors": ["src/source_map/source_node.rs:SourceNode::to_string_with_source_map", "src/replace_source.rs:ReplaceSource::node", "src/prefix_source.rs:clone_and_prefix", "src/concat_source.rs:ConcatSource::node", "src/original_source.rs:OriginalSource::node"]}
{"id": "C08", "title": "sourceAndMap({columns:false}) returns the same text as source()", "statement": "For every source tree, the text produced together with a line map (the SourceListMap path) equals source(), provided the edits of each ReplaceSource do not overlap and none of them is inverted, each PrefixSource wraps something whose list-map pieces end at line ends, and the mappings of embedded source maps decode.", "quantifier": "all source trees meeting the side conditions, all options", "why_tests_cant": "independent algorithms over unbounded trees; the replacement pass is a state machine run over an arbitrary cutting of the text into chunks", "anchors": ["src/source_list_map/source_list_map.rs:SourceListMap::to_string_with_source_map", "src/replace_source.rs:ReplaceMappingFunction::map", "src/prefix_source.rs:PrefixMappingFunction::map"]}
{"id": "C09", "title": "Base64 VLQ numbers round-trip", "statement": "Decoding the base64 VLQ encoding of a number gives back that number and consumes exactly the bytes that were produced, whatever follows; encodings use only characters of the base64 alphabet, so never ',' or ';'.", "quantifier": "all integers and all following byte strings", "why_tests_cant": "unbounded integers", "anchors": ["src/source_map/source_map_generator.rs:SourceMapGenerator::serialize_mappings", "src/source_list_map/source_node.rs:SourceNode::get_mappings"]}
{"id": "C10", "title": "The mappings string decodes to the recorded mappings", "statement": "Decoding the mappings string of a generated map by the Source Map v3 rules, and resolving indices through its sources and names arrays, yields exactly the recorded mappings in generated order: same generated line and column, source, original line and column and name.", "quantifier": "all generators filled by any number of valid mappings in any order", "why_tests_cant": "relative encoding makes every segment depend on all earlier ones; needs all lists", "anchors": ["src/source_map/source_map_generator.rs:SourceMapGenerator::serialize_mappings", "src/source_map/source_map_generator.rs:SourceMapGenerator::to_source_map"]}
{"id": "C11", "title": "Column maps attribute every generated character exactly", "statement": "For every tree of text chunks, looking up the position of any character of the generated code in the generated mappings gives the source, original position and name of the chunk the character came from, and nothing for unmapped chunks. If no chunk is empty, this also holds for the emitted mappings string decoded by a standard consumer.", "quantifier": "all chunk trees of any shape, every character position", "why_tests_cant": "state carried from chunk to chunk (active flag, last position) must be right for all sequences of chunks and newlines", "anchors": ["src/source_map/source_node.rs:SourceNode::walk", "src/source_map/source_node.rs:ToSourceMapContext::process_chunk"]}
{"id": "C12", "title": "OriginalSource maps every character to its own position", "statement": "The column map of an OriginalSource maps each character of each non-blank token to the token's own start line and column in the original; with columns:false each character maps to the start of its own line.", "quantifier": "all texts (column-exactness: ASCII texts without carriage returns), all names", "why_tests_cant": "tokenisation and line counting over unbounded texts", "anchors": ["src/original_source.rs:OriginalSource::node", "src/original_source.rs:OriginalSource::list_map"]}
{"id": "C13", "title": "LineToLineMappedSource maps line n to line n", "statement": "In both the column and the line map of a LineToLineMappedSource every character of generated line n maps to line n, column 0 of the named source.", "quantifier": "all texts and names", "why_tests_cant": "unbounded number of lines", "anchors": ["src/line_to_line_mapped_source.rs:LineToLineMappedSource::node", "src/line_to_line_mapped_source.rs:LineToLineMappedSource::list_map"]}
{"id": "C14", "title": "Maps compose under concatenation", "statement": "In the map of a ConcatSource each character keeps exactly the attribution (source, original position, name) it has in the child it came from, independent of its siblings; in particular nothing leaks from one child into the next.", "quantifier": "all lists of children, column maps", "why_tests_cant": "siblings share generator state; needs all sequences", "anchors": ["src/concat_source.rs:ConcatSource::node", "src/source_map/source_node.rs:ToSourceMapContext::process_chunk"]}
{"id": "C15", "title": "Prefixing keeps attributions", "statement": "In the column map of a PrefixSource every wrapped character keeps its attribution and each inserted prefix has the attribution of the character it precedes.", "quantifier": "all wrapped trees whose chunks are non-empty, all prefixes", "why_tests_cant": "chunk boundaries relative to newlines vary without bound", "anchors": ["src/prefix_source.rs:clone_and_prefix", "src/prefix_source.rs:PrefixSource::node"]}
{"id": "C16", "title": "Replacing keeps attributions of untouched text", "statement": "In the column map of a ReplaceSource every untouched character keeps the attribution it had in the wrapped source, for all edits; replacement text whose range begins strictly inside a chunk is attributed to that chunk.", "quantifier": "all wrapped trees and all lists of edits", "why_tests_cant": "splitting trees at arbitrary positions, unbounded edits", "anchors": ["src/replace_source.rs:split_sourcenode", "src/replace_source.rs:replacement_to_sourcenode", "src/replace_source.rs:ReplaceSource::node"]}
{"id": "C17", "title": "Line maps attribute every generated character to the right line", "statement": "Decoding the mappings of a SourceListMap and looking up any generated character of a source piece gives its source and original line (start line plus number of newlines before it in the piece; constant for single-line pieces); characters of plain code map to nothing unless source text precedes them on the same line. Columns count UTF-8 bytes.", "quantifier": "all lists of code/source/single-line nodes, every character", "why_tests_cant": "the encoder keeps running column, line and source state across nodes", "anchors": ["src/source_list_map/source_list_map.rs:SourceListMap::to_string_with_source_map", "src/source_list_map/source_node.rs:SourceNode::get_mappings", "src/source_list_map/single_line_node.rs:SingleLineNode::get_mappings", "src/source_list_map/code_node.rs:CodeNode::get_mappings"]}
{"id": "C18", "title": "mapGeneratedCode transforms text piece by piece and keeps line attributions", "statement": "The text of mapGeneratedCode(f) is the concatenation of f applied to the normalized pieces in order (so the identity function changes nothing), and for line-preserving f every character keeps its source and original line although nodes are merged. The function of _sourcelistmap_map_generated_code_test turns a semicolon into a line break, a break behind a backslash into a space, and drops a break together with a dollar sign in front of it, piece by piece.", "quantifier": "all node lists, all stateful mapping functions", "why_tests_cant": "merging is decided from running flags over unbounded node lists", "anchors": ["src/source_list_map/source_list_map.rs:SourceListMap::map_generated_code", "src/source_list_map/source_node.rs:SourceNode::merge", "src/source_list_map/single_line_node.rs:SingleLineNode::merge"]}
{"id": "C19", "title": "Reading a line map back never loses or invents code", "statement": "fromStringWithSourceMap(code, map) returns a SourceListMap whose text is exactly code, for every code and every well-formed mappings string, whether mappings has fewer, as many or more lines than the code.", "quantifier": "all codes, all mappings strings whose numbers decode", "why_tests_cant": "both inputs are unbounded and only loosely related", "anchors": ["src/source_list_map/from_string_with_source_map.rs:from_string_with_source_map", "src/source_list_map/from_string_with_source_map.rs:add_code", "src/source_list_map/from_string_with_source_map.rs:add_source"]}
{"id": "C20", "title": "Reading a line map back keeps the line attributions", "statement": "In the SourceListMap read by fromStringWithSourceMap each generated line is attributed to the source and line of the first segment on that line that names a source; lines without one are plain code (blank lines after a source line continue that source).", "quantifier": "all codes and well-formed mappings strings", "why_tests_cant": "relative numbers accumulate over unboundedly many lines and segments", "anchors": ["src/source_list_map/from_string_with_source_map.rs:from_string_with_source_map", "src/source_list_map/from_string_with_source_map.rs:add_source"]}
{"id": "C21", "title": "SourceMapSource never alters the code text", "statement": "The text of the node built from a SourceMapSource equals its code for every map, including unsorted maps and mappings that point beyond the end of lines or of the code.", "quantifier": "all codes and all mapping lists", "why_tests_cant": "the splitting loop consumes two unbounded sequences at once", "anchors": ["src/source_map/from_string_with_source_map.rs:from_string_with_source_map_generator", "src/source_map_source.rs:SourceMapSource::node"]}
{"id": "C22", "title": "SourceMapSource reproduces its input map", "statement": "For a SourceMapSource without inner map, every character of the code is attributed by the resulting column map exactly as by the given map (nearest mapping at or before it on the same line).", "quantifier": "all codes and all maps sorted by generated position", "why_tests_cant": "needs all mapping lists and all character positions", "anchors": ["src/source_map/from_string_with_source_map.rs:from_string_with_source_map_generator", "src/source_map_source.rs:SourceMapSource::node", "src/source_map/source_node.rs:SourceNode::add_mapping_with_code"]}
{"id": "C23", "title": "Inner source maps are composed", "statement": "Applying an inner map for file F replaces each mapping into F at position p by the inner map's answer for p when it has one (keeping the outer name unless the inner has one) and leaves all other mappings alone; the lookup of every generated position in the result is the composition of the two lookups.", "quantifier": "all pairs of maps, all file names, all positions", "why_tests_cant": "composition over unbounded mapping lists", "anchors": ["src/source_map/source_map_generator.rs:SourceMapGenerator::apply_source_map_generator", "src/source_map_source.rs:SourceMapSource::node"]}
{"id": "C24", "title": "originalPositionFor returns the closest preceding mapping of the line", "statement": "original_position_for(line, column) answers with a mapping whose generated position is the greatest one at or before (line, column) on that line, and with the empty mapping exactly when the line has none.", "quantifier": "all mapping lists added in any order, all queries", "why_tests_cant": "binary search over unbounded lists", "anchors": ["src/source_map/source_map_generator.rs:SourceMapGenerator::original_position_for", "src/source_map/types/mapping_list.rs:MappingList::sort"]}
{"id": "C25", "title": "A generator does not depend on the order of addMapping calls or on reads in between", "statement": "Adding the same mappings in any order, with queries or serializations in between, yields the same sorted list of mappings, hence the same answers.", "quantifier": "all permutations of mappings and all interleavings with reads", "why_tests_cant": "the sorted flag and cached last element are history-dependent state", "anchors": ["src/source_map/types/mapping_list.rs:MappingList::add", "src/source_map/types/mapping_list.rs:MappingList::sort", "src/source_map/types/mapping_list.rs:MappingList::set_unsorted"]}
{"id": "C26", "title": "Sources and names arrays are duplicate-free and complete", "statement": "In every emitted map the sources and names arrays contain no duplicates, list entries in order of first use, and contain every source and name used by a mapping.", "quantifier": "all histories of addMapping / applySourceMap calls", "why_tests_cant": "histories are unbounded", "anchors": ["src/source_map/source_map_generator.rs:SourceMapGenerator::add_source", "src/source_map/source_map_generator.rs:SourceMapGenerator::add_name", "src/source_map/source_map_generator.rs:SourceMapGenerator::to_source_map"]}
{"id": "C27", "title": "sourcesContent is aligned with sources", "statement": "The i-th entry of sourcesContent is the content of the i-th entry of sources.", "quantifier": "all generators and list maps (true when every source has a content; false in general)", "why_tests_cant": "which sources carry content depends on the whole history", "anchors": ["src/source_map/source_map_generator.rs:SourceMapGenerator::to_source_map", "src/source_list_map/mappings_context.rs:MappingsContext::get_arrays"]}
{"id": "C28", "title": "Maps survive being written and read again", "statement": "Reading the source map written by a generator gives back a generator with the same mappings, sources and contents.", "quantifier": "all generators with valid mappings at distinct generated positions", "why_tests_cant": "needs writer and parser to be inverse on all mapping lists", "anchors": ["src/source_map/source_map_generator.rs:SourceMapGenerator::from_source_map", "src/source_map/source_map_generator.rs:SourceMapGenerator::to_source_map"]}
{"id": "C29", "title": "Reading a map resolves source and name indices correctly", "statement": "from_source_map attributes every segment to the source and name its indices denote in the given arrays (true when the arrays have no duplicates; false otherwise: duplicates are removed before indexing).", "quantifier": "all source/name arrays and mappings strings", "why_tests_cant": "arrays and index patterns are unbounded", "anchors": ["src/source_map/source_map_generator.rs:SourceMapGenerator::from_source_map"]}
{"id": "C30", "title": "Reads are repeatable", "statement": "Calling source, size, node or listMap any number of times and in any order on any objects of a shared object graph does not change the answer of any later read.", "quantifier": "all object graphs with sharing, all sequences of reads", "why_tests_cant": "reads mutate caches (sorted flags, lazily built maps, applied inner maps) behind shared references; needs all schedules", "anchors": ["src/source.rs:Source", "src/replace_source.rs:ReplaceSource::sort_replacements", "src/source_map_source.rs:SourceMap::get_generator", "src/source_map_source.rs:SourceMapSource::node"]}
{"id": "C31", "title": "Adding a ConcatSource takes a snapshot of its list but shares its children", "statement": "After outer.add(inner) for a ConcatSource inner, later inner.add calls do not affect outer, while later edits of a shared child (e.g. replace on a ReplaceSource) are visible through both.", "quantifier": "all object graphs and all later histories", "why_tests_cant": "aliasing over arbitrary histories", "anchors": ["src/concat_source.rs:ConcatSource::add", "src/source.rs:Source"]}
{"id": "C32", "title": "Reads terminate: cyclic object graphs panic instead of looping", "statement": "source() on any object graph terminates; it panics (already borrowed) exactly when the objects reachable from it contain a cycle, and yields a text otherwise.", "quantifier": "all object graphs, including cycles made by adding a source to a ConcatSource it wraps", "why_tests_cant": "termination over all finite graphs", "anchors": ["src/source.rs:Source", "src/concat_source.rs:ConcatSource::source", "src/prefix_source.rs:PrefixSource::source", "src/replace_source.rs:ReplaceSource::source"]}
{"id": "C33", "title": "String slices stay inside their buffer and on character boundaries", "statement": "All slices produced by splitting a string at a separator, at a character position or at a segment end, and the backward extensions used when reading list maps, stay within the owning buffer and on UTF-8 character boundaries, so no unsafe access is out of range and no character is cut.", "quantifier": "all Unicode texts, all separators used by the library (ASCII), all split positions", "why_tests_cant": "memory safety of unsafe code must hold for every input", "anchors": ["src/types/string_slice.rs:StringSlice::split_at", "src/types/string_slice.rs:StringSlice::offset", "src/types/string_slice.rs:Split::next", "src/source_list_map/from_string_with_source_map.rs:from_string_with_source_map", "src/utils.rs:split_string_slice"]}
{"id": "C34", "title": "Splitting into lines is lossless", "statement": "Splitting a text with kept separators yields pieces whose concatenation is the text, each but the last ends with the separator and contains it nowhere else, and there is one piece more than separators; splitting without keeping yields pieces whose join by the separator is the text.", "quantifier": "all texts, all ASCII separators", "why_tests_cant": "unbounded texts", "anchors": ["src/types/string_slice.rs:Split", "src/types/string_slice.rs:StringSlice::split_keep_seperator", "src/types/string_slice.rs:StringSlice::split"]}
{"id": "C35", "title": "Character splitting is exact and its fast path is sound", "statement": "split_str(s, n) cuts s after exactly min(max(n,0), length) characters, reporting failure with the number of missing characters iff s is too short; with the single-byte flag set on ASCII text the byte-based fast path cuts at the same place.", "quantifier": "all texts, all 32-bit positions, both flags", "why_tests_cant": "multi-byte texts and positions are unbounded", "anchors": ["src/utils.rs:split_str", "src/utils.rs:split_string_slice"]}
{"id": "C36", "title": "The string cache is a faithful interning table", "statement": "Until clear() is called, at(add(s)) = s and at(addUnchecked(s)) = s forever, add returns the same index for the same string and different indices for different strings, and resolving index lists returns the strings element-wise. After clear() no index given out before stands for a string, and the same holds again from there.", "quantifier": "all sequences of add/addUnchecked/at calls", "why_tests_cant": "needs all histories", "anchors": ["wasm-api/StringCache.js"]}
{"id": "C37", "title": "CachedSource answers like the wrapped source", "statement": "As long as the wrapped source is not modified, every call on a CachedSource returns what the same call on the wrapped source returns, whatever was asked before.", "quantifier": "all sequences of source/size/map/sourceAndMap calls and options (false for map(options), which drops its options on a miss and poisons the cache)", "why_tests_cant": "cache state depends on the whole call history", "anchors": ["wasm-api/CachedSource.js"]}
{"id": "C38", "title": "prepend is the mirror image of add", "statement": "SourceListMap.prepend(code, source, original) puts code in front with the same attribution add would give it at the end.", "quantifier": "all maps, codes and sources (false: the source test is inverted for strings)", "why_tests_cant": "attribution of all characters for all lists", "anchors": ["src/source_list_map/source_list_map.rs:SourceListMap::prepend", "src/source_list_map/source_list_map.rs:SourceListMap::add"]}
{"id": "C39", "title": "SourceListMap.toString agrees with toStringWithSourceMap", "statement": "toString() returns the same text as toStringWithSourceMap().source.", "quantifier": "all node lists (false in general: only single-line nodes are printed)", "why_tests_cant": "all node lists", "anchors": ["src/source_list_map/source_list_map.rs:SourceListMap::to_string", "src/source_list_map/source_list_map.rs:SourceListMap::to_string_with_source_map"]}
{"id": "C40", "title": "map() and sourceAndMap() do not panic", "statement": "node, listMap and their serialization never panic on sources built through the API from well-formed maps, except when a plain string is wrapped directly by PrefixSource or ReplaceSource.", "quantifier": "all acyclic source trees, all options", "why_tests_cant": "unwrap, unreachable! and index operations must be safe on all inputs", "anchors": ["src/source.rs:Source", "src/source_map/source_map_generator.rs:SourceMapGenerator::serialize_mappings", "src/replace_source.rs:replacement_to_sourcenode"]}
{"id": "C41", "title": "The prefix mapping function of the list-map API prefixes every line", "statement": "mapGeneratedCode with the built-in prefix function yields, for each piece handed to it, the prefix at its start and after each inner newline.", "quantifier": "all pieces and prefixes (false for pieces without newline, where an unsigned subtraction underflows)", "why_tests_cant": "all texts", "anchors": ["src/wasm_api/source_list_map/mapping_functions.rs:PrefixMappingFunction::map"]}
{"id": "C42", "title": "Line maps attribute every character of a source tree to the right source and line", "statement": "The line map of a tree of sources attributes raw text and strings to nothing, the text of OriginalSource, LineToLineMappedSource and (module:false) SourceMapSource to its own line of the named source, the text of a SourceMapSource with module:true to the line its map gives, a ConcatSource to what its children say, one after the other, and a PrefixSource over whole lines to what the wrapped source says, the prefix going with the line behind it; a reader of the emitted map finds exactly this, except that plain text behind mapped text on the same line counts as mapped.", "quantifier": "all source trees built from these classes, every generated character", "why_tests_cant": "The attribution of a character depends on all pieces before it on its line, on merging of pieces and on deltas of the whole mappings string; a test fixes a handful of trees.", "anchors": ["src/concat_source.rs:ConcatSource::list_map", "src/prefix_source.rs:PrefixSource::list_map", "src/original_source.rs:OriginalSource::list_map", "src/source_map_source.rs:SourceMapSource::list_map", "src/source_list_map/source_list_map.rs:SourceListMap::to_string_with_source_map"]}
{"id": "C43", "title": "Editing a source keeps the line attribution of what is kept", "statement": "In the line map of a ReplaceSource every kept character keeps the source and line it had, text put in takes the source and line of the character in front of it (the following line if that is a newline, the first character's at the start, none behind the end), and the text is the edited text.", "quantifier": "all histories of non-overlapping edits over all sources built from leaves and concatenations (true if the texts put in contain no newline; with a newline a character may move to the next line, never further)", "why_tests_cant": "Edits meet piece boundaries of the inner list map in every way, and pieces are merged again afterwards depending on their newlines; tests fix a few edits on a few lines.", "anchors": ["src/replace_source.rs:ReplaceSource::list_map", "src/source_list_map/source_list_map.rs:SourceListMap::map_generated_code", "src/source_list_map/single_line_node.rs:SingleLineNode::merge"]}
{"id": "C44", "title": "Output of one source can be fed back as input of another", "statement": "If r = t.sourceAndMap(), then new SourceMapSource(r.source, name, r.map) has the same text and attributes every character to the same source, place and name as t does, whatever options it is later read with; this also holds if the map was read any number of times before, or goes through its plain fields (sources, names, mappings, any sourcesContent). Given as inner source map to another SourceMapSource, the map of t attributes every character that the outer map attributes to its own name as t attributes the character at that place (a place that t attributes to nothing, and the outer name where t has none, stay as in the outer map). The contents go along: sourcesContent of the new source lists, for each source, the first content t gives for it; with the map of t as inner map, first the contents of the outer map, then the original source for the name, then those given by t, in whichever order original source and inner map were set.", "quantifier": "all source trees and options (false after a read when a removed mapped text leaves an empty chunk in front of plain text: the read re-sorts the mappings)", "why_tests_cant": "The result carries either a live generator or a serialised map, re-sorted on the first read; equality of attributions for every character of every tree needs the emitted list, the sort, the encoding and the parser to agree on all inputs.", "anchors": ["src/wasm_api/wasm_containers.rs:JsStringWithSourceMap", "src/wasm_api/source_map_source.rs:_SourceMapSource::_new_string_sidx_string_wasmmap", "src/source_map/source_node.rs:SourceNode::to_string_with_source_map_generator", "src/source_map/source_map_generator.rs:SourceMapGenerator::from_source_map", "src/source_map_source.rs:SourceMapSource::node"]}
{"id": "C45", "title": "Strings cross the wasm boundary unchanged", "statement": "A JavaScript string handed to wasm and taken back is the same string, and handing over two strings one after the other gives the same text as handing over their concatenation.", "quantifier": "all JavaScript strings (true exactly for well-formed UTF-16 that does not start with U+FEFF)", "why_tests_cant": "The set of strings for which the round trip is exact is infinite and has to be characterised, not sampled.", "anchors": ["wasm-api/build/webpack_sources.js:passStringToWasm", "wasm-api/build/webpack_sources.js:getStringFromWasm"]}
{"id": "C46", "title": "Fractional positions keep their order", "statement": "ReplaceSource.replace and insert accept any JavaScript number as position; the text is edited at the whole part of the position and edits at the same character come in the order of their positions, to a sixteenth.", "quantifier": "all histories of calls with positions that are non-negative or whole and within 32 bits (false for negative fractions, which sort in reverse, and for positions of 2^31 and more, which wrap)", "why_tests_cant": "Positions are doubles; floor, remainder and conversion to i32 must fit together for all of them and all orders of calls.", "anchors": ["wasm-api/ReplaceSource.js:replace", "wasm-api/ReplaceSource.js:insert", "src/replace_source.rs:ReplaceSource::replace", "src/replace_source.rs:ReplaceSource::insert"]}
{"id": "C47", "title": "source() and size() agree with JavaScript's own string operations", "statement": "For every tree of sources, source() returns the string obtained by JavaScript concatenation, by putting the prefix in front of every line, and by editing at UTF-16 positions; size() is the length of that string.", "quantifier": "all trees of sources with well-formed strings (false if an edited text contains surrogate pairs, if a composite text starts with U+FEFF, and for size() of composite sources with non-ASCII text)", "why_tests_cant": "Rust works on bytes and code points, JavaScript on UTF-16 units; agreement is a statement about all texts, positions and nestings.", "anchors": ["wasm-api/ConcatSource.js:source", "wasm-api/PrefixSource.js:source", "wasm-api/ReplaceSource.js:source", "wasm-api/ConcatSource.js:size", "src/utils.rs:split_str"]}
{"id": "C48", "title": "Generated columns are JavaScript columns", "statement": "Someone who looks up the UTF-16 column of a character of r.source in r.map gets the attribution of that character.", "quantifier": "all source trees, every line without surrogate pairs that is not a first line starting with U+FEFF (false on the other lines)", "why_tests_cant": "Columns of all characters of all lines of all trees; a test only looks at a few ASCII texts.", "anchors": ["src/source_map/source_node.rs:SourceNode::to_string_with_source_map_generator", "wasm-api/build/webpack_sources.js:getStringFromWasm", "wasm-api/utils/createStringWithSourceMap.js:createStringWithSourceMap"]}
{"id": "C49", "title": "updateHash distinguishes sources with different texts", "statement": "Two sources feed the same data to the hash exactly if their texts are the same. Changing one text in a source changes what it feeds to the hash, changing names and maps does not.", "quantifier": "the first for all trees of Raw, Original, Replace and Concat sources (false with PrefixSource, whose prefix is hashed behind the text, and with LineToLineMappedSource and SourceMapSource, where value and original are hashed without separator); the second for all trees and all places not below an edit", "why_tests_cant": "Absence of collisions between all pairs of trees.", "anchors": ["wasm-api/ConcatSource.js:updateHash", "wasm-api/PrefixSource.js:updateHash", "wasm-api/ReplaceSource.js:updateHash", "wasm-api/SourceMapSource.js:updateHash"]}
{"id": "C50", "title": "The object returned by sourceAndMap can be read in any order and used again", "statement": "The properties of r.map show the strings of the emitted map in whatever order and whenever they are read, a property, and the text r.source, keeps its value once read or assigned, and new SourceMapSource(value, name, r.map) is given exactly the map that the properties show, as often as one likes.", "quantifier": "all histories of reads, assignments, in-place changes, wrappings, other uses of the library and clear() on one result (false: properties not read before the first wrapping or clear() are lost, a second wrapping of an unread result throws, arrays changed in place are ignored by the wrapping)", "why_tests_cant": "The getters are lazy and share a wasm object that wrapping consumes; which of the infinitely many interleavings go wrong is a statement about all histories.", "anchors": ["wasm-api/utils/createStringWithSourceMap.js:createStringWithSourceMap", "wasm-api/SourceMapSource.js:constructor", "src/wasm_api/wasm_containers.rs:JsStringWithSourceMap::map", "wasm-api/StringCache.js:resolveIntArray"]}
{"id": "C51", "title": "The wrappers never touch freed memory, and clear() frees everything", "statement": "Whatever sources are created, combined, asked, wrapped, freed and cleared, a call either works or throws a JavaScript exception: no wasm object is accessed after it was freed and none is freed twice; after clear() no wasm object is left.", "quantifier": "all histories of creations, calls, map(), node(), free() and clear(), and all allocators that give addresses not in use (false: RawSources with equal text share an object that only one of them owns)", "why_tests_cant": "A dangling pointer usually still works in a test, because the freed memory was not reused yet; the claim is about all interleavings of creating, freeing and clearing.", "anchors": ["wasm-api/RawSource.js:constructor", "wasm-api/OriginalSource.js:constructor", "wasm-api/WasmObjectPool.js:clear", "wasm-api/ConcatSource.js:constructor", "wasm-api/SourceAndMapMixin.js"]}
{"id": "C52", "title": "sourceAndMap on an expression of JavaScript sources says where every character came from, in the names given", "statement": "For every expression of constructor calls, whatever is in StringCache before, sourceAndMap() returns an object whose source is the text of the expression and whose map, read with its own sources and names, gives every character exactly the file name, line, column and name that the expression gives it; sources and names are without duplicates and only ones that were passed in; sourcesContent lists, in the order of sources, the first content given for each source that has one; all this for every order and number of reads of the lazily computed properties. With columns: false the same holds for lines (PrefixSources, also inside one another, with a one-line prefix around pieces that end lines): every character gets its file and line (a mapping carries on to the end of the generated line), sources are the files used, in the order of first use, and sourcesContent has for each the content given with its first use, if any.", "quantifier": "all nested expressions of RawSource, OriginalSource, LineToLineMappedSource, PrefixSource, ConcatSource and SourceMapSource (with or without inner map), all StringCache states, all histories of reads", "why_tests_cant": "The way from the strings of the caller over cache indices, wasm nodes, delta-coded mappings and lazily resolved indices back to strings has unboundedly many inputs and cache states; a test sees one expression and one cache.", "anchors": ["wasm-api/SourceAndMapMixin.js:sourceAndMap", "wasm-api/StringCache.js", "wasm-api/SourceMapSource.js:constructor", "wasm-api/OriginalSource.js:constructor", "src/source_map/source_node.rs:to_string_with_source_map", "src/wasm_api"]}
{"id": "C53", "title": "The map of an edited source keeps kept text at its own place", "statement": "The map returned by sourceAndMap for a source that contains a ReplaceSource says, for every generated character, its own original place, or a place of removed text that stood directly before it and compares greater; if the attributed characters of the wrapped source come in non-decreasing order of (source index, line, column) - one OriginalSource, or several files in the order of their StringCache indices - then after any number of nested forward edits every attributed character is still read with its own source, line and column. Which StringCache index a file has does not matter for the result.", "quantifier": "for all SourceNode trees, all source trees in order, all histories of replace and insert with start <= end + 1, all nestings", "why_tests_cant": "The behaviour depends on empty chunks left at chunk boundaries by splits and on the sort order of mappings at equal generated positions, which depends on cache indices and so on everything constructed before in the process.", "anchors": ["src/replace_source.rs", "src/source_map/source_node.rs", "src/source_map/types/mapping.rs", "src/source_map/types/mapping_list.rs"]}
{"id": "C54", "title": "Column maps have exactly one segment per change of attribution", "statement": "For sources without edits, the column map (source() / map with columns) has a segment exactly where the attribution of the generated text changes along a line, a line starting with no attribution; the segments therefore say what the text's attribution is, and no list of segments that does has fewer places. sources and names list each source and name that some generated character is attributed to, once, in the order of the first such character, and nothing else.", "quantifier": "for all SourceNodes with non-empty chunks, all trees of RawSource, OriginalSource, LineToLineMappedSource, SourceMapSource, PrefixSource, ConcatSource; for all competing segment lists", "why_tests_cant": "Minimality compares against all other segment lists; redundancy shows only for particular neighbourhoods of chunks (same target in adjacent chunks, chunks ending in a newline, unmapped chunks after mapped ones).", "anchors": ["src/source_map/source_node.rs", "src/source_map/source_map_generator.rs"]}
{"id": "C55", "title": "The result of sourceAndMap depends only on the expression", "statement": "Two evaluations of the same expression of JavaScript sources, in processes (or at times) that have dealt with different strings before, give results with the same source text, sources, sourcesContent, names and mappings, in whatever order and however often these are read.", "quantifier": "for all expressions (column maps with ReplaceSource or ambiguous maps: if the strings of the expression were first seen in the same order, in particular on repeated evaluation or in processes that had not seen them), all pairs of reachable StringCache states, all options, all interleavings of reads and other StringCache use", "why_tests_cant": "Sources, names and contents are indices into a process-wide cache, so the two runs work on different numbers throughout; the test suite runs each case in one cache state only.", "anchors": ["wasm-api/StringCache.js", "wasm-api/SourceAndMapMixin.js:sourceAndMap", "src/source_map/source_node.rs", "src/source_map/source_map_generator.rs"]}
{"id": "C56", "title": "Line maps made by hand say what was put into them", "statement": "For every program of calls of the exported classes SourceListMap, CodeNode, SourceNode, SingleLineNode (constructors, add, prepend of objects, mapGeneratedCode with the identity or with a prefix, fromStringWithSourceMap, listMap() of sources, free), interleaved with other uses of the string cache: which calls throw is determined by which objects are still there; objects are added as copies; and toStringWithSourceMap() of every list shows the joined text, a map that attributes every character to the line it was given with (carried over unattributed text on the same line), the sources used in order of first use, and for each the content given with its first use. clone() of a node always throws. A list on which mapGeneratedCode succeeded, a freed object, and a list made from an array throw on every later use.", "quantifier": "all programs in which texts have no surrogates, maps can be read in one way, source nodes have a source, listMap() is of expressions with PrefixSources only around pieces that end lines and with ReplaceSources whose edits do not overlap (of the characters of these it is stated which lines they may belong to), no string is prepended (false for strings: prepend tests the source the wrong way round), mapGeneratedCode with a prefix is called on lists put together from whole lines (false for others), and with the identity on such lists, on lists without single-line pieces that break a line, or on lists in which no newline is followed by text of the same original line; all states of the string cache; all orders of reading the result", "why_tests_cant": "Programs are sequences of calls of any length over objects that refer to each other; sharing, moving and interning errors show only for particular sequences, and a test compares a few fixed ones.", "anchors": ["wasm-api/wasm-source-list-map/SourceListMap.js:14-107", "wasm-api/wasm-source-list-map/SourceNode.js:7-31", "wasm-api/wasm-source-list-map/SingleLineNode.js:7-31", "wasm-api/wasm-source-list-map/fromStringWithSourceMap.js:8-24", "src/wasm_api/source_list_map/source_list_map.rs:53-82", "wasm-api/wasm-source-list-map/CodeNode.js:14-18"]}
{"id": "C57", "title": "Source nodes made by hand say what was put into them", "statement": "For every program of calls of the class SourceNode of wasm-source-map (constructor with line, column, source and chunks, node() of sources, add of strings, nodes and arrays, free), interleaved with other uses of the string cache: which calls throw is determined by which objects are still there; a node that is added goes into the other one and is gone; chunks in front of the one that throws stay added; and toStringWithSourceMap() of every node that is still there shows the joined text, a map with exactly one segment per change of attribution that gives every string the line, column and source of the node it was added to and every character of a node its own, the sources and names in order of first use, and for each source the first content given (contents that a source object gives for itself come after those of nodes added to it). A node that was added, freed, or added to itself throws on every later use.", "quantifier": "all programs in which texts have no surrogates, lines of nodes with a source are at least 1 (false for line 0) and expressions are those of C52, with columns or without (then OriginalSources are attributed by lines and need not be ASCII); all states of the string cache; all orders of reading the result", "why_tests_cant": "Programs are sequences of calls of any length over objects that are moved into each other; ownership and interning errors show only for particular sequences.", "anchors": ["wasm-api/wasm-source-map/SourceNode.js:10-50", "wasm-api/build/webpack_sources.js:1718-1789", "src/wasm_api/source_map/source_node.rs:12-42", "src/source_map/source_node.rs:18-51", "wasm-api/SourceAndMapMixin.js:8-16"]}
{"id": "C58", "title": "Bundles of edited modules map back to their modules", "statement": "For every expression of constructor calls with ConcatSources, PrefixSources and ReplaceSources (nested in any way) over the sources of C52: r = sourceAndMap() succeeds; r.source is the text with all edits (a PrefixSource around edits may have one prefix too many at its end, see C07); r.map.sources and r.map.names are without repetition and among those given; every place the map gives for a character is one that the expression without the edits mentions; and if in that expression the characters come in the order of their places, the sources counting in the order in which StringCache numbers them, then every character that was kept is read with its own source, line and column, and so is the text of edits (which gets the place of a neighbour). That order is given for every ConcatSource of texts and edited and prefixed modules with different names not seen before; strings not seen before are numbered in the order in which they are passed. sourcesContent lists, in the order of sources and without gaps, contents that were given for these sources; if no ReplaceSource is around a ConcatSource, it has the first content of each source that has one.", "quantifier": "all expressions and histories of edits with ordinary positions that do not end before they begin, texts without surrogates, original sources in ASCII, sound maps; all states of the string cache; all orders of reading", "why_tests_cant": "Edits leave empty chunks whose entries compete with those of the following text; which one wins depends on the numbers that a process-wide cache has given to the names. Tests fix one history of the cache and few edits.", "anchors": ["src/replace_source.rs:103-136", "src/replace_source.rs:245-323", "wasm-api/ReplaceSource.js:12-50", "wasm-api/ConcatSource.js:10-58", "wasm-api/SourceAndMapMixin.js:51-72"]}
{"id": "C59", "title": "Line maps of bundles of edited modules map back to the lines of their modules", "statement": "For every expression of constructor calls with ConcatSources and ReplaceSources (nested in any way) over the sources of C52_lines, and PrefixSources around pieces that end lines, the edits in them being inside lines: r = sourceAndMap({columns: false}) succeeds; r.source is the text with all edits; what is read for the characters off r.map is a reading of the expression: sources without edits have the lines of C52_lines, a character that an edit keeps has its line or the next one of the same source, inserted text that of the character in front of it or the next one, and both are exact if there are no edits inside and no line breaks in the new texts; r.map.sources are the sources of these characters in order, without repetition; each is paired in sourcesContent with a content it is given with somewhere in the expression, hence with its own if every source has one content.", "quantifier": "all expressions and histories of edits with ordinary positions that do not end before they begin and do not overlap, texts without surrogates, maps as in C52_lines; all states of the string cache; all orders of reading; both values of module", "why_tests_cant": "The list map of an edited bundle is split and merged at every edit, over nodes of any kind, nested to any depth; tests look at single edits of single modules and do not relate the map to the lines of the modules.", "anchors": ["src/replace_source.rs:138-243", "src/concat_source.rs:45-59", "src/source_list_map/source_list_map.rs", "src/source_list_map/source_node.rs", "src/source_list_map/single_line_node.rs", "wasm-api/ReplaceSource.js:12-50", "wasm-api/SourceAndMapMixin.js:51-72"]}
{"id": "C60", "title": "Programs of the JavaScript API: what is read is what the calls so far amount to", "statement": "For every program of constructor calls, add, replace, insert, source, size, updateHash and sourceAndMap, in which objects may be passed to several others, changed after they were passed and read at any time: give every object the expression that the calls amount to, where a PrefixSource and a ReplaceSource stand for the object inside as it is now, a ConcatSource holds its items by reference, but the items that a ConcatSource added to it has at that time. Then source() and size() answer as for that expression made on its own; sourceAndMap() with and without columns gives what C52, C58 and C59 say of that expression, and the returned object shows the same whatever the program does afterwards; two programs whose objects amount to the same expression get the same; reads change nothing. updateHash feeds the texts (with the original text, and the prefix after what it is put before) of the children, where a nested ConcatSource has its children of now: so it does not follow source(), and does not end if two ConcatSources are added to each other. A CachedSource that was not read yet, nor any CachedSource inside it, answers source() and size() like the object inside, and once read it keeps answering source() with the same text.", "quantifier": "all programs that do not throw; all states of the string cache; all objects of them; for maps the expressions of C52, C52_lines, C58, C59", "why_tests_cant": "The number of interleavings of sharing, changes and reads is unbounded; that a read in between, an object added twice, or a change after it was added does not show anywhere else is a statement about all of them. The tests build one tree and read it once.", "anchors": ["wasm-api/ConcatSource.js:10-77", "wasm-api/PrefixSource.js", "wasm-api/ReplaceSource.js:10-110", "wasm-api/CachedSource.js", "wasm-api/RawSource.js", "wasm-api/StringCache.js", "wasm-api/SourceAndMapMixin.js:51-72", "src/wasm_api/concat_source.rs", "src/wasm_api/replace_source.rs", "src/wasm_api/prefix_source.rs", "src/concat_source.rs:18-43"]}
{"id": "C61", "title": "Which calls of a program throw", "statement": "In every program of the JavaScript API a call throws exactly if it is not allowed by what the calls before amount to: a constructor or add given something that does not exist, add on what is not a ConcatSource, replace or insert on what is not a ReplaceSource, a ConcatSource added to itself (also wrapped in a CachedSource), and source(), size() or sourceAndMap() of an object that contains itself at some depth. In particular, if nothing is ever added to a ConcatSource that contains it, no call on objects of the right kinds throws, and every object can be read at any time. updateHash returns, given enough stack, exactly if it comes neither back to itself (a ConcatSource feeds the sequences it was given, not their items) nor to a ReplaceSource that contains itself; if nothing is ever added to a ConcatSource that it feeds, every updateHash returns. An object that does not contain itself amounts to exactly one expression.", "quantifier": "all programs; all states of the string cache; for sourceAndMap programs in which no string is wrapped directly by a PrefixSource or ReplaceSource and the maps given are sound (these throw by C40); updateHash: all stack depths; a CachedSource may answer from its cache", "why_tests_cant": "Cycles may be closed by any call at any distance; that no other combination of calls panics (a borrow, an index, an unwrap) is a statement about all programs.", "anchors": ["wasm-api/ConcatSource.js:20-58", "wasm-api/ReplaceSource.js:52-80", "wasm-api/PrefixSource.js:10-65", "wasm-api/CachedSource.js:6-29", "src/concat_source.rs:18-43", "src/replace_source.rs:88-124", "src/wasm_api/concat_source.rs", "wasm-api/ConcatSource.js:68-76", "wasm-api/PrefixSource.js:75-80", "wasm-api/CachedSource.js:85-87"]}
{"id": "C62", "title": "Maps in programs: CachedSource hands out maps of what it wraps, and results stay readable", "statement": "In every program of the JavaScript API that also calls sourceAndMap(options) and map(options) on any object, reads and uses the objects it gets, the map that a CachedSource returns tells, character by character and in the names given, where the text of the wrapped source came from - also if it is a CachedSource around a CachedSource, at any depth - as long as the innermost source kept amounting to the same expression since the first CachedSource around it was made: whichever calls came before, with whatever options and in whatever order, whether the map is new or remembered, and however much else the program does with other objects, other maps and the string cache before it is read. Asking again with the same options gives the same text and the same object for ever. The text is that of the wrapped source.", "quantifier": "all programs, CachedSources around CachedSources included; all states of the string cache; expressions of C52, C58 (columns) or of the line map classes of C59; without columns: options with which neither map() nor sourceAndMap() of an outer CachedSource put a default map into the cache (C37, C62_nested_refuted); results that the program only reads", "why_tests_cant": "The memo is filled by any of four paths at any moment and the result object reads strings lazily out of a cache that everything else keeps extending; that no interleaving of other calls changes what it says needs an invariant over all executions.", "anchors": ["wasm-api/CachedSource.js:6-87", "wasm-api/SourceAndMapMixin.js:28-72", "wasm-api/RawSource.js:36-49", "wasm-api/utils/createStringWithSourceMap.js", "wasm-api/SourceMapSource.js:13-76", "wasm-api/StringCache.js"]}
{"id": "C63", "title": "A result made a source again says the same", "statement": "Let r be what sourceAndMap() returns for any expression of sources whose maps are exact (C52). new SourceMapSource(r.source, name, copy of r.map) stands for the same characters as the expression: sourceAndMap() of it shows the same text, sources, names, mappings and sourcesContent, letter by letter, at any later time. The same holds if r.map itself is given (its wasm object is then taken over), before or after it was read, and for the map of the new source given to another one, any number of times; sourceAndMap() may be called on each of them as often as one likes and never fails. A copy of the map of sourceAndMap({columns: false}), which tells of lines, shows with columns the same text, sources and contents and says the same about every character. For expressions with ReplaceSources (C58) the copy says the same about every character if the map has one segment for a place. Put into the places of the expression inside other sources, the copy leaves text, sources, names and mappings as they were, and the contents as well if every source of r has its content.", "quantifier": "all expressions of C52 and C58 (for columns: false, with ASCII text) with fewer than 2^31 characters whose text does not begin with a byte order mark; all names and original sources; all states of the string cache, reads in between and numbers of repetitions; all surrounding expressions of C52", "why_tests_cant": "That writing and reading maps loses nothing and adds nothing is a fixpoint property over all expressions; a test compares a few. The direct path keeps the generator instead of the string, and whether it was read before changes which data are used.", "anchors": ["wasm-api/SourceMapSource.js:13-44", "wasm-api/utils/createStringWithSourceMap.js:35-145", "src/wasm_api/source_map_source.rs:39-70", "src/source_map_source.rs:172-186", "src/source_map/source_map_generator.rs"]}
{"id": "C64", "title": "Strings and arrays cross the memory of the wasm module unchanged, and blocks are freed exactly once by every call that reaches the module", "statement": "The glue puts every string (as UTF-8) and every array (as 32 bit integers) of a call into a block of its own; the module finds exactly them at the address and length it is given, and no other allocated block is changed, even if the memory grows between two arguments. After the call, whether it returns or throws, the glue holds the blocks it held before: those of arrays are freed, those of strings belong to the module, and nothing is freed that is not allocated. A string or an array that the module hands out is what the caller gets, its block is freed, and the array is not affected by anything that happens to the memory later. This holds along every sequence of calls, with the views of the memory and the argument pointer that the glue keeps. A call that throws before the module is reached (a moved object, something that is not an array) leaves the blocks of the parameters before it allocated.", "quantifier": "all strings, arrays and parameter lists; all allocators that give out free aligned memory and may let it grow; all functions of the module that respect the blocks of the caller; all histories of calls", "why_tests_cant": "Whether a cached view is of the buffer of now depends on when the memory grows, and double frees and leaks do not show in results; a test sees one allocator and a few histories.", "anchors": ["wasm-api/build/webpack_sources.js:passStringToWasm", "wasm-api/build/webpack_sources.js:passArray32ToWasm", "wasm-api/build/webpack_sources.js:getStringFromWasm", "wasm-api/build/webpack_sources.js:getArrayI32FromWasm", "wasm-api/build/webpack_sources.js:globalArgumentPtr", "wasm-api/build/webpack_sources.js:_new_string_sidx_string_map"]}
{"id": "C65", "title": "How the parts of a bundle are grouped does not matter", "statement": "Nesting ConcatSources or flattening them, giving a text as string or as RawSource, cutting or joining texts without a source, dropping empty ones, writing a prefix as two PrefixSources, and moving a PrefixSource from a ConcatSource to its parts where a line ends do not change what sourceAndMap returns: with columns the text, sources, names, contents and mappings read off the result are the same strings, whatever StringCache contained before; without columns text, sources and contents are the same and the map attributes every character to the same place, though the mappings may be written differently. With a ReplaceSource around them and the same edits, the texts are still the same and every kept character has the same place in both maps (without columns: the same line, or the one after it where a new text has newlines); with insertions only this holds for the new text too. Nesting ConcatSources differently, anywhere in any expression, changes nothing at all: text, size, hash and both maps are the same, failures included.", "quantifier": "all expressions related by any number of such rearrangements at any depth, all texts, names and maps for which attribution is exact (C52), all states of StringCache, all reads of the results", "why_tests_cant": "A test compares a few groupings of a few sources; that every regrouping at any depth gives the same string needs that the emitted map is determined by the attribution of the characters.", "anchors": ["src/concat_source.rs:ConcatSource::node", "src/concat_source.rs:ConcatSource::list_map", "src/prefix_source.rs:PrefixSource::node", "src/prefix_source.rs:PrefixSource::list_map", "wasm-api/ConcatSource.js:add", "wasm-api/PrefixSource.js"]}
{"id": "C66", "title": "Edits may be done in a bundle or in its parts", "statement": "A ReplaceSource around a ConcatSource whose edits do not reach from one part into another gives the same text as the ConcatSource of the parts, each in a ReplaceSource with its own edits at positions counted from its own start (an insertion between two parts belongs to the first). The maps of the two agree on every character that is kept: each is attributed to its own source, line and column in both, if the parts come in the order of their places. Without columns, each kept character is attributed to its own source and line, or the line after it, in both; exactly to its own line if the new texts have no newlines and the parts no PrefixSources. The maps need not agree on new text and on contents.", "quantifier": "texts: all parts, all edits (also overlapping, inverted or out of range) that respect the seams; maps: all parts in the scope of C52, all edits in the scope of C58 (columns) or C59 (lines), all states of StringCache", "why_tests_cant": "The claim relates two ways of making a bundle for every number of parts and every set of edits, with the stable order of equal keys and clamped positions at the seams; tests try a few.", "anchors": ["src/replace_source.rs:ReplaceSource::source", "src/replace_source.rs:ReplaceSource::node", "src/concat_source.rs:ConcatSource::source", "src/concat_source.rs:ConcatSource::node", "wasm-api/ReplaceSource.js:replace", "wasm-api/ReplaceSource.js:insert"]}
{"id": "C67", "title": "Edits may be made in two steps", "statement": "Edits that do not overlap those of a ReplaceSource may also be made in a second ReplaceSource around the first one, at the positions that they have in its text: each begins where the edited text in front of it ends. The text is the same as with all edits in one ReplaceSource, if the edits of the second step are made from front to back at whole positions (a single one may be at any position); without that it need not be. So all edits that do not overlap may be made in one ReplaceSource or each in its own, and an edit can be taken back by putting the removed text in the place of the new one. The maps of both agree on every character that is kept: each is attributed to its own source, line and column in both, if the characters come in the order of their places. The mappings need not be written alike.", "quantifier": "texts: all trees, all edits of the first step (also overlapping each other or out of range, not inverted), all numbers of edits of the second step; maps (with columns): all sources in the scope of C52, all edits in the scope of C58, all states of StringCache", "why_tests_cant": "The claim relates two ways of editing for every set of edits and every division of it, with ties between insertions at one position and characters removed between them; tests try a few.", "anchors": ["src/replace_source.rs:ReplaceSource::source", "src/replace_source.rs:ReplaceSource::sort_replacements", "src/replace_source.rs:ReplaceSource::node", "wasm-api/ReplaceSource.js:replace", "wasm-api/ReplaceSource.js:insert"]}
{"id": "C68", "title": "Wrappers that do nothing change nothing", "statement": "A ConcatSource of one source, a PrefixSource with an empty prefix and a ReplaceSource without edits may be put around a source object, or left out, anywhere in an expression and at any depth, also below edits and prefixes; a ConcatSource inside a ConcatSource may be replaced by its parts; two prefixes around each other may be joined into one (the inner one without a newline); a string in a ConcatSource may be wrapped in a RawSource (unless empty). The result of sourceAndMap with columns is then the same object, with all fields, or throws in both cases; source(), and size() of the wrapper classes, are the same, and StringCache is left with the same strings. Without columns the map attributes every character alike and has the same sources if nothing is edited and prefixes stand around whole lines; around edits that insert newlines it may name another line; updateHash may give another hash; wrapping a plain string makes the call throw.", "quantifier": "all expressions of the constructors with edits of every kind (overlapping, inverted, out of range, at fractions), all ways of adding and leaving out such wrappers any number of times, all states of StringCache, both values of module", "why_tests_cant": "A wrapper adds nodes to the tree at any depth; an edit or a prefix around it splits and copies them, so that the claim concerns every shape of tree. Tests compare a wrapper with an expected output on a single example and never with its absence.", "anchors": ["src/concat_source.rs:ConcatSource::node", "src/prefix_source.rs:clone_and_prefix", "src/prefix_source.rs:PrefixSource::node", "src/replace_source.rs:ReplaceSource::node", "src/replace_source.rs:split_sourcenode", "src/source_map/source_node.rs:SourceNode::walk", "wasm-api/ConcatSource.js:add", "wasm-api/PrefixSource.js", "wasm-api/ReplaceSource.js"]}
{"id": "C69", "title": "A map without columns is a coarser form of the map with columns", "statement": "sourceAndMap with columns: true and with columns: false agree: a character that the first map attributes to a line and column of a source is attributed by the second one to the same line of the same source (at column 0, without a name), and both come with the same text. In ReplaceSources, also bundles of them in ConcatSources and below PrefixSources, this holds for the characters that are kept, if no newlines are inserted and there are no PrefixSources inside; otherwise the second map may name the line after it. The maps of SourceMapSources must take each generated line from one line of a source; else only the first of the lines is named, and without module the generated file itself.", "quantifier": "all expressions of JavaScript sources in the scope of C52, all edits around them in the scope of C58 and C59, all states of StringCache, both values of module, all histories of reads of both results", "why_tests_cant": "The two maps come from unrelated code (source nodes and source list maps); the claim relates them for every character of every text, under every nesting. Tests compare each of the two with its own expected string.", "anchors": ["src/original_source.rs:OriginalSource::node", "src/original_source.rs:OriginalSource::list_map", "src/line_to_line_mapped_source.rs:LineToLineMappedSource::node", "src/concat_source.rs:ConcatSource::list_map", "src/prefix_source.rs:PrefixSource::list_map", "src/replace_source.rs:ReplaceSource::list_map", "src/source_map_source.rs:SourceMapSource::list_map", "wasm-api/SourceAndMapMixin.js:sourceAndMap"]}
