# Formal model of rust-webpack-sources

Toolchain: Coq 8.16.1, standard library only.
Build: `cd rocq && coq_makefile -f _CoqProject -o Makefile && make -j4` (about ten minutes on four cores).

## 1. Layout

| files | content |
|---|---|
| `Base.v`, `Model*.v` | the model: total, executable Gallina, one definition per Rust/JavaScript function, each citing file and lines of `/repo` |
| `Sanity.v` | the model run on the expectations of the project's own tests, by computation (not a proof of anything) |
| `Spec*.v` | specifications: what texts, maps, attributions, edits, line maps, object graphs are. Every definition a final theorem mentions, directly or through other definitions, stands in `Base.v`, `Utf8.v`, a `Model*.v`, a `Spec*.v` or the `Properties*.v` file of the theorem; no `Spec*.v` imports a file of proofs |
| `*Facts.v`, `*Node.v`, `*Tree.v`, `*Props.v`, `*End.v`, `Slm*.v`, `Heap*.v`, `Effect*.v`, `Edited*.v`, `LineEdited*.v`, `Prog*.v`, `Throw*.v`, `Cached*.v`, `Para*.v`, `Alike*.v`, `Split*.v`, `Stage*.v`, `Idle*.v`, `Coarse*.v`, `Utf8.v`, `Tactics.v` | proofs |
| `Properties*.v` | the final theorems `Cnn_...`, each with `Print Assumptions` and a concrete `Example` meeting the hypotheses |

## 2. The model

| Rust / JavaScript | model |
|---|---|
| `String`, `&str`, texts of `StringSlice` | `str = list N` (Unicode scalar values); `len_utf8`, `blen` give byte widths; byte positions (`split_at`, `substr`, ranges) go through `split_at_bytes`, which yields *panic* off a character boundary. `Utf8.v` relates this to encoded bytes |
| `StringSlice` as pointer, length, owner | a second, memory-level model `slice = (buffer, offset, length)` for the code that does pointer arithmetic (`offset(-1)`, `offset(-len)`, `rest()`); a read outside the buffer or inside a character is *panic* (in Rust: undefined behaviour) |
| `usize` lines, columns | `N`, unbounded |
| `i32`, `i64` | `Z`, with `to_i32` where the code casts or may overflow |
| `panic!`, `unwrap` on `None`, `unreachable!`, index out of range | `None` of the option monad |
| underflow of `usize` | `None` as well, i.e. the behaviour of a build with overflow checks. A release build wraps instead; see *Arithmetic* below |
| `&mut self` | the new state is returned |
| `HashMap`, `LinkedHashMap` | association lists (insertion order) |
| `Vec::sort`, `sort_by` (stable) | insertion sort; `SortFacts.v` shows the result is the unique sorted permutation for the orders used |
| `binary_search_by` (2018 standard library) | the halving loop itself |
| `Rc<RefCell<_>>` objects | `ModelHeap.v`: a heap of objects with identity, handles, and the set of borrowed objects; borrowing twice is a panic |
| JavaScript strings | lists of UTF-16 units (`ModelJs.v`); null as an entry of StringCache is the list `JNULL` with the one number 65536, which is no unit |

### Modelled, function by function

`src/utils.rs`; `src/types/string_slice.rs` (slices and the `Split` iterator);
`src/source_map/` (Mapping, MappingList, SourceMapGenerator, SourceNode, the walk that
emits maps, from_string_with_source_map_generator);
`src/source_list_map/` (CodeNode, SourceNode, SingleLineNode, MappingsContext,
SourceListMap, from_string_with_source_map);
all sources: Raw, Original, LineToLineMapped, Prefix, Replace, SourceMap, Concat, and the
dispatch in `src/source.rs`;
the object level of `src/wasm_api/` (constructors, `add`, `replace`, `insert`, reads
through handles); `src/wasm_api/source_list_map/mapping_functions.rs`;
the results handed to JavaScript (`src/wasm_api/wasm_containers.rs`) and the constructors that take them back
(`ModelWasm.v`);
`wasm-api/StringCache.js`, `wasm-api/CachedSource.js`;
strings crossing the boundary, JavaScript numbers as positions, `source()`, `size()` and `updateHash()` of the
JavaScript classes (`ModelJsApi.v`);
`wasm-api/utils/createStringWithSourceMap.js` and the constructor of `wasm-api/SourceMapSource.js` without
originalSource and innerSourceMap (`ModelJsResult.v`). Ownership of the
wasm objects: `ptr` of every wrapper, the pool, both pointer caches, `free()`, `clear()`, consumption by value (`ModelPool.v` with addresses that are
never reused, `ModelPoolReuse.v` with any allocator; contents are not modelled there). Whole expressions of constructor calls, from the strings given to
`sourceAndMap` (`ModelEnd.v`). The classes with which line maps are made by hand,
`wasm-api/wasm-source-list-map/`, and programs of calls of them (`ModelJsList.v`; not MappingFunction objects made by hand,
originalSource undefined next to a source), and the class with which column maps are, `wasm-api/wasm-source-map/SourceNode.js`
(`ModelJsNode.v`; nested arrays given flattened). Programs of all constructors, `add`, `replace`, `insert`, `source`, `size`, `updateHash` and `sourceAndMap`
over shared objects (`ModelJsProg.v`), and the maps that they return and remember (`ModelJsCached.v`); sourceAndMap of a SourceMapSource that took over the wasm object of a result (`ModelAgain.v`).
The way of strings and arrays through the memory of the module in `wasm-api/build/webpack_sources.js` (`ModelGlue.v`): memory as bytes, the buffer object that is replaced when it grows,
the cached views and argument pointer, malloc and free, parameters in order, finally clauses, getters. The allocator and the functions of the module are parameters.

### Not modelled

The rest of the generated wasm-bindgen glue (conversion of plain numbers and booleans beyond what `ModelJsApi.v` says); the JavaScript classes that only forward to wasm, beyond the notes
under findings; `applySourceMap`-style helpers of the JavaScript packages the project
replaces; memory exhaustion, and texts of 2^31 bytes or more except where a theorem says so;
behaviour after a panic (a wasm trap leaves the module unusable).

### Arithmetic

The model does not follow one build profile everywhere; each place says which one it follows.
Underflow in serialization (`ModelSm.v`) and in `substr` (`ModelString.v`) is a panic, as in a
debug build. A release build wraps there: serialization would then push about 2^32
separators on wasm32. The reader of line maps (`ModelSlm.v`, sums modulo 2^32) the prefix mapping
function (`ModelJs.v`) and the `i32` positions and counters of ReplaceSource (`ModelSources.v`) follow the release wasm32 build. One subtraction in `ModelSlm.v` is computed on `Z`
instead of wrapping at zero. So a theorem that excludes panics excludes
the wrap-around as well, but a refutation by such a panic shows a wrong result, not necessarily a
trap, of the release build.

### Simplifications (also stated at the definitions)

* crate `vlq`: unbounded integers instead of `i64`; crate `source_map_mappings`: sorted per line as documented.
* The one regular expression of OriginalSource is matched by a backtracking matcher for classes, sequences and greedy repetitions (`ModelRegex.v`), the meaning the crate documents; that the match is the longest run of other characters and then of delimiters is proved (`token_end_spans`).
* `Split` searches characters instead of bytes; the same position for an ASCII separator (`Utf8.v`).
* In ReplaceSource the sort is done after reading the wrapped object; nobody can observe the order because the object is borrowed meanwhile.
* `SourceNode`'s variant NNodeVec is a separate type, since it only occurs as an argument.

## 3. Trusted base

* Coq's kernel (and `vm_compute` for witnesses and examples).
* `Print Assumptions` reports *Closed under the global context* for every theorem in
  `Properties*.v`: no axiom is used. A scan of the loaded library lists seven parameters of the
  standard library's `Coq.ssr.ssrunder.Under_rel` (Under_rel, Under_relE, Under_rel_from_rel,
  Over_rel, over_rel, over_rel_done, under_rel_done); they belong to a module type
  loaded with `ssreflect` by standard library files and no theorem here depends on them.
* The transcription of Rust and JavaScript into Gallina (section 2), done by reading.
* Crates not in the sandbox, modelled from documentation: `vlq`, `source_map_mappings`,
  `linked-hash-map`, `bytecount`, `regex` (one pattern), and the Rust standard library.
* The specifications in `Spec*.v`.

## 4. Vocabulary of the specifications

* `prefixed p s` (SpecText): character-wise prefixing. `edited es s` (SpecText): splicing by character positions, for edits that are `edit_ok`, `forward` and pairwise `apart`; `edited_any` for arbitrary edits; `edited_marked` (SpecEdit): the same on marked texts.
* `decode`, `read_map` (SpecMap): an independent reader of version 3 mappings strings.
* `marked = list (char * option target)` (SpecAttr): a text in which every character carries its source, original line and column, and name; `annotate es code` marks a text by looking every position up in a list of entries, as a consumer does; `flat n` are the marks intended by a tree of chunks. `flat` (`SpecNode`) follows the node type of the model.
* `list_marks`, `mark_lines`, `carried` (SpecList): the same for line maps. `traced`, `line_kept`, `line_near` (SpecLineEdit): for each character of an edited text the character of the original it stands for, and that it keeps its line, or is at most one line off.
* `items`, `edge`, `reaches`, `cyclic`, `unfolds` (SpecHeap): the graph of an object heap and the tree seen from an object. `built` (SpecBuilt): the graphs reachable by API calls.

* `sane`, `honest`, `tame`, `hands` (SpecGlue): blocks lie in the memory and are apart; an allocator gives out free aligned memory; a function of the module leaves alone which blocks the caller has; it hands out a block with address and length at the argument pointer. `arrives`: what a parameter is in memory.

## 5. Properties: status and method

| id | theorems | how, and under which conditions |
|---|---|---|
| C01 | C01_concat_text, C01_nesting | induction over children; all sequences of `add` |
| C02 | C02_prefix_text, C02_prefixed_lines | the splitting loop equals a character-wise specification |
| C03 | C03_edits | invariant over sorted edits; non-overlapping edits, positions within i32, sixteenths 0..15 (fractional positions) |
| C04 | C04_reads, C04_order, C04_equal_keys | uniqueness of the sorted permutation; for source, node and list map |
| C05 | C05_pieces, C05_exact | arbitrary edits, never a panic; exact structure of the result |
| C06 | C06_size | induction over trees |
| C07 | C07_column_text, C07_prefix_exceptions_refuted | all trees; the exceptions of the statement are a hypothesis and are shown to be real |
| C08 | C08_line_text, C08_whole_lines, C08_edits_refuted, C08_far_refuted, C08_prefix_refuted | all trees under the side conditions of the statement, each shown to be needed |
| C09 | C09_vlq_round_trip, C09_alphabet, C09_format | strong induction on magnitude |
| C10 | C10_mappings_string, C10_after_apply | for every history of generator calls, decoded by the independent reader |
| C11 | C11_generator, C11_emitted, C11_tree, C11_dense, C11_empty_chunk_refuted | invariant of the walk over chunks; the emitted string needs non-empty chunks, shown necessary |
| C12 | C12_columns, C12_columns_bytes, C12_lines, C12_columns_refuted | exact for ASCII without stray carriage returns; byte columns in general |
| C13 | C13_column_map, C13_line_map | all texts |
| C14 | C14_concat, C14_concat_dense | equality of marked texts |
| C15 | C15_prefix, C15_prefix_emitted | marked text of the prefixed node |
| C16 | C16_replace, C16_inside_chunk, C16_boundary_refuted | all edits; at a chunk boundary the new text belongs to the chunk before |
| C17 | C17_line_map, C17_ascii_columns | invariant on running column, line, source; any list of text nodes with right line counts; no two segments in one place (`lexecs_places`) |
| C18 | C18_map_code, C18_pieces, C18_identity, C18_test, C18_merge, C18_untidy_refuted | any stateful mapping function, including failure; attribution for tidy pieces |
| C19 | C19_read_text, C19_decoding_suffices | memory-level reader, all codes, all well-formed mappings |
| C20 | C20_read_lines | indices and lines below 2^32 |
| C21 | C21_text, C21_source | every map, sorted or not |
| C22 | C22_map, C22_data, C22_generator | marked text of the node equals annotation by the given map |
| C23 | C23_apply, C23_source, C23_again, C23_set, C23_twice | an inner map set later, also after reads, is composed on top; lookup of the composed map is the composition of lookups |
| C24 | C24_closest, C24_after_apply | correctness of the binary search |
| C25 | C25_order_independent, C25_after_apply_refuted | histories of calls; false once applySourceMap is followed by addMapping |
| C26 | C26_no_duplicates_complete, C26_first_use_order, C26_order_after_apply, C26_list_sources | invariants of the tables |
| C27 | C27_aligned_partial, C27_contents, C27_aligned_refuted, C27_list_aligned_partial, C27_list_refuted | **false in general**: sources without content are skipped; true when all have one. C27_contents: over all histories the list holds, for each source that has one, the first content since the last removal (`ContentHist.v`) |
| C28 | C28_write_read | write then read; numbers fit u32 as the reader demands; contents only when every source has one |
| C29 | C29_indices_partial, C29_indices_refuted | **false in general**: duplicates are removed before indexing; proved for duplicate-free arrays or check_dup = false |
| C30 | C30_reads_partial, C30_steady_data, C30_steady_generator, C30_columns, C30_lines, C30_settled, C30_refuted, C30_unordered_refuted | **false in general** for SourceMapSources made from an emitted generator; proved for heaps whose SourceMapSources are all `steady`, which covers those made from data, and those made from a generator with ordered mappings and no inner map. On any heap: if column maps and line maps are not both asked for (C30_columns, C30_lines), and for everything under an object whose line map was read once (C30_settled; `HeapSettle.v`: that read leaves each SourceMapSource under it `steady`) |
| C31 | C31_snapshot, C31_unaffected, C31_shared, C31_self | heap histories |
| C32 | C32_terminates, C32_cycle_or_text, C32_panic_iff_cycle, C32_like_tree, C32_tree_exists | fuel bound by the number of objects; reads of shared graphs equal reads of the unfolded tree |
| C33 | C33_split, C33_split_at, C33_substr, C33_char_split, C33_offset_back, C33_bytes, C33_reader | memory-level model |
| C34 | C34_keep, C34_drop | induction over texts |
| C35 | C35_chars, C35_fast, C35_slice, C35_flags | all texts, positions below 2^31 |
| C36 | C36_interning, C36_forever, C36_cleared | all sequences of calls |
| C37 | C37_cached_partial, C37_map_refuted, C37_size_refuted | **false in general**: `map(options)` on a miss forgets the options; size in UTF-16 units. Proved for calls that are `harmless`, i.e. avoid both |
| C38 | C38_mirror_partial, C38_text, C38_mirror_refuted | **false** for strings (inverted test) |
| C39 | C39_to_string_partial, C39_to_string_refuted | **false**: only single-line nodes are printed |
| C40 | C40_answers, C40_serialised, C40_wrapped_string, C40_duplicate_source_refuted | every graph reachable by API calls (`built`), every object not on a cycle, all four reads; conditions shown needed |
| C41 | C41_prefix_partial, C41_single_line, C41_prefix_refuted | **false** for pieces without newline |
| C42 | C42_emitted, C42_leaves, C42_map_source, C42_concat, C42_prefix, C42_prefix_whole | line maps of trees; ReplaceSource: C43 |
| C43 | C43_edits_partial, C43_any_source_partial, C43_near, C43_text, C43_newline_refuted | exact for texts without newline over leaves and concatenations (or any source whose attributed pieces are single lines); any texts: at most one line off; **false** in general |
| C44 | C44_unread, C44_read, C44_inner, C44_contents, C44_inner_contents, C44_read_refuted | the emitted list of entries is sorted by place and column-wise tight, so sorting, encoding and parsing give it back (`Refeed.v`); an unread result carries the generator itself; as inner map the sorted emitted entries are what `apply_source_map_generator` looks up (`RefeedInner.v`); contents: reads leave those of the generator as they are, applying a map appends those of the inner one (`RefeedContents.v`); **false** after a read if a mapped chunk is empty |
| C45 | C45_scalars, C45_exact, C45_pieces, C45_refuted | induction over the units, two at a time; exact characterisation of the strings that come back unchanged; **false** in general |
| C46 | C46_positions, C46_negative_refuted, C46_large_refuted | numbers as z / 2^k, division and remainder; reduction to C05; **false** for negative fractions and large positions |
| C47 | C47_source, C47_size, C47_pair_refuted, C47_bom_refuted, C47_size_refuted | prefixing and editing commute with UTF-16 (`Utf16Facts.v`, `JsTextProps.v`); **false** in general |
| C48 | C48_columns, C48_refuted | columns start anew on each line; per line without surrogates; **false** in general |
| C49 | C49_hash, C49_collisions, C49_change, C49_unseen, C49_prefix_refuted | induction over the tree; one changed text anywhere is noticed, with all classes, names and maps never; the first is **false** with PrefixSource |
| C50 | C50_stable, C50_assigned, C50_shows, C50_lost, C50_text, C50_text_stable, C50_text_lost, C50_used, C50_again, C50_again_refuted, C50_in_place_refuted, C50_names_refuted | invariants over all histories of one result object; **false** for results wrapped unread and for arrays changed in place |
| C51 | C51_safe, C51_unshared, C51_clear, C51_stale, C51_allocator, C51_reuse_safe, C51_reuse_clear, C51_clear_refuted, C51_free_refuted, C51_reuse_refuted, C51_alias_refuted, C51_leak_refuted | invariants over all histories of creations, calls, frees and clears; a lockstep simulation between addresses that are never reused and any allocator; **false** for equal RawSources |
| C52 | C52_map, C52_lines, C52_numbering, C52_raw | the attribution theorems C11 - C15, C22, C23 composed over expressions, renamed from cache indices to strings (`EndProps.v`); first contents over the walk (`ContentFacts.v`); reads over histories from C50 (`EndMap.v`); columns: false by C17, C20, C42 in the same way, with the nodes of the reader traced to the arrays they came from (`LineEnd.v`). A PrefixSource with columns: false stands around sources whose pieces end lines (`at_line_ends`, as C42_prefix asks), with a prefix without line breaks; with module: true a SourceMapSource inside must not end with a line break, as the text gets one prefix too many there (C08_prefix_refuted). PrefixSources inside it are themselves around one source or end with a line break (`closed`): their lists have only whole lines again, every piece of which has its break at its end (`SlmLines.v`: `prefix_whole`, `read_whole`) |
| C53 | C53_emitted, C53_own_or_empty, C53_in_order, C53_edit, C53_read, C53_original, C53_files, C53_edited_original, C53_cache_refuted | the answer of a sorted list is that of the greatest mapping in reach (`EffectFacts.v`), an invariant over the walk against the machine `effective` (`SpecEffect.v`); order of the chunks is kept by splitting and by the texts put in (`EffectOrder.v`); witnesses at the JavaScript level |
| C54 | C54_node, C54_tree, C54_says, C54_needed, C54_edited_refuted | specification `least` (`SpecLeast.v`); invariant over the walk relating the entries, the tables and the last attribution to it (`LeastFacts.v`); competing lists need an entry wherever the answer changes |
| C55 | C55_result, C55_value, C55_lines, C55_order, C55_order_after, C55_fresh, C55_repeat, C55_edited_refuted | the segments are `least` of the attribution, which renaming indices to strings carries over (indices of different strings differ); the mappings string is a function of its segments (`spell`, `LeastEnd.v`). For arbitrary expressions: relational parametricity. `Para*.v` shows of every function of the model from the constructors to the serialised map that related indices give related results, if the relation respects equality (line maps) or order (column maps) |
| C56 | C56_program, C56_edited, C56_meaning, C56_moved, C56_freed, C56_array, C56_prepend_refuted, C56_prefix_refuted | `SpecJsList.v` gives every object a text with an attribution and the uses of its sources, joined by add; the invariant relates it to the nodes of the wasm object under the final string cache (earlier caches only grow), then `list_end` (shared with C52_lines). Sources merged by mapGeneratedCode keep the list of first uses (`identity_all`). That a list consists of whole lines (`laid`), so that the prefix function of the wasm API is the one of PrefixSource on its pieces, is read off the texts it was put together from; that no single-line piece breaks a line off the attribution itself (`flows`). **False** for strings that are prepended, and for prefixes on pieces that do not end lines. C56_edited: programs that also ask ReplaceSources for their line maps; what an object says is then a relation (`lmeans`: any attribution that C59 allows), the program must be covered whatever of these is the case, and the result is proved to be one of them; without ReplaceSources the relation is the function of C56_program (C56_meaning). Missing: the mapping function of the tests, exact lines of edited text |
| C57 | C57_program, C57_added, C57_built, C57_freed, C57_self, C57_line_refuted | `SpecJsNode.v` gives every object an attributed text, the attribution of strings added to it and the contents given; the invariant relates it to the node under the final string cache, then `node_least` (shared with C55_value). Objects that are gone stay so. node({columns: false}) is node() of the expression with every OriginalSource made a LineToLineMappedSource (`roughly`, `rtree_node`). **False** for line 0. Missing: expressions outside C52 |
| C58 | C58_map, C58_fresh, C58_modules, C58_contents_refuted | induction on the expression; the invariant speaks of the chunks of the node: their attributed text (`reading`, with `edited_marked` as in C16), that their targets are among those of the unedited expression (replacing keeps that), that they ascend if those do (as in C53); it holds for all numberings at once, so that the order may be taken from the cache while places are compared in any numbering. `passes` for the numbers. Every content listed was given for its source (`given_for`; from the indices in the nodes, `found_given`); that all are listed is **false** when a ReplaceSource is around a ConcatSource. Prefixes around edits have unspecified places among those mentioned (`prefixed_at`). For columns: false see C59 |
| C59 | C59_map, C59_contents, C59_prefix_refuted | induction on the expression (`line_reading`); the invariant speaks of the nodes of the list map: what they attribute (`list_marks`), that each names a source with a content given with it (`paired_as`, kept by splitting and merging), that the first one starts with the text (`starts_so`), that none was split if there are no edits inside (`unsplit`); then `list_end` as in C52_lines. PrefixSources as in C52_lines, also around edits inside lines (`within`: no line break comes or goes, none starts right behind one): the list then has whole lines as before (`edit_whole` in `SlmLines.v`: a break is the last character of what becomes of its piece). Around an edit at the beginning of a line the text is **wrong** (C59_prefix_refuted). Missing: edits around PrefixSources are only determined up to the next line, overlapping edits; for edits inside edits and for texts with line breaks lines are only determined up to the next one |
| C60 | C60_source, C60_size, C60_map, C60_same, C60_lines, C60_edited, C60_line_edited, C60_hash, C60_cached, C60_cached_stays, C60_hash_refuted, C60_hash_loop_refuted | `ModelJsProg.v`: the state of a program is the string cache, the heap of `ModelHeap.v`, the wrapper objects with their pointers, `children` and caches, and the caches of raw and bootstrap texts. `SpecProg.v` says what calls amount to (`meaning`, `denotes`) without heap, pointers or caches. The invariant (`prog_inv`) relates the wrapper objects to the heap and the heap to the meanings; it is kept by every step, and a tree that a denoted expression unfolds to is one that C52, C58 and C59 speak of (`made`). **updateHash: false in general** (C60_hash_refuted, C60_hash_loop_refuted). A CachedSource may be around a CachedSource (`inside`, `wraps`): the model follows the getters inwards, as deep as the object is old. sourceAndMap of a CachedSource: C62 |
| C61 | C61_succeeds, C61_throws, C61_runs, C61_proper, C61_denotes, C61_hash, C61_hash_throws, C61_hash_proper | `SpecThrow.v`: `contains_itself` by `part` (what an object holds), `allowed`, `proper`. That an object amounts to an expression iff it does not contain itself is a search (`search`: a path without repetition is at most as long as the list of objects). Reads: `denotes` and the totality of the tree reads one way, `answered_unfolds` (C32) the other; maps: `built` (C40) is kept by every step. `proper`: adding an edge to an acyclic graph (`link_apart`). updateHash (`HashProps.v`): the same search in the graph `fed` of what it calls; `hash_is` (an answer means that something is fed, induction on the stack). |
| C62 | C62_pair, C62_map, C62_fresh, C62_text, C62_again, C62_again_map, C62_stale_refuted, C62_shared_refuted, C62_text_refuted, C62_nested_refuted | `ModelJsCached.v`: the program state of C60, the result objects in the order they were made, and `_cachedMaps` of every CachedSource (options to the number of a result). `SpecCached.v`: `later st r` are all ways in which result `r` can answer after any further calls that only read it; `tells` says of all of them together what C52/C58/C59 say of one result. Proof: `prog_inv` (C60) is kept by every call (`kstep_inv`); a result develops only by reads and by growth of the string cache (`evolves`, `run_evolves`); a call of map or sourceAndMap goes inwards through the CachedSources (`maps_to`, `both_to`) and returns a new map of the innermost source or one that some CachedSource on the way remembers (`maps_born`, `both_born`); so every remembered text or map was made from the innermost source at some moment since the first CachedSource around it was made (`origins`, which also says with which options), and at that moment that source was the tree of the same expression (`moment`, `class_tells`). Without columns the options can get lost on the way; `suits` says when they do not (`levels`: outer CachedSources know their text exactly if they know the map). |
| C63 | C63_again, C63_direct, C63_inside, C63_lines, C63_edited, C63_contents_refuted, C63_lines_refuted, C63_edited_refuted | `SpecAgain.v`: `displays c o v m` (whenever they are read, the fields of the result are the text `v` and the map `m`), `again` (a result of a SourceMapSource made of the map of a result, and so on), `swaps` (an expression in the places of another). The emitted map is a `sound_map` (`emitted_sound`: decodable strings are ASCII, targets of exact expressions fit 32 bits, segments are at different places), so the copy is an expression of C52 with the same `marks`; equal `marks` give equal maps by C57 (`spelled_unique`). Direct: after reads the result is as it was or has its map made (`quiet_state`), and either way the node of the new source stands for the same characters and contents (`node_for`, kept while the cache grows; `direct_node` uses the generator list in order from C44). Lines: the operations by which a list writes its map are `orderly` (`SlmFacts.v`), so no two segments are at one place and the map is sound (`read_sound`); its `marks` are `carried None M` of C52_lines. Edited expressions: the same for maps with `tidy_segs` (one segment for a place). |
| C64 | C64_arguments, C64_call, C64_string, C64_ints, C64_history, C64_leak, C64_leak_refuted | invariant `sane` over every step of the glue; a view is renewed before each use, so it is of the buffer of now (`renew_now`); writing into a new block keeps all others (`store`); `decode_utf8` and `words_le32`: reading back what was encoded; blocks are counted as multisets (`take_perm`). Histories by induction. Freeing everything is **false** if the glue throws between two parameters |
| C65 | C65_says, C65_same, C65_lines, C65_edited, C65_edited_lines, C65_regrouped, C65_written_refuted, C65_prefix_refuted | `alike` (`SpecAlike.v`): the equivalence generated by the rearrangements, closed under contexts. By induction on it both attributions are equal (`alike_says`, once for all functions of the shape of `marks` and `line_marks`) and so are the contents given; with columns the map is determined by the attribution (C54, C55), without columns by C52_lines. With a ReplaceSource around (`AlikeEdit.v`) kept characters, and inserted text with columns, are compared through the readings of C58 and C59; Nested ConcatSources are unpacked by `concat_add`, so that regrouped expressions are the same tree of wasm objects (`RegroupFacts.v`). Other rearrangements below an inner ReplaceSource are outside. Equality of the mappings strings without columns is **false** |
| C66 | C66_text, C66_map, C66_lines, C66_contents_refuted, C66_seam_refuted, C66_lines_refuted | `parts_edited` (`SpecSplit.v`) deals the edits out to the parts. Sorting by end position splits at the seam (`arrange_split`), places of the second part move by the length of the first (`gplaces_both`), and weaving splits (`woven_split`); all three for texts of any kind, so that the same proof serves texts and attributed texts. Maps: both readings of C58 are the kept characters with something for the new ones (`parts_reading`). Line maps: the same for the readings of C59 (`kept_lines_split`, `parts_lines`). Same contents, same attribution of new text and same line mappings are **false** |
| C67 | C67_text, C67_one, C67_one_by_one, C67_undone, C67_order_refuted, C67_map, C67_written_refuted | `later_edit` (`SpecStages.v`) gives the position of an edit in the edited text. An edited text is cut into what is in front of an edit, the range of the edit and the rest (`stage_one`, `stage_all` in `StageFacts.v`, for texts of any kind, from `woven_three`); replacing the middle part gives the text with one more edit (`stage_two`). Several edits by induction (`stages` in `StageList.v`), where the order of the edits is kept (`later_order`). Maps: the readings of C58 are the kept characters with something for the new ones. Line maps are not covered: C59 does not say enough about edits of edited sources. Another order and the same mappings are **false** |
| C68 | C68_idle, C68_lines, C68_lines_refuted, C68_hash_refuted, C68_string_refuted | `idle` (`SpecIdle.v`) is the least congruence on expressions that contains the wrappers. `melt` (`IdleFacts.v`) dissolves the nodes that have no position, source, name or contents; nodes with the same normal form are walked alike (`walk_like`), and prefixing (`clone_like`) and splitting (`split_like`) give nodes with the same normal form or fail alike, so the loop of a ReplaceSource does too (`loop_like`). `idle_built` in `IdleTree.v` is the induction over `idle` for the built trees; the text parts use C45. Line maps: `through_marks` in `IdleLines.v` is invariant under `idle` and is what C59 reads if nothing is edited. Line maps in general, the hash and plain strings: **false** |
| C69 | C69_coarse, C69_edited, C69_prefixed, C69_refuted | `coarser` (`SpecCoarse.v`) compares the two readings of a character. From C52: both maps read as `marks` and `line_marks`, which are compared by induction over the expression (`coarse_marks` in `CoarseFacts.v`): tokens do not cross lines, prefixes keep the relation, the first segment of a line stands for all of them if they name one line (`first_says`). Edits: `keeps` gives the kept characters of a bundle of edited modules; both readings are woven from related parts (`kept_coarser`, `keeps_lines` in `CoarseEdit.v`), then C58 and C59. Prefixes around edits (`CoarsePrefix.v`): `longer` allows for the prefix that the text with columns may have too many, equal texts exclude it, and so does `unended` (`below_exact`). Other SourceMapSources: **false** |

## 6. Findings

Behaviour of the code that contradicts what a user would expect; those with a theorem are proved.

Wrong or unstable results
1. `sourcesContent` is misaligned as soon as one source has no content (C27_aligned_refuted, C27_list_refuted). A copy of such a map given to a SourceMapSource hands the contents to other sources, which shows once it is part of a larger source (C63_contents_refuted). An explicit null in sourcesContent keeps its place, but counts as the content of its source: a text given for that source later in the same ConcatSource is not listed (C52_null_case).
2. Maps whose `sources` or `names` repeat an entry are read with shifted indices (C29_indices_refuted); node() may even panic (C40_duplicate_source_refuted).
3. A SourceMapSource made from an emitted generator and given an inner map answers listMap(module) differently before and after node() (C30_refuted); with unordered mappings it answers node() differently after listMap() (C30_unordered_refuted).
4. CachedSource.map(options) asks the wrapped source without the options and stores the answer under them; sourceAndMap(options) is wrong afterwards (C37_map_refuted). size() after source() counts UTF-16 units, before it bytes (C37_size_refuted).
5. SourceListMap.prepend(string, source) tests the source the wrong way round (C38_mirror_refuted).
6. SourceListMap.toString() prints only single-line nodes (C39_to_string_refuted).
7. The built-in prefix mapping function of the wasm API mangles pieces without newline: `abc` becomes `P\nPabc`; a debug build panics by underflow (C41_prefix_refuted).
8. sourceAndMap({columns:false}) returns another text than source() for overlapping edits: `replace(2,8,"A")`, `replace(4,5,"B")` on `0123456789` gives `01BA9` and `0123BA9` (C08_edits_refuted); for an edit up to 2147483647, whose end wraps around: `replace(1,2147483647,"X")` gives `X0123456789` and `0X` (C08_far_refuted); for prefixes over pieces that do not end at line ends, e.g. a ConcatSource of `a` and `b` gives `PaPb` (C08_prefix_refuted); and for prefixes over an edit that starts at the beginning of a line, as its text goes to the end of the line before: replacing `d` by `X` in `abc\ndef\nghi` under the prefix `> ` gives `> X> ef` for the second line (C59_prefix_refuted).
9. sourceAndMap({columns:true}) differs from source() for a prefix over an empty RawSource (`""` against `"P"`) and over a tree whose last chunk is empty after a newline (C07_prefix_exceptions_refuted).
10. OriginalSource: a blank token does not advance the column and columns count bytes, so later tokens on the line get wrong columns when a blank token or a non-ASCII character precedes them (C12_columns_refuted).
11. Empty mapped chunks (left by replacements) can make following unmapped text appear mapped (C11_empty_chunk_refuted); for the same reason reading `r.map.mappings` before wrapping r in a SourceMapSource changes what that source says (C44_read_refuted). Even mapped text of another file is affected: after `replace(0, 0, "")` on a ConcatSource of `x` (b.js) and `y` (a.js) the remaining `y` is mapped to b.js if a.js got its StringCache index before b.js, and to a.js otherwise; so the map depends on what was constructed earlier in the process (C53_cache_refuted; a consumer that takes the first instead of the last segment at a place sees the two cases exchanged). Within one file nothing goes wrong (C53_edited_original). Removed text also leaves its source in `sources` and a second segment for the place (C54_edited_refuted). A copy of such a map can say something else than the map itself: the generator sorts segments of one place by the numbers of StringCache, a reader of the copy by their place in `sources` (C63_edited_refuted).
12. Text inserted at a chunk boundary is attributed to the chunk before it (C16_boundary_refuted); in line maps likewise to the previous piece.
13. mapGeneratedCode can change line attributions when a piece has its newline not at its end: even the identity function moves `b` of `a\nb` from line 2 to line 3 when pieces are merged (C18_untidy_refuted).
14. A newline in the text of an edit can move kept characters of the line map to the next line: inserting `x\n` at 3 into `a\nbc` attributes `c` to line 3 (C43_newline_refuted).
15. After applySourceMap addMapping makes results depend on reads in between, and serialization can underflow (C25_after_apply_refuted; a panic in the model and in a debug build, see *Arithmetic*).

JavaScript side
- A text that starts with U+FEFF loses it in every composite source (TextDecoder strips it), while RawSource keeps it (C45_refuted, C47_bom_refuted); the columns of the first line are then off by one (C48_refuted).
- Lone surrogates become U+FFFD, also when the two halves of a pair are added as two strings (C45_refuted).
- ReplaceSource counts code points where JavaScript counts UTF-16 units: with an emoji in front every edit lands too far right (C47_pair_refuted); generated columns likewise (C48_refuted).
- size() of Concat, Prefix and Replace sources counts bytes, of the others UTF-16 units (C47_size_refuted).
- insert(-0.5) comes before insert(-1), since `p % 1` is negative in JavaScript (C46_negative_refuted); replace(0, Number.MAX_SAFE_INTEGER, "") removes nothing, replace(0, Infinity, "") one character (C46_large_refuted).
- PrefixSource hashes the prefix behind the text, without separator: `a` in front of `b` and nothing in front of `ba` collide (C49_prefix_refuted).
- Wrapping a result in a SourceMapSource, or clear(), makes every property of r.map (and r.source) that was not read before throw (C50_lost); wrapping an unread result twice throws (C50_again_refuted); `r.map.sources[0] = ...` shows but is not used (C50_in_place_refuted), nor are names assigned to a line map (C50_names_refuted).
- RawSources with equal text share one wasm object, but only the first is in the pool: after clear() the second still points to the freed object, and handing it to a ConcatSource reads freed memory (C51_clear_refuted); free() of one of them makes clear() free it twice (C51_free_refuted), and a RawSource made after the free() is dangling from the start (C51_reuse_refuted). Where addresses are reused, the dangling wrapper can come to point to a source of another class made since (C51_alias_refuted).
- clear() does not free the wasm object of a ConcatSource whose constructor threw, nor nodes and list maps the user asked for (C51_leak_refuted).
- The pointer cache of OriginalSource for `webpack/bootstrap` never hits, since its key is a fresh index (used in C51_safe).
- With columns: false a source whose first use has no content stays without, although a later use gives one (C52_lines_case); with columns: true the later one is taken (C52_map).
- With columns: false two texts without a source in one line give the line an unmapped segment, one such text gives none: `x`, `y\n` has the mappings `A;`, and `xy\n` has `;` (C65_written_refuted). Lookups agree (C65_lines).
- new SourceListMap([...]) gives an object on which every call throws: the wasm wrapper is stored where its pointer belongs (C56_array). mapGeneratedCode leaves the list it is called on unusable (C56_moved). A string prepended with a source loses it; one without gets a source `null` (C56_prepend_refuted). SingleLineNode with code and without source, and mapGeneratedCode with the Replace function, throw (both part of C56_program).
- node.add(node) throws and destroys the node: the glue sets the pointer of the argument to 0 before it reads its own (C57_self). A node that was added to another one cannot be used again; if add(array) throws in the middle, the chunks before stay added, and the nodes among them are gone (C57_added, part of C57_program). The content of a source given by a node that is added later wins over the one the receiving OriginalSource has for itself (C57_case). new SourceNode(0, ...) makes the map unreadable in a build with overflow checks (C57_line_refuted).
- A ReplaceSource around a ConcatSource: deleting text that begins in one source and ends in the next one loses the content of the second, though text of it is left (split_sourcenode gives it to the part that is deleted); sourcesContent leaves out what is missing, so the contents of all later sources are shown for the wrong source (C58_contents_refuted).
- Replacing the first character of a module inside a bundle loses the content of the module if the ReplaceSource is around the ConcatSource, and keeps it if it is around the module (C66_contents_refuted). Text inserted between two modules is attributed to the one before it in the first case, to the edited module in the second (C66_seam_refuted).
- Two insertions made in a second ReplaceSource come in call order if the first one has removed all text between their positions; in a single ReplaceSource they come in the order of the positions (C67_order_refuted). A newline put in by the first step makes the mappings differ as strings (C67_written_refuted).
- A PrefixSource with an empty prefix or a ReplaceSource without edits changes the map without columns: the pieces of consecutive lines are merged when they pass through mapGeneratedCode, so a line moves from line 1 of the source to line 2 in the witness (C68_lines_refuted). A ReplaceSource without edits changes the hash (C68_hash_refuted). A plain string is accepted by ConcatSource but not below another wrapper (C68_string_refuted).
- A SourceMapSource whose map takes one generated line from several lines loses all but the first of them without columns, and without module its map names the generated file (C69_refuted).
- `ConcatSource.js:51` asks for `item.isConcatSource`, which is defined nowhere (the classes have `type`). So `children` keeps an added ConcatSource as it is, while wasm copies its items of that moment (`src/concat_source.rs`): after `outer.add(inner)`, `inner.add("z")` changes `outer.updateHash` but not `outer.source()` (C60_hash_refuted); and after `a.add(b); b.add(a)` both have texts and maps, but `updateHash` recurses until the stack overflows (C60_hash_loop_refuted).
- By reading only: `src/types/string_ptr.rs` is not part of the crate (commented out in `src/types/mod.rs`).
- CachedSource in programs: `c.source()`, a change of the wrapped source, `c.sourceAndMap()` pairs the old text with a map of the new one (C62_stale_refuted). `_cachedMaps` hands the same object to every caller, and `new SourceMapSource(value, name, map)` takes the wasm object out of it: the next `c.sourceAndMap()` returns a map whose getters throw, although nothing was changed (C62_shared_refuted). Where sourceAndMap and source() of the wrapped source differ (C07), source() of the CachedSource depends on which was called first (C62_text_refuted). A CachedSource around a CachedSource: after `outer.source()`, `outer.sourceAndMap({columns: false})` asks the inner one for `map(options)`, which drops the options, and returns the map with columns (C62_nested_refuted).
- A glue function that throws after it has passed a string (`_new_string_sidx_string_wasmmap` with a moved map) leaves the string allocated for ever (C64_leak_refuted). SourceMapSource.js does not get there: `_wasmObj` of a moved map is null, and then it reads the fields, which throw first (C50_lost).
- By reading only: `SingleLineNode.js:24` calls the misspelt `_new_ntring_null_null_number` (TypeError, part of C56_program); `clone()` of CodeNode, SourceNode and SingleLineNode calls `wasm._codenode__clone` etc., which the glue does not export, and so always throws (part of C56_program).

Panics
16. node() and listMap() of a PrefixSource or ReplaceSource that wraps a plain string (C40_wrapped_string).
17. Cyclic graphs, e.g. concat.add(prefix(concat)) (C32_panic_iff_cycle); concat.add(concat) (C31_self).

Read in the code, without theorem
18. `insert` at i32::MIN wraps to a huge end position; `(end >> 4) as i32 + 1` wraps at i32::MAX.
19. The fast path of split_str reports `Err(0)` at pos = length where the slow path reports success (visible in C35_fast against C35_chars; the callers that use the fast path turn `Err` into the pieces `(s, "")`, so the texts agree).
20. `replace(2, 5.5)` next to `insert(6)`: the order of output is by fractional end (the condition `before` of C03).
21. JavaScript: `ReplaceSource.replacements()` calls a missing method; `mapGeneratedCode` with the Replace function calls a wasm function that does not exist, and every `mapGeneratedCode` consumes the list it is called on; `SourceListMap` given an array stores an object where a pointer is expected; a SourceMapSource built from `_wasmObj` consumes that object; OriginalSource's pointer cache is keyed by an index that is always new, so it never hits; ConcatSource.updateHash follows the JavaScript children although the wasm object took a snapshot.
22. `set_source_content` keeps the first content (or_insert); None and Some(-1) sources both render as -1; SourceListMap children of the kinds string, map and index are dropped by mapGeneratedCode.

## 7. Tests of the theorems against wrong programs

`seeded/LOG.jsonl` records, one line per finished attempt, edits of the model that imitate realistic bugs, made in a scratch
copy. A script rebuilds the development, gives up exactly the lemmas whose proofs fail
and then asks `Print Assumptions` which of the final theorems still hold; a claim that is broken by
the edit must lose its theorem. "Failed" in the log means that the proof of a theorem no longer goes
through with the edited model (or that it rests on a lemma whose proof no longer does), not that the theorem
was refuted. The conclusive information is in the theorems that survive: each of them was checked by hand against the
edit, and a survivor whose English claim the edit breaks is tightened.
Lines whose id begins with `auto` are edits made by a script that exchanges single operators and constants in
the definitions of the model; for them only the file is recorded in which the build first fails, and each edit that
survives the whole build is judged by hand.
