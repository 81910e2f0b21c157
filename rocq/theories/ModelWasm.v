(** Model of src/wasm_api/wasm_containers.rs (results handed to JavaScript) and of the
    functions of src/wasm_api/ that produce and consume them.  The marshalling of the
    results (arrays, strings) by wasm-bindgen is not modelled here. *)
From Verif Require Import Base ModelString ModelVlq ModelSm ModelSlm ModelSources.

(** struct JsStringWithSourceMap, wasm_containers.rs:8-13. *)
Record js_result := mk_jr {
  jr_s : str;
  jr_map : option source_map;
  jr_gen : option generator }.

(** from, 55-63, and from_with_generator, 65-74. *)
Definition jr_from (s : str) (m : source_map) : js_result := mk_jr s (Some m) None.
Definition jr_from_with_generator (s : str) (g : generator) : js_result := mk_jr s None (Some g).

(** map, 47-53: the map is made when it is first asked for; version, file, sources,
    sources_content, names and mappings (21-43) all call it, s (17-19) does not. *)
Definition jr_get_map (r : js_result) : option (js_result * source_map) :=
  match jr_map r with
  | Some m => Some (r, m)
  | None =>
      let* g := jr_gen r in
      let* (g, m) := gen_to_source_map g in
      Some (mk_jr (jr_s r) (Some m) (Some g), m)
  end.

(** Any number of calls that need the map. *)
Fixpoint jr_reads (k : nat) (r : js_result) : option js_result :=
  match k with
  | O => Some r
  | S k => let* (r, _) := jr_get_map r in jr_reads k r
  end.

(** _MSourceNode::_to_string_with_source_map_null, wasm_api/source_map/source_node.rs:39-43;
    _SourceListMap::_to_string_with_source_map_null,
    wasm_api/source_list_map/source_list_map.rs:48-50. *)
Definition node_result (n : smnode) : option js_result :=
  let* (s, g) := to_string_with_generator n None None in
  Some (jr_from_with_generator s g).
Definition list_result (m : slm) : js_result :=
  let '(s, mp) := slm_to_string_with_source_map m None in jr_from s mp.

(** get_raw, 76-78, and _SourceMapSource::_new_string_sidx_string_wasmmap,
    wasm_api/source_map_source.rs:39-70. *)
Definition content_of (m : source_map) : sm_content :=
  mk_smc (map_sources m) (map_contents m) (map_names m) (map_mappings m).
Definition sms_new_wasmmap (value : str) (value_idx name : Z) (r : js_result) : option sms :=
  match jr_map r with
  | Some m => Some (sms_new value value_idx name (content_of m) (jr_gen r))
  | None =>
      let* g := jr_gen r in
      Some (sms_new_with_generator value value_idx name g)
  end.

(** _set_inner_source_map_wasmmap, wasm_api/source_map_source.rs:92-107. *)
Definition sms_set_inner_wasmmap (x : sms) (r : js_result) : option sms :=
  match jr_map r with
  | Some m => Some (sms_set_inner x (content_of m) (jr_gen r))
  | None =>
      let* g := jr_gen r in
      Some (sms_set_inner_generator x g)
  end.
