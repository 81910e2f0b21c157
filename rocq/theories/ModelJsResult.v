(** Model of wasm-api/utils/createStringWithSourceMap.js: the object returned by
    sourceAndMap, and of the constructor of SourceMapSource that takes its map. *)
From Verif Require Import Base ModelString ModelVlq ModelSm ModelSlm ModelSources ModelTree ModelWasm ModelJs ModelJsApi.

(** The lazy properties of the map. *)
Inductive field := FSources | FContents | FMappings | FNames.
Definition field_eqb (a b : field) : bool :=
  match a, b with
  | FSources, FSources | FContents, FContents | FMappings, FMappings | FNames, FNames => true
  | _, _ => false
  end.

(** Values of these properties: arrays of strings (or null: None, or Some JNULL if it comes out of
    the cache), strings, undefined. *)
Inductive jval := VArr (l : list (option jstr)) | VStr (s : jstr) | VUndef.

(** The variables captured by the closures, 35-43 and 45: the wasm object (None: its ptr is
    0), the caches (None: Types.Null), modified, isNames. *)
Record robj := mk_robj {
  ro_wasm : option js_result;
  ro_source : option jstr;
  ro_fields : field -> option jval;
  ro_modified : bool;
  ro_names : bool }.
Definition robj_new (r : js_result) (names : bool) : robj :=
  mk_robj (Some r) None (fun _ => None) false names.

Definition upd (fs : field -> option jval) (f : field) (v : jval) : field -> option jval :=
  fun g => if field_eqb f g then Some v else fs g.
Definition set_wasm (o : robj) (w : option js_result) : robj :=
  mk_robj w (ro_source o) (ro_fields o) (ro_modified o) (ro_names o).
Definition set_field (o : robj) (f : field) (v : jval) : robj :=
  mk_robj (ro_wasm o) (ro_source o) (upd (ro_fields o) f v) (ro_modified o) (ro_names o).
Definition set_modified (o : robj) : robj :=
  mk_robj (ro_wasm o) (ro_source o) (ro_fields o) true (ro_names o).

(** What is put into the cache of a property: 54-56, 72-77, 94-95, 111-113. *)
Definition raw_value (c : cache) (m : source_map) (f : field) : option jval :=
  match f with
  | FSources => let* l := cache_resolve c (map_sources m) in Some (VArr l)
  | FContents =>
      let* l := cache_resolve c (map_contents m) in
      Some (match l with [] => VUndef | _ => VArr l end)
  | FMappings => Some (VStr (to_js (map_mappings m)))
  | FNames => let* l := cache_resolve c (map_names m) in Some (VArr l)
  end.
(** What the getter makes of the cached value (79-81 for sourcesContent). *)
Definition shown (f : field) (v : jval) : jval :=
  match f, v with
  | FContents, VArr [] | FContents, VStr [] => VUndef
  | _, _ => v
  end.

(** The getters, 52-59, 70-82, 92-97, 109-116.  The second component is None if an Error is
    thrown: "Attempt to use a moved value" for ptr = 0, or "No element indexed by".  Without
    isNames there is no property names (undefined). *)
Definition ro_get (c : cache) (o : robj) (f : field) : robj * option jval :=
  match ro_fields o f with
  | Some v => (o, Some (shown f v))
  | None =>
      if negb (ro_names o) && field_eqb f FNames then (o, Some VUndef)
      else
        match ro_wasm o with
        | None => (o, None)
        | Some r =>
            match jr_get_map r with
            | None => (o, None)
            | Some (r, m) =>
                let o := set_wasm o (Some r) in
                match raw_value c m f with
                | None => (o, None)
                | Some v => (set_field o f v, Some (shown f v))
                end
            end
        end
  end.

(** The setters, 60-63, 83-86, 98-101, 117-120; without isNames an assignment to names makes
    an ordinary property. *)
Definition ro_set (o : robj) (f : field) (v : jval) : robj :=
  let o := set_field o f v in
  if negb (ro_names o) && field_eqb f FNames then o else set_modified o.

(** The getter of source, 136-141. *)
Definition ro_get_source (o : robj) : robj * option jstr :=
  match ro_source o with
  | Some s => (o, Some s)
  | None =>
      match ro_wasm o with
      | None => (o, None)
      | Some r =>
          let s := to_js (jr_s r) in
          (mk_robj (ro_wasm o) (Some s) (ro_fields o) (ro_modified o) (ro_names o), Some s)
      end
  end.

(** The getter of _wasmObj, 124-130. *)
Definition ro_wasm_obj (o : robj) : option js_result :=
  if ro_modified o then None else ro_wasm o.

(** (x || []).map(StringCache.add) and addUnchecked, SourceMapSource.js:30-34; a non-empty
    string has no map (TypeError).  The cache stores null elements like strings.
    Simplification: mappings that are not a string are not modelled (None). *)
Definition stored (s : option jstr) : jstr := match s with Some s => s | None => JNULL end.
Fixpoint add_all (add : cache -> jstr -> cache * nat) (c : cache) (l : list (option jstr))
  : option (cache * list Z) :=
  match l with
  | [] => Some (c, [])
  | s :: r =>
      let '(c, i) := add c (stored s) in
      let* (c, is) := add_all add c r in
      Some (c, Z.of_nat i :: is)
  end.
Definition as_list (v : jval) : option (list (option jstr)) :=
  match v with VArr l => Some l | VUndef | VStr [] => Some [] | VStr _ => None end.
Definition as_string (v : jval) : option jstr := match v with VStr s => Some s | _ => None end.
Definition pass_list (add : cache -> jstr -> cache * nat) (c : cache) (v : option jval)
  : option (cache * list Z) :=
  let* v := v in let* l := as_list v in add_all add c l.

(** new SourceMapSource(value, name, o.map), SourceMapSource.js:13-44: with a wasm object,
    which is consumed, or through the properties.  None as SourceMapSource: an Error. *)
Definition ro_wrap (c : cache) (o : robj) (value name : jstr) : cache * robj * option sms :=
  let '(c, vi) := cache_add_unchecked c value in
  let '(c, ni) := cache_add c name in
  match ro_wasm_obj o with
  | Some r =>
      (c, set_wasm o None, sms_new_wasmmap (from_js value) (Z.of_nat vi) (Z.of_nat ni) r)
  | None =>
      let '(o, s) := ro_get c o FSources in
      match pass_list cache_add c s with
      | None => (c, o, None)
      | Some (c, ss) =>
          let '(o, k) := ro_get c o FContents in
          match pass_list cache_add_unchecked c k with
          | None => (c, o, None)
          | Some (c, ks) =>
              let '(o, m) := ro_get c o FMappings in
              match (let* m := m in as_string m) with
              | None => (c, o, None)
              | Some m =>
                  let '(o, n) := ro_get c o FNames in
                  match pass_list cache_add c n with
                  | None => (c, o, None)
                  | Some (c, ns) =>
                      (c, o, Some (sms_new (from_js value) (Z.of_nat vi) (Z.of_nat ni)
                                     (mk_smc ss ks ns (from_js m)) None))
                  end
              end
          end
      end
  end.

(** ** Histories of one result object; other uses of the library only add strings to
    the cache, clear() (index.js:25-30) empties it and frees the wasm object, which is in
    the pool. *)
Inductive rop :=
| RGet (f : field)
| RSet (f : field) (v : jval)
| RMutate (f : field) (g : jval -> jval)      (* o.map.sources.push(...) and the like *)
| RSource
| RSetSource (s : jstr)
| RWrap (value name : jstr)
| ROther (s : jstr) (checked : bool)
| RClear.
Inductive rans := AVal (v : jval) | AText (s : jstr) | ASms (x : sms) | ADone | AError.
Definition answer {A} (f : A -> rans) (o : option A) : rans :=
  match o with Some a => f a | None => AError end.

Definition rstep (w : cache * robj) (op : rop) : cache * robj * rans :=
  let '(c, o) := w in
  match op with
  | RGet f => let '(o, v) := ro_get c o f in (c, o, answer AVal v)
  | RSet f v => (c, ro_set o f v, ADone)
  | RMutate f g =>
      let '(o, v) := ro_get c o f in
      match v with
      | Some v => (c, match ro_fields o f with Some _ => set_field o f (g v) | None => o end, ADone)
      | None => (c, o, AError)
      end
  | RSource => let '(o, s) := ro_get_source o in (c, o, answer AText s)
  | RSetSource s => (c, mk_robj (ro_wasm o) (Some s) (ro_fields o) (ro_modified o) (ro_names o), ADone)
  | RWrap value name => let '(c, o, x) := ro_wrap c o value name in (c, o, answer ASms x)
  | ROther s checked => (fst (if checked then cache_add c s else cache_add_unchecked c s), o, ADone)
  | RClear => (cache_clear c, set_wasm o None, ADone)
  end.
Fixpoint rrun (w : cache * robj) (l : list rop) : cache * robj * list rans :=
  match l with
  | [] => (w, [])
  | op :: r =>
      let '(c, o, a) := rstep w op in
      let '(w, out) := rrun (c, o) r in
      (w, a :: out)
  end.
