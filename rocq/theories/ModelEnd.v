(** Model of whole JavaScript programs of one expression: constructor calls that fill
    StringCache, then sourceAndMap. *)
From Verif Require Import Base ModelString ModelVlq ModelSm ModelSlm ModelSources ModelTree ModelWasm ModelJs ModelJsApi ModelJsResult.

(** A source map given as an object, with strings; null as an element is JNULL, absent arrays
    are []. *)
Record jmap := mk_jmap {
  jm_sources : list jstr;
  jm_contents : list jstr;
  jm_names : list jstr;
  jm_mappings : jstr }.

(** An expression of constructor calls (and of replace and insert on a new ReplaceSource).
    The originalSource of a SourceMapSource is "" if there is none. *)
Inductive jexpr :=
| XStr (s : jstr)
| XRaw (value : jstr)
| XOriginal (value name : jstr)
| XL2L (value name orig : jstr)
| XPrefix (prefix : jstr) (e : jexpr)
| XEdit (e : jexpr) (calls : list jcall)
| XConcat (l : list jexpr)
| XSms (value name : jstr) (m : jmap) (orig : jstr) (inner : option jmap).

(** sources.map(StringCache.add) and the like. *)
Fixpoint add_list (add : cache -> jstr -> cache * nat) (c : cache) (l : list jstr) : cache * list Z :=
  match l with
  | [] => (c, [])
  | s :: r =>
      let '(c, i) := add c s in
      let '(c, is) := add_list add c r in
      (c, Z.of_nat i :: is)
  end.
(** SourceMapSource.js:30-43 and 58-72. *)
Definition pass_map (c : cache) (m : jmap) : cache * sm_content :=
  let '(c, ss) := add_list cache_add c (jm_sources m) in
  let '(c, ks) := add_list cache_add_unchecked c (jm_contents m) in
  let '(c, ns) := add_list cache_add c (jm_names m) in
  (c, mk_smc ss ks ns (from_js (jm_mappings m))).

(** The constructors: RawSource.js:15-26, OriginalSource.js:16-43,
    LineToLineMappedSource.js:11-24, PrefixSource.js:10-65, ReplaceSource.js:12-50,
    ConcatSource.js:10-58, SourceMapSource.js:13-76.  Arguments come first. *)
Fixpoint build (c : cache) (e : jexpr) : cache * jtree :=
  match e with
  | XStr s => (c, JStr s)
  | XRaw v => (c, JRaw v)
  | XOriginal v name =>
      let '(c, vi) := cache_add_unchecked c v in
      let '(c, ni) := cache_add c name in
      (c, JOriginal v (Z.of_nat vi) (Z.of_nat ni))
  | XL2L v name orig =>
      let '(c, ni) := cache_add c name in
      let '(c, oi) := cache_add_unchecked c orig in
      (c, JL2L v (Z.of_nat ni) (Z.of_nat oi) orig)
  | XPrefix p e => let '(c, t) := build c e in (c, JPrefix p t)
  | XEdit e h => let '(c, t) := build c e in (c, JEdit t h)
  | XConcat l =>
      let '(c, ts) :=
        (fix go c l :=
           match l with
           | [] => (c, [])
           | x :: r =>
               let '(c, t) := build c x in
               let '(c, ts) := go c r in
               (c, t :: ts)
           end) c l in
      (c, JConcat ts)
  | XSms v name m orig inner =>
      let '(c, vi) := cache_add_unchecked c v in
      let '(c, ni) := cache_add c name in
      let '(c, d) := pass_map c m in
      let '(c, o) := (match orig with
                      | [] => (c, None)
                      | _ => let '(c, oi) := cache_add_unchecked c orig in (c, Some (orig, Z.of_nat oi))
                      end) in
      let '(c, i) := (match inner with
                      | None => (c, None)
                      | Some m => let '(c, d) := pass_map c m in (c, Some d)
                      end) in
      (c, JSms v (Z.of_nat vi) (Z.of_nat ni) d o i)
  end.

(** sourceAndMap(options), SourceAndMapMixin.js:51-72, with columns and module already
    compared to false; RawSource.js:44-49 has its own, with map null.  None: an Error. *)
Inductive jresult :=
| ResPlain (source : jstr)
| ResMap (o : robj).
Definition js_source_and_map (columns module : bool) (t : jtree) : option jresult :=
  match t with
  | JStr _ => None
  | JRaw v => Some (ResPlain v)
  | _ =>
      if columns then
        let* n := t_node true module (import t) in
        let* r := node_result n in
        Some (ResMap (robj_new r true))
      else
        let* l := t_list_map false module (import t) in
        Some (ResMap (robj_new (list_result l) false))
  end.
