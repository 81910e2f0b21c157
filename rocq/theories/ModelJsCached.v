(** Model of programs that also use maps: sourceAndMap(options) and map(options) of all
    classes, the maps that a CachedSource remembers, and the result objects, which are shared
    between a CachedSource and its callers. *)
From Verif Require Import Base ModelString ModelVlq ModelSm ModelSlm ModelSources ModelTree ModelHeap
  ModelWasm ModelJs ModelJsApi ModelJsResult ModelEnd ModelJsProg.

(** The state of ModelJsProg.v, the result objects in the order of their creation, and
    _cachedMaps (CachedSource.js:12) of every object: options to the number of a result (the map
    is its property map), or null. *)
Record kstate := mk_kstate {
  k_js : jstate;
  k_results : list robj;
  k_maps : nat -> list (jopt * option nat) }.
Definition kstate_new (c : cache) : kstate := mk_kstate (jstate_new c) [] (fun _ => []).
Definition set_js (st : kstate) (js : jstate) : kstate := mk_kstate js (k_results st) (k_maps st).
Definition set_cache (js : jstate) (c : cache) : jstate :=
  mk_jstate c (js_heap js) (js_raws js) (js_boots js) (js_objs js).

(** SourceAndMapMixin.js:29-30, 52-53 and 12-13: options.columns === false, options.module
    === false; undefined is an empty object. *)
Definition cols (o : jopt) : bool := match o with JObj (Some false) _ => false | _ => true end.
Definition mods (o : jopt) : bool := match o with JObj _ (Some false) => false | _ => true end.

(** The property source of an answer: a string, or the getter of a result. *)
Inductive ktext := TNow (s : jstr) | TOf (r : nat).

(** sourceAndMap(options) of an object that is not a CachedSource: SourceAndMapMixin.js:51-72,
    RawSource.js:44-49.  map(options), 28-49 and RawSource.js:36-38, does the same and returns
    only the map. *)
Definition plain_map (st : kstate) (i : nat) (o : jopt) : option (kstate * ktext * option nat) :=
  let* (js, a) := jstep (k_js st) (OMap i (cols o) (mods o)) in
  match a with
  | NResult (ResPlain v) => Some (set_js st js, TNow v, None)
  | NResult (ResMap x) =>
      let r := length (k_results st) in
      Some (mk_kstate js (k_results st ++ [x]) (k_maps st), TOf r, Some r)
  | _ => None
  end.

(** Use of a result object, as in ModelJsResult.v; the SourceMapSource made by RWrap is
    returned but is no object of the program (for it see C44 and C50).  clear() is not
    modelled here. *)
Definition use_result (st : kstate) (r : nat) (op : rop) : option (kstate * rans) :=
  match op with
  | RClear => None
  | _ =>
      let* x := nth_error (k_results st) r in
      let '(c, x, a) := rstep (js_cache (k_js st), x) op in
      Some (mk_kstate (set_cache (k_js st) c) (set_nth (k_results st) r x) (k_maps st), a)
  end.
(** Reading the property source of an answer. *)
Definition force (st : kstate) (t : ktext) : option (kstate * jstr) :=
  match t with
  | TNow s => Some (st, s)
  | TOf r =>
      let* (st, a) := use_result st r RSource in
      match a with AText s => Some (st, s) | _ => None end
  end.

Definition remember (st : kstate) (i : nat) (o : jopt) (m : option nat) : kstate :=
  mk_kstate (k_js st) (k_results st) (fun k => if Nat.eqb k i then (o, m) :: k_maps st k else k_maps st k).
(** this._cachedSource = s *)
Definition set_text (st : kstate) (i : nat) (s : jstr) : kstate :=
  match nth_error (js_objs (k_js st)) i with
  | Some (BCached j _ n) => set_js st (set_obj (k_js st) i (BCached j (Some s) n))
  | _ => st
  end.

Inductive kop :=
| KOp (op : jop)
| KSourceAndMap (i : nat) (o : jopt)
| KMap (i : nat) (o : jopt)
| KUse (r : nat) (op : rop).
Inductive kans := KDone (a : jans) | KPair (t : ktext) (m : option nat) | KMapped (m : option nat) | KUsed (a : rans).

(** CachedSource.js:79. *)
Definition some_options (o : jopt) : jopt := match o with JUndef => JObj None None | _ => o end.
(** map(options) of any object; CachedSource.js:78-83, which asks the object inside without
    options.  The depth as for [ptr_of]. *)
Fixpoint map_from (depth : nat) (st : kstate) (i : nat) (o : jopt) : option (kstate * option nat) :=
  match nth_error (js_objs (k_js st)) i with
  | Some (BCached j _ _) =>
      let o := some_options o in
      match maps_get (k_maps st i) o with
      | Some m => Some (st, m)
      | None =>
          match depth with
          | O => None
          | S depth =>
              let* (st, m) := map_from depth st j JUndef in
              Some (remember st i o m, m)
          end
      end
  | _ => let* (st, _, m) := plain_map st i o in Some (st, m)
  end.
Definition map_of (st : kstate) (i : nat) (o : jopt) : option (kstate * option nat) := map_from i st i o.
(** sourceAndMap(options) of any object; CachedSource.js:48-76. *)
Fixpoint both_from (depth : nat) (st : kstate) (i : nat) (o : jopt) : option (kstate * ktext * option nat) :=
  match nth_error (js_objs (k_js st)) i with
  | Some (BCached j t _) =>
      match t, maps_get (k_maps st i) o with
      | Some s, Some m => Some (st, TNow s, m)
      | Some s, None =>
          let* (st, m) := map_of st j o in
          Some (remember st i o m, TNow s, m)
      | None, Some m =>
          let* (js, s) := source_of (k_js st) j in
          Some (set_text (set_js st js) i s, TNow s, m)
      | None, None =>
          match depth with
          | O => None
          | S depth =>
              let* (st, t, m) := both_from depth st j o in
              let* (st, s) := force st t in
              Some (remember (set_text st i s) i o m, TNow s, m)
          end
      end
  | _ => plain_map st i o
  end.
Definition both_of (st : kstate) (i : nat) (o : jopt) : option (kstate * ktext * option nat) := both_from i st i o.

Definition kstep (st : kstate) (op : kop) : option (kstate * kans) :=
  match op with
  | KOp op =>
      let* (js, a) := jstep (k_js st) op in
      Some (set_js st js, KDone a)
  | KSourceAndMap i o =>
      let* (st, t, m) := both_of st i o in
      Some (st, KPair t m)
  | KMap i o =>
      let* (st, m) := map_of st i o in
      Some (st, KMapped m)
  | KUse r op =>
      let* (st, a) := use_result st r op in
      Some (st, KUsed a)
  end.
Fixpoint krun (st : kstate) (ops : list kop) : option kstate :=
  match ops with
  | [] => Some st
  | op :: r => let* (st, _) := kstep st op in krun st r
  end.
