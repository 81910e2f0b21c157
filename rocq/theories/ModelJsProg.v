(** Model of programs of the JavaScript API (wasm-api/): objects that are shared and changed,
    the pointers they hold into the wasm heap, StringCache, the pointer caches. *)
From Verif Require Import Base ModelString ModelVlq ModelSm ModelSlm ModelSources ModelTree ModelHeap
  ModelWasm ModelJs ModelJsApi ModelJsResult ModelEnd.

(** An argument that is a string or an object; objects are numbered in the order of their
    creation. *)
Inductive jarg := ArgStr (s : jstr) | ArgObj (i : nat).

(** The JavaScript objects; [ptr] is the property ptr, here the place in the wasm heap.
    RawSource.js:15-26, OriginalSource.js:16-43, LineToLineMappedSource.js:11-24,
    PrefixSource.js:10-65 (_jsSource, _jsPrefix), ReplaceSource.js:12-50, ConcatSource.js:10-18
    (children), SourceMapSource.js:13-76, CachedSource.js:6-25 (_source, _cachedSource,
    _cachedSize).
    Simplifications: the maps that a CachedSource remembers are in ModelJsCached.v; a
    CachedSource is accepted wherever a source is (wasm-bindgen can be made to check the
    class, then that is an Error). *)
Inductive jobj :=
| BRaw (ptr : nat) (value : jstr)
| BOriginal (ptr : nat) (value : jstr)
| BL2L (ptr : nat) (value orig : jstr)
| BPrefix (ptr : nat) (prefix : jstr) (source : jarg)
| BReplace (ptr : nat)
| BConcat (ptr : nat) (children : list jarg)
| BSms (ptr : nat) (value orig : jstr)
| BCached (source : nat) (text : option jstr) (size : option nat).

(** All state: StringCache, the wasm heap, ptrCache of RawSource.js:9 and of
    OriginalSource.js:10, the objects. *)
Record jstate := mk_jstate {
  js_cache : cache;
  js_heap : heap;
  js_raws : list (jstr * nat);
  js_boots : list (nat * nat);
  js_objs : list jobj }.
Definition jstate_new (c : cache) : jstate := mk_jstate c [] [] [] [].
Definition set_heap (st : jstate) (h : heap) : jstate :=
  mk_jstate (js_cache st) h (js_raws st) (js_boots st) (js_objs st).

Fixpoint set_nth {A} (l : list A) (i : nat) (x : A) : list A :=
  match l, i with
  | [], _ => []
  | _ :: r, O => x :: r
  | y :: r, S i => y :: set_nth r i x
  end.
Definition set_obj (st : jstate) (i : nat) (b : jobj) : jstate :=
  mk_jstate (js_cache st) (js_heap st) (js_raws st) (js_boots st) (set_nth (js_objs st) i b).

(** The property ptr; CachedSource.js:27-29 asks the wrapped object. *)
Definition own_ptr (b : jobj) : option nat :=
  match b with
  | BRaw p _ | BOriginal p _ | BL2L p _ _ | BPrefix p _ _ | BReplace p | BConcat p _ | BSms p _ _ => Some p
  | BCached _ _ _ => None
  end.
Fixpoint ptr_from (depth : nat) (objs : list jobj) (i : nat) : option nat :=
  match nth_error objs i with
  | Some (BCached j _ _) => match depth with O => None | S depth => ptr_from depth objs j end
  | Some b => own_ptr b
  | None => None
  end.
(** The object inside a CachedSource is older than it, so [i] is enough for the depth. *)
Definition ptr_of (objs : list jobj) (i : nat) : option nat := ptr_from i objs i.
(** What wasm receives for an argument: a string, or the object behind ptr; the switch on
    the property type in ConcatSource.js:24-48, ReplaceSource.js:21-47, PrefixSource.js:15-60
    selects the function for its class (CachedSource.js:24 copies type). *)
Definition pass_arg (objs : list jobj) (a : jarg) : option src :=
  match a with
  | ArgStr s => Some (SStr (from_js s))
  | ArgObj i => let* p := ptr_of objs i in Some (SRef p)
  end.

(** Calls.  [OIntern] stands for other users of StringCache (add, addUnchecked); the stack
    of updateHash is a parameter. *)
Inductive jop :=
| ONewRaw (value : jstr)
| ONewOriginal (value name : jstr)
| ONewL2L (value name orig : jstr)
| ONewPrefix (prefix : jstr) (source : jarg)
| ONewReplace (source : jarg)
| ONewConcat (items : list jarg)
| ONewSms (value name : jstr) (m : jmap) (orig : jstr) (inner : option jmap)
| ONewCached (source : nat)
| OAdd (i : nat) (item : jarg)
| OReplaceAt (i : nat) (start stop : jnum) (text : jstr)
| OInsertAt (i : nat) (pos : jnum) (text : jstr)
| OSource (i : nat)
| OSize (i : nat)
| OHash (stack : nat) (i : nat)
| OMap (i : nat) (columns module : bool)
| OIntern (s : jstr) (checked : bool).

Inductive jans := NDone | NText (s : jstr) | NSize (n : nat) | NHash (s : jstr) | NResult (r : jresult).

(** A new wasm object and the JavaScript object for it. *)
Definition new_obj (st : jstate) (c : cache) (o : obj) (b : nat -> jobj) : jstate :=
  let '(h, p) := h_new (js_heap st) o in
  mk_jstate c h (js_raws st) (js_boots st) (js_objs st ++ [b p]).

(** "webpack/bootstrap", OriginalSource.js:22. *)
Definition BOOTSTRAP : jstr := map N.of_nat [119; 101; 98; 112; 97; 99; 107; 47; 98; 111; 111; 116; 115; 116; 114; 97; 112]%nat.
Fixpoint boot_get (l : list (nat * nat)) (k : nat) : option nat :=
  match l with
  | [] => None
  | (k', p) :: r => if Nat.eqb k k' then Some p else boot_get r k
  end.

(** ConcatSource.js:20-58, add: first the wasm object, then children.  Line 51 tests
    item.isConcatSource, a property that nothing defines, so children always gets the item
    itself. *)
Definition js_add (st : jstate) (i : nat) (item : jarg) : option jstate :=
  match nth_error (js_objs st) i with
  | Some (BConcat p children) =>
      let* s := pass_arg (js_objs st) item in
      match h_add (js_heap st) p s with
      | Val h => Some (set_obj (set_heap st h) i (BConcat p (children ++ [item])))
      | _ => None
      end
  | _ => None
  end.
Fixpoint js_adds (st : jstate) (i : nat) (items : list jarg) : option jstate :=
  match items with
  | [] => Some st
  | x :: r => let* st := js_add st i x in js_adds st i r
  end.

Definition of_res {A} (r : res A) : option A := match r with Val a => Some a | _ => None end.
(** source(), the classes with a wasm object: see [js_source]. *)
Definition read_source (st : jstate) (b : jobj) : option (jstate * jstr) :=
  match b with
  | BRaw _ v | BOriginal _ v | BL2L _ v _ | BSms _ v _ => Some (st, v)
  | BPrefix p _ _ | BReplace p | BConcat p _ =>
      let* (h, s) := of_res (h_read source_alg (js_heap st) p) in
      Some (set_heap st h, to_js s)
  | BCached _ _ _ => None
  end.
(** size(): see [js_size]. *)
Definition read_size (st : jstate) (b : jobj) : option (jstate * nat) :=
  match b with
  | BRaw _ v | BOriginal _ v | BL2L _ v _ | BSms _ v _ => Some (st, length v)
  | BPrefix p _ _ | BReplace p | BConcat p _ =>
      let* (h, n) := of_res (h_size (js_heap st) p) in
      Some (set_heap st h, n)
  | BCached _ _ _ => None
  end.
(** source() and size() of any object; CachedSource.js:35-46.  The depth as for [ptr_of]. *)
Fixpoint source_from (depth : nat) (st : jstate) (i : nat) : option (jstate * jstr) :=
  let* b := nth_error (js_objs st) i in
  match b with
  | BCached j (Some s) n => Some (st, s)
  | BCached j None n =>
      match depth with
      | O => None
      | S depth =>
          let* (st, s) := source_from depth st j in
          Some (set_obj st i (BCached j (Some s) n), s)
      end
  | _ => read_source st b
  end.
Definition source_of (st : jstate) (i : nat) : option (jstate * jstr) := source_from i st i.
Fixpoint size_from (depth : nat) (st : jstate) (i : nat) : option (jstate * nat) :=
  let* b := nth_error (js_objs st) i in
  match b with
  | BCached _ _ (Some n) => Some (st, n)
  | BCached j (Some s) None => Some (set_obj st i (BCached j (Some s) (Some (length s))), length s)
  | BCached j None None =>
      match depth with
      | O => None
      | S depth =>
          let* (st, n) := size_from depth st j in
          Some (set_obj st i (BCached j None (Some n)), n)
      end
  | _ => read_size st b
  end.
Definition size_of (st : jstate) (i : nat) : option (jstate * nat) := size_from i st i.
(** updateHash(hash): see [js_hash]; CachedSource.js:85-87. *)
Fixpoint update_hash (stack : nat) (st : jstate) (a : jarg) : option (jstate * jstr) :=
  match a with
  | ArgStr s => Some (st, s)
  | ArgObj i =>
      match stack with
      | O => None
      | S stack =>
          let* b := nth_error (js_objs st) i in
          match b with
          | BRaw _ v | BOriginal _ v => Some (st, v)
          | BL2L _ v o | BSms _ v o => Some (st, v ++ o)
          | BPrefix _ p a => let* (st, s) := update_hash stack st a in Some (st, s ++ p)
          | BReplace _ => read_source st b
          | BConcat _ l =>
              (fix go (st : jstate) (l : list jarg) : option (jstate * jstr) :=
                 match l with
                 | [] => Some (st, [])
                 | x :: r =>
                     let* (st, s) := update_hash stack st x in
                     let* (st, t) := go st r in
                     Some (st, s ++ t)
                 end) st l
          | BCached j _ _ => update_hash stack st (ArgObj j)
          end
      end
  end.
(** sourceAndMap(options): see [js_source_and_map]. *)
Definition read_map_of (st : jstate) (b : jobj) (columns module : bool) : option (jstate * jresult) :=
  match b with
  | BRaw _ v => Some (st, ResPlain v)
  | BCached _ _ _ => None
  | _ =>
      let* p := own_ptr b in
      if columns then
        let* (h, n) := of_res (h_read (node_alg true module) (js_heap st) p) in
        let* r := node_result n in
        Some (set_heap st h, ResMap (robj_new r true))
      else
        let* (h, l) := of_res (h_read (list_map_alg false module) (js_heap st) p) in
        Some (set_heap st h, ResMap (robj_new (list_result l) false))
  end.

(** One call; None is a thrown Error or a trap of wasm, after which nothing is modelled.
    [OMap] is for objects that are not CachedSources; for these see ModelJsCached.v. *)
Definition jstep (st : jstate) (op : jop) : option (jstate * jans) :=
  match op with
  | ONewRaw v =>
      match js_get (js_raws st) v with
      | Some p => Some (mk_jstate (js_cache st) (js_heap st) (js_raws st) (js_boots st) (js_objs st ++ [BRaw p v]), NDone)
      | None =>
          let '(h, p) := h_new (js_heap st) (ORaw (from_js v)) in
          Some (mk_jstate (js_cache st) h ((v, p) :: js_raws st) (js_boots st) (js_objs st ++ [BRaw p v]), NDone)
      end
  | ONewOriginal v name =>
      let '(c, vi) := cache_add_unchecked (js_cache st) v in
      let '(c, ni) := cache_add c name in
      let o := OOriginal (from_js v) (Z.of_nat vi) (Z.of_nat ni) in
      if jstr_eqb name BOOTSTRAP then
        match boot_get (js_boots st) vi with
        | Some p => Some (mk_jstate c (js_heap st) (js_raws st) (js_boots st) (js_objs st ++ [BOriginal p v]), NDone)
        | None =>
            let '(h, p) := h_new (js_heap st) o in
            Some (mk_jstate c h (js_raws st) ((vi, p) :: js_boots st) (js_objs st ++ [BOriginal p v]), NDone)
        end
      else Some (new_obj st c o (fun p => BOriginal p v), NDone)
  | ONewL2L v name orig =>
      let '(c, ni) := cache_add (js_cache st) name in
      let '(c, oi) := cache_add_unchecked c orig in
      Some (new_obj st c (OL2L (from_js v) (Z.of_nat ni) (Z.of_nat oi)) (fun p => BL2L p v orig), NDone)
  | ONewPrefix pre a =>
      let* s := pass_arg (js_objs st) a in
      Some (new_obj st (js_cache st) (OPrefix (from_js pre) s) (fun p => BPrefix p pre a), NDone)
  | ONewReplace a =>
      let* s := pass_arg (js_objs st) a in
      Some (new_obj st (js_cache st) (OReplace s rstate_new) (fun p => BReplace p), NDone)
  | ONewConcat l =>
      (* an argument exists before the new object does *)
      guard* forallb (fun a => match a with ArgStr _ => true | ArgObj j => Nat.ltb j (length (js_objs st)) end) l in
      let st' := new_obj st (js_cache st) (OConcat []) (fun p => BConcat p []) in
      let* st' := js_adds st' (length (js_objs st)) l in
      Some (st', NDone)
  | ONewSms v name m orig inner =>
      let '(c, vi) := cache_add_unchecked (js_cache st) v in
      let '(c, ni) := cache_add c name in
      let '(c, d) := pass_map c m in
      let x := sms_new (from_js v) (Z.of_nat vi) (Z.of_nat ni) d None in
      let '(c, x) := (match orig with
                      | [] => (c, x)
                      | _ => let '(c, oi) := cache_add_unchecked c orig in (c, sms_set_original x (Z.of_nat oi))
                      end) in
      let '(c, x) := (match inner with
                      | None => (c, x)
                      | Some m => let '(c, d) := pass_map c m in (c, sms_set_inner x d None)
                      end) in
      Some (new_obj st c (OSms x) (fun p => BSms p v orig), NDone)
  | ONewCached j =>
      guard* Nat.ltb j (length (js_objs st)) in
      Some (mk_jstate (js_cache st) (js_heap st) (js_raws st) (js_boots st) (js_objs st ++ [BCached j None None]), NDone)
  | OAdd i item => let* st := js_add st i item in Some (st, NDone)
  | OReplaceAt i a b t =>
      let* o := nth_error (js_objs st) i in
      match o with
      | BReplace p =>
          let* h := of_res (h_replace (js_heap st) p (js_floor32 a) (js_floor32 b) (from_js t) (js_sixteenths a) (js_sixteenths b)) in
          Some (set_heap st h, NDone)
      | _ => None
      end
  | OInsertAt i a t =>
      let* o := nth_error (js_objs st) i in
      match o with
      | BReplace p =>
          let* h := of_res (h_insert (js_heap st) p (js_floor32 a) (from_js t) (js_sixteenths a)) in
          Some (set_heap st h, NDone)
      | _ => None
      end
  | OSource i => let* (st, s) := source_of st i in Some (st, NText s)
  | OSize i => let* (st, n) := size_of st i in Some (st, NSize n)
  | OHash stack i => let* (st, s) := update_hash stack st (ArgObj i) in Some (st, NHash s)
  | OMap i columns module =>
      let* b := nth_error (js_objs st) i in
      let* (st, r) := read_map_of st b columns module in
      Some (st, NResult r)
  | OIntern s checked =>
      let c := fst ((if checked then cache_add else cache_add_unchecked) (js_cache st) s) in
      Some (mk_jstate c (js_heap st) (js_raws st) (js_boots st) (js_objs st), NDone)
  end.

(** A program of calls, all of which succeed. *)
Fixpoint jrun (st : jstate) (ops : list jop) : option jstate :=
  match ops with
  | [] => Some st
  | op :: r => let* (st, _) := jstep st op in jrun st r
  end.
