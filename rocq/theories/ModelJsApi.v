(** Model of the JavaScript side of the API (wasm-api/): strings crossing the wasm
    boundary, positions given as JavaScript numbers, the methods source, size and
    updateHash of the classes. *)
From Verif Require Import Base ModelString ModelVlq ModelSm ModelSlm ModelSources ModelTree ModelJs.

(** * Strings: build/webpack_sources.js *)

(** passStringToWasm, 19-24: TextEncoder.encode turns a JavaScript string into UTF-8; a
    surrogate without partner becomes U+FFFD.  The String received by Rust is taken as its
    scalar values (the bytes are [utf8] of them, Utf8.v). *)
Definition is_high (u : N) : bool := ((55296 <=? u) && (u <? 56320))%N.
Definition is_low (u : N) : bool := ((56320 <=? u) && (u <? 57344))%N.
Definition pair_value (a b : N) : char := (65536 + (a - 55296) * 1024 + (b - 56320))%N.
Definition REPL : char := 65533%N.
Definition BOM : char := 65279%N.
Fixpoint from_js (u : jstr) : str :=
  match u with
  | [] => []
  | a :: r =>
      if is_high a then
        match r with
        | b :: r' => if is_low b then pair_value a b :: from_js r' else REPL :: from_js r
        | [] => [REPL]
        end
      else if is_low a then REPL :: from_js r
      else a :: from_js r
  end.

(** getStringFromWasm, 30-32: TextDecoder("utf-8").decode drops a byte order mark at the
    start (the option ignoreBOM is not given). *)
Definition to_units (c : char) : jstr :=
  if (c <? 65536)%N then [c]
  else [(55296 + (c - 65536) / 1024)%N; (56320 + (c - 65536) mod 1024)%N].
Definition to_js (s : str) : jstr :=
  flat_map to_units (match s with c :: r => if N.eqb c BOM then r else s | [] => [] end).

(** * Numbers *)

(** A JavaScript number: [Fin z k] is z / 2^k (every finite double is one). *)
Inductive jnum := Fin (z : Z) (k : nat) | Inf (negative : bool) | NaN.

(** Math.floor followed by the conversion of a wasm argument to i32 (ToInt32; Infinity
    and NaN give 0). *)
Definition js_floor32 (p : jnum) : Z :=
  match p with
  | Fin z k => to_i32 (z / 2 ^ Z.of_nat k)
  | _ => 0
  end.
(** Math.floor((p % 1) * 16): the remainder has the sign of p; all operations are exact in
    double arithmetic (scaling by powers of two). *)
Definition js_sixteenths (p : jnum) : Z :=
  match p with
  | Fin z k => to_i32 ((16 * Z.rem z (2 ^ Z.of_nat k)) / 2 ^ Z.of_nat k)
  | _ => 0
  end.

(** ReplaceSource.js: replace, 52-66, and insert, 68-82; a read sorts. *)
Inductive jcall :=
| JReplace (start stop : jnum) (text : jstr)
| JInsert (pos : jnum) (text : jstr)
| JRead.
Definition js_step (st : rstate) (c : jcall) : rstate :=
  match c with
  | JReplace a b t =>
      rs_replace st (js_floor32 a) (js_floor32 b) (from_js t) (js_sixteenths a) (js_sixteenths b)
  | JInsert p t => rs_insert st (js_floor32 p) (from_js t) (js_sixteenths p)
  | JRead => sort_replacements st
  end.
Definition js_run (h : list jcall) : rstate := fold_left js_step h rstate_new.

(** * The classes *)

(** A tree of JavaScript sources, made of the arguments of the constructors (and the calls
    of replace and insert).  Indices are those of StringCache; [data] is the map handed to
    SourceMapSource with its strings already exchanged for indices.  Sharing of
    objects is not modelled here (see ModelHeap.v), so CachedSource does not appear. *)
Inductive jtree :=
| JStr (s : jstr)
| JRaw (value : jstr)                                             (* RawSource.js:15-26 *)
| JOriginal (value : jstr) (value_idx name : Z)                   (* OriginalSource.js:16-43 *)
| JL2L (value : jstr) (name orig_idx : Z) (orig : jstr)           (* LineToLineMappedSource.js:11-24 *)
| JPrefix (prefix : jstr) (t : jtree)                             (* PrefixSource.js:10-65 *)
| JEdit (t : jtree) (calls : list jcall)                          (* ReplaceSource.js:12-50 *)
| JConcat (children : list jtree)                                 (* ConcatSource.js:10-58 *)
| JSms (value : jstr) (value_idx name : Z) (data : sm_content)
       (orig : option (jstr * Z)) (inner : option sm_content).    (* SourceMapSource.js:13-76 *)

(** The wasm object behind a source. *)
Fixpoint import (t : jtree) : tree :=
  match t with
  | JStr s => TStr (from_js s)
  | JRaw v => TRaw (from_js v)
  | JOriginal v vi n => TOriginal (from_js v) vi n
  | JL2L v n oi _ => TL2L (from_js v) n oi
  | JPrefix p t => TPrefix (from_js p) (import t)
  | JEdit t h => TReplace (import t) (js_run h)
  | JConcat l => TConcat (fold_left concat_add (map import l) concat_new)
  | JSms v vi n d o i =>
      let x := sms_new (from_js v) vi n d None in
      let x := match o with Some (_, oi) => sms_set_original x oi | None => x end in
      TSms (match i with Some i => sms_set_inner x i None | None => x end)
  end.

(** source(): RawSource.js:28-30, OriginalSource.js:45-47, LineToLineMappedSource.js:26-28
    and SourceMapSource.js:78-80 return the value they were given; PrefixSource.js:67-69,
    ReplaceSource.js:88-90 and ConcatSource.js:60-62 ask the wasm object. *)
Definition js_source (t : jtree) : option jstr :=
  match t with
  | JStr v | JRaw v | JOriginal v _ _ | JL2L v _ _ _ | JSms v _ _ _ _ _ => Some v
  | JPrefix _ _ | JEdit _ _ | JConcat _ => option_map to_js (t_source (import t))
  end.

(** size(): RawSource.js:32-34, OriginalSource.js:49-51, LineToLineMappedSource.js:30-32,
    SourceMapSource.js:82-84; PrefixSource.js:71-73, ReplaceSource.js:84-86,
    ConcatSource.js:64-66. *)
Definition js_size (t : jtree) : option nat :=
  match t with
  | JStr v | JRaw v | JOriginal v _ _ | JL2L v _ _ _ | JSms v _ _ _ _ _ => Some (length v)
  | JPrefix _ _ | JEdit _ _ | JConcat _ => t_size (import t)
  end.

(** updateHash(hash), as the concatenation of the strings given to hash.update:
    RawSource.js:40-42, OriginalSource.js:53-55, LineToLineMappedSource.js:34-37,
    PrefixSource.js:75-80, ReplaceSource.js:104-107, ConcatSource.js:68-75,
    SourceMapSource.js:86-91. *)
Fixpoint js_hash (t : jtree) : option jstr :=
  match t with
  | JStr v | JRaw v | JOriginal v _ _ => Some v
  | JL2L v _ _ o => Some (v ++ o)
  | JPrefix p t => let* h := js_hash t in Some (h ++ p)
  | JEdit _ _ => js_source t
  | JConcat l =>
      (fix go l :=
         match l with
         | [] => Some []
         | x :: r => let* h := js_hash x in let* rest := go r in Some (h ++ rest)
         end) l
  | JSms v _ _ _ o _ => Some (v ++ match o with Some (s, _) => s | None => [] end)
  end.
