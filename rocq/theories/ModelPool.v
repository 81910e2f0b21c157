(** Model of the ownership of wasm objects by the JavaScript wrappers: pointers, the pool
    of wasm-api/WasmObjectPool.js, the pointer caches and clear().

    A wasm object is represented by its address alone.  Addresses are never reused here; a
    real allocator may reuse them, so that what is a fault below (an access to freed
    memory, or a second free) can also be a silent access to some other object.  ModelPoolReuse.v
    has the same steps with an arbitrary allocator, and counts such an access as a fault too. *)
From Verif Require Import Base ModelJs.

(** JavaScript objects in order of creation: RawSources, results of sourceAndMap, others. *)
Inductive kind := KRaw | KResult | KOther.
Record pstate := mk_ps {
  ps_objs : list (kind * nat);        (* the property ptr of each object, 0 if none *)
  ps_live : list nat;                 (* allocated wasm objects *)
  ps_next : nat;                      (* next address *)
  ps_pool : list nat;                 (* pool, WasmObjectPool.js:3, as numbers of objects *)
  ps_raw : list (jstr * nat);         (* ptrCache of RawSource.js:9 *)
  ps_boot : list (nat * nat);         (* ptrCache of OriginalSource.js:10 *)
  ps_strings : nat }.                 (* length of the array of StringCache.js *)
Definition ps_new : pstate := mk_ps [] [] 1 [] [] [] 0.

Inductive pop :=
| PNewRaw (v : jstr)                  (* new RawSource(v) *)
| PNewOriginal (bootstrap : bool)     (* new OriginalSource(v, n); n is "webpack/bootstrap" or not *)
| PNewPooled (args : list nat)        (* new PrefixSource, ReplaceSource, LineToLineMappedSource, ... on sources *)
| PNewConcat (args : list nat)        (* new ConcatSource(args...) *)
| PCall (o : nat) (args : list nat)   (* a call that reaches wasm: source, add, replace, ... *)
| PResult (o : nat)                   (* map() or sourceAndMap() *)
| PNode (o : nat)                     (* node() or listMap() *)
| PWrap (r : nat)                     (* new SourceMapSource(_, _, map) with an unmodified map *)
| PFree (o : nat)                     (* o.free() *)
| PStrings (k : nat)                  (* other users of the StringCache *)
| PClear.                             (* clear() *)

(** How a step ends: normally, with a JavaScript exception, or (None) with a fault. *)
Inductive ending := Done | Threw.

Definition set_objs (s : pstate) l := mk_ps l (ps_live s) (ps_next s) (ps_pool s) (ps_raw s) (ps_boot s) (ps_strings s).
Definition set_live (s : pstate) l := mk_ps (ps_objs s) l (ps_next s) (ps_pool s) (ps_raw s) (ps_boot s) (ps_strings s).
Definition set_pool (s : pstate) l := mk_ps (ps_objs s) (ps_live s) (ps_next s) l (ps_raw s) (ps_boot s) (ps_strings s).
Definition set_raw (s : pstate) l := mk_ps (ps_objs s) (ps_live s) (ps_next s) (ps_pool s) l (ps_boot s) (ps_strings s).
Definition set_boot (s : pstate) l := mk_ps (ps_objs s) (ps_live s) (ps_next s) (ps_pool s) (ps_raw s) l (ps_strings s).
Definition set_strings (s : pstate) n := mk_ps (ps_objs s) (ps_live s) (ps_next s) (ps_pool s) (ps_raw s) (ps_boot s) n.

Definition ptr_of (s : pstate) (o : nat) : nat := match nth_error (ps_objs s) o with Some (_, p) => p | None => 0 end.
Definition kind_of (s : pstate) (o : nat) : kind := match nth_error (ps_objs s) o with Some (k, _) => k | None => KOther end.
Definition is_live (s : pstate) (p : nat) : bool := existsb (Nat.eqb p) (ps_live s).

(** Boxing a new Rust value. *)
Definition alloc (s : pstate) : pstate * nat :=
  (mk_ps (ps_objs s) (ps_next s :: ps_live s) (S (ps_next s)) (ps_pool s) (ps_raw s) (ps_boot s) (ps_strings s), ps_next s).
Definition add_obj (s : pstate) (k : kind) (p : nat) (pooled : bool) : pstate :=
  let n := length (ps_objs s) in
  let s := set_objs s (ps_objs s ++ [(k, p)]) in
  if pooled then set_pool s (ps_pool s ++ [n]) else s.

(** An access through a pointer: null is an exception (the test ptr === 0 of the glue, or
    assert_not_null of wasm-bindgen), a dead pointer is a fault. *)
Fixpoint deref (s : pstate) (l : list nat) : option ending :=
  match l with
  | [] => Some Done
  | o :: r =>
      if ptr_of s o =? 0 then Some Threw
      else guard* (is_live s (ptr_of s o)) in deref s r
  end.

Fixpoint set_nth_ptr (l : list (kind * nat)) (o p : nat) : list (kind * nat) :=
  match l, o with
  | [], _ => []
  | (k, _) :: r, O => (k, p) :: r
  | x :: r, S o => x :: set_nth_ptr r o p
  end.
(** free of the glue (e.g. build/webpack_sources.js:1625-1629): ptr becomes 0, the box is
    dropped. *)
Definition free_obj (s : pstate) (o : nat) : option pstate :=
  let p := ptr_of s o in
  guard* (is_live s p) in
  Some (set_live (set_objs s (set_nth_ptr (ps_objs s) o 0)) (remove Nat.eq_dec p (ps_live s))).

(** WasmObjectPool.clear, WasmObjectPool.js:10-17: from the end, objects with a pointer. *)
Fixpoint free_all (s : pstate) (l : list nat) : option pstate :=
  match l with
  | [] => Some s
  | o :: r =>
      let* s := (if ptr_of s o =? 0 then Some s else free_obj s o) in
      free_all s r
  end.

Fixpoint boot_get (l : list (nat * nat)) (k : nat) : option nat :=
  match l with
  | [] => None
  | (k', p) :: r => if k =? k' then Some p else boot_get r k
  end.

Definition pstep (s : pstate) (op : pop) : option (pstate * ending) :=
  match op with
  | PNewRaw v =>                                   (* RawSource.js:15-27 *)
      match js_get (ps_raw s) v with
      | Some p => Some (add_obj s KRaw p false, Done)
      | None =>
          let '(s, p) := alloc s in
          Some (add_obj (set_raw s ((v, p) :: ps_raw s)) KRaw p true, Done)
      end
  | PNewOriginal bootstrap =>                      (* OriginalSource.js:16-44; the value is always appended to the
                                                      strings, a new name can be appended by a PStrings 1 *)
      let i := ps_strings s in
      let s := set_strings s (i + 1) in
      match (if bootstrap then boot_get (ps_boot s) i else None) with
      | Some p => Some (add_obj s KOther p false, Done)
      | None =>
          let '(s, p) := alloc s in
          Some (add_obj (if bootstrap then set_boot s ((i, p) :: ps_boot s) else s) KOther p true, Done)
      end
  | PNewPooled args =>                             (* PrefixSource.js:10-60 and the like *)
      let* e := deref s args in
      match e with
      | Threw => Some (s, Threw)
      | Done => let '(s, p) := alloc s in Some (add_obj s KOther p true, Done)
      end
  | PNewConcat args =>                             (* ConcatSource.js:10-18: allocated first *)
      let '(s, p) := alloc s in
      let* e := deref s args in
      match e with
      | Threw => Some (s, Threw)
      | Done => Some (add_obj s KOther p true, Done)
      end
  | PCall o args =>                                (* a RawSource answers from JavaScript *)
      match kind_of s o with
      | KRaw => Some (s, Done)
      | _ => let* e := deref s (o :: args) in Some (s, e)
      end
  | PResult o =>                                   (* SourceAndMapMixin.js:27-75: the node is freed again *)
      match kind_of s o with
      | KRaw => Some (s, Done)
      | _ =>
          let* e := deref s [o] in
          match e with
          | Threw => Some (s, Threw)
          | Done => let '(s, p) := alloc s in Some (add_obj s KResult p true, Done)
          end
      end
  | PNode o =>                                     (* SourceAndMapMixin.js:8-25: not in the pool *)
      match kind_of s o with
      | KRaw => Some (s, Threw)
      | _ =>
          let* e := deref s [o] in
          match e with
          | Threw => Some (s, Threw)
          | Done => let '(s, p) := alloc s in Some (add_obj s KOther p false, Done)
          end
      end
  | PWrap r =>                                     (* SourceMapSource.js:21-43: a result is consumed; without
                                                      wasm object it goes through the cached fields *)
      let* s := (match kind_of s r with
                 | KResult => if ptr_of s r =? 0 then Some s else free_obj s r
                 | _ => Some s
                 end) in
      let '(s, p) := alloc s in
      Some (add_obj s KOther p true, Done)
  | PFree o =>                                     (* assert_not_null *)
      if ptr_of s o =? 0 then Some (s, Threw)
      else let* s := free_obj s o in Some (s, Done)
  | PStrings k => Some (set_strings s (ps_strings s + k), Done)
  | PClear =>                                      (* index.js:25-30 *)
      let* s := free_all (set_strings s 0) (rev (ps_pool s)) in
      Some (set_boot (set_raw (set_pool s []) []) [], Done)
  end.
Fixpoint prun (s : pstate) (l : list pop) : option pstate :=
  match l with
  | [] => Some s
  | op :: r => let* (s, _) := pstep s op in prun s r
  end.
