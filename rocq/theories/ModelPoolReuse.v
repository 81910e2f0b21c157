(** Ownership of wasm objects with an allocator that reuses addresses.

    The same program steps as in ModelPool.v, of the same places in /repo.  A wrapper and an
    entry of a pointer cache hold an address; beside it stands, for the statements only, the
    number of the wasm object that it was made for.  The code sees addresses alone: it tests
    them for 0.  Where it uses one, it is a fault unless the object at that address is the one
    meant; so reading some other object, that has been put at the same address, is a fault
    as much as reading freed memory. *)
From Verif Require Import Base ModelJs ModelPool.

Definition handle : Type := nat * nat.  (* address, number of the object meant *)
Record rstate := mk_rs {
  rs_objs : list (kind * handle);
  rs_heap : list (nat * nat);           (* address and number of each allocated object *)
  rs_count : nat;                       (* objects allocated so far *)
  rs_pool : list nat;                   (* WasmObjectPool.js:3 *)
  rs_raw : list (jstr * handle);        (* ptrCache of RawSource.js:9 *)
  rs_boot : list (nat * handle);        (* ptrCache of OriginalSource.js:10 *)
  rs_strings : nat }.                   (* length of the array of StringCache.js *)
Definition rs_new : rstate := mk_rs [] [] 0 [] [] [] 0.

(** Which address the allocator gives, by the number of the allocation and the addresses in use
    (wee_alloc/dlmalloc of the module; any that is not in use, and not null). *)
Definition allocator : Type := nat -> list nat -> nat.

Definition rset_objs (s : rstate) l := mk_rs l (rs_heap s) (rs_count s) (rs_pool s) (rs_raw s) (rs_boot s) (rs_strings s).
Definition rset_heap (s : rstate) l := mk_rs (rs_objs s) l (rs_count s) (rs_pool s) (rs_raw s) (rs_boot s) (rs_strings s).
Definition rset_pool (s : rstate) l := mk_rs (rs_objs s) (rs_heap s) (rs_count s) l (rs_raw s) (rs_boot s) (rs_strings s).
Definition rset_raw (s : rstate) l := mk_rs (rs_objs s) (rs_heap s) (rs_count s) (rs_pool s) l (rs_boot s) (rs_strings s).
Definition rset_boot (s : rstate) l := mk_rs (rs_objs s) (rs_heap s) (rs_count s) (rs_pool s) (rs_raw s) l (rs_strings s).
Definition rset_strings (s : rstate) n := mk_rs (rs_objs s) (rs_heap s) (rs_count s) (rs_pool s) (rs_raw s) (rs_boot s) n.

Definition handle_of (s : rstate) (o : nat) : handle := match nth_error (rs_objs s) o with Some (_, h) => h | None => (0, 0) end.
Definition rkind_of (s : rstate) (o : nat) : kind := match nth_error (rs_objs s) o with Some (k, _) => k | None => KOther end.
(** The object at an address. *)
Definition object_at (h : list (nat * nat)) (a : nat) : option nat := option_map snd (find (fun x => fst x =? a) h).
Definition is_meant (s : rstate) (h : handle) : bool :=
  match object_at (rs_heap s) (fst h) with Some i => i =? snd h | None => false end.

(** Boxing a new Rust value, as [alloc] of ModelPool.v. *)
Definition ralloc (al : allocator) (s : rstate) : rstate * handle :=
  let a := al (rs_count s) (map fst (rs_heap s)) in
  let i := S (rs_count s) in
  (mk_rs (rs_objs s) ((a, i) :: rs_heap s) i (rs_pool s) (rs_raw s) (rs_boot s) (rs_strings s), (a, i)).
Definition radd_obj (s : rstate) (k : kind) (h : handle) (pooled : bool) : rstate :=
  let n := length (rs_objs s) in
  let s := rset_objs s (rs_objs s ++ [(k, h)]) in
  if pooled then rset_pool s (rs_pool s ++ [n]) else s.

(** An access through a pointer, as [deref] of ModelPool.v. *)
Fixpoint rderef (s : rstate) (l : list nat) : option ending :=
  match l with
  | [] => Some Done
  | o :: r =>
      if fst (handle_of s o) =? 0 then Some Threw
      else guard* (is_meant s (handle_of s o)) in rderef s r
  end.
Fixpoint drop_ptr (l : list (kind * handle)) (o : nat) : list (kind * handle) :=
  match l, o with
  | [], _ => []
  | (k, _) :: r, O => (k, (0, 0)) :: r
  | x :: r, S o => x :: drop_ptr r o
  end.
(** free of the glue (e.g. build/webpack_sources.js:1625-1629). *)
Definition rfree_obj (s : rstate) (o : nat) : option rstate :=
  let h := handle_of s o in
  guard* (is_meant s h) in
  Some (rset_heap (rset_objs s (drop_ptr (rs_objs s) o)) (filter (fun x => negb (fst x =? fst h)) (rs_heap s))).
(** WasmObjectPool.js:10-17, as [free_all] of ModelPool.v. *)
Fixpoint rfree_all (s : rstate) (l : list nat) : option rstate :=
  match l with
  | [] => Some s
  | o :: r =>
      let* s := (if fst (handle_of s o) =? 0 then Some s else rfree_obj s o) in
      rfree_all s r
  end.

(** RawSource.js:17, OriginalSource.js:23: looking up a pointer cache. *)
Fixpoint raw_get (l : list (jstr * handle)) (k : jstr) : option handle :=
  match l with
  | [] => None
  | (k', h) :: r => if jstr_eqb k k' then Some h else raw_get r k
  end.
Fixpoint rboot_get (l : list (nat * handle)) (k : nat) : option handle :=
  match l with
  | [] => None
  | (k', h) :: r => if k =? k' then Some h else rboot_get r k
  end.

(** As [pstep] of ModelPool.v. *)
Definition reuse_step (al : allocator) (s : rstate) (op : pop) : option (rstate * ending) :=
  match op with
  | PNewRaw v =>                                   (* RawSource.js:15-27 *)
      match raw_get (rs_raw s) v with
      | Some h => Some (radd_obj s KRaw h false, Done)
      | None =>
          let '(s, h) := ralloc al s in
          Some (radd_obj (rset_raw s ((v, h) :: rs_raw s)) KRaw h true, Done)
      end
  | PNewOriginal bootstrap =>                      (* OriginalSource.js:16-44 *)
      let i := rs_strings s in
      let s := rset_strings s (i + 1) in
      match (if bootstrap then rboot_get (rs_boot s) i else None) with
      | Some h => Some (radd_obj s KOther h false, Done)
      | None =>
          let '(s, h) := ralloc al s in
          Some (radd_obj (if bootstrap then rset_boot s ((i, h) :: rs_boot s) else s) KOther h true, Done)
      end
  | PNewPooled args =>                             (* PrefixSource.js:10-60 and the like *)
      let* e := rderef s args in
      match e with
      | Threw => Some (s, Threw)
      | Done => let '(s, h) := ralloc al s in Some (radd_obj s KOther h true, Done)
      end
  | PNewConcat args =>                             (* ConcatSource.js:10-18 *)
      let '(s, h) := ralloc al s in
      let* e := rderef s args in
      match e with
      | Threw => Some (s, Threw)
      | Done => Some (radd_obj s KOther h true, Done)
      end
  | PCall o args =>
      match rkind_of s o with
      | KRaw => Some (s, Done)
      | _ => let* e := rderef s (o :: args) in Some (s, e)
      end
  | PResult o =>                                   (* SourceAndMapMixin.js:27-75 *)
      match rkind_of s o with
      | KRaw => Some (s, Done)
      | _ =>
          let* e := rderef s [o] in
          match e with
          | Threw => Some (s, Threw)
          | Done => let '(s, h) := ralloc al s in Some (radd_obj s KResult h true, Done)
          end
      end
  | PNode o =>                                     (* SourceAndMapMixin.js:8-25 *)
      match rkind_of s o with
      | KRaw => Some (s, Threw)
      | _ =>
          let* e := rderef s [o] in
          match e with
          | Threw => Some (s, Threw)
          | Done => let '(s, h) := ralloc al s in Some (radd_obj s KOther h false, Done)
          end
      end
  | PWrap r =>                                     (* SourceMapSource.js:21-43 *)
      let* s := (match rkind_of s r with
                 | KResult => if fst (handle_of s r) =? 0 then Some s else rfree_obj s r
                 | _ => Some s
                 end) in
      let '(s, h) := ralloc al s in
      Some (radd_obj s KOther h true, Done)
  | PFree o =>
      if fst (handle_of s o) =? 0 then Some (s, Threw)
      else let* s := rfree_obj s o in Some (s, Done)
  | PStrings k => Some (rset_strings s (rs_strings s + k), Done)
  | PClear =>                                      (* index.js:25-30 *)
      let* s := rfree_all (rset_strings s 0) (rev (rs_pool s)) in
      Some (rset_boot (rset_raw (rset_pool s []) []) [], Done)
  end.
Fixpoint reuse_run (al : allocator) (s : rstate) (l : list pop) : option rstate :=
  match l with
  | [] => Some s
  | op :: r => let* (s, _) := reuse_step al s op in reuse_run al s r
  end.
