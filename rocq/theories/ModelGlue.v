(** Model of the glue that wasm-bindgen generated (build/webpack_sources.js): how strings
    and arrays of numbers cross the boundary through the memory of the wasm module.  The
    allocator and the functions of the module are parameters; what is asked of them is in
    SpecGlue.v.  Memory is a list of bytes, addresses are nat; that the buffer object of a
    memory that grows is replaced and the old one detached is a number that changes. *)
From Verif Require Import Base ModelString ModelVlq ModelSm ModelSlm ModelSources ModelTree ModelJs ModelJsApi Utf8.

Definition block : Type := nat * nat.
Record glue := mk_glue {
  gm_bytes : list N;         (* the contents of wasm.memory *)
  gm_buffer : nat;           (* which object wasm.memory.buffer is *)
  gm_args : nat;             (* what __wbindgen_global_argument_ptr returns *)
  gm_js : list block;        (* allocated blocks the glue has to free *)
  gm_rust : list block;      (* allocated blocks of the module; a String given by value is one *)
  gv_u8 : option nat;        (* cachegetUint8Memory, 8: the buffer it is a view of *)
  gv_u32 : option nat;       (* cachegetUint32Memory, 42 *)
  gv_i32 : option nat;       (* cachegetInt32Memory, 89 *)
  gv_arg : option nat }.     (* cachedGlobalArgumentPtr, 34 *)

Definition set_bytes (s : glue) (b : list N) : glue :=
  mk_glue b (gm_buffer s) (gm_args s) (gm_js s) (gm_rust s) (gv_u8 s) (gv_u32 s) (gv_i32 s) (gv_arg s).
Definition set_blocks (s : glue) (j r : list block) : glue :=
  mk_glue (gm_bytes s) (gm_buffer s) (gm_args s) j r (gv_u8 s) (gv_u32 s) (gv_i32 s) (gv_arg s).
Definition set_views (s : glue) (a b c : option nat) (p : option nat) : glue :=
  mk_glue (gm_bytes s) (gm_buffer s) (gm_args s) (gm_js s) (gm_rust s) a b c p.

(** __wbindgen_malloc and __wbindgen_free of the module.  An answer of the allocator is an
    address and the bytes by which the memory grew on the way.  Nothing is allocated for
    size 0.  Freeing what is not an allocated block of that size is undefined behaviour: None. *)
Definition answer : Type := nat * list N.
Definition allocator : Type := glue -> nat -> answer.
Definition g_grow (s : glue) (more : list N) : glue :=
  match more with
  | [] => s
  | _ => mk_glue (gm_bytes s ++ more) (S (gm_buffer s)) (gm_args s) (gm_js s) (gm_rust s) (gv_u8 s) (gv_u32 s) (gv_i32 s) (gv_arg s)
  end.
Definition g_malloc (al : allocator) (s : glue) (n : nat) : glue * nat :=
  let '(p, more) := al s n in
  let s := g_grow s more in
  (set_blocks s (match n with O => gm_js s | _ => (p, n) :: gm_js s end) (gm_rust s), p).
Definition block_eqb (a b : block) : bool := Nat.eqb (fst a) (fst b) && Nat.eqb (snd a) (snd b).
Fixpoint take_out (b : block) (l : list block) : option (list block) :=
  match l with
  | [] => None
  | x :: r => if block_eqb b x then Some r else let* r := take_out b r in Some (x :: r)
  end.
Definition g_free (s : glue) (p n : nat) : option glue :=
  match n with
  | O => Some s
  | _ => let* j := take_out (p, n) (gm_js s) in Some (set_blocks s j (gm_rust s))
  end.

(** getUint8Memory, 9-17; getUint32Memory, 43-51; getInt32Memory, 90-98: a new view is made
    unless the old one is of the buffer the memory has now. *)
Definition renew (v : option nat) (b : nat) : nat :=
  match v with
  | Some g => if Nat.eqb g b then g else b
  | None => b
  end.
Definition get_u8 (s : glue) : glue * nat :=
  let g := renew (gv_u8 s) (gm_buffer s) in (set_views s (Some g) (gv_u32 s) (gv_i32 s) (gv_arg s), g).
Definition get_u32 (s : glue) : glue * nat :=
  let g := renew (gv_u32 s) (gm_buffer s) in (set_views s (gv_u8 s) (Some g) (gv_i32 s) (gv_arg s), g).
Definition get_i32 (s : glue) : glue * nat :=
  let g := renew (gv_i32 s) (gm_buffer s) in (set_views s (gv_u8 s) (gv_u32 s) (Some g) (gv_arg s), g).

(** TypedArray.prototype.set and reading: a view of a detached buffer has no elements, and
    set throws; set also throws if the elements do not fit behind the offset. *)
Definition bytes_at (b : list N) (p n : nat) : list N := firstn n (skipn p b).
Definition patch (b : list N) (p : nat) (l : list N) : list N := firstn p b ++ l ++ skipn (p + length l) b.
Definition view_set_u8 (s : glue) (g : nat) (l : list N) (p : nat) : option glue :=
  if negb (Nat.eqb g (gm_buffer s)) then None
  else if Nat.leb (p + length l) (length (gm_bytes s)) then Some (set_bytes s (patch (gm_bytes s) p l)) else None.
(** A number stored in a Uint32Array is taken modulo 2^32; wasm memory is little endian. *)
Definition le32 (z : Z) : list N :=
  let n := Z.to_N (z mod 4294967296) in [n mod 256; (n / 256) mod 256; (n / 65536) mod 256; (n / 16777216) mod 256]%N.
Definition un32 (l : list N) : option N :=
  match l with
  | [a; b; c; d] => Some (a + 256 * (b + 256 * (c + 256 * d)))%N
  | _ => None
  end.
Definition view_set_u32 (s : glue) (g : nat) (l : list Z) (i : nat) : option glue :=
  if negb (Nat.eqb g (gm_buffer s)) then None
  else if Nat.leb (i + length l) (length (gm_bytes s) / 4) then Some (set_bytes s (patch (gm_bytes s) (4 * i) (flat_map le32 l))) else None.
Definition view_get_u32 (s : glue) (g : nat) (i : nat) : option nat :=
  if negb (Nat.eqb g (gm_buffer s)) then None else option_map N.to_nat (un32 (bytes_at (gm_bytes s) (4 * i) 4)).

(** passStringToWasm, 19-24, and passArray32ToWasm, 53-57.  Elements of arrays are whole
    numbers.  The state is kept when they throw: what was allocated stays. *)
Definition pass_string (al : allocator) (s : glue) (v : jstr) : glue * option (nat * nat) :=
  let buf := utf8 (from_js v) in
  let '(s, p) := g_malloc al s (length buf) in
  let '(s, g) := get_u8 s in
  match view_set_u8 s g buf p with
  | Some s => (s, Some (p, length buf))
  | None => (s, None)
  end.
Definition pass_array (al : allocator) (s : glue) (l : list Z) : glue * option (nat * nat) :=
  let '(s, p) := g_malloc al s (length l * 4) in
  let '(s, g) := get_u32 s in
  match view_set_u32 s g l (p / 4) with
  | Some s => (s, Some (p, length l))
  | None => (s, None)
  end.

(** The parameters of a function of the glue that go through memory, in order, and between
    them the tests that an object has not been moved (e.g. 982-986).  A parameter that is
    not an array has no length: reading it throws. *)
Inductive param := PStr (v : jstr) | PInts (l : list Z) | PMoved (there : bool) | PNoArray.
Inductive slot := SStr (p n : nat) | SInts (p n : nat).
Fixpoint pass_all (al : allocator) (s : glue) (ps : list param) : glue * option (list slot) :=
  match ps with
  | [] => (s, Some [])
  | PStr v :: r =>
      let '(s, o) := pass_string al s v in
      match o with
      | Some (p, n) => let '(s, o) := pass_all al s r in (s, option_map (cons (SStr p n)) o)
      | None => (s, None)
      end
  | PInts l :: r =>
      let '(s, o) := pass_array al s l in
      match o with
      | Some (p, n) => let '(s, o) := pass_all al s r in (s, option_map (cons (SInts p n)) o)
      | None => (s, None)
      end
  | PMoved there :: r => if there then pass_all al s r else (s, None)
  | PNoArray :: r => (s, None)
  end.

(** The call: a String is given by value, its block becomes the module's; a slice stays the
    caller's. *)
Fixpoint hand_over (s : glue) (l : list slot) : option glue :=
  match l with
  | [] => Some s
  | SStr p (S _ as n) :: r =>
      let* j := take_out (p, n) (gm_js s) in hand_over (set_blocks s j ((p, n) :: gm_rust s)) r
  | _ :: r => hand_over s r
  end.
(** The finally clauses, e.g. 83-86, 967-971 and 1034-1038. *)
Fixpoint free_arrays (s : glue) (l : list slot) : option glue :=
  match l with
  | [] => Some s
  | SInts p n :: r => let* s := g_free s p (n * 4) in free_arrays s r
  | SStr _ _ :: r => free_arrays s r
  end.

(** A function of the module, given the slots: it changes memory and may throw. *)
Definition body : Type := glue -> list slot -> glue * bool.
Inductive outcome := Returned | Threw | Undefined.

(** E.g. _from_string_with_source_map, 65-87; _new_string_sidx_string_map, 936-972;
    _new_string_sidx_string_wasmmap, 980-996; _set_inner_source_map_map, 1014-1039. *)
Definition glue_call (al : allocator) (f : body) (s : glue) (ps : list param) : glue * outcome :=
  let '(s, o) := pass_all al s ps in
  match o with
  | None => (s, Threw)
  | Some slots =>
      match hand_over s slots with
      | None => (s, Undefined)
      | Some s =>
          let '(s, threw) := f s slots in
          match free_arrays s slots with
          | None => (s, Undefined)
          | Some s => (s, if threw then Threw else Returned)
          end
      end
  end.

(** globalArgumentPtr, 35-40. *)
Definition global_argument_ptr (s : glue) : glue * nat :=
  match gv_arg s with
  | Some p => (s, p)
  | None => (set_views s (gv_u8 s) (gv_u32 s) (gv_i32 s) (Some (gm_args s)), gm_args s)
  end.

(** The UTF-8 decoder of TextDecoder, for text without errors (a Rust String has none; what
    an error gives is simplified to U+FFFD for the byte). *)
Fixpoint decode (l : list N) : str :=
  match l with
  | [] => []
  | a :: r =>
      if (a <? 128)%N then a :: decode r
      else if (a <? 224)%N then
        match r with
        | b :: r => ((a - 192) * 64 + (b - 128))%N :: decode r
        | _ => [REPL]
        end
      else if (a <? 240)%N then
        match r with
        | b :: c :: r => ((a - 224) * 4096 + (b - 128) * 64 + (c - 128))%N :: decode r
        | _ => [REPL]
        end
      else
        match r with
        | b :: c :: d :: r => ((a - 240) * 262144 + (b - 128) * 4096 + (c - 128) * 64 + (d - 128))%N :: decode r
        | _ => [REPL]
        end
  end.

(** A getter of a string, e.g. 890-903, or of an array, e.g. 839-852: the function leaves
    address and length at the global argument pointer.  The string or array is read, copied
    (slice of a typed array makes a new one) and freed. *)
Definition get_string (f : body) (s : glue) : glue * option jstr :=
  let '(s, ret) := global_argument_ptr s in
  let '(s, threw) := f s [] in
  if threw then (s, None) else
  let '(s, g) := get_u32 s in
  match view_get_u32 s g (ret / 4), view_get_u32 s g (ret / 4 + 1) with
  | Some p, Some n =>
      let '(s, g8) := get_u8 s in
      let v := to_js (decode (if Nat.eqb g8 (gm_buffer s) then bytes_at (gm_bytes s) p n else [])) in
      match g_free s p (n * 1) with
      | Some s => (s, Some v)
      | None => (s, None)
      end
  | _, _ => (s, None)
  end.

(** A typed array: a view of memory, or one with a buffer of its own. *)
Inductive jarray := View (g i n : nat) | Copy (l : list Z).
Fixpoint words (l : list N) : list Z :=
  match l with
  | a :: b :: c :: d :: r => match un32 [a; b; c; d] with Some n => to_i32 (Z.of_N n) :: words r | None => [] end
  | _ => []
  end.
Definition elements (s : glue) (a : jarray) : list Z :=
  match a with
  | View g i n => if Nat.eqb g (gm_buffer s) then words (bytes_at (gm_bytes s) (4 * i) (4 * n)) else []
  | Copy l => l
  end.
Definition array_slice (s : glue) (a : jarray) : jarray := Copy (elements s a).
(** getArrayI32FromWasm, 100-102. *)
Definition get_array_i32 (s : glue) (p n : nat) : glue * jarray :=
  let '(s, g) := get_i32 s in (s, View g (p / 4) n).
Definition get_ints (f : body) (s : glue) : glue * option jarray :=
  let '(s, ret) := global_argument_ptr s in
  let '(s, threw) := f s [] in
  if threw then (s, None) else
  let '(s, g) := get_u32 s in
  match view_get_u32 s g (ret / 4), view_get_u32 s g (ret / 4 + 1) with
  | Some p, Some n =>
      let '(s, v) := get_array_i32 s p n in
      let v := array_slice s v in
      match g_free s p (n * 4) with
      | Some s => (s, Some v)
      | None => (s, None)
      end
  | _, _ => (s, None)
  end.
