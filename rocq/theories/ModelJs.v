(** Model of the parts of the JavaScript wrapper (wasm-api/) that hold state of their own,
    and of the mapping functions of src/wasm_api/source_list_map/mapping_functions.rs. *)
From Verif Require Import Base ModelString ModelVlq ModelSm ModelSlm.

(** * wasm-api/StringCache.js *)

(** A JavaScript string: a list of UTF-16 code units. *)
Definition jstr := list N.
Fixpoint jstr_eqb (a b : jstr) : bool :=
  match a, b with
  | [], [] => true
  | x :: a, y :: b => N.eqb x y && jstr_eqb a b
  | _, _ => false
  end.

(** The module variables [array] and [set], StringCache.js:3-4. *)
Record cache := mk_cache { ca_array : list jstr; ca_set : list (jstr * nat) }.
Definition cache_empty : cache := mk_cache [] [].

Fixpoint js_get (l : list (jstr * nat)) (k : jstr) : option nat :=
  match l with
  | [] => None
  | (k', v) :: r => if jstr_eqb k k' then Some v else js_get r k
  end.

(** null as an entry: array and the Map set take it like a string, and it equals no string.
    The list with the one number 65536, which is no unit, stands for it. *)
Definition JNULL : jstr := [65536%N].

(** indexOf, 43-45; add, 6-14; addUnchecked, 17-21. *)
Definition cache_index_of (c : cache) (s : jstr) : option nat := js_get (ca_set c) s.
Definition cache_add (c : cache) (s : jstr) : cache * nat :=
  match cache_index_of c s with
  | Some i => (c, i)
  | None =>
      (mk_cache (ca_array c ++ [s]) ((s, length (ca_array c)) :: ca_set c),
       length (ca_array c))
  end.
Definition cache_add_unchecked (c : cache) (s : jstr) : cache * nat :=
  (mk_cache (ca_array c ++ [s]) (ca_set c), length (ca_array c)).

(** at, 24-31: the inner option is null, the outer one the thrown Error. *)
Definition cache_at (c : cache) (i : Z) : option (option jstr) :=
  if (i <? 0)%Z then Some None
  else if (i <? Z.of_nat (length (ca_array c)))%Z
       then let* s := nth_error (ca_array c) (Z.to_nat i) in Some (Some s)
       else None.

(** resolveIntArray, 34-40. *)
Fixpoint cache_resolve (c : cache) (l : list Z) : option (list (option jstr)) :=
  match l with
  | [] => Some []
  | i :: r =>
      let* s := cache_at c i in
      let* rest := cache_resolve c r in
      Some (s :: rest)
  end.

(** clear, 48-51. *)
Definition cache_clear (c : cache) : cache := cache_empty.

(** * wasm-api/CachedSource.js *)

(** The options argument: undefined or an object with optional boolean properties.
    JSON.stringify is injective on these values (for a fixed property order), so the
    value itself serves as the cache key. *)
Inductive jopt := JUndef | JObj (columns module : option bool).
Definition optb_eqb (a b : option bool) : bool :=
  match a, b with
  | None, None => true
  | Some x, Some y => Bool.eqb x y
  | _, _ => false
  end.
Definition jopt_eqb (a b : jopt) : bool :=
  match a, b with
  | JUndef, JUndef => true
  | JObj c m, JObj c' m' => optb_eqb c c' && optb_eqb m m'
  | _, _ => false
  end.

Section Cached.
  Context {M : Type}.

  (** The wrapped source as a black box; [M] is the type of maps. *)
  Record wrapped := mk_wrapped {
    w_source : jstr;
    w_size : nat;
    w_map : jopt -> M;
    w_source_and_map : jopt -> jstr * M }.

  (** The fields of CachedSource, CachedSource.js:9-12. *)
  Record cached := mk_cached {
    cd_source : option jstr;
    cd_size : option nat;
    cd_maps : list (jopt * M) }.
  Definition cached_new : cached := mk_cached None None [].

  Fixpoint maps_get (l : list (jopt * M)) (k : jopt) : option M :=
    match l with
    | [] => None
    | (k', v) :: r => if jopt_eqb k k' then Some v else maps_get r k
    end.

  (** source, 35-39. *)
  Definition cached_source (w : wrapped) (c : cached) : cached * jstr :=
    match cd_source c with
    | Some s => (c, s)
    | None => (mk_cached (Some (w_source w)) (cd_size c) (cd_maps c), w_source w)
    end.

  (** size, 41-46: String.length of the cached text is preferred to size(). *)
  Definition cached_size (w : wrapped) (c : cached) : cached * nat :=
    match cd_size c with
    | Some n => (c, n)
    | None =>
        let n := match cd_source c with Some s => length s | None => w_size w end in
        (mk_cached (cd_source c) (Some n) (cd_maps c), n)
    end.

  (** sourceAndMap, 48-76. *)
  Definition cached_source_and_map (w : wrapped) (c : cached) (o : jopt)
    : cached * (jstr * M) :=
    match cd_source c, maps_get (cd_maps c) o with
    | Some s, Some m => (c, (s, m))
    | Some s, None =>
        let m := w_map w o in
        (mk_cached (cd_source c) (cd_size c) ((o, m) :: cd_maps c), (s, m))
    | None, Some m =>
        (mk_cached (Some (w_source w)) (cd_size c) (cd_maps c), (w_source w, m))
    | None, None =>
        let '(s, m) := w_source_and_map w o in
        (mk_cached (Some s) (cd_size c) ((o, m) :: cd_maps c), (s, m))
    end.

  (** map, 78-83: on a miss the wrapped map() is called without the options. *)
  Definition cached_map (w : wrapped) (c : cached) (o : jopt) : cached * M :=
    let o := match o with JUndef => JObj None None | _ => o end in
    match maps_get (cd_maps c) o with
    | Some m => (c, m)
    | None =>
        let m := w_map w JUndef in
        (mk_cached (cd_source c) (cd_size c) ((o, m) :: cd_maps c), m)
    end.
End Cached.
Arguments wrapped : clear implicits.
Arguments cached : clear implicits.

(** * src/wasm_api/source_list_map/mapping_functions.rs *)

(** IdenticalFunction, 3-8. *)
Definition identical_mapfun : mapfun unit := fun _ code => Some (tt, code).

(** str::replace for a pattern of one or two characters. *)
Fixpoint replace1 (p : char) (by_ : str) (s : str) : str :=
  match s with
  | [] => []
  | c :: r => (if N.eqb c p then by_ else [c]) ++ replace1 p by_ r
  end.
Fixpoint replace2 (p q : char) (by_ : str) (s : str) : str :=
  match s with
  | c :: ((d :: r') as r) =>
      if N.eqb c p && N.eqb d q then by_ ++ replace2 p q by_ r' else c :: replace2 p q by_ r
  | _ => s
  end.

(** TestMappingFunction, 10-17. *)
Definition test_mapfun : mapfun unit :=
  fun _ code =>
    Some (tt, replace2 36%N NL [] (replace2 92%N NL [32%N] (replace1 SEMI [NL] code))).

(** str::split('\n') of the standard library: all pieces between newlines. *)
Fixpoint split_nl (s : str) : list str :=
  match s with
  | [] => [[]]
  | c :: r =>
      if N.eqb c NL then [] :: split_nl r
      else match split_nl r with
           | [] => [[c]]
           | x :: l => (c :: x) :: l
           end
  end.

(** The loop of PrefixMappingFunction::map, 31-49; [count] is lines_count.  The test
    [n == lines_count - 2] underflows for one line; in a release build (modelled here)
    it then never holds, in a debug build it panics. *)
Fixpoint wasm_prefix_loop (prefix : str) (count : nat) (idx : nat) (lines : list str) : str :=
  match lines with
  | [] => []
  | line :: r =>
      let replace := NL :: prefix in
      (if (Z.of_nat idx =? Z.of_nat count - 2)%Z then line
       else if (Z.of_nat idx =? Z.of_nat count - 1)%Z then
         (match line with [] => [NL] | _ => replace end) ++ line
       else line ++ replace)
      ++ wasm_prefix_loop prefix count (S idx) r
  end.

(** PrefixMappingFunction::map, 24-52. *)
Definition wasm_prefix (prefix code : str) : str :=
  let lines := split_nl code in
  prefix ++ wasm_prefix_loop prefix (length lines) 0 lines.
Definition wasm_prefix_mapfun (prefix : str) : mapfun unit :=
  fun _ code => Some (tt, wasm_prefix prefix code).
