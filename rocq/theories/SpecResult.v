(** Vocabulary for the objects returned by sourceAndMap. *)
From Verif Require Import Base ModelSm ModelSources ModelWasm ModelJs ModelJsApi ModelJsResult.

(** The properties of a map m in terms of strings: a list of indices stands for a list of
    strings (null for negative ones). *)
Definition stands_for (c : cache) (is : list Z) (l : list (option jstr)) : Prop :=
  Forall2 (fun i s => match s with
                      | None => (i < 0)%Z
                      | Some s => exists k, i = Z.of_nat k /\ nth_error (ca_array c) k = Some s
                      end) is l.
(** The same, with null also as an entry of the cache. *)
Definition value_of (s : option jstr) : option jstr :=
  match s with Some s => if jstr_eqb s JNULL then None else Some s | None => None end.
Definition stands (c : cache) (is : list Z) (l : list (option jstr)) : Prop :=
  exists l', stands_for c is l' /\ map value_of l' = map value_of l.
(** A property with the contents l, as JavaScript code sees it; undefined is as good as []. *)
Inductive lists : jval -> list (option jstr) -> Prop :=
| lists_array l : lists (VArr l) l
| lists_undef : lists VUndef []
| lists_empty : lists (VStr []) [].

(** The property f of the map m shows as v. *)
Inductive shows (c : cache) (m : source_map) (names : bool) : field -> jval -> Prop :=
| shows_sources l : stands_for c (map_sources m) l -> shows c m names FSources (VArr l)
| shows_contents s l : stands_for c (map_contents m) (s :: l) -> shows c m names FContents (VArr (s :: l))
| shows_no_contents : map_contents m = [] -> shows c m names FContents VUndef
| shows_mappings : shows c m names FMappings (VStr (to_js (map_mappings m)))
| shows_names l : names = true -> stands_for c (map_names m) l -> shows c m names FNames (VArr l)
| shows_no_names : names = false -> shows c m names FNames VUndef.

(** The map that a SourceMapSource was given. *)
Definition given (x : sms) : option sm_content :=
  match ce_data (sms_map x) with
  | Some d => Some d
  | None =>
      match ce_gen (sms_map x) with
      | Some g => match gen_to_source_map g with
                  | Some (_, m) => Some (mk_smc (map_sources m) (map_contents m) (map_names m) (map_mappings m))
                  | None => None
                  end
      | None => None
      end
  end.

(** Histories. *)
Definition assigns (f : field) (op : rop) : Prop :=
  match op with RSet g _ | RMutate g _ => g = f | _ => False end.
Definition touches (f : field) (op : rop) : Prop :=
  match op with RGet g | RSet g _ | RMutate g _ => g = f | _ => False end.
Definition edits (op : rop) : Prop := match op with RSet _ _ => True | _ => False end.
Definition in_place (op : rop) : Prop := match op with RMutate _ _ => True | _ => False end.
Definition clears (op : rop) : Prop := match op with RClear => True | _ => False end.
Definition wraps (op : rop) : Prop := match op with RWrap _ _ => True | _ => False end.
Definition assigns_text (op : rop) : Prop := match op with RSetSource _ => True | _ => False end.
Definition uses_text (op : rop) : Prop := match op with RSource | RSetSource _ => True | _ => False end.

(** A map whose strings are in the cache, as those of all results are between two clear()s. *)
Definition resolvable (c : cache) (m : source_map) : Prop :=
  Forall (fun i => (i < Z.of_nat (length (ca_array c)))%Z) (map_sources m ++ map_contents m ++ map_names m).
(** Its sources and names were entered by add, not addUnchecked. *)
Definition interned (c : cache) (m : source_map) : Prop :=
  Forall (fun i => exists k s, i = Z.of_nat k /\ cache_index_of c s = Some k) (map_sources m ++ map_names m).
(** The results of the library: from a SourceNode or, without columns, a SourceListMap. *)
Inductive produced : js_result -> bool -> Prop :=
| produced_node n r : node_result n = Some r -> produced r true
| produced_list l : produced (list_result l) false.
