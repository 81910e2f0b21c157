(** Object graphs built through the API from well-formed maps. *)
From Verif Require Import Base ModelString ModelVlq ModelSm ModelSlm ModelSources ModelTree ModelHeap
  SpecMap SpecSmall SpecHeap.

(** A well-formed version 3 map: the string decodes, its numbers fit u32, every index is
    in range, no source and no name is listed twice. *)
Definition fine_map (d : sm_content) : Prop :=
  NoDup (sc_sources d) /\ NoDup (sc_names d) /\
  (exists segs, decode (sc_mappings d) = Some segs /\ Forall small segs) /\
  exists es, read_map (sc_sources d) (sc_names d) (sc_mappings d) = Some es.

(** What an API call may create, other than a SourceMapSource: the handles given to it
    exist, and a plain string is not wrapped directly. *)
Definition is_handle (h : heap) (s : src) : Prop := match s with SRef i => i < length h | SStr _ => False end.
Definition createable (h : heap) (o : obj) : Prop :=
  match o with
  | ORaw _ | OOriginal _ _ _ | OL2L _ _ _ => True
  | OPrefix _ s => is_handle h s
  | OReplace s st => is_handle h s /\ st = rstate_new
  | OConcat l => l = []
  | OSms _ => False
  end.

(** Graphs reachable by API calls none of which panicked.  A map handed to a
    SourceMapSource is either a well-formed map given from outside or was emitted earlier
    by any object of any such graph, as a generator, possibly with its serialisation. *)
Inductive built : heap -> Prop :=
| bt_start : built []
| bt_new h o : built h -> createable h o -> built (fst (h_new h o))
| bt_sms h v vi name c orig : built h -> map_cell c ->
    built (fst (h_new h (OSms (mk_sms v vi name c orig None false))))
| bt_sms_inner h v vi name c orig ic : built h -> map_cell c -> map_cell ic ->
    built (fst (h_new h (OSms (mk_sms v vi name c orig (Some ic) false))))
| bt_read h i q h1 a : built h -> put h i q = Val (h1, a) -> built h1
| bt_add h i x h1 : built h -> h_add h i x = Val h1 -> built h1
| bt_replace h i a b t c d h1 : built h -> h_replace h i a b t c d = Val h1 -> built h1
| bt_insert h i a t c h1 : built h -> h_insert h i a t c = Val h1 -> built h1
with map_cell : sm_cell -> Prop :=
| mc_given d : fine_map d -> map_cell (mk_cell (Some d) None)
| mc_emitted h i c m n file root code g : built h -> reply h i (AskNode c m) = Val (GotNode n) ->
    to_string_with_generator n file root = Some (code, g) -> map_cell (mk_cell None (Some g))
| mc_both h i c m n file root code g g' mp : built h -> reply h i (AskNode c m) = Val (GotNode n) ->
    to_string_with_generator n file root = Some (code, g) -> gen_to_source_map g = Some (g', mp) ->
    map_cell (mk_cell (Some (mk_smc (map_sources mp) (map_contents mp) (map_names mp) (map_mappings mp))) (Some g')).
