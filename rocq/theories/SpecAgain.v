(** A result copied into a map object and given to a new SourceMapSource. *)
From Verif Require Import Base SpecText SpecMap SpecAttr SpecLeast ModelSources ModelJs ModelJsApi ModelJsResult SpecResult SpecJs ModelEnd SpecEnd ModelAgain.

(** The fields of the result [o] are, whenever they are read, the text [v] and the map [m]. *)
Definition displays (c : cache) (o : robj) (v : jstr) (m : jmap) : Prop := forall l, Forall quiet l ->
  snd (rstep (fst (rrun (c, o) l)) RSource) = AText v /\
  snd (rstep (fst (rrun (c, o) l)) (RGet FSources)) = AVal (VArr (map Some (jm_sources m))) /\
  snd (rstep (fst (rrun (c, o) l)) (RGet FNames)) = AVal (VArr (map Some (jm_names m))) /\
  snd (rstep (fst (rrun (c, o) l)) (RGet FMappings)) = AVal (VStr (jm_mappings m)) /\
  snd (rstep (fst (rrun (c, o) l)) (RGet FContents)) = AVal (list_value (jm_contents m)).

(** The same with the value [names] for the names (a result of columns: false has none), and any
    value for a list of no contents. *)
Definition displays_as (names : jval) (c : cache) (o : robj) (v : jstr) (m : jmap) : Prop := forall l, Forall quiet l ->
  snd (rstep (fst (rrun (c, o) l)) RSource) = AText v /\
  snd (rstep (fst (rrun (c, o) l)) (RGet FSources)) = AVal (VArr (map Some (jm_sources m))) /\
  snd (rstep (fst (rrun (c, o) l)) (RGet FNames)) = AVal names /\
  snd (rstep (fst (rrun (c, o) l)) (RGet FMappings)) = AVal (VStr (jm_mappings m)) /\
  exists k, snd (rstep (fst (rrun (c, o) l)) (RGet FContents)) = AVal k /\ lists k (map Some (jm_contents m)).
(** There is one segment for a place, and its numbers fit 32 bits. *)
Definition tidy_segs (segs : list seg) : Prop := Forall small_seg segs /\
  forall s s', In s segs -> In s' segs -> sg_line s = sg_line s' -> sg_col s = sg_col s' -> s = s'.

(** [x'] is [x] with [e'] in some places of [e]. *)
Inductive swaps (e e' : jexpr) : jexpr -> jexpr -> Prop :=
| sw_here : swaps e e' e e'
| sw_same x : swaps e e' x x
| sw_prefix p x x' : swaps e e' x x' -> swaps e e' (XPrefix p x) (XPrefix p x')
| sw_concat l l' : swaps_all e e' l l' -> swaps e e' (XConcat l) (XConcat l')
with swaps_all (e e' : jexpr) : list jexpr -> list jexpr -> Prop :=
| sa_nil : swaps_all e e' [] []
| sa_cons x x' l l' : swaps e e' x x' -> swaps_all e e' l l' -> swaps_all e e' (x :: l) (x' :: l').

(** [o'] is a result of sourceAndMap of a SourceMapSource that was made of the source [v] and
    the map of [o], or of one that was made of such a result, and so on; at any time, and with
    any earlier reads of the results and calls of sourceAndMap. *)
Inductive again (v : jstr) : cache * robj -> cache * robj -> Prop :=
| ag_here w : again v w w
| ag_next w l name c1 o1 x k x1 x2 o2 w' : Forall quiet l ->
    rstep (fst (rrun w l)) (RWrap v name) = (c1, o1, ASms x) -> sms_calls k x = Some x1 -> sms_source_and_map x1 = Some (x2, o2) ->
    again v (c1, o2) w' -> again v w w'.
