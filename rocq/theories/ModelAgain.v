(** Model of sourceAndMap of a SourceMapSource that was made of the map of a result. *)
From Verif Require Import Base ModelString ModelVlq ModelSm ModelSlm ModelSources ModelTree ModelWasm ModelJs ModelJsApi ModelJsResult.

(** sourceAndMap() of the SourceMapSource whose wasm side is [x], SourceAndMapMixin.js:51-72
    with columns not false: node(), SourceMapSource.js and src/source_map_source.rs:172-186,
    which fills the cells of [x], then toStringWithSourceMap.  None: an Error. *)
Definition sms_source_and_map (x : sms) : option (sms * robj) :=
  let* (x, n) := sms_node x in
  let* r := node_result n in
  Some (x, robj_new r true).
(** [k] earlier calls. *)
Fixpoint sms_calls (k : nat) (x : sms) : option sms :=
  match k with
  | O => Some x
  | S k => let* (x, _) := sms_source_and_map x in sms_calls k x
  end.
