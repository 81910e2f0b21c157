(** When two results of the same expression, made at different times or in different
    processes, are the same for JavaScript code. *)
From Verif Require Import Base ModelJs ModelJsApi ModelJsResult ModelEnd SpecEnd.

(** The strings of [e] that are looked up in the cache. *)
Fixpoint looked_up (e : jexpr) : list jstr :=
  match e with
  | XStr _ | XRaw _ => []
  | XOriginal _ n | XL2L _ n _ => [n]
  | XPrefix _ e | XEdit e _ => looked_up e
  | XConcat l => flat_map looked_up l
  | XSms _ n m _ i => n :: jm_sources m ++ jm_names m ++ match i with Some i => jm_sources i ++ jm_names i | None => [] end
  end.


(** The same source and the same map, whatever is read of them before and whatever else the
    library is used for meanwhile; or the same plain source; or both throw. *)
Definition same_result (c : cache) (r : option jresult) (c' : cache) (r' : option jresult) : Prop :=
  match r, r' with
  | None, None => True
  | Some (ResPlain s), Some (ResPlain s') => s = s'
  | Some (ResMap o), Some (ResMap o') =>
      forall l l' q, Forall quiet l -> Forall quiet l' -> (q = RSource \/ exists f, q = RGet f) ->
        snd (rstep (fst (rrun (c, o) l)) q) = snd (rstep (fst (rrun (c', o') l')) q)
  | _, _ => False
  end.

(** The strings [l] have been seen in the same order. *)
Definition same_order (c c' : cache) (l : list jstr) : Prop :=
  forall s t i j i' j', In s l -> In t l ->
    cache_index_of c s = Some i -> cache_index_of c t = Some j ->
    cache_index_of c' s = Some i' -> cache_index_of c' t = Some j' -> Nat.compare i j = Nat.compare i' j'.
(** Every one of the strings [l] has been seen in both or in neither, and in the same order;
    so it is if none of them has been seen. *)
Definition aligned (c c' : cache) (l : list jstr) : Prop :=
  (forall s, In s l -> (cache_index_of c s = None <-> cache_index_of c' s = None)) /\ same_order c c' l.
