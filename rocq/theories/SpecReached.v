(** String caches that can arise. *)
From Verif Require Import Base ModelJs SpecCalls.

Definition reached_cache (c : cache) : Prop := exists h is, cache_run cache_empty h = (c, is).
