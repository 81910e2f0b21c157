(** Allocators. *)
From Verif Require Import Base ModelPoolReuse.

(** It gives addresses that are not in use, and not null. *)
Definition honest_allocator (al : allocator) : Prop := forall n used, ~ In (al n used) used /\ al n used <> 0.
