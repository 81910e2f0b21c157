(** A predicate on what an option holds. *)
From Verif Require Import Base.

Definition opt_all {A} (P : A -> Prop) (o : option A) : Prop := match o with Some x => P x | None => True end.
