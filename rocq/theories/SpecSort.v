(** The order given by a comparison. *)
From Coq Require Export Permutation Sorted.
From Verif Require Import Base.

Definition cle {A} (cmp : A -> A -> comparison) (x y : A) : Prop := cmp x y <> Gt.
