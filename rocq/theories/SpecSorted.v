(** Mappings in the order of generated places. *)
From Coq Require Import Permutation Sorted.
From Verif Require Import Base ModelSm SpecMap SpecView SpecNode.

Definition vplace (m : mapping) : place := fst (view m).

Definition vsorted (ms : list mapping) : Prop := StronglySorted (fun a b => ple (vplace a) (vplace b)) ms.

Definition small_col (m : mapping) : Prop := (snd (m_gen m) < 2147483648)%N.
