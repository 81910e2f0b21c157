(** A chunk as seen by the functions of effects. *)
From Verif Require Import Base SpecMap SpecNode SpecLeaf SpecLeafAttr.

Definition turn (x : leaf) : option target * str := (leaf_attr x, leaf_text x).
