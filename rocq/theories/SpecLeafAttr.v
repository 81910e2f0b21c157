(** The attribution of a chunk. *)
From Verif Require Import Base SpecMap SpecNode SpecLeaf.

(** All leaves up to the first character have an attribution in [P]. *)
Definition leaf_attr (x : leaf) : option target :=
  match x with (_, src, pos, name) => attr_of src pos name end.

Definition nonempty (x : leaf) : Prop := leaf_text x <> [].
