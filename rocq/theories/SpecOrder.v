(** Chunks whose attributions come in ascending order, and the files of a marked text. *)
From Verif Require Import Base ModelTree SpecAttr SpecEffect SpecNode SpecLeafAttr.

Definition asc (l : list leaf) : Prop := ForallOrdPairs (fun x y => below (leaf_attr x) (leaf_attr y)) l.

Definition orderly (c m : bool) (t : tree) : Prop := forall n, t_node c m t = Some n -> asc (leaves n).

(** Files in the order of their indices. *)
Definition files (M : marked) : list Z := flat_map (fun x => match snd x with Some (s, _, _) => [s] | None => [] end) M.
