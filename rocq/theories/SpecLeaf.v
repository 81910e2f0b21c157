(** Texts of chunks. *)
From Verif Require Import Base SpecNode.

Definition leaf_text (x : leaf) : str := fst (fst (fst x)).

(** No leaf is empty; mapped leaves have a proper original line. *)
Definition solid (x : leaf) : Prop :=
  leaf_text x <> [] /\ match x with (_, Some _, Some (l, _), _) => (0 < l)%N | _ => True end.

Definition texts (l : list leaf) : str := flat_map leaf_text l.

Definition last_empty (l : list leaf) : bool :=
  match rev l with x :: _ => match leaf_text x with [] => true | _ => false end | [] => false end.
