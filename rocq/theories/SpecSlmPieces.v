(** Line maps whose pieces are simple. *)
From Verif Require Import Base ModelSlm SpecList SpecLineEdit.

Definition simple_pieces (lm : slm) : Prop := Forall (fun x => fst x = None \/ one_line (snd x)) (list_pieces lm).

Definition starts_with_text (lm : slm) : Prop := match list_pieces lm with x :: _ => snd x <> [] | [] => True end.
