(** One more edit, done on a text that has been edited already. *)
From Verif Require Import Base SpecText ModelSources ModelTree SpecRun.

(** The edits of [es] whose texts come in front of that of [r]. *)
Definition earlier_of (es : list edit) (r : edit) : list edit := filter (fun x => key_le x r) es.
(** [r] with the same extent, beginning at [k]. *)
Definition at_pos (k : nat) (r : edit) : edit := mk_edit (Z.of_nat k) (e_subf r) (Z.of_nat k + (e_to r - e_from r)) (e_subt r) (e_text r).
(** The edit of the edited text that [r] is of [s]: it begins where the edited text in front of
    it ends. *)
Definition later_edit (es : list edit) (s : str) (r : edit) : edit :=
  at_pos (length (edited_any (earlier_of es r) (firstn (Z.to_nat (e_from r)) s))) r.
(** A range of [s]. *)
Definition range_of (s : str) (r : edit) : Prop := (0 <= e_from r <= e_to r + 1 /\ e_to r < Z.of_nat (length s))%Z.

(** Edits made from front to back, at whole positions. *)
Definition whole (x : edit) : Prop := e_subf x = 0%Z /\ e_subt x = 0%Z.
Definition front_to_back (es : list edit) : Prop := ForallOrdPairs (fun x y => apart x y /\ key_le x y = true) es /\ Forall whole es.

(** The edit that takes [r] back: the removed text in the place of the new one. *)
Definition undoing (es : list edit) (s : str) (r : edit) : edit :=
  let k := e_from (later_edit es s r) in
  mk_edit k 0 (k + Z.of_nat (length (e_text r)) - 1) 0 (piece_of s (Z.to_nat (e_from r)) (Z.to_nat (e_to r + 1))).

(** One ReplaceSource around another, each with one of the edits [es] of [s]. *)
Inductive one_by_one (s : str) (t : tree) : list edit -> tree -> Prop :=
| by_none : one_by_one s t [] t
| by_more es r u h : one_by_one s t es u -> Forall call_ok h -> edits_of h = [later_edit es s r] -> Forall edit_ok (edits_of h) ->
    one_by_one s t (es ++ [r]) (TReplace u (run h)).
