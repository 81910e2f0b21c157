(** Edits of a text with attributions. *)
From Verif Require Import Base SpecText SpecMap SpecAttr.

(** The edits put in their texts like in [edited_any]; [ts] are the attributions of the
    new texts, in the order of the result.  The characters that are kept keep their own. *)
Definition edited_marked (es : list edit) (ts : list (option target)) (m : marked) : marked :=
  woven (gplaces (length m)
           (map (fun p => (fst p, mark (snd p) (e_text (fst p)))) (combine (arrange key_le es) ts)))
    (fun j => negb (covered es j)) m.

Definition attr_at (m : marked) (i : Z) : option target :=
  match nth_error m (Z.to_nat i) with Some (_, a) => a | None => None end.

(** The attribution of the text of an edit, always without a name: in front of the text
    that of the first character; behind the text none; otherwise that of the character in
    front of the edit or, if the edit removes something, of the first removed character. *)
Definition new_target (m : marked) (e : edit) (t : option target) : Prop :=
  (e_from e <= 0 -> t = drop_name (attr_at m 0))%Z /\
  (Z.of_nat (length m) < e_from e -> t = None)%Z /\
  (0 < e_from e <= Z.of_nat (length m) ->
     t = drop_name (attr_at m (e_from e - 1)) \/
     (e_from e <= e_to e /\ t = drop_name (attr_at m (e_from e))))%Z.

Example edited_marked_ex :
  edited_marked [mk_edit 1 0 2 0 (lit "XY"); mk_edit 0 0 (-1) 0 (lit "<")]
    [None; Some (5, (1, 0), None)]%Z
    (mark (Some (5, (1, 0), None))%Z (lit "ab") ++ mark (Some (6, (2, 3), Some 4))%Z (lit "cd")) =
  mark None (lit "<") ++ mark (Some (5, (1, 0), None))%Z (lit "aXY") ++
  mark (Some (6, (2, 3), Some 4))%Z (lit "d").
Proof. reflexivity. Qed.
