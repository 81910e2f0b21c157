(** Edits of a text that consists of two parts, as edits of the parts. *)
From Verif Require Import Base SpecText SpecMap SpecAttr SpecEdit SpecLineEdit ModelSources ModelTree SpecRun ModelJs ModelJsApi SpecJs ModelEnd SpecEnd.

(** The first part has [k] characters.  An edit is one of the first part if it ends there; an
    insertion between the parts counts as such. *)
Definition in_first (k : Z) (x : edit) : bool := (e_to x <? k)%Z.
(** No edit begins in the first part and ends in the second. *)
Definition crosses_not (k : Z) (x : edit) : Prop := (e_to x < k \/ k <= e_from x)%Z.
Definition moved_back (k : Z) (x : edit) : edit := mk_edit (e_from x - k) (e_subf x) (e_to x - k) (e_subt x) (e_text x).
Definition firsts_of (k : Z) (es : list edit) : list edit := filter (in_first k) es.
Definition seconds_of (k : Z) (es : list edit) : list edit := map (moved_back k) (filter (fun x => negb (in_first k x)) es).

(** The characters that edits keep, with their attributions; new texts are left without one. *)
Definition kept_marked (es : list edit) (M : marked) : marked := edited_marked es (map (fun _ => None) es) M.

(** [es] done in the parts [xs], whose texts have the lengths [ks]: [ys] are the edited parts,
    [R es x y] says that [y] is [x] with [es]. *)
Inductive parts_edited {X Y} (R : list edit -> X -> Y -> Prop) : list nat -> list edit -> list X -> list Y -> Prop :=
| parts_last k es x y : R es x y -> parts_edited R [k] es [x] [y]
| parts_more k ks es x xs y ys : Forall (crosses_not (Z.of_nat k)) es -> R (firsts_of (Z.of_nat k) es) x y ->
    parts_edited R ks (seconds_of (Z.of_nat k) es) xs ys -> parts_edited R (k :: ks) es (x :: xs) (y :: ys).
(** A ReplaceSource with these edits; a part without edits may be left as it is. *)
Inductive tree_edited : list edit -> tree -> tree -> Prop :=
| tree_replaced h t : Forall call_ok h -> tree_edited (edits_of h) t (TReplace t (run h))
| tree_as_is t : tree_edited [] t t.
Inductive expr_edited : list edit -> jexpr -> jexpr -> Prop :=
| expr_replaced h e : expr_edited (jedits h) e (XEdit e h)
| expr_as_is e : expr_edited [] e e.

(** The same for line maps: kept characters with [Some] of their attribution, new ones with [None]. *)
Definition kept_lines (es : list edit) (M : marked) : list (char * option (option target)) :=
  map (fun o => (fst o, match snd o with inl i => Some (attr_at M (Z.of_nat i)) | inr _ => None end)) (traced es (text_of M)).
Definition kept_as (R : option target -> option target -> Prop) (x : char * option (option target)) (r : char * option target) : Prop :=
  fst x = fst r /\ match snd x with Some a => R a (snd r) | None => True end.
