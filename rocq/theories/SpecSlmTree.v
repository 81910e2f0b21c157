(** What the line map of a tree attributes, and which trees this is claimed for. *)
From Verif Require Import Base ModelSources ModelTree SpecText SpecRun SpecAttr SpecList.

(** The sources whose line map must agree with their text: edits do not overlap, the
    pieces a prefix is put to end at line ends, embedded maps decode. *)
Fixpoint line_ready (c m : bool) (t : tree) : Prop :=
  match t with
  | TStr _ => False
  | TRaw _ | TOriginal _ _ _ | TL2L _ _ _ => True
  | TSms x => m = true -> exists c' d, cell_get_data (sms_map x) = Some (c', d) /\ well_formed (sc_mappings d)
  | TPrefix _ t =>
      line_ready c m t /\
      forall lm, t_list_map c m t = Some lm -> at_line_ends (map snd (list_pieces lm))
  | TReplace t st =>
      line_ready c m t /\
      exists h, st = run h /\ Forall call_ok h /\ Forall edit_ok (edits_of h) /\
        Forall forward (edits_of h) /\ ForallOrdPairs apart (edits_of h)
  | TConcat l =>
      (fix all (l : list tree) : Prop :=
         match l with
         | [] => True
         | x :: r => (match x with TStr _ => True | _ => line_ready c m x end) /\ all r
         end) l
  end.

Definition line_attributed (c m : bool) (t : tree) (M : marked) : Prop :=
  exists lm, t_list_map c m t = Some lm /\ Forall node_ok lm /\ list_marks lm = M.
