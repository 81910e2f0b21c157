(** Trees made of whole lines. *)
From Verif Require Import Base ModelTree SpecList.

(** Leaves and whole lines put together. *)
Fixpoint whole (m : bool) (t : tree) : Prop :=
  match t with
  | TStr _ | TReplace _ _ => False
  | TRaw _ | TOriginal _ _ _ | TL2L _ _ _ => True
  | TSms _ => m = false
  | TPrefix _ t => whole m t
  | TConcat l =>
      (fix all (l : list tree) : Prop :=
         match l with
         | [] => True
         | x :: r => (match x with TStr _ => True | _ => whole m x end) /\ all r
         end) l /\
      exists ss, map t_source l = map Some ss /\ at_line_ends ss
  end.
