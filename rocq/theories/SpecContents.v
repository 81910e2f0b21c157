(** What contents a tree of sources gives: the vocabulary of C27 and C31. *)
From Verif Require Import Base ModelSources ModelTree SpecOpt.

Fixpoint zipz (a b : list Z) : list (Z * Z) :=
  match a, b with x :: a, y :: b => (x, y) :: zipz a b | _, _ => [] end.

Definition sms_conts (x : sms) : list (Z * Z) :=
  match ce_data (sms_map x) with
  | Some d => zipz (sc_sources d) (sc_contents d)
  | None => []
  end ++
  match sms_inner x with
  | Some ic =>
      match sms_original x with Some o => [(sms_name x, o)] | None => [] end ++
      match ce_data ic with Some d => zipz (sc_sources d) (sc_contents d) | None => [] end
  | None => []
  end.

Definition fresh_cell (c : sm_cell) : Prop := exists d, c = mk_cell (Some d) None /\ NoDup (sc_sources d).

Definition fresh_sms (x : sms) : Prop := fresh_cell (sms_map x) /\ opt_all fresh_cell (sms_inner x) /\ sms_applied x = false.

Fixpoint tconts (t : tree) : list (Z * Z) :=
  match t with
  | TStr _ | TRaw _ => []
  | TOriginal _ vi n => [(n, vi)]
  | TL2L _ n o => [(n, o)]
  | TPrefix _ t | TReplace t _ => tconts t
  | TConcat l => flat_map tconts l
  | TSms x => sms_conts x
  end.

(** Trees without ConcatSource. *)
Fixpoint spine_tree (t : tree) : Prop :=
  match t with
  | TStr _ | TConcat _ => False
  | TRaw _ | TOriginal _ _ _ | TL2L _ _ _ | TSms _ => True
  | TPrefix _ t | TReplace t _ => spine_tree t
  end.

Fixpoint fresh_tree (t : tree) : Prop :=
  match t with
  | TStr _ | TRaw _ | TOriginal _ _ _ | TL2L _ _ _ => True
  | TReplace t _ => fresh_tree t /\ spine_tree t
  | TPrefix _ t => fresh_tree t
  | TConcat l => (fix all l := match l with [] => True | x :: r => fresh_tree x /\ all r end) l
  | TSms x => fresh_sms x
  end.
