(** Running a history of edits on a ReplaceSource. *)
From Verif Require Import Base ModelSources SpecText.

(** The state of a ReplaceSource after a history of calls; a read sorts. *)
Definition step (st : rstate) (c : call) : rstate :=
  match c with
  | Replace a b t o1 o2 => rs_replace st a b t o1 o2
  | Insert p t o => rs_insert st p t o
  | Read => sort_replacements st
  end.

Definition run (h : list call) : rstate := fold_left step h rstate_new.

(** Positions are i32; insert computes pos - 1. *)
Definition call_ok (c : call) : Prop :=
  match c with
  | Replace _ _ _ _ _ | Read => True
  | Insert p _ _ => (-2147483648 < p <= 2147483648)%Z
  end.
