(** The sources whose hash is decided by their text. *)
From Verif Require Import Base ModelJsApi SpecJs.

Fixpoint hashes_text (t : jtree) : Prop :=
  match t with
  | JStr _ | JRaw _ | JOriginal _ _ _ => True
  | JL2L _ _ _ o => o = []
  | JPrefix _ _ => False
  | JEdit _ _ => ~ starts_with BOM (js_text t)
  | JConcat l => (fix all l := match l with [] => True | x :: r => hashes_text x /\ all r end) l
  | JSms _ _ _ _ o _ => o = None
  end.
