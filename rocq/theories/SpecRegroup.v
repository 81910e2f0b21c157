(** ConcatSources put into ConcatSources or taken out of them, anywhere in an expression. *)
From Verif Require Import Base ModelJs ModelJsApi ModelEnd.

Inductive regrouped : jexpr -> jexpr -> Prop :=
| rg_refl e : regrouped e e
| rg_sym e e' : regrouped e e' -> regrouped e' e
| rg_trans e e1 e2 : regrouped e e1 -> regrouped e1 e2 -> regrouped e e2
| rg_flat a m b : regrouped (XConcat (a ++ XConcat m :: b)) (XConcat (a ++ m ++ b))
| rg_part a e e' b : regrouped e e' -> regrouped (XConcat (a ++ e :: b)) (XConcat (a ++ e' :: b))
| rg_prefix p e e' : regrouped e e' -> regrouped (XPrefix p e) (XPrefix p e')
| rg_edit e e' h : regrouped e e' -> regrouped (XEdit e h) (XEdit e' h).
